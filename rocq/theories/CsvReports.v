(** * From trace files to reports (proofs) *)
From Coq Require Import List Arith NArith ZArith Bool Ascii Lia.
Require Import Verif.Mltl Verif.MltlShape Verif.Transform Verif.Pipeline Verif.Graph Verif.GraphSpec.
Require Import Verif.Binary Verif.BinarySpec Verif.Assembly Verif.Layout Verif.AssemblySpec Verif.LayoutSpec.
Require Import Verif.Scq Verif.Engine Verif.Monitoring Verif.EndToEnd Verif.EndToEndProofs.
Require Import Verif.CsvTrace Verif.CsvSpec Verif.CsvProofs Verif.CsvHeader.
Import ListNotations.
Local Existing Instance C_monitor.
Local Open Scope Z_scope.

Lemma rows_nth (l : list (nat -> bool)) d : rows (fun t => nth t l d) (length l) = l.
Proof.
  unfold rows. induction l as [|x l IH]; [reflexivity|]. cbn [length seq map nth]. f_equal.
  rewrite <- seq_shift, map_map. exact IH.
Qed.
Lemma csv_to_reports h T cls wpd_of bpd_of const ft pt specs aux :
  denotes h T -> well_shaped h -> nkind (h ft) = KSet -> nkind (h pt) = KSet ->
  named_apart h cls -> cls ft = CSet -> cls pt = CSet -> nchildren (h pt) = [] ->
  tl_shaped h cls -> (forall n, reachable h [ft] n -> assemblable h cls ft_code n) ->
  Forall2 (spec_of compile_expr h cls) (nchildren (h ft)) specs -> NoDup (map fst specs) ->
  Forall (fun s => legal (snd s) /\ all_nodes rewrite_source_op (snd s) /\
                   monitorable (compile_expr (snd s)) /\ wpd (compile_expr (snd s)) < const) specs ->
  0 <= const ->
  exists depth0, forall depth, (depth0 <= depth)%nat -> exists fuel0 h' asm,
    (forall fuel, (fuel0 <= fuel)%nat -> optimize_cse depth fuel h ft pt = Some h' /\
                                         gen_assembly fuel h' cls wpd_of bpd_of const ft pt = Some asm) /\
    forall bytes, Forall fits asm -> arena_slots asm < 2 ^ 32 -> assemble_binary asm aux = Some bytes ->
    exists prog confs passes0, boot bytes = Some (prog, confs) /\
      forall size header table s passes, (passes0 <= passes)%nat ->
      trace_text size header table s -> header_ok header -> Forall plain_row table ->
      exists atoms tr m, c_atoms size s = Some atoms /\ run passes atoms prog (init prog confs) = Some m /\
        (forall t row j cell, nth_error table t = Some row -> nth_error row j = Some cell ->
           (tr t j = true <-> cell <> ["0"%char])) /\
        forall num e, In (num, e) specs ->
          increasing (reports (Z.to_nat num) m) /\
          (forall t b, reported (reports (Z.to_nat num) m) t b -> (b = true <-> sat tr e t) /\ (t < length table)%nat) /\
          (forall t, Z.of_nat t + wpd (compile_expr e) < Z.of_nat (length table) ->
             exists b, reported (reports (Z.to_nat num) m) t b).
Proof.
  intros H1 H2 H3 H4 H5 H6 H7 H8 H9 H10 H11 H12 H13 H14.
  destruct (end_to_end h T cls wpd_of bpd_of const ft pt specs aux H1 H2 H3 H4 H5 H6 H7 H8 H9 H10 H11 H12 H13 H14) as (d0 & E).
  exists d0. intros depth Hd. destruct (E depth Hd) as (fuel0 & h' & asm & A & B). exists fuel0, h', asm. split; [exact A|].
  intros bytes F1 F2 F3. destruct (B bytes F1 F2 F3) as (prog & confs & passes0 & Bt & R). exists prog, confs, passes0.
  split; [exact Bt|]. intros size header table s passes Hp X K P.
  destruct (atoms_table size header table s X K P) as (atoms & Ea & La & Ca).
  destruct (R (fun t => nth t atoms (fun _ => false)) (length table) passes Hp) as (m & Em & Sp).
  exists atoms, (fun t => nth t atoms (fun _ => false)), m. split; [exact Ea|]. split; [|split].
  - rewrite <- La, rows_nth in Em. exact Em.
  - intros t row j cell Hr Hc. exact (Ca t row j cell _ Hr Hc).
  - exact Sp.
Qed.

(** ** Long lines *)
Lemma tokens_short delim : forall s cur, (length (tokens delim s cur) <= S (length s))%nat /\
  (cur = [] -> length (tokens delim s cur) <= length s)%nat.
Proof.
  induction s as [|c s IH]; intros cur; cbn [tokens length].
  - destruct cur; cbn; split; auto; discriminate.
  - destruct (IH []) as [A0 A1]. specialize (A1 eq_refl). destruct (IH (c :: cur)) as [B0 _]. destruct (delim c).
    + destruct cur; cbn [length]; split; intros; try discriminate; lia.
    + split; intros; lia.
Qed.
Lemma c_string_length s : (length (c_string s) <= length s)%nat.
Proof. unfold c_string. induction s as [|c s IH]; [cbn; lia|]. cbn. destruct (negb _); cbn; lia. Qed.
Lemma fgets_length : forall k s, (length (fst (fgets_chars k s)) <= k)%nat.
Proof.
  induction k as [|k IH]; intros s; [cbn; lia|]. destruct s as [|c s]; [cbn; lia|]. cbn [fgets_chars].
  destruct (Ascii.eqb c "010"); [cbn; lia|]. specialize (IH s). destruct (fgets_chars k s) as [l r]. cbn in *. lia.
Qed.
(** A row of [size] cells never arrives as one row. *)
Lemma long_row size s cells ts rest : load_next size ts s = Row ts cells rest -> (2 <= size)%nat ->
  (length cells < size)%nat.
Proof.
  assert (L : forall l r ts', (length l <= pred size)%nat -> (2 <= size)%nat -> load_cells ts' l r = Row ts cells rest -> (length cells < size)%nat).
  { intros l r ts' Hl H2 E. unfold load_cells in E.
    assert (T : (length (tokens is_comma_or_newline (c_string l) []) <= pred size)%nat).
    { pose proof (proj2 (tokens_short is_comma_or_newline (c_string l) []) eq_refl). pose proof (c_string_length l). lia. }
    destruct (tokens is_comma_or_newline (c_string l) []) as [|c cs]; [injection E as _ <- _; cbn in *; lia|].
    destruct c as [|x c]; [injection E as _ <- _; cbn in *; lia|].
    destruct (Ascii.eqb_spec x "@"%char) as [-> |N].
    - destruct (tokens is_space c []) as [|t more]; [discriminate|]. destruct (scan_number t); [|discriminate].
      destruct more; [discriminate|]. injection E as _ <- _. cbn in *. lia.
    - assert (E' : Row ts' ((x :: c) :: cs) r = Row ts cells rest).
      { rewrite <- E. clear - N. destruct x as [[] [] [] [] [] [] [] []]; try reflexivity. congruence. }
      injection E' as _ <- _. cbn in *. lia. }
  intros E H2. unfold load_next in E.
  assert (G : forall s' l r, fgets size s' = Some (l, r) -> (length l <= pred size)%nat).
  { intros s' l r F. unfold fgets in F. destruct s' as [|c s']; [discriminate|]. injection F as F.
    pose proof (fgets_length (pred size) (c :: s')) as X. rewrite F in X. exact X. }
  destruct (fgets size s) as [[l r]|] eqn:F; [|discriminate]. pose proof (G _ _ _ F) as Hl.
  assert (Cases : load_cells ts l r = Row ts cells rest \/
                  exists l' r', fgets size r = Some (l', r') /\ load_cells ts l' r' = Row ts cells rest).
  { destruct l as [|x l']; [left; exact E|]. destruct (Ascii.eqb_spec x "#"%char) as [-> |N].
    - destruct (ts =? 0); [|left; exact E]. destruct (fgets size r) as [[l2 r2]|]; [|discriminate]. right. eauto.
    - left. rewrite <- E. clear - N. destruct x as [[] [] [] [] [] [] [] []]; try reflexivity. congruence. }
  destruct Cases as [C|(l' & r' & F' & C)]; [exact (L _ _ _ Hl H2 C)|exact (L _ _ _ (G _ _ _ F') H2 C)].
Qed.
Lemma long_line size : (2 <= size)%nat -> exists row line s,
  plain_row row /\ line_text row line /\ file_text [line] s /\ c_read size s <> Some (stamped 0 [row]).
Proof.
  intros H. set (row := repeat ["1"%char] size). exists row, (join ","%char row), (join ","%char row ++ ["010"%char]).
  assert (P : plain_row row).
  { split.
    - apply Forall_forall. intros c Hc. apply repeat_spec in Hc. subst c. split; [discriminate|].
      constructor; [|constructor]. repeat split; try discriminate. cbn. intuition discriminate.
    - destruct size as [|n]; [lia|]. exists "1"%char, [], (repeat ["1"%char] n). repeat split; discriminate. }
  split; [exact P|]. split; [apply join_line; unfold row; destruct size; [lia|discriminate]|].
  split; [apply file_line, file_end|]. intros E. unfold c_read in E. cbn [c_rows] in E.
  destruct (load_next size 0 (join ","%char row ++ ["010"%char])) as [ts cells rest| |] eqn:L; try discriminate.
  destruct (c_rows _ _ _ rest) as [l|]; [|discriminate]. cbn in E. injection E as -> -> _.
  apply long_row in L; [|exact H]. unfold row in L. rewrite repeat_length in L. lia.
Qed.
