(** * Trace files with time stamps and with short rows *)
From Coq Require Import List NArith ZArith Bool Ascii Lia.
Require Import Verif.MapFile Verif.MapProofs Verif.Booleanizer Verif.CsvTrace Verif.CsvSpec Verif.CsvProofs Verif.CsvHeader Verif.CsvAgree.
Import ListNotations.
Local Open Scope char_scope.

Lemma rev_cons_match (l : text) (r : list text) : l <> [] -> match rev l with [] => r | _ :: _ => rev (rev l) :: r end = l :: r.
Proof.
  intros N. destruct (rev l) as [|x y] eqn:E; [apply (f_equal (@rev _)) in E; rewrite rev_involutive in E; cbn in E; congruence|].
  rewrite <- E, rev_involutive. reflexivity.
Qed.
Lemma no_space l : ~ In " " l -> forallb (fun c => negb (is_space c)) l = true.
Proof.
  intros N. apply forallb_forall. intros c Hc. unfold is_space. destruct (Ascii.eqb_spec c " ") as [->|]; [contradiction|reflexivity].
Qed.
Lemma skip_spaces k s : tokens is_space (repeat " " k ++ s) [] = tokens is_space s [].
Proof. induction k as [|k IH]; [reflexivity|]. cbn [repeat app tokens]. change (is_space " ") with true. exact IH. Qed.
Lemma time_and_value d k v : d <> [] -> ~ In " " d -> v <> [] -> ~ In " " v -> tokens is_space (d ++ repeat " " (S k) ++ v) [] = [d; v].
Proof.
  intros Nd Sd Nv Sv. rewrite (tokens_run is_space d [] _ (no_space d Sd)). cbn [repeat app tokens]. change (is_space " ") with true. cbv iota.
  rewrite app_nil_r, (rev_cons_match d) by exact Nd. f_equal. rewrite skip_spaces. rewrite <- (app_nil_r v) at 1.
  rewrite (tokens_run is_space v [] [] (no_space v Sv)). cbn [tokens]. rewrite app_nil_r. apply rev_cons_match. exact Nv.
Qed.

Lemma at_cell d n k v : digits d n -> plain v -> plain ("@" :: d ++ repeat " " (S k) ++ v).
Proof.
  intros D [_ Fv]. split; [discriminate|]. destruct (digits_facts _ _ D) as (_ & F & _). constructor.
  - split; [discriminate|]. split; [discriminate|]. cbn. intuition discriminate.
  - apply Forall_app. split; [|apply Forall_app; split; [|exact Fv]].
    + apply Forall_forall. intros c Hc. rewrite forallb_forall in F. apply (digit_ordinary c (F c Hc)).
    + apply Forall_forall. intros c Hc. apply repeat_spec in Hc. subst. split; [discriminate|]. split; [discriminate|]. cbn. intuition discriminate.
Qed.
Lemma timed_cells stamp row l : timed_line stamp row l -> exists cells c s cs, line_text cells l /\ Forall plain cells /\ cells = (c :: s) :: cs /\ c <> "#".
Proof.
  intros [row' l' (P & c & s & cs & E & N1 & _) L|n d k v cells l' D Z Pv Sv P L].
  - exists row', c, s, cs. auto.
  - do 4 eexists. split; [exact L|]. split; [constructor; [apply (at_cell _ n); assumption|exact P]|]. split; [reflexivity|discriminate].
Qed.
Lemma load_timed ts stamp row l b rest : timed_line stamp row l -> buffered l b ->
  load_cells ts b rest = Row (match stamp with Some n => n | None => ts end) row rest.
Proof.
  intros [row' l' P L|n d k v cells l' D Z Pv Sv P L] B; [exact (load_row ts row' l' b rest L P B)|]. unfold load_cells.
  assert (P' : Forall plain (("@" :: d ++ repeat " " (S k) ++ v) :: cells)) by (constructor; [apply (at_cell _ n); assumption|exact P]).
  rewrite (c_string_clean l' b (line_clean _ _ L (plain_ordinary _ P')) B).
  destruct (tokens_line _ _ L P') as [T1 T2].
  assert (T : tokens is_comma_or_newline b [] = ("@" :: d ++ repeat " " (S k) ++ v) :: cells) by (destruct B as [-> | ->]; assumption).
  rewrite T. destruct (digits_facts _ _ D) as (Nd & F & En & Z0 & _).
  assert (Sd : ~ In " " d) by (intros X; rewrite forallb_forall in F; specialize (F _ X); discriminate F).
  rewrite (time_and_value d k v Nd Sd (proj1 Pv) Sv).
  destruct d as [|c d]; [congruence|]. cbn in F. apply andb_true_iff in F as [F1 F2].
  rewrite (unsigned_scan c d F1 F2), En, Z.mod_small by lia. reflexivity.
Qed.
Lemma timed_body size : forall stamps rows lines now s fuel,
  Forall2 (fun sr l => timed_line (fst sr) (snd sr) l) (combine stamps rows) lines -> length stamps = length rows ->
  Forall (fits_in size) lines -> file_text lines s -> length s < fuel ->
  c_rows size fuel now s = Some (combine (clock now stamps) rows).
Proof.
  induction stamps as [|st stamps IH]; intros [|row rows] lines now s fuel L E Z F D; try discriminate E; inversion L as [|? l ? ls L1 L2]; subst.
  - inversion F; subst. destruct fuel; reflexivity.
  - inversion Z as [|? ? Z1 Z2]; subst. destruct fuel as [|fuel]; [lia|]. cbn [fst snd] in L1.
    destruct (timed_cells _ _ _ L1) as (cells & c & x & cs & Lt & Pl & Ec & Nc).
    assert (C : clean l) by (eapply line_clean; [exact Lt|apply plain_ordinary, Pl]).
    destruct (fgets_text size l ls s F C Z1) as (b & rest & Ef & B & R & D').
    destruct (line_head _ _ _ _ _ Lt Ec) as [r El].
    assert (Eb : exists r', b = c :: r') by (destruct B as [-> | ->]; rewrite El; cbn; eauto). destruct Eb as [r' Eb].
    cbn [c_rows]. unfold load_next. rewrite Ef, (not_comment b c r' _ _ Eb Nc), (load_timed now _ _ _ _ rest L1 B).
    rewrite (IH rows ls _ rest fuel L2 ltac:(cbn in E; lia) Z2 R) by lia. reflexivity.
Qed.
Lemma read_timed size stamps rows lines s :
  Forall2 (fun sr l => timed_line (fst sr) (snd sr) l) (combine stamps rows) lines -> length stamps = length rows ->
  Forall (fits_in size) lines -> file_text lines s -> c_read size s = Some (combine (clock 0 stamps) rows).
Proof. intros L E Z F. exact (timed_body size stamps rows lines 0 s _ L E Z F (Nat.lt_succ_diag_r _)). Qed.

(** ** Rows with fewer cells *)
Lemma stored_missing {A} parse : forall rows old t row j g, nth_error rows t = Some row -> nth_error row j = None ->
  nth t (@stored A parse old rows) g j = match t with O => old j | S t' => nth t' (stored parse old rows) g j end.
Proof.
  induction rows as [|r rows IH]; intros old [|t] row j g R C; try discriminate; cbn [stored nth nth_error] in *.
  - injection R as ->. unfold store. rewrite C. reflexivity.
  - rewrite (IH (store parse old r) t row j g R C). destruct t; reflexivity.
Qed.
Lemma short_rows size header rows s : trace_text size header rows s -> header_ok header -> Forall plain_row rows ->
  exists atoms, c_atoms size s = Some atoms /\
    forall t row j g, nth_error rows t = Some row -> nth_error row j = None ->
      nth t atoms g j = match t with O => false | S t' => nth t' atoms g j end.
Proof.
  intros H K P. unfold c_atoms. rewrite (read_table size header rows s H K P). cbn [option_map]. rewrite stamped_rows.
  eexists. split; [reflexivity|]. intros t row j g R C. exact (stored_missing _ rows _ t row j g R C).
Qed.
Lemma no_header size rows s signals : trace_text size None rows s -> Forall plain_row rows -> rows <> [] ->
  parse_trace signals s = NoHeader (length rows).
Proof.
  intros (lines & L & Z & F) P N.
  assert (C : Forall clean lines).
  { clear - L P. induction L as [|row l rows lines L1 L2 IH]; inversion P as [|? ? P1 P2]; subst; constructor.
    - eapply line_clean; [exact L1|apply plain_ordinary, P1].
    - apply IH, P2. }
  unfold parse_trace. rewrite (split_text lines s F C). destruct L as [|row l rows lines L1 L2]; [congruence|].
  inversion P as [|? ? (P1 & c & x & cs & Er & N1 & N2) P2]; subst. destruct (line_head _ _ _ _ _ L1 eq_refl) as [r ->].
  destruct (Ascii.eqb_spec c "#"); [contradiction|]. cbn [length]. f_equal. f_equal.
  clear - L2. induction L2; cbn; congruence.
Qed.
