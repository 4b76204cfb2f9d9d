(** * Trace headers, generated traces and the Rust reader (proofs) *)
From Coq Require Import List NArith ZArith Arith Bool Ascii Lia Permutation.
Require Import Verif.MapFile Verif.MapProofs Verif.Booleanizer Verif.RustBooleanizer Verif.CsvTrace Verif.CsvSpec Verif.CsvProofs.
Import ListNotations.
Local Open Scope char_scope.

(** ** Splitting into lines and cells *)
Lemma clean_no_break l : clean l -> forallb (fun c => negb (is_break c)) l = true.
Proof. intros C. apply forallb_forall. intros c Hc. unfold clean in C. rewrite Forall_forall in C. destruct (C c Hc) as [_ ->]. reflexivity. Qed.
Lemma split_last : forall l cur, clean l -> rev cur ++ l <> [] -> split_lines l cur = [rev cur ++ l].
Proof.
  induction l as [|c l IH]; intros cur C N; cbn [split_lines].
  - rewrite app_nil_r in *. destruct cur; [cbn in N; congruence|reflexivity].
  - inversion C as [|? ? [_ C1] C2]; subst. rewrite C1. rewrite IH; [cbn [rev]; rewrite <- app_assoc; reflexivity|exact C2|].
    cbn [rev]. rewrite <- app_assoc. exact N.
Qed.
Lemma split_text ls s : file_text ls s -> Forall clean ls -> split_lines s [] = ls.
Proof.
  induction 1 as [|l N|l ls s H IH]; intros C; [reflexivity| |]; inversion C as [|? ? C1 C2]; subst.
  - rewrite split_last by auto. reflexivity.
  - rewrite split_line by (apply clean_no_break, C1). cbn [rev app]. f_equal. auto.
Qed.
Lemma split_cell : forall l s, Forall ordinary l ->
  split_commas (l ++ "," :: s) = l :: split_commas s /\ split_commas l = [l].
Proof.
  induction l as [|c l IH]; intros s F; [split; reflexivity|]. inversion F as [|? ? F1 F2]; subst.
  destruct (ordinary_facts c F1) as (E & _). cbn [app split_commas]. rewrite E. destruct (IH s F2) as [-> ->]. auto.
Qed.
Lemma split_cells cells l : line_text cells l -> Forall (Forall ordinary) cells -> split_commas l = cells.
Proof.
  induction 1 as [c|c cs s H IH]; intros F; inversion F as [|? ? F1 F2]; subst.
  - apply (split_cell c [] F1).
  - destruct (split_cell c s F1) as [-> _]. f_equal. auto.
Qed.

(** ** Names *)
Lemma drop_blanks p : forall l r, Forall (fun c => p c = true) l -> drop_while p (l ++ r) = drop_while p r.
Proof. intros l r F. apply drop_all, forallb_forall. apply Forall_forall, F. Qed.
Lemma drop_stop p : forall l, l <> [] -> Forall (fun c => p c = false) l -> forall r, drop_while p (l ++ r) = l ++ r.
Proof. intros [|c l] N F r; [congruence|]. inversion F as [|? ? F1 _]; subst. cbn. rewrite F1. reflexivity. Qed.
Lemma strip_gen p l name r : Forall (fun c => p c = true) l -> Forall (fun c => p c = true) r ->
  name <> [] -> Forall (fun c => p c = false) name ->
  rev (drop_while p (rev (drop_while p (l ++ name ++ r)))) = name.
Proof.
  intros L R N F. rewrite (drop_blanks p l _ L), (drop_stop p name N F r), rev_app_distr.
  rewrite (drop_blanks p (rev r)) by (apply Forall_rev, R).
  rewrite <- (app_nil_r (rev name)), (drop_stop p (rev name)), app_nil_r, rev_involutive; auto.
  - intros E. apply (f_equal (@rev _)) in E. rewrite rev_involutive in E. cbn in E. congruence.
  - apply Forall_rev, F.
Qed.
Lemma name_char_space c : name_char c -> py_space c = false.
Proof.
  intros ((_ & _ & A) & B & C). destruct (py_space c) eqn:E; [|reflexivity]. exfalso. unfold py_space in E. cbn zeta in E.
  apply orb_true_iff in E. rewrite !andb_true_iff, !N.leb_le in E.
  assert (D : N_of_ascii c <> 9%N /\ N_of_ascii c <> 32%N).
  { split; intros X; apply B; apply (f_equal ascii_of_N) in X; rewrite ascii_N_embedding in X; subst c; [right|left]; reflexivity. }
  cbn [In] in A. lia.
Qed.
Lemma blank_ordinary c : blank c -> ordinary c.
Proof. intros [-> | ->]; repeat split; try discriminate; cbn; intuition discriminate. Qed.
Lemma strip_cell name cell : header_cell name cell -> strip cell = name /\ Forall ordinary cell.
Proof.
  intros (N & F & l & r & L & R & ->). split.
  - unfold strip. apply strip_gen; auto; (eapply Forall_impl; [|eassumption]); cbv beta.
    + intros c [-> | ->]; reflexivity.
    + intros c [-> | ->]; reflexivity.
    + apply name_char_space.
  - rewrite !Forall_app. split; [|split]; (eapply Forall_impl; [|eassumption]); cbv beta.
    + apply blank_ordinary.
    + intros c H. apply H.
    + apply blank_ordinary.
Qed.
Lemma strip_cells names cells : Forall2 header_cell names cells -> map strip cells = names /\ Forall (Forall ordinary) cells.
Proof.
  induction 1 as [|n c ns cs H _ [IH1 IH2]]; [split; [reflexivity|constructor]|]. destruct (strip_cell n c H) as [A B].
  cbn. rewrite A, IH1. auto.
Qed.
Lemma get_none m k : ~ In k (map fst m) -> map_get m k = None.
Proof.
  induction m as [|[k' v] m IH]; intros H; [reflexivity|]. cbn in *. destruct (str_eqb k' k) eqn:E; [|auto].
  apply str_eqb_eq in E. tauto.
Qed.
Lemma header_spec : forall names m cnt, NoDup names -> (forall n, In n names -> map_get m n = None) ->
  exists m', header_mapping m cnt names = Some m' /\
    (forall j n, nth_error names j = Some n -> map_get m' n = Some (cnt + N.of_nat j)%N) /\
    (forall n, ~ In n names -> map_get m' n = map_get m n).
Proof.
  induction names as [|id names IH]; intros m cnt D H.
  - exists m. split; [reflexivity|]. split; [|reflexivity]. intros [|j] n E; discriminate.
  - cbn [header_mapping]. rewrite (H id (or_introl eq_refl)). inversion D as [|? ? D1 D2]; subst.
    destruct (IH (map_set m id cnt) (cnt + 1)%N D2) as (m' & E & A & B).
    { intros n Hn. rewrite get_set. destruct (str_eqb id n) eqn:X; [apply str_eqb_eq in X; congruence|]. apply H. right. exact Hn. }
    exists m'. split; [exact E|]. split.
    + intros [|j] n X; cbn in X.
      * injection X as <-. rewrite (B id D1), get_set, str_eqb_refl. f_equal. lia.
      * rewrite (A j n X). f_equal. lia.
    + intros n Hn. rewrite (B n) by (intros X; apply Hn; right; exact X). rewrite get_set.
      destruct (str_eqb id n) eqn:X; [apply str_eqb_eq in X; subst; exfalso; apply Hn; left; reflexivity|reflexivity].
Qed.
Lemma assign_some m : forall signals, (forall s, In s signals -> map_get m s <> None) -> exists ids, assign_ids m signals = Some ids.
Proof.
  induction signals as [|s signals IH]; intros H; cbn; [eauto|].
  destruct (map_get m s) as [i|] eqn:E; [|exfalso; exact (H s (or_introl eq_refl) E)].
  destruct IH as [l ->]; [intros x X; apply H; right; exact X|]. eauto.
Qed.
Lemma header_columns size names cells rows s signals :
  trace_text size (Some cells) rows s -> Forall2 header_cell names cells -> NoDup names -> incl signals names ->
  Forall plain_row rows ->
  exists m, parse_trace signals s = Mapped m (length rows) /\
    forall j n, nth_error names j = Some n -> map_get m n = Some (N.of_nat j).
Proof.
  intros (lines & L & _ & h & Lh & _ & F) H D I P. destruct (strip_cells names cells H) as [E O].
  unfold parse_trace. rewrite (split_text _ _ F).
  - change ("#" =? "#") with true. cbv iota. rewrite (split_cells cells h Lh O), E.
    destruct (header_spec names [] 0 D (fun n _ => eq_refl)) as (m & Em & A & _). rewrite Em.
    destruct (assign_some m signals) as [ids ->].
    { intros x X. apply I in X. destruct (In_nth_error _ _ X) as [j J]. rewrite (A j x J). discriminate. }
    exists m. split; [|exact A]. f_equal. symmetry. clear -L. induction L; cbn; congruence.
  - constructor; [constructor; [split; reflexivity|eapply line_clean; eauto]|]. clear -L P.
    induction L as [|r l rs ls L1 _ IH]; inversion P as [|? ? P1 P2]; subst; constructor; auto.
    eapply line_clean; [exact L1|apply plain_ordinary, P1].
Qed.

(** ** Generated traces *)
Section Sort.
Variable key : str -> N.
Lemma insert_perm x : forall l, Permutation (x :: l) (insert_by key x l).
Proof.
  induction l as [|y l IH]; cbn; [reflexivity|]. destruct (key x <=? key y)%N; [reflexivity|].
  rewrite perm_swap. constructor. exact IH.
Qed.
Lemma sort_perm l : Permutation l (sort_by key l).
Proof. induction l as [|x l IH]; cbn; [constructor|]. rewrite IH at 1. apply insert_perm. Qed.
Fixpoint ordered (l : list str) : Prop :=
  match l with [] => True | x :: r => (forall y, In y r -> (key x <= key y)%N) /\ ordered r end.
Lemma insert_ordered x : forall l, ordered l -> ordered (insert_by key x l).
Proof.
  induction l as [|y l IH]; intros H; cbn [insert_by]; [split; [intros ? []|exact H]|].
  destruct (key x <=? key y)%N eqn:E.
  - apply N.leb_le in E. split; [|exact H]. intros z [<-|Hz]; [exact E|]. destruct H as [H _]. specialize (H z Hz). lia.
  - apply N.leb_gt in E. destruct H as [H1 H2]. split; [|auto]. intros z Hz.
    apply (Permutation_in z (Permutation_sym (insert_perm x l))) in Hz as [<-|Hz]; [lia|auto].
Qed.
Lemma sort_ordered l : ordered (sort_by key l).
Proof. induction l as [|x l IH]; cbn; [exact I|]. apply insert_ordered, IH. Qed.
(** An increasing list of [n] different keys in a range of [n] numbers. *)
Lemma ordered_dense : forall l b, ordered l -> NoDup (map key l) ->
  (forall x, In x l -> (b <= key x < b + N.of_nat (length l))%N) ->
  forall j x, nth_error l j = Some x -> key x = (b + N.of_nat j)%N.
Proof.
  induction l as [|y l IH]; intros b O D B [|j] x E; try discriminate.
  - cbn in E. injection E as <-. destruct O as [O1 O2]. cbn [map] in D. inversion D as [|? ? D1 D2]; subst.
    assert (Y := B y (or_introl eq_refl)). destruct (N.eq_dec (key y) b) as [->|N]; [lia|]. exfalso.
    assert (Len : length (map key l) <= length (map (fun k => (key y + 1 + N.of_nat k)%N) (seq 0 (N.to_nat (b + N.of_nat (length (y :: l)) - key y - 1))))).
    { apply NoDup_incl_length; [exact D2|]. intros k Hk. pose proof Hk as Hk'. apply in_map_iff in Hk as (z & <- & Hz).
      assert (Z1 := O1 z Hz). assert (Z2 := B z (or_intror Hz)). assert (key z <> key y) by congruence.
      apply in_map_iff. exists (N.to_nat (key z - key y - 1)). split; [lia|]. apply in_seq. lia. }
    rewrite !map_length, seq_length in Len. cbn [length] in *. lia.
  - cbn in E. destruct O as [O1 O2]. cbn [map] in D. inversion D as [|? ? D1 D2]; subst.
    assert (Y := B y (or_introl eq_refl)).
    assert (K : key y = b).
    { destruct (N.eq_dec (key y) b) as [K|N]; [exact K|]. exfalso.
      assert (Len : length (map key l) <= length (map (fun k => (key y + 1 + N.of_nat k)%N) (seq 0 (N.to_nat (b + N.of_nat (length (y :: l)) - key y - 1))))).
      { apply NoDup_incl_length; [exact D2|]. intros k Hk. pose proof Hk as Hk'. apply in_map_iff in Hk as (z & <- & Hz).
        assert (Z1 := O1 z Hz). assert (Z2 := B z (or_intror Hz)). assert (key z <> key y) by congruence.
        apply in_map_iff. exists (N.to_nat (key z - key y - 1)). split; [lia|]. apply in_seq. lia. }
      rewrite !map_length, seq_length in Len. cbn [length] in *. lia. }
    rewrite (IH (b + 1)%N O2 D2) with (j := j) (x := x); [lia| |exact E].
    intros z Hz. assert (Z1 := O1 z Hz). assert (Z2 := B z (or_intror Hz)). cbn [length] in Z2.
    assert (key z <> key y) by (intros X; apply D1; rewrite <- X; apply in_map, Hz). lia.
Qed.
End Sort.

Lemma join_line : forall cells, cells <> [] -> line_text cells (join "," cells).
Proof.
  induction cells as [|c cells IH]; intros N; [congruence|]. destruct cells as [|d cells]; [constructor|].
  change (join "," (c :: d :: cells)) with (c ++ "," :: join "," (d :: cells)). constructor. apply IH. discriminate.
Qed.
Lemma join_file : forall ls, Forall (fun l => l <> []) ls -> file_text ls (join "010" ls).
Proof.
  induction ls as [|l ls IH]; intros F; [constructor|]. inversion F as [|? ? F1 F2]; subst.
  destruct ls as [|m ls]; [apply file_last, F1|].
  change (join "010" (l :: m :: ls)) with (l ++ "010" :: join "010" (m :: ls)). constructor. auto.
Qed.
Lemma join_nonempty cells : Forall plain cells -> cells <> [] -> join "," cells <> [].
Proof.
  intros F N. destruct F as [|c cells [P _] F]; [congruence|]. destruct cells; cbn; [exact P|]. destruct c; [congruence|discriminate].
Qed.
Lemma dense_sorted m signals : dense (map_get m) signals ->
  let variables := sort_by (fun s => match map_get m s with Some i => i | None => 0%N end) signals in
  Permutation signals variables /\ forall j s, nth_error variables j = Some s -> map_get m s = Some (N.of_nat j).
Proof.
  intros (D & B & Inj) variables. set (key := fun s => match map_get m s with Some i => i | None => 0%N end) in *.
  assert (P : Permutation signals variables) by apply sort_perm. split; [exact P|]. intros j s E.
  assert (S1 : In s signals) by (apply (Permutation_in s (Permutation_sym P)); eapply nth_error_In, E).
  assert (K : key s = (0 + N.of_nat j)%N).
  { apply (ordered_dense key variables 0%N); [apply sort_ordered| | |exact E].
    - apply (Permutation_NoDup (Permutation_map key P)). clear E P variables S1.
      assert (G : forall l, NoDup l -> incl l signals -> NoDup (map key l)).
      { induction 1 as [|x l N _ IH]; intros I; cbn; constructor.
        - intros H. apply in_map_iff in H as (y & Ey & Hy). assert (X := I x (or_introl eq_refl)). assert (Y := I y (or_intror Hy)).
          apply N. replace x with y; [exact Hy|]. apply Inj; auto. destruct (B x X) as (i & Ex & _). destruct (B y Y) as (i' & Ey' & _).
          unfold key in Ey. rewrite Ex, Ey' in *. congruence.
        - apply IH. intros y Hy. apply I. right. exact Hy. }
      apply G; [exact D|apply incl_refl].
    - intros x X. rewrite <- (Permutation_length P). apply (Permutation_in x (Permutation_sym P)) in X.
      destruct (B x X) as (i & Ex & L). unfold key. rewrite Ex. lia. }
  destruct (B s S1) as (i & Ei & _). unfold key in K. rewrite Ei in *. f_equal. lia.
Qed.
Lemma generated m signals cell n size :
  signals <> [] -> dense (map_get m) signals ->
  (forall s, In s signals -> s <> [] /\ Forall name_char s) ->
  (forall t s, In s signals -> plain (cell t s) /\ hd_error (cell t s) <> Some "#" /\ hd_error (cell t s) <> Some "@") ->
  exists text rows, generate_trace m signals cell n = Some text /\ length rows = n /\
    (forall t s, t < n -> In s signals -> exists row j, nth_error rows t = Some row /\ map_get m s = Some (N.of_nat j) /\
       nth_error row j = Some (cell t s)) /\
    (exists m', parse_trace signals text = Mapped m' n /\ forall s, In s signals -> map_get m' s = map_get m s) /\
    ((forall line, In line (split_lines text []) -> fits_in size line) ->
     c_read size text = Some (stamped 0 rows)).
Proof.
  intros N D W C. destruct (dense_sorted m signals D) as [P K]. pose proof D as (D1 & D2 & _).
  set (variables := sort_by _ signals) in *. unfold generate_trace. fold variables.
  destruct (assign_some m signals) as [ids ->].
  { intros s Hs. destruct (D2 s Hs) as (i & -> & _). discriminate. }
  assert (V : forall s, In s variables <-> In s signals) by (intros s; split; apply Permutation_in; [symmetry|]; exact P).
  assert (VN : variables <> []) by (intros E; rewrite E in P; apply Permutation_sym, Permutation_nil in P; congruence).
  set (rows := map (fun t => map (cell t) variables) (seq 0 n)).
  set (lines := map (fun t => join "," (map (cell t) variables)) (seq 0 n)).
  assert (Hc : Forall2 header_cell variables variables).
  { assert (G : forall l, incl l variables -> Forall2 header_cell l l).
    { induction l as [|x l IH]; intros I; constructor; [|apply IH; intros y Y; apply I; right; exact Y].
      destruct (W x) as [W1 W2]; [apply V, I; left; reflexivity|]. split; [exact W1|]. split; [exact W2|].
      exists [], []. repeat split; [constructor|constructor|rewrite app_nil_r; reflexivity]. }
    apply G, incl_refl. }
  assert (Rl : forall t, map (cell t) variables <> []) by (intros t; destruct variables; [congruence|discriminate]).
  assert (Pl : forall t, Forall plain (map (cell t) variables)).
  { intros t. apply Forall_forall. intros c Hx. apply in_map_iff in Hx as (s & <- & Hs). apply C, V, Hs. }
  assert (Pr : Forall plain_row rows).
  { apply Forall_forall. intros r Hr. apply in_map_iff in Hr as (t & <- & _). split; [apply Pl|].
    destruct variables as [|v vs]; [congruence|]. cbn [map].
    destruct (C t v) as ((E & _) & A & B); [apply V; left; reflexivity|]. destruct (cell t v) as [|c s]; [congruence|].
    exists c, s, (map (cell t) vs). cbn in A, B. repeat split; congruence. }
  assert (LR : Forall2 line_text rows lines).
  { unfold rows, lines. clear -Rl. induction (seq 0 n) as [|t l IH]; cbn [map]; constructor; [apply join_line, Rl|exact IH]. }
  assert (LN : Forall (fun l => l <> []) lines).
  { apply Forall_forall. intros l Hl. apply in_map_iff in Hl as (t & <- & _). apply join_nonempty; auto. }
  assert (FT : file_text (("#" :: join "," variables) :: lines) (join "010" (("#" :: join "," variables) :: lines))).
  { apply join_file. constructor; [discriminate|exact LN]. }
  assert (CL : Forall clean (("#" :: join "," variables) :: lines)).
  { constructor.
    - constructor; [split; reflexivity|]. eapply line_clean; [apply join_line, VN|]. apply (strip_cells _ _ Hc).
    - apply Forall_forall. intros l Hl. apply in_map_iff in Hl as (t & <- & _).
      eapply line_clean; [apply join_line, Rl|apply plain_ordinary, Pl]. }
  eexists. exists rows. split; [reflexivity|]. fold lines. split; [unfold rows; rewrite map_length; apply seq_length|]. split; [|split].
  - intros t s L S1. exists (map (cell t) variables). destruct (In_nth_error variables s) as [j J]; [apply V, S1|].
    exists j. split; [|split; [apply K, J|]].
    + unfold rows. erewrite map_nth_error; [reflexivity|]. rewrite nth_error_nth' with (d := 0); [rewrite seq_nth by exact L; reflexivity|].
      rewrite seq_length. exact L.
    + apply map_nth_error, J.
  - destruct (header_columns (fold_right Nat.max 0 (map (@List.length _) (("#" :: join "," variables) :: lines)) + 2)
      variables variables rows (join "010" (("#" :: join "," variables) :: lines)) signals) as (m' & E & A).
    + assert (Fit : Forall (fits_in (fold_right Nat.max 0 (map (@List.length _) (("#" :: join "," variables) :: lines)) + 2))
                          (("#" :: join "," variables) :: lines)).
      { generalize (("#" :: join "," variables) :: lines). induction l as [|x l IH]; constructor; unfold fits_in in *; cbn [map fold_right].
        - lia.
        - eapply Forall_impl; [|exact IH]. cbv beta. intros. lia. }
      inversion Fit as [|? ? F1 F2]; subst. exists lines. split; [exact LR|]. split; [exact F2|].
      exists (join "," variables). split; [apply join_line, VN|]. split; [exact F1|exact FT].
    + exact Hc.
    + apply (Permutation_NoDup P D1).
    + intros s Hs. apply V, Hs.
    + exact Pr.
    + exists m'. unfold rows in E. rewrite map_length, seq_length in E. split; [exact E|]. intros s Hs.
      destruct (In_nth_error variables s) as [j J]; [apply V, Hs|]. rewrite (A j s J), (K j s J). reflexivity.
  - intros Fit. rewrite (split_text _ _ FT CL) in Fit.
    apply (read_table size (Some variables) rows); [|apply (strip_cells _ _ Hc)|exact Pr].
    exists lines. split; [exact LR|]. split; [apply Forall_forall; intros l Hl; apply Fit; right; exact Hl|].
    exists (join "," variables). split; [apply join_line, VN|]. split; [apply Fit; left; reflexivity|exact FT].
Qed.
