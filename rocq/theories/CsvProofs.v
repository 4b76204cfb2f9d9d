(** * Trace files (proofs) *)
From Coq Require Import List NArith ZArith Arith Bool Ascii Lia Permutation.
Require Import Verif.MapFile Verif.MapProofs Verif.Booleanizer Verif.RustBooleanizer Verif.CsvTrace Verif.CsvSpec.
Import ListNotations.
Local Open Scope char_scope.

(** ** Characters *)
Lemma ordinary_facts c : ordinary c ->
  (c =? ",") = false /\ (c =? "000") = false /\ (c =? "010") = false /\ (c =? "013") = false /\ is_break c = false.
Proof.
  intros (A & B & C). repeat split; try (apply Ascii.eqb_neq; auto).
  - intros ->. apply C. cbn. auto.
  - intros ->. apply C. cbn. auto 10.
  - destruct (is_break c) eqn:E; [|reflexivity]. exfalso. apply C. unfold is_break in E. clear A B C.
    cbn zeta in E. cbn [In]. apply orb_true_iff in E. rewrite !andb_true_iff, !N.leb_le in E. lia.
Qed.
Lemma no_break_newline c : is_break c = false -> (c =? "010") = false.
Proof. intros H. apply Ascii.eqb_neq. intros ->. discriminate. Qed.

(** ** Lines *)
Definition clean (s : text) : Prop := Forall (fun c => (c =? "000") = false /\ is_break c = false) s.
Lemma ordinary_clean s : Forall ordinary s -> clean s.
Proof. apply Forall_impl. intros c H. apply ordinary_facts in H. tauto. Qed.
Lemma line_clean cells s : line_text cells s -> Forall (Forall ordinary) cells -> clean s.
Proof.
  induction 1 as [c|c cs s H IH]; intros F; inversion F as [|? ? F1 F2]; subst.
  - apply ordinary_clean, F1.
  - apply Forall_app. split; [apply ordinary_clean, F1|]. constructor; [split; reflexivity|exact (IH F2)].
Qed.
Lemma plain_ordinary row : Forall plain row -> Forall (Forall ordinary) row.
Proof. apply Forall_impl. intros c H. apply H. Qed.

Lemma fgets_line : forall l k r, clean l -> length l < k -> fgets_chars k (l ++ "010" :: r) = (l ++ ["010"], r).
Proof.
  induction l as [|c l IH]; intros [|k] r C L; cbn [length] in L; try lia; cbn [app fgets_chars]; [reflexivity|].
  inversion C as [|? ? [_ C1] C2]; subst. rewrite (no_break_newline c C1), (IH k r C2) by lia. reflexivity.
Qed.
Lemma fgets_last : forall l k, clean l -> length l < k -> fgets_chars k l = (l, []).
Proof.
  induction l as [|c l IH]; intros [|k] C L; cbn [length] in L; try lia; cbn [fgets_chars]; [reflexivity|].
  inversion C as [|? ? [_ C1] C2]; subst. rewrite (no_break_newline c C1), (IH k C2) by lia. reflexivity.
Qed.
(** What fgets leaves in the buffer for a line: the line, perhaps with its newline. *)
Definition buffered (l b : text) : Prop := b = l \/ b = l ++ ["010"].
Lemma fgets_text size l ls s : file_text (l :: ls) s -> clean l -> fits_in size l ->
  exists b rest, fgets size s = Some (b, rest) /\ buffered l b /\ file_text ls rest /\ length rest < length s.
Proof.
  intros H C L. unfold fits_in in L. inversion H as [|? N|? ? r R]; subst.
  - exists s, []. unfold fgets. destruct s as [|c s]; [congruence|]. rewrite fgets_last by (auto; cbn [length] in *; lia).
    repeat split; [left; reflexivity|constructor|cbn; lia].
  - exists (l ++ ["010"]), r. unfold fgets.
    assert (E : l ++ "010" :: r <> []) by (destruct l; discriminate).
    destruct (l ++ "010" :: r) as [|c s] eqn:Es; [congruence|]. rewrite <- Es. rewrite fgets_line by (auto; lia).
    repeat split; [right; reflexivity|exact R|]. rewrite app_length. cbn [length]. lia.
Qed.

(** ** Tokens *)
Lemma c_string_clean l b : clean l -> buffered l b -> c_string b = b.
Proof.
  intros C B. unfold c_string. rewrite <- (app_nil_r b) at 1. rewrite take_all; [cbn; apply app_nil_r|].
  apply forallb_forall. intros c Hc. destruct B as [-> | ->].
  - unfold clean in C. rewrite Forall_forall in C. destruct (C c Hc) as [-> _]. reflexivity.
  - apply in_app_or in Hc as [Hc|[<-|[]]]; [|reflexivity]. unfold clean in C. rewrite Forall_forall in C. destruct (C c Hc) as [-> _]. reflexivity.
Qed.
Lemma tokens_run delim : forall l cur s, forallb (fun c => negb (delim c)) l = true ->
  tokens delim (l ++ s) cur = tokens delim s (rev l ++ cur).
Proof.
  induction l as [|c l IH]; intros cur s H; [reflexivity|]. cbn in H. apply andb_true_iff in H as [H1 H2].
  apply negb_true_iff in H1. cbn [app tokens rev]. rewrite H1, (IH _ _ H2), <- app_assoc. reflexivity.
Qed.
Lemma ordinary_token l : Forall ordinary l -> forallb (fun c => negb (is_comma_or_newline c)) l = true.
Proof.
  intros F. apply forallb_forall. intros c Hc. rewrite Forall_forall in F. destruct (ordinary_facts c (F c Hc)) as (A & _ & B & _).
  unfold is_comma_or_newline. rewrite A, B. reflexivity.
Qed.
Lemma token_then c l r : plain l -> is_comma_or_newline c = true ->
  tokens is_comma_or_newline (l ++ c :: r) [] = l :: tokens is_comma_or_newline r [].
Proof.
  intros [N F] Hc. rewrite tokens_run by apply ordinary_token, F. cbn [tokens]. rewrite Hc, app_nil_r.
  destruct (rev l) as [|x y] eqn:E; [apply (f_equal (@rev _)) in E; rewrite rev_involutive in E; cbn in E; congruence|].
  rewrite <- E, rev_involutive. reflexivity.
Qed.
Lemma token_last l : plain l -> tokens is_comma_or_newline l [] = [l].
Proof.
  intros [N F]. rewrite <- (app_nil_r l) at 1. rewrite tokens_run by apply ordinary_token, F. cbn [tokens]. rewrite app_nil_r.
  destruct (rev l) as [|x y] eqn:E; [apply (f_equal (@rev _)) in E; rewrite rev_involutive in E; cbn in E; congruence|].
  rewrite <- E, rev_involutive. reflexivity.
Qed.
Lemma tokens_line cells l : line_text cells l -> Forall plain cells ->
  tokens is_comma_or_newline l [] = cells /\ tokens is_comma_or_newline (l ++ ["010"]) [] = cells.
Proof.
  induction 1 as [c|c cs s H IH]; intros F; inversion F as [|? ? F1 F2]; subst.
  - rewrite token_last by exact F1. rewrite token_then by (auto; reflexivity). auto.
  - rewrite <- app_assoc. cbn [app]. rewrite !token_then by (auto; reflexivity). destruct (IH F2) as [-> ->]. auto.
Qed.
Lemma line_head cells l c s cs : line_text cells l -> cells = (c :: s) :: cs -> exists r, l = c :: r.
Proof. intros H ->. inversion H; subst; cbn; eauto. Qed.

(** ** The C reader *)
Lemma load_row ts row l b rest : line_text row l -> plain_row row -> buffered l b -> load_cells ts b rest = Row ts row rest.
Proof.
  intros L (P & c & s & cs & -> & _ & N) B. unfold load_cells.
  rewrite (c_string_clean l b (line_clean _ _ L (plain_ordinary _ P)) B).
  destruct (tokens_line _ _ L P) as [T1 T2].
  assert (T : tokens is_comma_or_newline b [] = (c :: s) :: cs) by (destruct B as [-> | ->]; assumption). rewrite T.
  destruct (Ascii.eqb_spec c "@") as [->|_]; [congruence|]. clear T T1 T2 L P B l b.
  destruct c as [[] [] [] [] [] [] [] []]; try reflexivity. congruence.
Qed.
Lemma not_comment {A} (b : text) c r (x y : A) : b = c :: r -> c <> "#" ->
  match b with "#" :: _ => x | _ => y end = y.
Proof. intros -> N. destruct c as [[] [] [] [] [] [] [] []]; try reflexivity. congruence. Qed.
Lemma load_body size ts row l ls s : file_text (l :: ls) s -> line_text row l -> plain_row row -> fits_in size l ->
  exists rest, load_next size ts s = Row ts row rest /\ file_text ls rest /\ length rest < length s.
Proof.
  intros F L P Z.
  assert (C : clean l) by (eapply line_clean; [exact L|apply plain_ordinary, P]).
  destruct (fgets_text size l ls s F C Z) as (b & rest & E & B & R & D).
  exists rest. split; [|auto]. unfold load_next. rewrite E.
  destruct P as (P & c & x & cs & Er & N1 & N2). destruct (line_head _ _ _ _ _ L Er) as [r El].
  assert (Eb : exists r', b = c :: r') by (destruct B as [-> | ->]; rewrite El; cbn; eauto). destruct Eb as [r' Eb].
  rewrite (not_comment b c r' _ _ Eb N1). eapply load_row; eauto. split; [exact P|eauto 10].
Qed.
Lemma read_body size : forall rows lines t s fuel, Forall2 line_text rows lines -> Forall (fits_in size) lines ->
  Forall plain_row rows -> file_text lines s -> length s < fuel ->
  c_rows size fuel (Z.of_nat t mod 2 ^ 32) s = Some (stamped t rows).
Proof.
  induction rows as [|row rows IH]; intros lines t s fuel L Z P F D; inversion L as [|? l ? ls L1 L2]; subst.
  - inversion F; subst. destruct fuel; reflexivity.
  - inversion Z as [|? ? Z1 Z2]; subst. inversion P as [|? ? P1 P2]; subst. destruct fuel as [|fuel]; [lia|].
    destruct (load_body size (Z.of_nat t mod 2 ^ 32)%Z row l ls s F L1 P1 Z1) as (rest & E & R & D').
    cbn [c_rows]. rewrite E.
    replace ((Z.of_nat t mod 2 ^ 32 + 1) mod 2 ^ 32)%Z with (Z.of_nat (S t) mod 2 ^ 32)%Z
      by (rewrite Zplus_mod_idemp_l; f_equal; lia).
    rewrite (IH ls (S t) rest fuel L2 Z2 P2 R) by lia. reflexivity.
Qed.
Lemma read_table size header rows s : trace_text size header rows s -> header_ok header -> Forall plain_row rows ->
  c_read size s = Some (stamped 0 rows).
Proof.
  intros (lines & L & Z & H) K P. unfold c_read. destruct header as [cells|].
  - destruct H as (h & Lh & Zh & F). cbn in K.
    assert (C : clean ("#" :: h)) by (constructor; [split; reflexivity|eapply line_clean; eauto]).
    destruct (fgets_text size _ _ _ F C Zh) as (b & rest & E & B & R & D).
    assert (Eb : exists r, b = "#" :: r) by (destruct B as [-> | ->]; cbn; eauto). destruct Eb as [r Eb].
    cbn [c_rows]. unfold load_next. rewrite E, Eb. change (0 =? 0)%Z with true. cbv iota.
    destruct rows as [|row rows]; inversion L as [|? l ? ls L1 L2]; subst.
    + inversion R; subst. reflexivity.
    + inversion Z as [|? ? Z1 Z2]; subst. inversion P as [|? ? P1 P2]; subst.
      assert (Cl : clean l) by (eapply line_clean; [exact L1|apply plain_ordinary, P1]).
      destruct (fgets_text size l ls rest R Cl Z1) as (b' & rest' & E' & B' & R' & D').
      rewrite E', (load_row _ row l b' rest' L1 P1 B').
      change ((0 + 1) mod 2 ^ 32)%Z with (Z.of_nat 1 mod 2 ^ 32)%Z.
      rewrite (read_body size rows ls 1 rest' _ L2 Z2 P2 R') by lia. reflexivity.
  - exact (read_body size rows lines 0 s _ L Z P H (Nat.lt_succ_diag_r _)).
Qed.
Lemma stamped_rows rows : forall t, map snd (stamped t rows) = rows.
Proof. unfold stamped. induction rows as [|r rows IH]; intros t; [reflexivity|]. cbn. f_equal. apply IH. Qed.

(** ** Signals *)
Lemma stored_length {A} parse : forall rows old, length (@stored A parse old rows) = length rows.
Proof. induction rows as [|r rows IH]; intros old; [reflexivity|]. cbn. f_equal. apply IH. Qed.
Lemma stored_cell {A} parse : forall rows old t row j cell v g, nth_error rows t = Some row -> nth_error row j = Some cell ->
  parse cell = Some v -> nth t (@stored A parse old rows) g j = v.
Proof.
  induction rows as [|r rows IH]; intros old [|t] row j cell v g R C V; try discriminate; cbn [stored nth] in *.
  - injection R as ->. unfold store. rewrite C, V. reflexivity.
  - eapply IH; eauto.
Qed.
Lemma atoms_table size header rows s : trace_text size header rows s -> header_ok header -> Forall plain_row rows ->
  exists atoms, c_atoms size s = Some atoms /\ length atoms = length rows /\
    forall t row j cell g, nth_error rows t = Some row -> nth_error row j = Some cell ->
      (nth t atoms g j = true <-> cell <> ["0"]).
Proof.
  intros H K P. unfold c_atoms. rewrite (read_table size header rows s H K P). cbn [option_map]. rewrite stamped_rows.
  eexists. split; [reflexivity|]. split; [apply stored_length|]. intros t row j cell g R C.
  rewrite (stored_cell _ rows _ t row j cell (c_atom cell) g R C eq_refl). unfold c_atom.
  rewrite negb_true_iff. destruct (str_eqb cell ["0"]) eqn:E; split; intros X; try reflexivity; try discriminate.
  - apply str_eqb_eq in E. congruence.
  - intros ->. discriminate.
Qed.
