(** * Trace files: numbers, the Rust reader and reports (proofs) *)
From Coq Require Import List NArith ZArith Arith Bool Ascii Lia.
Require Import Verif.MapFile Verif.MapProofs Verif.Booleanizer Verif.BooleanizerSpec Verif.RustBooleanizer.
Require Import Verif.CsvTrace Verif.CsvSpec Verif.CsvProofs Verif.CsvHeader.
Import ListNotations.
Local Open Scope char_scope.

(** ** Integers *)
Lemma digit_char c d : digit_value c d -> is_digit c = true /\ (Z.of_N (N_of_ascii c) - 48 = d)%Z.
Proof.
  intros [B E]. split; [|lia]. unfold is_digit. cbn zeta. apply andb_true_iff. rewrite !N.leb_le. lia.
Qed.
Lemma number_snoc s c : number (s ++ [c]) = (10 * number s + (Z.of_N (N_of_ascii c) - 48))%Z.
Proof. unfold number. rewrite fold_left_app. reflexivity. Qed.
Lemma digits_facts s z : digits s z -> s <> [] /\ forallb is_digit s = true /\ number s = z /\ (0 <= z)%Z /\ (z = 0%Z -> s = ["0"]).
Proof.
  induction 1 as [c d H|s z c d H (N & F & E & P & Z0) Nz Hd].
  - destruct (digit_char c d H) as [A B]. repeat split; [discriminate|cbn; rewrite A; reflexivity|unfold number; cbn [fold_left]; lia|apply H|].
    intros ->. destruct H as [_ H]. apply (f_equal ascii_of_N) in H. rewrite ascii_N_embedding in H. rewrite H. reflexivity.
  - destruct (digit_char c d Hd) as [A B]. destruct Hd as [Hd _]. repeat split.
    + destruct s; discriminate.
    + rewrite forallb_app, F. cbn. rewrite A. reflexivity.
    + rewrite number_snoc, E, B. reflexivity.
    + lia.
    + lia.
Qed.
Lemma digit_ordinary c : is_digit c = true -> ordinary c /\ c <> "#" /\ c <> "@" /\ c <> "-" /\ c <> "+" /\ c <> "." /\ is_blank c = false /\ rust_blank c = false.
Proof.
  intros H.
  assert (B : (48 <= N_of_ascii c <= 57)%N) by (unfold is_digit in H; cbn zeta in H; apply andb_true_iff in H; rewrite !N.leb_le in H; lia).
  assert (Hx : forall x, is_digit x = false -> c <> x) by (intros x Hx ->; congruence).
  repeat split; try (apply Hx; reflexivity).
  - cbn [In]. lia.
  - unfold is_blank. cbn zeta. apply orb_false_iff. rewrite andb_false_iff, !N.leb_gt, N.eqb_neq. lia.
  - unfold rust_blank. cbn zeta. rewrite !orb_false_iff, !N.eqb_neq. lia.
Qed.
Lemma take_digits s : forallb is_digit s = true -> take_while is_digit s = s.
Proof. intros H. rewrite <- (app_nil_r s) at 1. rewrite take_all by exact H. cbn. apply app_nil_r. Qed.
Lemma unsigned_scan c s : is_digit c = true -> forallb is_digit s = true ->
  scan_number (c :: s) = Some (number (c :: s)).
Proof.
  intros H F. unfold scan_number. destruct (digit_ordinary c H) as (_ & _ & _ & M & P & _ & B & _).
  cbn [drop_while]. rewrite B.
  replace (match c :: s with "-" :: r => (-1, r) | "+" :: r => (1, r) | _ => (1, c :: s) end%Z) with (1%Z, c :: s).
  - rewrite take_digits by (cbn; rewrite H; exact F). f_equal. lia.
  - clear B. destruct c as [[] [] [] [] [] [] [] []]; try reflexivity; congruence.
Qed.
Lemma unsigned_parse c s : is_digit c = true -> forallb is_digit s = true -> (- 2 ^ 31 <= number (c :: s) < 2 ^ 31)%Z ->
  rust_int (c :: s) = Some (number (c :: s)).
Proof.
  intros H F R. unfold rust_int. destruct (digit_ordinary c H) as (_ & _ & _ & M & P & _).
  replace (match c :: s with "-" :: r => (-1, r) | "+" :: r => (1, r) | _ => (1, c :: s) end%Z) with (1%Z, c :: s).
  - cbn [forallb]. rewrite H, F. cbn [andb]. cbn zeta. rewrite Z.mul_1_l.
    replace (- 2 ^ 31 <=? number (c :: s))%Z with true by (symmetry; apply Z.leb_le; lia).
    replace (number (c :: s) <? 2 ^ 31)%Z with true by (symmetry; apply Z.ltb_lt; lia). reflexivity.
  - destruct c as [[] [] [] [] [] [] [] []]; try reflexivity; congruence.
Qed.
Lemma integer_chars s z : integer s z -> exists c r, s = c :: r /\ (is_digit c = true \/ c = "-") /\ forallb is_digit r = true.
Proof.
  intros [s' z' H|s' z' H P]; destruct (digits_facts _ _ H) as (N & F & _).
  - destruct s' as [|c r]; [congruence|]. cbn in F. apply andb_true_iff in F. exists c, r. tauto.
  - exists "-", s'. auto.
Qed.
Lemma minus_facts : ordinary "-" /\ "-" <> "#" /\ "-" <> "@" /\ rust_blank "-" = false.
Proof. repeat split; try discriminate. cbn. intuition discriminate. Qed.
Lemma integer_facts s z : integer s z ->
  plain s /\ hd_error s <> Some "#" /\ hd_error s <> Some "@" /\ Forall (fun c => rust_blank c = false) s /\ ~ In "." s /\
  scan_number s = Some z /\ ((- 2 ^ 31 <= z < 2 ^ 31)%Z -> rust_int s = Some z) /\ (s = ["0"] <-> z = 0%Z).
Proof.
  intros H. destruct (integer_chars s z H) as (c & r & -> & Hc & Hr).
  assert (Fr : Forall (fun c => is_digit c = true) r) by (apply Forall_forall, forallb_forall; exact Hr).
  assert (A : ordinary c /\ c <> "#" /\ c <> "@" /\ rust_blank c = false /\ c <> ".").
  { destruct Hc as [Hc| ->]; [pose proof (digit_ordinary c Hc); tauto|]. destruct minus_facts as (? & ? & ? & ?). repeat split; auto; try apply H0. discriminate. }
  destruct A as (A1 & A2 & A3 & A4 & A5).
  split; [split; [discriminate|constructor; [exact A1|]; eapply Forall_impl; [|exact Fr]; intros x Hx; apply (digit_ordinary x Hx)]|].
  split; [cbn; congruence|]. split; [cbn; congruence|].
  split; [constructor; [exact A4|]; eapply Forall_impl; [|exact Fr]; intros x Hx; apply (digit_ordinary x Hx)|].
  split. { intros [X|X]; [congruence|]. rewrite Forall_forall in Fr. specialize (Fr _ X). discriminate. }
  inversion H as [s' z' D|s' z' D P]; subst; destruct (digits_facts _ _ D) as (N & F & E & Z & Z0).
  - cbn in F. apply andb_true_iff in F as [F1 F2]. split; [rewrite unsigned_scan by assumption; congruence|].
    split; [intros R; rewrite unsigned_parse by (rewrite ?E; assumption); congruence|].
    split; [|exact Z0]. intros X. rewrite X in E. unfold number in E. cbn in E. symmetry. exact E.
  - assert (E' : exists d t, r = d :: t) by (destruct r; [congruence|eauto]). destruct E' as (d & t & ->).
    split; [|split].
    + unfold scan_number. change (drop_while is_blank ("-" :: d :: t)) with ("-" :: d :: t). cbv beta iota zeta.
      rewrite take_digits by exact F. rewrite E. f_equal; lia.
    + intros R. unfold rust_int. cbv iota beta. rewrite F. cbv zeta. rewrite E. replace (-1 * z')%Z with (- z')%Z by lia.
      replace (- 2 ^ 31 <=? - z')%Z with true by (symmetry; apply Z.leb_le; lia).
      replace (- z' <? 2 ^ 31)%Z with true by (symmetry; apply Z.ltb_lt; lia). reflexivity.
    + split; [discriminate|lia].
Qed.
Lemma no_dot s : ~ In "." s -> existsb (fun c => c =? ".") s = false.
Proof.
  intros H. destruct (existsb (fun c => c =? ".") s) eqn:E; [|reflexivity]. apply existsb_exists in E as (c & Hc & X).
  apply Ascii.eqb_eq in X. subst. contradiction.
Qed.
Lemma some_dot s : In "." s -> existsb (fun c => c =? ".") s = true.
Proof. intros H. apply existsb_exists. exists ".". split; [exact H|reflexivity]. Qed.
Lemma wrap_small z : (- 2 ^ 31 <= z < 2 ^ 31)%Z -> Binary.wrap_int z = z.
Proof. intros H. unfold Binary.wrap_int. rewrite Z.mod_small by lia. lia. Qed.

(** ** Values with the booleanizer *)
Lemma int_value sf s z : integer s z -> (- 2 ^ 31 <= z < 2 ^ 31)%Z -> c_value sf s = Some (VInt z).
Proof.
  intros H R. destruct (integer_facts s z H) as (_ & _ & _ & _ & D & E & _). unfold c_value.
  rewrite no_dot by exact D. rewrite E. cbn [option_map]. rewrite wrap_small by exact R. reflexivity.
Qed.
Lemma float_value sf s b : In "." s -> sf s = Some b -> c_value sf s = Some (VFloat b).
Proof. intros H E. unfold c_value. rewrite some_dot by exact H. rewrite E. reflexivity. Qed.
Lemma dot_not_int s : In "." s -> rust_int s = None.
Proof.
  intros H. assert (G : forall r, In "." r -> forallb is_digit r = false).
  { intros r Hr. destruct (forallb is_digit r) eqn:E; [|reflexivity]. rewrite forallb_forall in E. specialize (E _ Hr). discriminate. }
  unfold rust_int. destruct s as [|c s]; [destruct H|].
  destruct (match c :: s with "-" :: r => (-1, r) | "+" :: r => (1, r) | _ => (1, c :: s) end%Z) as [sign d] eqn:E.
  assert (X : In "." d).
  { destruct H as [-> |H]; [cbn in E; injection E as <- <-; left; reflexivity|].
    destruct (Ascii.eqb_spec c "-") as [-> |N1]; [injection E as <- <-; exact H|].
    destruct (Ascii.eqb_spec c "+") as [-> |N2]; [injection E as <- <-; exact H|].
    destruct c as [[] [] [] [] [] [] [] []]; try congruence; injection E as <- <-; right; exact H. }
  rewrite (G d X). destruct d; reflexivity.
Qed.
Lemma same_values sf old s : 
  (forall z, integer s z -> (- 2 ^ 31 <= z < 2 ^ 31)%Z ->
     c_value sf s = Some (VInt z) /\ exists v, rust_value sf old s = Some v /\ r_i v = z) /\
  (forall b, In "." s -> sf s = Some b ->
     c_value sf s = Some (VFloat b) /\ exists v, rust_value sf old s = Some v /\ r_f v = b).
Proof.
  split.
  - intros z H R. split; [apply int_value; assumption|]. unfold rust_value.
    destruct (integer_facts s z H) as (_ & _ & _ & _ & _ & _ & E & _). rewrite (E R). cbv zeta.
    destruct (sf s) as [f|]; eexists; split; reflexivity.
  - intros b H E. split; [apply float_value; assumption|]. unfold rust_value. rewrite (dot_not_int s H), E. eexists. split; reflexivity.
Qed.
Definition of_type (types : Z -> bool) (j : nat) (v : value) : Prop :=
  is_int v = types (Z.of_nat j) /\ match v with VInt z => int32 z | VFloat _ => True end.
Lemma zeros_typed types j : of_type types j (zeros types j).
Proof. unfold of_type, zeros. destruct (types (Z.of_nat j)); cbn; split; auto. unfold int32. lia. Qed.
Lemma stored_typed sf types : forall rows old, typed_cells sf types rows -> (forall j, of_type types j (old j)) ->
  forall t g j, (forall j, of_type types j (g j)) -> of_type types j (nth t (stored (c_value sf) old rows) g j).
Proof.
  induction rows as [|r rows IH]; intros old T O t g j G; [destruct t; apply G|].
  assert (N : forall j, of_type types j (store (c_value sf) old r j)).
  { intros k. unfold store. destruct (nth_error r k) as [cell|] eqn:E; [|apply O].
    specialize (T 0 r k cell eq_refl E). destruct (types (Z.of_nat k)) eqn:Ty.
    - destruct T as (z & Hz & R). rewrite (int_value sf cell z Hz R). split; [symmetry; exact Ty|exact R].
    - destruct T as (D & F). destruct (sf cell) as [b|] eqn:Eb; [|congruence]. rewrite (float_value sf cell b D Eb).
      split; [symmetry; exact Ty|exact Logic.I]. }
  destruct t as [|t]; cbn [stored nth]; [apply N|]. apply IH; auto.
  intros t' row k cell R C. exact (T (S t') row k cell R C).
Qed.
Lemma typed_inputs sf types size header rows s : trace_text size header rows s -> header_ok header -> Forall plain_row rows ->
  typed_cells sf types rows -> (forall k, (k < 0)%Z -> types k = types 0%Z) ->
  exists inp, c_inputs sf (zeros types) size s = Some inp /\ typed types inp /\
    forall t row j cell, nth_error rows t = Some row -> nth_error row j = Some cell ->
      (forall z, integer cell z -> types (Z.of_nat j) = true -> inp t (Z.of_nat j) = VInt z) /\
      (forall b, sf cell = Some b -> types (Z.of_nat j) = false -> inp t (Z.of_nat j) = VFloat b).
Proof.
  intros H K P T N. unfold c_inputs. rewrite (read_table size header rows s H K P). cbn [option_map]. rewrite stamped_rows.
  eexists. split; [reflexivity|]. split.
  - intros t k. cbv beta. destruct (stored_typed sf types rows _ T (zeros_typed types) t _ (Z.to_nat k) (zeros_typed types)) as [A B].
    split; [|exact B]. rewrite A. destruct (Z_lt_le_dec k 0) as [L|L]; [|rewrite Z2Nat.id by exact L; reflexivity].
    rewrite (N k L). destruct k; try lia. reflexivity.
  - intros t row j cell R C. specialize (T t row j cell R C). rewrite !Nat2Z.id. split.
    + intros z Hz Ty. rewrite Ty in T. destruct T as (z' & Hz' & B).
      assert (z' = z). { destruct (integer_facts cell z Hz) as (_ & _ & _ & _ & _ & E1 & _). destruct (integer_facts cell z' Hz') as (_ & _ & _ & _ & _ & E2 & _). congruence. }
      subst z'. apply (stored_cell _ rows _ t row j cell); auto. apply int_value; assumption.
    + intros b Eb Ty. rewrite Ty in T. apply (stored_cell _ rows _ t row j cell); auto. apply float_value; [apply T|exact Eb].
Qed.

(** ** The Rust reader *)
Lemma rust_line_end : forall l cur, clean l ->
  (forall r, rust_lines (l ++ "010" :: r) cur = match rev cur ++ l with [] => rust_lines r [] | x => x :: rust_lines r [] end) /\
  rust_lines l cur = match rev cur ++ l with [] => [] | x => [x] end.
Proof.
  induction l as [|c l IH]; intros cur C.
  - rewrite app_nil_r. cbn [app rust_lines]. change (("010" =? "010") || ("010" =? "013")) with true. cbv iota.
    destruct cur as [|x cur]; [split; reflexivity|]. 
    destruct (rev (x :: cur)) eqn:E; [apply (f_equal (@rev _)) in E; rewrite rev_involutive in E; discriminate|]. split; reflexivity.
  - inversion C as [|? ? [_ C1] C2]; subst.
    assert (E : ((c =? "010") || (c =? "013")) = false).
    { apply orb_false_iff. split; apply Ascii.eqb_neq; intros ->; discriminate. }
    destruct (IH (c :: cur) C2) as [A B]. cbn [rev] in A, B. cbn [app rust_lines]. rewrite E. split.
    + intros r. rewrite A, <- app_assoc. reflexivity.
    + rewrite B, <- app_assoc. reflexivity.
Qed.
Lemma rust_text ls s : file_text ls s -> Forall clean ls -> Forall (fun l => l <> []) ls -> rust_lines s [] = ls.
Proof.
  induction 1 as [|l N|l ls s H IH]; intros C E; [reflexivity| |]; inversion C as [|? ? C1 C2]; inversion E as [|? ? E1 E2]; subst;
    destruct (rust_line_end l [] C1) as [A B]; cbn [rev app] in A, B.
  - rewrite B. destruct l; [congruence|reflexivity].
  - rewrite A. destruct l; [congruence|]. f_equal. auto.
Qed.
Lemma trim_none s : s <> [] -> Forall (fun c => rust_blank c = false) s -> trim s = s.
Proof.
  intros N F. unfold trim. pose proof (strip_gen rust_blank [] s []) as E. rewrite app_nil_r in E. cbn [app] in E.
  apply E; auto.
Qed.
Lemma all_some_map {A B} (f : A -> option B) g l : (forall x, In x l -> f x = Some (g x)) -> all_some (map f l) = Some (map g l).
Proof.
  induction l as [|x l IH]; intros H; [reflexivity|]. cbn. rewrite (H x (or_introl eq_refl)), IH; [reflexivity|].
  intros y Hy. apply H. right. exact Hy.
Qed.
(** The records of a table of integers. *)
Lemma rust_table size header rows s w : trace_text size header rows s -> header_ok header -> Forall plain_row rows ->
  Forall (fun r => length r = w) rows -> Forall (Forall (fun c => exists z, integer c z)) rows ->
  rust_records s = Some rows.
Proof.
  intros (lines & L & _ & H) K P W I.
  assert (CL : Forall clean lines /\ Forall (fun l => l <> []) lines /\ filter (fun l => negb (is_comment l)) lines = lines /\
               map (fun l => map trim (split_commas l)) lines = rows).
  { clear H W. induction L as [|r l rs ls L1 L2 IH]; [repeat constructor|].
    inversion P as [|? ? P1 P2]; inversion I as [|? ? I1 I2]; subst. destruct (IH P2 I2) as (A & B & C & D).
    destruct P1 as (P1 & c & x & cs & Er & N1 & N2). destruct (line_head _ _ _ _ _ L1 Er) as [t El].
    split; [constructor; [eapply line_clean; [exact L1|apply plain_ordinary, P1]|exact A]|].
    split; [constructor; [rewrite El; discriminate|exact B]|]. split.
    - cbn [filter]. replace (is_comment l) with false; [cbn [negb]; rewrite C; reflexivity|].
      rewrite El. clear - N1. destruct c as [[] [] [] [] [] [] [] []]; try reflexivity. congruence.
    - cbn [map]. rewrite D. f_equal. rewrite (split_cells r l L1 (plain_ordinary _ P1)).
      clear - I1. induction I1 as [|y ys (z & Hz) _ IHy]; [reflexivity|]. cbn. rewrite IHy. f_equal.
      destruct (integer_facts y z Hz) as (Py & _ & _ & By & _). apply trim_none; [apply Py|exact By]. }
  destruct CL as (C1 & C2 & C3 & C4).
  assert (R : filter (fun l => negb (is_comment l)) (rust_lines s []) = lines).
  { destruct header as [cells|].
    - destruct H as (h & Lh & _ & F). rewrite (rust_text _ _ F).
      + cbn [filter is_comment negb]. exact C3.
      + constructor; [constructor; [split; reflexivity|eapply line_clean; eauto]|exact C1].
      + constructor; [discriminate|exact C2].
    - rewrite (rust_text _ _ H C1 C2). exact C3. }
  unfold rust_records. rewrite R, C4. destruct rows as [|r rs]; [reflexivity|]. inversion W as [|? ? W1 W2]; subst.
  replace (forallb (fun x => Nat.eqb (length x) (length r)) rs) with true; [reflexivity|]. symmetry. apply forallb_forall. intros x Hx.
  apply Nat.eqb_eq. rewrite Forall_forall in W2. auto.
Qed.
Lemma readers_agree size header rows values s w : trace_text size header rows s -> header_ok header ->
  Forall2 (Forall2 integer) rows values -> Forall (Forall (fun z => (- 2 ^ 31 <= z < 2 ^ 31)%Z)) values ->
  Forall (fun r => length r = S w) rows ->
  exists atoms, c_atoms size s = Some atoms /\ length atoms = length values /\
    rust_atoms s = Some (map (map nonzero) values) /\
    forall t row j z g, nth_error values t = Some row -> nth_error row j = Some z -> nth t atoms g j = nonzero z.
Proof.
  intros H K V B W.
  assert (I : Forall (Forall (fun c => exists z, integer c z)) rows).
  { clear - V. induction V as [|r v rs vs V1 _ IH]; constructor; auto. clear - V1. induction V1; constructor; eauto. }
  assert (P : Forall plain_row rows).
  { clear - I W. induction I as [|r rs I1 _ IH]; inversion W as [|? ? W1 W2]; subst; constructor; auto. split.
    - eapply Forall_impl; [|exact I1]. intros c (z & Hz). apply (integer_facts c z Hz).
    - destruct r as [|c cs]; [discriminate|]. inversion I1 as [|? ? (z & Hz) _]; subst.
      destruct (integer_facts c z Hz) as (Pc & N1 & N2 & _). destruct c as [|x c]; [destruct Pc; congruence|].
      exists x, c, cs. cbn in N1, N2. repeat split; congruence. }
  destruct (atoms_table size header rows s H K P) as (atoms & E & L & A).
  assert (LV : length rows = length values) by (clear - V; induction V; cbn; congruence).
  exists atoms. split; [exact E|]. split; [congruence|]. split.
  - unfold rust_atoms. rewrite (rust_table size header rows s (S w) H K P W I).
    match goal with |- all_some (map ?f _) = _ => set (F := f) end.
    clear - V B W. induction V as [|r v rs vs V1 _ IH]; [reflexivity|].
    inversion B as [|? ? B1 B2]; inversion W as [|? ? W1 W2]; subst. cbn [map all_some]. rewrite (IH B2 W2). clear IH.
    enough (Fr : F r = Some (map nonzero v)) by (rewrite Fr; reflexivity). unfold F.
    assert (X : all_some (map rust_atom r) = Some (map nonzero v)).
    { clear - V1 B1. induction V1 as [|c z cs zs Hz _ IHc]; [reflexivity|]. inversion B1 as [|? ? B3 B2]; subst.
      cbn [map all_some]. rewrite (IHc B2). destruct (integer_facts c z Hz) as (_ & _ & _ & _ & _ & _ & Er & _).
      unfold rust_atom at 1. rewrite (Er B3). reflexivity. }
    destruct r as [|c cs]; [discriminate|]. inversion V1 as [|? z ? zs Hz _]; subst.
    destruct (integer_facts c z Hz) as (_ & _ & N2 & _).
    replace (rust_first c) with (Some c).
    + exact X.
    + destruct c as [|x c]; [reflexivity|]. cbn in N2. clear - N2. destruct x as [[] [] [] [] [] [] [] []]; try reflexivity. congruence.
  - intros t row j z g R C.
    assert (Cell : exists r c, nth_error rows t = Some r /\ nth_error r j = Some c /\ integer c z).
    { clear - V R C. revert t R. induction V as [|r v rs vs V1 _ IH]; intros [|t] R; try discriminate; cbn in R.
      - injection R as ->. exists r. clear - V1 C. revert j C.
        induction V1 as [|c y cs ys Hy _ IHc]; intros [|j] C; try discriminate; cbn in C.
        + injection C as ->. exists c. auto.
        + destruct (IHc j C) as (c' & A1 & A2 & A3). exists c'. auto.
      - exact (IH t R). }
    destruct Cell as (r & c & R' & C' & Hz). specialize (A t r j c g R' C').
    destruct (integer_facts c z Hz) as (_ & _ & _ & _ & _ & _ & _ & Z0). unfold nonzero.
    destruct (nth t atoms g j), (Z.eqb_spec z 0) as [Ez|Ez]; cbn; try reflexivity; exfalso.
    + apply (proj1 A eq_refl). apply Z0, Ez.
    + assert (X : false = true) by (apply A; intros X; apply Ez, Z0, X). discriminate.
Qed.
