(** * Packing and loading (proof infrastructure) *)
From Coq Require Import List ZArith Bool Lia.
Require Import Verif.Binary Verif.BinarySpec.
Import ListNotations.
Open Scope Z_scope.

Lemma shl b k : 0 <= k -> Z.shiftl b k = b * 2 ^ k.
Proof. apply Z.shiftl_mul_pow2. Qed.

Lemma sum4 v : 0 <= v ->
  v mod 256 + Z.shiftl (v / 256 mod 256) 8 + Z.shiftl (v / 256 / 256 mod 256) 16 +
  Z.shiftl (v / 256 / 256 / 256 mod 256) 24 = v mod 2 ^ 32.
Proof.
  intros H. rewrite !shl by lia. change (2 ^ 8) with 256. change (2 ^ 16) with 65536.
  change (2 ^ 24) with 16777216. change (2 ^ 32) with 4294967296.
  Z.to_euclidean_division_equations. lia.
Qed.
Lemma wrap_u32 z : wrap_int z mod 2 ^ 32 = z mod 2 ^ 32.
Proof.
  unfold wrap_int. change (2 ^ 31) with 2147483648. change (2 ^ 32) with 4294967296.
  Z.to_euclidean_division_equations. lia.
Qed.
Lemma wrap_small z : 0 <= z < 2 ^ 31 -> wrap_int z = z.
Proof. unfold wrap_int. intros H. rewrite Z.mod_small; lia. Qed.
Lemma wrap_large z : 2 ^ 31 <= z < 2 ^ 32 -> wrap_int z = z - 2 ^ 32.
Proof.
  unfold wrap_int. intros H. replace (z + 2 ^ 31) with ((z - 2 ^ 31) + 1 * 2 ^ 32) by lia.
  rewrite Z.mod_add, Z.mod_small; lia.
Qed.

Lemma byte_app pre l j : byte (pre ++ l) (List.length pre + j) = byte l j.
Proof. unfold byte. rewrite nth_error_app2 by lia. f_equal. lia. Qed.
Lemma load_one_app pre l k : load_one (pre ++ l) (List.length pre + k) = load_one l k.
Proof.
  unfold load_one, read_bz, read_tl, read_f64, read_i32, read_u32, low4.
  rewrite <- !Nat.add_assoc. rewrite !byte_app. rewrite <- ?Nat.add_assoc. reflexivity.
Qed.

Lemma pack_B_some v b : pack_B v = Some b -> small v /\ b = [v].
Proof.
  unfold pack_B, small. destruct ((0 <=? v) && (v <? 256)) eqn:E; [|discriminate]. intros H; injection H as <-.
  split; [lia|reflexivity].
Qed.
Lemma pack_I_some v b : pack_I v = Some b -> word v /\ b = little 4 v.
Proof.
  unfold pack_I, word. destruct ((0 <=? v) && (v <? 2 ^ 32)) eqn:E; [|discriminate]. intros H; injection H as <-.
  split; [lia|reflexivity].
Qed.
Lemma pack_i_some v b : pack_i v = Some b -> - 2 ^ 31 <= v < 2 ^ 31 /\ b = little 4 (v mod 2 ^ 32).
Proof.
  unfold pack_i. destruct (_ && _) eqn:E; [|discriminate]. intros H; injection H as <-.
  split; [lia|reflexivity].
Qed.
Lemma concat_all_some x l b : concat_all (x :: l) = Some b ->
  exists a c, x = Some a /\ concat_all l = Some c /\ b = a ++ c.
Proof. cbn. destruct x, (concat_all l); try discriminate. intros H; injection H as <-. eauto. Qed.
Lemma concat_all_nil b : concat_all [] = Some b -> b = [].
Proof. cbn. congruence. Qed.

Ltac unpack :=
  repeat match goal with
  | H : concat_all (_ :: _) = Some _ |- _ => apply concat_all_some in H as (? & ? & ? & ? & ?)
  | H : concat_all [] = Some _ |- _ => apply concat_all_nil in H
  | H : pack_B _ = Some _ |- _ => apply pack_B_some in H as [? ?]
  | H : pack_I _ = Some _ |- _ => apply pack_I_some in H as [? ?]
  | H : pack_i _ = Some _ |- _ => apply pack_i_some in H as [? ?]
  | H : pack_d _ = Some _ |- _ => unfold pack_d in H; injection H as H
  end; subst.

(** ** One temporal instruction *)
Lemma pack_tl_bytes t b : pack_tl t = Some b ->
  tl_fits t /\ b = tag_tl :: little 4 (tl_value1 t) ++ little 4 (tl_value2 t) ++ little 4 (tl_id t) ++
                   [tl_type1 t; tl_type2 t; tl_operator t].
Proof.
  unfold pack_tl. intros H. unpack. unfold tl_fits. split; [tauto|]. rewrite app_nil_r. reflexivity.
Qed.

Definition c_of (t : tl_instruction) : c_tl :=
  CTl (tl_value1 t) (tl_value2 t) (tl_id t) (tl_type1 t) (tl_type2 t) (tl_operator t).
Lemma same_c_of t : same_tl t (c_of t).
Proof. repeat split. Qed.

Lemma read_u32_little pre v l : word v -> read_u32 (pre ++ little 4 v ++ l) (List.length pre) = Some v.
Proof.
  intros H. unfold read_u32, low4. rewrite <- (Nat.add_0_r (List.length pre)) at 1. rewrite !byte_app.
  cbn [little app byte nth_error option_map]. rewrite sum4 by (unfold word in H; lia).
  rewrite wrap_u32, Z.mod_mod, Z.mod_small by (unfold word in H; lia). reflexivity.
Qed.
Lemma read_i32_little pre v l : word v -> read_i32 (pre ++ little 4 v ++ l) (List.length pre) = Some (wrap_int v).
Proof.
  intros H. unfold read_i32, low4. rewrite <- (Nat.add_0_r (List.length pre)) at 1. rewrite !byte_app.
  cbn [little app byte nth_error option_map]. rewrite sum4 by (unfold word in H; lia).
  rewrite Z.mod_small by (unfold word in H; lia). reflexivity.
Qed.
Lemma little_length n v : List.length (little n v) = n.
Proof. revert v; induction n; intros v; cbn; [reflexivity|]. rewrite IHn. reflexivity. Qed.

Lemma at_prefix (P : list Z -> nat -> Prop) spec k pre l :
  spec = pre ++ l -> k = List.length pre -> P (pre ++ l) (List.length pre) -> P spec k.
Proof. intros -> ->. auto. Qed.

Lemma read_tl_bytes t pre l : tl_fits t ->
  read_tl (pre ++ little 4 (tl_value1 t) ++ little 4 (tl_value2 t) ++ little 4 (tl_id t) ++
           [tl_type1 t; tl_type2 t; tl_operator t] ++ l) (List.length pre) = Some (c_of t).
Proof.
  intros (H1 & H2 & H3 & _). unfold read_tl.
  rewrite read_u32_little by assumption.
  assert (E2 : read_u32 (pre ++ little 4 (tl_value1 t) ++ little 4 (tl_value2 t) ++ little 4 (tl_id t) ++
           [tl_type1 t; tl_type2 t; tl_operator t] ++ l) (List.length pre + 4) = Some (tl_value2 t)).
  { eapply (at_prefix (fun s k => read_u32 s k = _) _ _ (pre ++ little 4 (tl_value1 t))); [rewrite <- app_assoc; reflexivity| |apply read_u32_little; assumption].
    rewrite app_length, little_length. lia. }
  rewrite E2.
  assert (E3 : read_u32 (pre ++ little 4 (tl_value1 t) ++ little 4 (tl_value2 t) ++ little 4 (tl_id t) ++
           [tl_type1 t; tl_type2 t; tl_operator t] ++ l) (List.length pre + 8) = Some (tl_id t)).
  { eapply (at_prefix (fun s k => read_u32 s k = _) _ _ (pre ++ little 4 (tl_value1 t) ++ little 4 (tl_value2 t)));
      [rewrite <- !app_assoc; reflexivity| |apply read_u32_little; assumption].
    rewrite !app_length, !little_length. lia. }
  rewrite E3, !byte_app. reflexivity.
Qed.

(** ** The action each instruction leads to *)
Definition u32_of (z : Z) : Z := z mod 2 ^ 32.
Definition float_bits (bits : Z) : Z := (wrap_int (bits mod 2 ^ 32) + (bits / 2 ^ 32) * 2 ^ 32) mod 2 ^ 64.
Definition low_word (o : bz_operand) : Z := match o with BzInt z => z mod 2 ^ 32 | BzFloat bits => bits mod 2 ^ 32 end.
Definition bits_of (o : bz_operand) : Z := match o with BzInt z => z mod 2 ^ 32 | BzFloat bits => bits end.
Definition result (i : instruction) : action :=
  match i with
  | ITl t => StoreTl (c_of t)
  | ICg t => Configure (c_of t)
  | IBz b =>
      if bz_operator b =? op_iconst then SetInt (bz_id b) (wrap_int (low_word (bz_operand1 b)))
      else if bz_operator b =? op_fconst then SetFloat (bz_id b) (float_bits (bits_of (bz_operand1 b)))
      else StoreBz (CBz (low_word (bz_operand1 b)) (bz_operand2 b) (bz_id b) (bz_operator b))
  end.

Lemma pack_bz_bytes b bs : pack_bz b = Some bs ->
  bz_fits b \/ (exists bits, bz_operand1 b = BzFloat bits).
Proof.
  unfold pack_bz. intros H. unpack. unfold bz_fits. destruct (bz_operand1 b) as [z|bits]; [|right; eauto]. left.
  destruct (bz_operator b =? op_iconst).
  - destruct (pack_I z) eqn:E; [|discriminate]. apply pack_I_some in E as [? _]. tauto.
  - destruct (pack_i z) eqn:E; [|discriminate]. apply pack_i_some in E as [? _]. tauto.
Qed.

Definition operand_bytes (b : bz_instruction) : list Z :=
  match bz_operand1 b with BzFloat bits => little 8 bits | BzInt z => little 4 (z mod 2 ^ 32) ++ pad4 end.
Lemma pack_bz_value b : bz_fits b ->
  pack_bz b = Some (tag_bz :: operand_bytes b ++ little 4 (bz_operand2 b) ++ little 4 (bz_id b) ++ [bz_operator b]).
Proof.
  intros (H1 & H2 & H3 & H4). unfold pack_bz, operand_bytes.
  assert (EI : forall v, word v -> pack_I v = Some (little 4 v)).
  { intros v Hv. unfold pack_I. unfold word in Hv. replace ((0 <=? v) && (v <? 2 ^ 32)) with true by lia. reflexivity. }
  assert (Ei : forall v, - 2 ^ 31 <= v < 2 ^ 31 -> pack_i v = Some (little 4 (v mod 2 ^ 32))).
  { intros v Hv. unfold pack_i. replace ((- 2 ^ 31 <=? v) && (v <? 2 ^ 31)) with true by lia. reflexivity. }
  assert (EB : forall v, small v -> pack_B v = Some [v]).
  { intros v Hv. unfold pack_B. unfold small in Hv. replace ((0 <=? v) && (v <? 256)) with true by lia. reflexivity. }
  rewrite (EI _ H2), (EI _ H3), (EB _ H4). change (pack_B tag_bz) with (Some [tag_bz]).
  destruct (bz_operand1 b) as [z|bits]; [|reflexivity].
  destruct (bz_operator b =? op_iconst).
  - rewrite (EI _ H1). rewrite (Z.mod_small z) by exact H1. reflexivity.
  - rewrite (Ei _ H1). reflexivity.
Qed.
Lemma pack_tl_value t : tl_fits t ->
  pack_tl t = Some (tag_tl :: little 4 (tl_value1 t) ++ little 4 (tl_value2 t) ++ little 4 (tl_id t) ++
                   [tl_type1 t; tl_type2 t; tl_operator t]).
Proof.
  intros (H1 & H2 & H3 & H4 & H5 & H6). unfold pack_tl.
  assert (EI : forall v, word v -> pack_I v = Some (little 4 v)).
  { intros v Hv. unfold pack_I. unfold word in Hv. replace ((0 <=? v) && (v <? 2 ^ 32)) with true by lia. reflexivity. }
  assert (EB : forall v, small v -> pack_B v = Some [v]).
  { intros v Hv. unfold pack_B. unfold small in Hv. replace ((0 <=? v) && (v <? 256)) with true by lia. reflexivity. }
  rewrite !EI, !EB by (assumption || (unfold small, tag_tl; lia)). reflexivity.
Qed.

Definition body (i : instruction) : list Z :=
  match i with
  | IBz b => tag_bz :: operand_bytes b ++ little 4 (bz_operand2 b) ++ little 4 (bz_id b) ++ [bz_operator b]
  | ITl t => tag_tl :: little 4 (tl_value1 t) ++ little 4 (tl_value2 t) ++ little 4 (tl_id t) ++
             [tl_type1 t; tl_type2 t; tl_operator t]
  | ICg t => tag_cg :: tag_tl :: little 4 (tl_value1 t) ++ little 4 (tl_value2 t) ++ little 4 (tl_id t) ++
             [tl_type1 t; tl_type2 t; tl_operator t]
  end.
Definition size (i : instruction) : nat := match i with IBz _ => 19 | ITl _ => 17 | ICg _ => 18 end.
Lemma operand_bytes_length b : List.length (operand_bytes b) = 8%nat.
Proof. unfold operand_bytes. destruct (bz_operand1 b); rewrite ?app_length, !little_length; reflexivity. Qed.
Lemma body_length i : S (List.length (body i)) = size i.
Proof.
  destruct i; cbn [body size List.length]; rewrite !app_length, ?operand_bytes_length, !little_length; reflexivity.
Qed.
Lemma pack_value i : fits i -> pack_instruction i = Some (Z.of_nat (size i) :: body i).
Proof.
  intros H. unfold pack_instruction.
  assert (E : (match i with IBz b => pack_bz b | ITl t => pack_tl t | ICg t => pack_cg t end) = Some (body i)).
  { destruct i as [b|t|t]; cbn [fits] in H.
    - apply pack_bz_value. assumption.
    - apply pack_tl_value. assumption.
    - unfold pack_cg. rewrite pack_tl_value by assumption. change (pack_B tag_cg) with (Some [tag_cg]).
      cbn [concat_all app]. rewrite app_nil_r. reflexivity. }
  rewrite E. replace (Z.of_nat (List.length (body i)) + 1) with (Z.of_nat (size i)) by (rewrite <- body_length; lia).
  destruct i; reflexivity.
Qed.

Lemma low4_little8 pre v l : 0 <= v -> low4 (pre ++ little 8 v ++ l) (List.length pre) = Some (v mod 2 ^ 32).
Proof.
  intros H. unfold low4. rewrite <- (Nat.add_0_r (List.length pre)) at 1. rewrite !byte_app.
  cbn [little app byte nth_error]. rewrite sum4 by assumption. reflexivity.
Qed.
Lemma read_f64_little pre v l : 0 <= v < 2 ^ 64 ->
  read_f64 (pre ++ little 8 v ++ l) (List.length pre) = Some (float_bits v).
Proof.
  intros H. unfold read_f64, float_bits, low4. rewrite <- (Nat.add_0_r (List.length pre)) at 1. rewrite !byte_app.
  cbn [little app byte nth_error]. rewrite sum4 by lia. f_equal. f_equal.
  rewrite !shl by lia. rewrite <- !Z.add_assoc. f_equal.
  change (2 ^ 40) with (256 * 2 ^ 32). change (2 ^ 48) with (65536 * 2 ^ 32). change (2 ^ 56) with (16777216 * 2 ^ 32).
  rewrite !Z.mul_assoc, <- !Z.mul_add_distr_r. f_equal.
  assert (E : v / 256 / 256 / 256 / 256 = v / 2 ^ 32).
  { rewrite !Zdiv.Zdiv_Zdiv by lia. reflexivity. }
  assert (Hw : 0 <= v / 2 ^ 32 < 2 ^ 32).
  { split; [apply Z.div_pos; lia|]. apply Z.div_lt_upper_bound; lia. }
  rewrite <- E in Hw |- *. pose proof (sum4 (v / 256 / 256 / 256 / 256)) as S4.
  rewrite !shl in S4 by lia. rewrite (Z.mod_small (v / 256 / 256 / 256 / 256) (2 ^ 32)) in S4 by exact Hw.
  change (2 ^ 8) with 256 in S4. change (2 ^ 16) with 65536 in S4. change (2 ^ 24) with 16777216 in S4. lia.
Qed.

Lemma load_one_value i l : fits i -> load_one (Z.of_nat (size i) :: body i ++ l) 0 = Some [result i].
Proof.
  intros H. unfold load_one. destruct i as [b|t|t]; cbn [fits] in H.
  - pose proof H as (H1 & H2 & H3 & H4).
    cbn [body app].
    set (spec := Z.of_nat (size (IBz b)) :: tag_bz :: (operand_bytes b ++ little 4 (bz_operand2 b) ++ little 4 (bz_id b) ++ [bz_operator b]) ++ l).
    set (hd := [Z.of_nat (size (IBz b)); tag_bz]).
    assert (EA : spec = hd ++ operand_bytes b ++ little 4 (bz_operand2 b) ++ little 4 (bz_id b) ++ [bz_operator b] ++ l).
    { unfold spec, hd. cbn [app]. rewrite <- !app_assoc. reflexivity. }
    assert (E2 : exists x, byte spec (0 + 2) = Some x).
    { destruct (byte spec (0 + 2)) eqn:E; [eauto|]. apply nth_error_None in E. unfold spec in E. cbn [List.length] in E.
      rewrite !app_length, operand_bytes_length in E. lia. }
    change (byte spec (0 + 1)) with (Some tag_bz). cbv beta iota.
    destruct E2 as [x ->]. change (tag_bz =? tag_cg) with false. cbn [andb]. change (tag_bz =? tag_bz) with true. cbv iota.
    assert (Er : read_bz spec 2 = Some (CBz (low_word (bz_operand1 b)) (bz_operand2 b) (bz_id b) (bz_operator b))).
    { unfold read_bz. rewrite EA.
      assert (R1 : read_u32 (hd ++ operand_bytes b ++ little 4 (bz_operand2 b) ++ little 4 (bz_id b) ++ [bz_operator b] ++ l) 2 = Some (low_word (bz_operand1 b))).
      { unfold operand_bytes. destruct (bz_operand1 b) as [z|bits].
        - rewrite <- !app_assoc. apply (read_u32_little hd). unfold word. apply Z.mod_pos_bound. reflexivity.
        - unfold read_u32. rewrite (low4_little8 hd) by lia. cbn [option_map low_word]. rewrite wrap_u32, Z.mod_mod by lia. reflexivity. }
      rewrite R1.
      assert (R2 : read_u32 (hd ++ operand_bytes b ++ little 4 (bz_operand2 b) ++ little 4 (bz_id b) ++ [bz_operator b] ++ l) (2 + 8) = Some (bz_operand2 b)).
      { eapply (at_prefix (fun s k => read_u32 s k = _) _ _ (hd ++ operand_bytes b));
          [rewrite <- !app_assoc; reflexivity| |apply read_u32_little; assumption].
        rewrite app_length, operand_bytes_length. reflexivity. }
      rewrite R2.
      assert (R3 : read_u32 (hd ++ operand_bytes b ++ little 4 (bz_operand2 b) ++ little 4 (bz_id b) ++ [bz_operator b] ++ l) (2 + 12) = Some (bz_id b)).
      { eapply (at_prefix (fun s k => read_u32 s k = _) _ _ (hd ++ operand_bytes b ++ little 4 (bz_operand2 b)));
          [rewrite <- !app_assoc; reflexivity| |apply read_u32_little; assumption].
        rewrite !app_length, operand_bytes_length, little_length. reflexivity. }
      rewrite R3.
      assert (R4 : byte (hd ++ operand_bytes b ++ little 4 (bz_operand2 b) ++ little 4 (bz_id b) ++ [bz_operator b] ++ l) (2 + 16) = Some (bz_operator b)).
      { eapply (at_prefix (fun s k => byte s k = _) _ _ (hd ++ operand_bytes b ++ little 4 (bz_operand2 b) ++ little 4 (bz_id b)));
          [rewrite <- !app_assoc; reflexivity| |].
        - rewrite !app_length, operand_bytes_length, !little_length. reflexivity.
        - rewrite <- (Nat.add_0_r (List.length _)). rewrite byte_app. reflexivity. }
      rewrite R4. reflexivity. }
    change (0 + 2)%nat with 2%nat. rewrite Er. cbn [c_bz_opcode c_bz_memref result].
    destruct (bz_operator b =? op_iconst) eqn:Ei; [|destruct (bz_operator b =? op_fconst) eqn:Ef; [|reflexivity]].
    + rewrite EA. unfold operand_bytes. destruct (bz_operand1 b) as [z|bits].
      * rewrite <- !app_assoc. rewrite (read_i32_little hd) by (unfold word; apply Z.mod_pos_bound; reflexivity). reflexivity.
      * unfold read_i32. rewrite (low4_little8 hd) by lia. reflexivity.
    + rewrite EA. unfold operand_bytes. destruct (bz_operand1 b) as [z|bits].
      * assert (Hp : 0 <= z mod 2 ^ 32 < 2 ^ 32) by (apply Z.mod_pos_bound; reflexivity).
        assert (EL : little 4 (z mod 2 ^ 32) ++ pad4 = little 8 (z mod 2 ^ 32)).
        { unfold pad4. cbn [little app]. repeat f_equal; change (2 ^ 32) with 4294967296 in *; Z.to_euclidean_division_equations; lia. }
        rewrite EL, (read_f64_little hd) by lia. reflexivity.
      * rewrite (read_f64_little hd) by assumption. reflexivity.
  - cbn [body app].
    set (tail := (little 4 (tl_value1 t) ++ little 4 (tl_value2 t) ++ little 4 (tl_id t) ++ [tl_type1 t; tl_type2 t; tl_operator t]) ++ l).
    assert (E2 : exists x, byte (Z.of_nat (size (ITl t)) :: tag_tl :: tail) (0 + 2) = Some x).
    { eexists. reflexivity. }
    change (byte (Z.of_nat (size (ITl t)) :: tag_tl :: tail) (0 + 1)) with (Some tag_tl). cbv beta iota.
    destruct E2 as [x ->]. change (tag_tl =? tag_cg) with false. change (tag_tl =? tag_bz) with false.
    change (tag_tl =? tag_tl) with true. cbn [andb]. cbv iota.
    assert (E : tail = little 4 (tl_value1 t) ++ little 4 (tl_value2 t) ++ little 4 (tl_id t) ++ [tl_type1 t; tl_type2 t; tl_operator t] ++ l)
      by (unfold tail; rewrite <- !app_assoc; reflexivity).
    rewrite E. change (0 + 2)%nat with (List.length [Z.of_nat (size (ITl t)); tag_tl]).
    pose proof (read_tl_bytes t [Z.of_nat (size (ITl t)); tag_tl] l H) as R. cbn [app] in R |- *.
    rewrite R. reflexivity.
  - cbn [body app].
    match goal with |- context [byte ?s (0 + 1)] =>
      change (byte s (0 + 1)) with (Some tag_cg); change (byte s (0 + 2)) with (Some tag_tl) end. cbv beta iota.
    change (tag_cg =? tag_cg) with true. change (tag_tl =? tag_tl) with true. cbn [andb]. cbv iota.
    rewrite <- !app_assoc.
    pose proof (read_tl_bytes t [Z.of_nat (size (ICg t)); tag_cg; tag_tl] l H) as R. cbn [app List.length] in R.
    change (0 + 3)%nat with 3%nat. cbn [app]. rewrite R. reflexivity.
Qed.

Lemma concat_values is : Forall fits is ->
  concat_all (map pack_instruction is) = Some (List.concat (map (fun i => Z.of_nat (size i) :: body i) is)).
Proof.
  induction 1 as [|i is Hi H IH]; [reflexivity|]. cbn [map concat_all]. rewrite pack_value, IH by assumption. reflexivity.
Qed.
Lemma load_loop_value tail : forall is pre fuel, Forall fits is -> (List.length is < fuel)%nat ->
  load_loop fuel (pre ++ List.concat (map (fun i => Z.of_nat (size i) :: body i) is) ++ 0 :: tail) (List.length pre) =
  Some (map result is).
Proof.
  induction is as [|i is IH]; intros pre fuel H Hf; destruct fuel as [|fuel]; try (cbn in Hf; lia); cbn [load_loop].
  - cbn [map List.concat app]. rewrite <- (Nat.add_0_r (List.length pre)), byte_app. reflexivity.
  - inversion H as [|? ? Hi Hr]; subst.
    cbn [map List.concat]. rewrite <- !app_assoc. cbn [app].
    assert (Eb : byte (pre ++ Z.of_nat (size i) :: body i ++ List.concat (map (fun i0 => Z.of_nat (size i0) :: body i0) is) ++ 0 :: tail) (List.length pre) = Some (Z.of_nat (size i))).
    { rewrite <- (Nat.add_0_r (List.length pre)), byte_app. reflexivity. }
    rewrite Eb.
    assert (E1 : load_one (pre ++ Z.of_nat (size i) :: body i ++ List.concat (map (fun i0 => Z.of_nat (size i0) :: body i0) is) ++ 0 :: tail) (List.length pre) = Some [result i]).
    { rewrite <- (Nat.add_0_r (List.length pre)), load_one_app. apply load_one_value. assumption. }
    rewrite E1.
    assert (E2 : load_loop fuel (pre ++ Z.of_nat (size i) :: body i ++ List.concat (map (fun i0 => Z.of_nat (size i0) :: body i0) is) ++ 0 :: tail)
                   (List.length pre + Z.to_nat (Z.of_nat (size i))) = Some (map result is)).
    { rewrite Nat2Z.id.
      eapply (at_prefix (fun s k => load_loop fuel s k = _) _ _ (pre ++ Z.of_nat (size i) :: body i));
        [rewrite <- app_assoc; reflexivity| |apply IH; [assumption|cbn in Hf; lia]].
      rewrite app_length. cbn [List.length]. rewrite body_length. reflexivity. }
    rewrite E2. destruct i; reflexivity.
Qed.

Lemma binary_packs is aux : Forall fits is -> exists bytes, assemble_binary is aux = Some bytes.
Proof. intros H. unfold assemble_binary. rewrite concat_values by assumption. eauto. Qed.
Lemma concat_long is : (List.length is <= List.length (List.concat (map (fun i => Z.of_nat (size i) :: body i) is)))%nat.
Proof. induction is as [|i is IH]; [cbn; lia|]. cbn [map List.concat List.length app]. rewrite app_length. lia. Qed.
Lemma load_value is aux bytes : Forall fits is -> assemble_binary is aux = Some bytes ->
  load bytes = Some (map result is).
Proof.
  intros H E. unfold assemble_binary in E. rewrite concat_values in E by assumption.
  apply (f_equal (fun o => match o with Some x => x | None => [] end)) in E. cbv beta iota in E. subst bytes.
  unfold load. generalize header. intros hd.
  cbn [byte nth_error].
  replace (Z.to_nat (Z.of_nat (List.length hd) + 1)) with (List.length (Z.of_nat (List.length hd) + 1 :: hd)) by (cbn [List.length]; lia).
  set (c := List.concat (map (fun i => Z.of_nat (size i) :: body i) is)).
  change ((Z.of_nat (List.length hd) + 1) :: hd ++ c ++ [0] ++ aux ++ [0]) with
    (((Z.of_nat (List.length hd) + 1) :: hd) ++ c ++ 0 :: (aux ++ [0])).
  apply load_loop_value; [assumption|]. rewrite !app_length. pose proof (concat_long is) as L. fold c in L. cbn [List.length]. lia.
Qed.

Lemma float_ok bits : 0 <= bits < 2 ^ 64 -> bits mod 2 ^ 32 < 2 ^ 31 -> float_bits bits = bits.
Proof.
  intros H H1. unfold float_bits. rewrite wrap_small by (split; [apply Z.mod_pos_bound; reflexivity|assumption]).
  pose proof (Z.div_mod bits (2 ^ 32)) as D. rewrite Z.mod_small; lia.
Qed.
Lemma float_wrong bits : 0 <= bits < 2 ^ 64 -> 2 ^ 31 <= bits mod 2 ^ 32 -> float_bits bits = (bits - 2 ^ 32) mod 2 ^ 64.
Proof.
  intros H H1. unfold float_bits. rewrite wrap_large by (split; [assumption|apply Z.mod_pos_bound; reflexivity]).
  pose proof (Z.div_mod bits (2 ^ 32)) as D. f_equal. lia.
Qed.
Lemma result_faithful i : fits i -> readable i -> faithful i (result i).
Proof.
  destruct i as [b|t|t]; cbn [fits readable result faithful]; [|intros; apply same_c_of|intros; apply same_c_of].
  intros (H1 & H2 & H3 & H4) H.
  destruct (bz_operator b =? op_iconst) eqn:Ei; [|destruct (bz_operator b =? op_fconst) eqn:Ef].
  - destruct H as (z & Ez & Hz). rewrite Ez in *. cbn [low_word]. unfold word in H1.
    rewrite Z.mod_small, wrap_small by lia. split; [apply Z.eqb_eq; assumption|auto].
  - destruct H as (bits & Eb & Hb). rewrite Eb in *. cbn [bits_of]. rewrite float_ok by assumption.
    split; [apply Z.eqb_eq; assumption|auto].
  - destruct H as (z & Ez & Hz). rewrite Ez in *. cbn [low_word]. cbn.
    split; [apply Z.eqb_neq; assumption|]. split; [apply Z.eqb_neq; assumption|]. rewrite Z.mod_small by lia. auto.
Qed.
Lemma load_faithful is aux bytes : Forall fits is -> Forall readable is -> assemble_binary is aux = Some bytes ->
  exists acts, load bytes = Some acts /\ Forall2 faithful is acts.
Proof.
  intros Hf Hr E. exists (map result is). split; [apply (load_value is aux bytes Hf E)|].
  clear E. induction Hf as [|i is Hi Hf IH]; inversion Hr; subst; constructor; auto using result_faithful.
Qed.

Lemma pack_negative op2 id z : z < 0 -> pack_instruction (IBz (BzInstruction op_iconst (BzInt z) op2 id)) = None.
Proof.
  intros H. unfold pack_instruction, pack_bz. cbn [bz_operator bz_operand1 bz_operand2 bz_id].
  change (op_iconst =? op_iconst) with true. cbv iota. unfold pack_I at 1.
  replace (0 <=? z) with false by lia. reflexivity.
Qed.
Lemma concat_none l : In None l -> concat_all l = None.
Proof.
  induction l as [|x l IH]; [easy|]. intros [->|H]; cbn; [reflexivity|]. rewrite (IH H). destruct x; reflexivity.
Qed.
Lemma binary_negative is aux op2 id z : In (IBz (BzInstruction op_iconst (BzInt z) op2 id)) is -> z < 0 ->
  assemble_binary is aux = None.
Proof.
  intros Hin H. unfold assemble_binary. rewrite concat_none; [reflexivity|].
  apply in_map_iff. eexists. split; [|exact Hin]. apply pack_negative. assumption.
Qed.

(** ** Refusals *)
Definition float_valid (i : instruction) : Prop :=
  match i with IBz b => match bz_operand1 b with BzFloat bits => 0 <= bits < 2 ^ 64 | _ => True end | _ => True end.
Lemma pack_fits i bs : float_valid i -> pack_instruction i = Some bs -> fits i.
Proof.
  unfold pack_instruction. destruct i as [b|t|t]; cbn [float_valid fits].
  - destruct (pack_bz b) as [x|] eqn:E; [|discriminate]. intros Hv _.
    unfold bz_fits. destruct (bz_operand1 b) as [z|bits] eqn:Eo.
    + destruct (pack_bz_bytes b x E) as [Hf|[bits Hb]]; [|congruence].
      unfold bz_fits in Hf. rewrite Eo in Hf. exact Hf.
    + unfold pack_bz in E. rewrite Eo in E. unpack. tauto.
  - destruct (pack_tl t) eqn:E; [|discriminate]. intros _ _. apply (pack_tl_bytes t _ E).
  - unfold pack_cg. destruct (concat_all [pack_B tag_cg; pack_tl t]) eqn:E; [|discriminate]. intros _ _.
    apply concat_all_some in E as (? & ? & _ & E & _). apply concat_all_some in E as (? & ? & E & _ & _).
    apply (pack_tl_bytes t _ E).
Qed.
Lemma concat_all_each l b : concat_all l = Some b -> Forall (fun x => exists y, x = Some y) l.
Proof.
  revert b; induction l as [|x l IH]; intros b E; constructor; apply concat_all_some in E as (? & ? & -> & E & _); eauto.
Qed.
Lemma binary_iff_fits is aux : Forall float_valid is ->
  (exists bytes, assemble_binary is aux = Some bytes) <-> Forall fits is.
Proof.
  intros Hv. split; [|apply binary_packs]. intros [bytes E]. unfold assemble_binary in E.
  destruct (concat_all (map pack_instruction is)) as [c|] eqn:Ec; [|discriminate].
  apply concat_all_each in Ec. rewrite Forall_map in Ec. rewrite Forall_forall in *. intros i Hi.
  destruct (Ec i Hi) as [y Ey]. exact (pack_fits i y (Hv i Hi) Ey).
Qed.

Lemma in_actions is aux bytes i : Forall fits is -> assemble_binary is aux = Some bytes -> In i is ->
  exists acts, load bytes = Some acts /\ In (result i) acts.
Proof. intros H E Hi. eexists. split; [apply (load_value is aux bytes H E)|]. apply in_map. exact Hi. Qed.

Lemma accepted_range z : constant_accepted 32 true z = true <-> - 2 ^ 31 < z < 2 ^ 31.
Proof.
  unfold constant_accepted, bit_length. destruct (z =? 0) eqn:E.
  - apply Z.eqb_eq in E. subst. cbn. split; [lia|reflexivity].
  - apply Z.eqb_neq in E. rewrite Z.leb_le. change (32 - 1) with 31.
    assert (A : Z.log2 (Z.abs z) < 31 <-> Z.abs z < 2 ^ 31) by (symmetry; apply Z.log2_lt_pow2; lia). lia.
Qed.
Lemma int_constant_loaded is aux bytes id z : Forall fits is -> assemble_binary is aux = Some bytes ->
  In (int_constant id z) is -> 0 <= z < 2 ^ 31 ->
  exists acts, load bytes = Some acts /\ In (SetInt id z) acts.
Proof.
  intros H E Hi Hz. destruct (in_actions _ _ _ _ H E Hi) as (acts & L & I). exists acts. split; [exact L|].
  unfold int_constant, result in I. cbn [bz_operator bz_operand1 bz_id low_word] in I.
  change (op_iconst =? op_iconst) with true in I. cbv iota in I. rewrite Z.mod_small, wrap_small in I by lia. exact I.
Qed.
Lemma large_constant_loaded is aux bytes id z : Forall fits is -> assemble_binary is aux = Some bytes ->
  In (int_constant id z) is -> 2 ^ 31 <= z < 2 ^ 32 ->
  exists acts, load bytes = Some acts /\ In (SetInt id (z - 2 ^ 32)) acts.
Proof.
  intros H E Hi Hz. destruct (in_actions _ _ _ _ H E Hi) as (acts & L & I). exists acts. split; [exact L|].
  unfold int_constant, result in I. cbn [bz_operator bz_operand1 bz_id low_word] in I.
  change (op_iconst =? op_iconst) with true in I. cbv iota in I. rewrite Z.mod_small, wrap_large in I by lia. exact I.
Qed.
Lemma float_constant_loaded is aux bytes id bits : Forall fits is -> assemble_binary is aux = Some bytes ->
  In (float_constant id bits) is ->
  exists acts, load bytes = Some acts /\
    In (SetFloat id (if bits mod 2 ^ 32 <? 2 ^ 31 then bits else (bits - 2 ^ 32) mod 2 ^ 64)) acts.
Proof.
  intros H E Hi. destruct (in_actions _ _ _ _ H E Hi) as (acts & L & I). exists acts. split; [exact L|].
  rewrite Forall_forall in H. specialize (H _ Hi). destruct H as (Hb & _). cbn in Hb.
  unfold float_constant, result in I. cbn [bz_operator bz_operand1 bz_id bits_of] in I.
  change (op_fconst =? op_iconst) with false in I. change (op_fconst =? op_fconst) with true in I. cbv iota in I.
  destruct (bits mod 2 ^ 32 <? 2 ^ 31) eqn:Eb.
  - rewrite float_ok in I by lia. exact I.
  - rewrite float_wrong in I by lia. exact I.
Qed.
Lemma load_temporal is aux bytes : Forall fits is -> assemble_binary is aux = Some bytes ->
  exists acts, load bytes = Some acts /\
    Forall2 (fun i a => match i with IBz _ => True | _ => faithful i a end) is acts.
Proof.
  intros Hf E. exists (map result is). split; [apply (load_value is aux bytes Hf E)|].
  clear Hf E. induction is as [|i is IH]; constructor; [|exact IH].
  destruct i; [exact I|apply same_c_of|apply same_c_of].
Qed.
Lemma accepted_loaded is aux id z :
  (forall i, In i is -> i <> int_constant id z -> fits i) -> word id -> In (int_constant id z) is ->
  constant_accepted 32 true z = true -> 0 <= z ->
  exists bytes acts, assemble_binary is aux = Some bytes /\ load bytes = Some acts /\ In (SetInt id z) acts.
Proof.
  intros H Hid Hin Ha Hz. apply accepted_range in Ha.
  assert (Hf : Forall fits is).
  { apply Forall_forall. intros i Hi.
    assert (D : i = int_constant id z \/ i <> int_constant id z).
    { destruct i as [[o [v|v] q k]|t|t]; unfold int_constant; try (right; discriminate).
      destruct (Z.eq_dec o op_iconst) as [->|]; [|right; congruence].
      destruct (Z.eq_dec v z) as [->|]; [|right; congruence].
      destruct (Z.eq_dec q 0) as [->|]; [|right; congruence].
      destruct (Z.eq_dec k id) as [->|]; [|right; congruence]. left; reflexivity. }
    destruct D as [->|D]; [|auto]. unfold fits, bz_fits, int_constant. cbn [bz_operand1 bz_operand2 bz_operator bz_id].
    change (op_iconst =? op_iconst) with true. cbv iota. unfold word, small, op_iconst in *. lia. }
  destruct (binary_packs is aux Hf) as [bytes E]. exists bytes.
  destruct (int_constant_loaded is aux bytes id z Hf E Hin) as (acts & L & I); [lia|]. eauto.
Qed.
Lemma unsigned_loaded is aux bytes id z :
  Forall fits is -> assemble_binary is aux = Some bytes -> In (int_constant id z) is -> 2 ^ 31 <= z < 2 ^ 32 ->
  constant_accepted 32 false z = true /\ exists acts, load bytes = Some acts /\ In (SetInt id (z - 2 ^ 32)) acts.
Proof.
  intros Hf E Hin Hz. split; [|eapply large_constant_loaded; eassumption].
  unfold constant_accepted, bit_length. replace (z =? 0) with false by lia. apply Z.leb_le. change (32 - 0) with 32.
  assert (A : Z.log2 (Z.abs z) < 32) by (apply Z.log2_lt_pow2; lia). lia.
Qed.
