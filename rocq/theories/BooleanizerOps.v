(** * Operators of the booleanizer against their specification (proofs) *)
From Coq Require Import List ZArith Bool Lia.
Require Import Verif.Graph Verif.Binary Verif.Assembly Verif.Booleanizer Verif.BooleanizerSpec.
Import ListNotations.
Local Open Scope Z_scope.

Lemma wrap_int32 z : int32 (wrap_int z).
Proof. unfold int32, wrap_int. pose proof (Z.mod_pos_bound (z + 2 ^ 31) (2 ^ 32) ltac:(lia)). lia. Qed.
Lemma wrap_wraps z : wraps (wrap_int z) z.
Proof.
  split; [apply wrap_int32|]. unfold wrap_int. exists ((z + 2 ^ 31) / 2 ^ 32).
  pose proof (Z.div_mod (z + 2 ^ 31) (2 ^ 32) ltac:(lia)). lia.
Qed.
Lemma wraps_unique v w z : wraps v z -> wraps w z -> v = w.
Proof. unfold wraps, int32. intros [H1 [k1 E1]] [H2 [k2 E2]]. nia. Qed.
Lemma wrap_id z : int32 z -> wrap_int z = z.
Proof. intros H. apply (wraps_unique _ _ z); [apply wrap_wraps|]. split; [assumption|]. exists 0. lia. Qed.
Lemma as_int_set c z : int32 z -> as_int (set_int c z) = z.
Proof.
  intros H. unfold as_int. apply (wraps_unique _ _ (set_int c z)); [apply wrap_wraps|]. split; [assumption|].
  unfold set_int. exists (c / 2 ^ 32 - z / 2 ^ 32).
  pose proof (Z.div_mod c (2 ^ 32) ltac:(lia)). pose proof (Z.div_mod z (2 ^ 32) ltac:(lia)). lia.
Qed.
Lemma as_int32 c : int32 (as_int c).
Proof. apply wrap_int32. Qed.

Lemma truth_says b P : (b = true <-> P) -> says (truth b) P.
Proof. unfold says, truth. destruct b; intuition congruence. Qed.
Lemma truth_int32 b : int32 (truth b).
Proof. unfold int32, truth. destruct b; lia. Qed.
Lemma says_unique v w P : says v P -> says w P -> v = w.
Proof. unfold says. intuition congruence. Qed.
Lemma says_int32 v P : says v P -> int32 v.
Proof. unfold says, int32. lia. Qed.

Lemma int32_shift z : int32 z <-> Z.shiftr z 31 = 0 \/ Z.shiftr z 31 = -1.
Proof.
  unfold int32. rewrite Z.shiftr_div_pow2 by lia. pose proof (Z.div_mod z (2 ^ 31) ltac:(lia)).
  pose proof (Z.mod_pos_bound z (2 ^ 31) ltac:(lia)). lia.
Qed.
Lemma land_int32 a b : int32 a -> int32 b -> int32 (Z.land a b).
Proof. rewrite !int32_shift, Z.shiftr_land. intros [-> | ->] [-> | ->]; cbn; auto. Qed.
Lemma lor_int32 a b : int32 a -> int32 b -> int32 (Z.lor a b).
Proof. rewrite !int32_shift, Z.shiftr_lor. intros [-> | ->] [-> | ->]; cbn; auto. Qed.
Lemma lxor_int32 a b : int32 a -> int32 b -> int32 (Z.lxor a b).
Proof. rewrite !int32_shift, Z.shiftr_lxor. intros [-> | ->] [-> | ->]; cbn; auto. Qed.

Lemma quot_spec a b : b <> 0 -> exists r, a = b * Z.quot a b + r /\ Z.abs r < Z.abs b /\ 0 <= r * a /\ r = Z.rem a b.
Proof.
  intros H. exists (Z.rem a b). pose proof (Z.quot_rem a b H). pose proof (Z.rem_bound_abs a b H).
  pose proof (Z.rem_sign_nz a b H). split; [assumption|]. split; [assumption|]. split; [|reflexivity].
  destruct (Z.eq_dec (Z.rem a b) 0) as [->|E]; [lia|]. specialize (H2 E).
  destruct (Z.sgn_spec a) as [[? Ea]|[[? Ea]|[? Ea]]]; destruct (Z.sgn_spec (Z.rem a b)) as [[? Er]|[[? Er]|[? Er]]]; nia.
Qed.
Lemma quot_unique a b q r q' r' : b <> 0 -> a = b * q + r -> Z.abs r < Z.abs b -> 0 <= r * a ->
  a = b * q' + r' -> Z.abs r' < Z.abs b -> 0 <= r' * a -> q = q' /\ r = r'.
Proof.
  intros Hb E1 B1 S1 E2 B2 S2.
  assert (R : Z.abs (r - r') < Z.abs b).
  { destruct (Z.lt_trichotomy a 0) as [Ha|[->|Ha]]; [nia| |nia].
    assert (Z0 : forall p x, 0 = b * p + x -> Z.abs x < Z.abs b -> x = 0).
    { intros p x E B. destruct (Z.eq_dec p 0) as [->|N]; [lia|]. exfalso.
      assert (Z.abs b <= Z.abs (b * p)) by (rewrite Z.abs_mul; nia). lia. }
    rewrite (Z0 q r E1 B1), (Z0 q' r' E2 B2). lia. }
  assert (Hq : b * (q - q') = r' - r) by lia.
  assert (q - q' = 0); [|nia].
  destruct (Z.eq_dec (q - q') 0) as [|N]; [assumption|]. exfalso.
  assert (Z.abs b <= Z.abs (b * (q - q'))) by (rewrite Z.abs_mul; nia). lia.
Qed.

(** ** The specified operators are functions *)
Lemma unary_int_unique o a c c' : unary_int o a c -> unary_int o a c' -> c = c'.
Proof.
  destruct o; cbn [unary_int]; try (apply wraps_unique).
  - lia.
  - intros (H & H1 & H2 & H3) (_ & H4 & H5 & H6). nia.
Qed.
Lemma binary_int_unique o a b c c' : binary_int o a b c -> binary_int o a b c' -> c = c'.
Proof.
  destruct o; cbn [binary_int]; try apply wraps_unique; try apply says_unique.
  - intros (_ & r & E1 & B1 & S1) (_ & r' & E2 & B2 & S2).
    apply (quot_unique a b c r c' r'); try assumption. lia.
  - intros (q & _ & E1 & B1 & S1) (q' & _ & E2 & B2 & S2).
    apply (quot_unique a b q c q' c'); try assumption. lia.
  - intros [_ H1] [_ H2]. lia.
  - intros H1 H2. apply Z.bits_inj'. intros i Hi. rewrite (H1 i Hi), (H2 i Hi). reflexivity.
  - intros H1 H2. apply Z.bits_inj'. intros i Hi. rewrite (H1 i Hi), (H2 i Hi). reflexivity.
  - intros H1 H2. apply Z.bits_inj'. intros i Hi. rewrite (H1 i Hi), (H2 i Hi). reflexivity.
Qed.
Lemma yields_unique F inp t e v : yields F inp t e v -> forall w, yields F inp t e w -> v = w.
Proof.
  induction 1; intros w Hw; inversion Hw; subst; try reflexivity;
    repeat match goal with
    | I : forall w, yields _ _ ?t ?e w -> _, H : yields _ _ ?t ?e _ |- _ => apply I in H; try discriminate H
    end;
    repeat match goal with
    | E : VInt _ = VInt _ |- _ => injection E as E; subst
    | E : VFloat _ = VFloat _ |- _ => injection E as E; subst
    end; subst; try congruence.
  - f_equal. eapply unary_int_unique; eassumption.
  - f_equal. eapply binary_int_unique; eassumption.
Qed.

(** ** The instructions compute them *)
Lemma in_int_some z c : in_int z = Some c <-> c = z /\ int32 z.
Proof.
  unfold in_int, int32. destruct (- 2 ^ 31 <=? z) eqn:E1; destruct (z <? 2 ^ 31) eqn:E2; cbn;
    split; intros H; try discriminate; try (injection H as <-); try (destruct H as [-> H]); try reflexivity;
    try (split; [reflexivity|]); try lia.
Qed.

Lemma exec_unary_int o code : unary_code o true = Some code ->
  exists o', bz_decode code = Some (IntUn o') /\ forall a, int32 a ->
    (forall c, int_unary o' a = Some c -> int32 c /\ unary_int o a c) /\
    (forall c, unary_int o a c -> exists c', int_unary o' a = Some c').
Proof.
  destruct o; intros E; injection E as <-; eexists; (split; [vm_compute; reflexivity|]); intros a Ha; cbn [int_unary unary_int].
  - split; [|intros; eexists; reflexivity]. intros c Ec. injection Ec as <-. split; [apply wrap_int32|apply wrap_wraps].
  - split; [|intros; eexists; reflexivity]. intros c Ec. injection Ec as <-. unfold Z.lnot, int32 in *. lia.
  - destruct (a <? 0) eqn:El.
    + split; [discriminate|]. intros c H. lia.
    + split; [|intros; eexists; reflexivity]. intros c Ec. injection Ec as <-.
      pose proof (Z.sqrt_spec a ltac:(lia)). pose proof (Z.sqrt_nonneg a). unfold int32 in *. cbv zeta in H. nia.
  - split; [|intros; eexists; reflexivity]. intros c Ec.
    apply (f_equal (fun o => match o with Some x => x | None => 0 end)) in Ec. cbv beta iota in Ec. subst c.
    destruct (a <? 0) eqn:El.
    + replace (Z.abs a) with (-1 * a) by lia. split; [apply wrap_int32|apply wrap_wraps].
    + replace (Z.abs a) with a by lia. split; [assumption|]. split; [assumption|]. exists 0. lia.
Qed.

Lemma exec_binary_int o code : binary_code o true = Some code ->
  exists o', bz_decode code = Some (IntBin o') /\ forall a b, int32 a -> int32 b ->
    (forall c, int_binary o' a b = Some c -> int32 c /\ binary_int o a b c) /\
    (forall c, binary_int o a b c -> exists c', int_binary o' a b = Some c').
Proof.
  assert (S : forall b c P, Some (truth b) = Some c -> (b = true <-> P) -> int32 c /\ says c P).
  { intros b c P Ec Hb. injection Ec as <-. split; [apply truth_int32|apply truth_says, Hb]. }
  destruct o; intros E; injection E as <-; eexists; (split; [vm_compute; reflexivity|]); intros a b Ha Hb; cbn [int_binary binary_int].
  1-3: split; [|intros; eexists; reflexivity]; intros c Ec; injection Ec as <-; (split; [apply wrap_int32|apply wrap_wraps]).
  7-12: split; [|intros; eexists; reflexivity]; intros c Ec; eapply S; [exact Ec|]; rewrite ?negb_true_iff; lia.
  - destruct (b =? 0) eqn:Eb.
    + split; [discriminate|]. intros c (_ & r & E & B & _). lia.
    + destruct (quot_spec a b ltac:(lia)) as (r & E1 & B1 & S1 & _). split.
      * intros c Ec. apply in_int_some in Ec as [-> Hi]. split; [assumption|]. split; [assumption|]. eauto.
      * intros c (Hi & r' & E2 & B2 & S2).
        destruct (quot_unique a b c r' (Z.quot a b) r ltac:(lia) E2 B2 S2 E1 B1 S1) as [-> _].
        exists (Z.quot a b). apply in_int_some. auto.
  - destruct (b =? 0) eqn:Eb.
    + split; [discriminate|]. intros c (q & _ & E & B & _). lia.
    + destruct (quot_spec a b ltac:(lia)) as (r & E1 & B1 & S1 & Er). cbn [orb].
      assert (Q : int32 (Z.quot a b) <-> (a =? - 2 ^ 31) && (b =? -1) = false).
      { unfold int32 in *. split.
        - intros Hq. apply andb_false_iff. destruct (Z.eq_dec b (-1)) as [->|]; [left|right; lia]. nia.
        - intros Hf. apply andb_false_iff in Hf.
          destruct (Z.eq_dec b (-1)) as [->|]; [nia|]. destruct (Z.eq_dec b 1) as [->|]; [nia|].
          assert (2 <= Z.abs b) by lia. assert (Z.abs (Z.quot a b) * 2 <= Z.abs a + Z.abs b) by nia. nia. }
      destruct ((a =? - 2 ^ 31) && (b =? -1)) eqn:Ex.
      * split; [discriminate|]. intros c (q & Hi & E2 & B2 & S2).
        destruct (quot_unique a b q c (Z.quot a b) r ltac:(lia) E2 B2 S2 E1 B1 S1) as [-> _]. apply Q in Hi. discriminate.
      * split; [|intros; eexists; reflexivity]. intros c Ec.
        apply (f_equal (fun o => match o with Some x => x | None => 0 end)) in Ec. cbv beta iota in Ec. subst c. rewrite <- Er. split.
        -- unfold int32 in *. lia.
        -- exists (Z.quot a b). split; [apply Q; reflexivity|auto].
  - unfold int_pow. destruct (0 <=? b) eqn:Eb.
    + split.
      * intros c Ec. apply in_int_some in Ec as [-> Hi]. split; [assumption|]. split; [assumption|]. left. split; [lia|reflexivity].
      * intros c [Hi [[_ ->]|[? _]]]; [|lia]. exists (a ^ b). apply in_int_some. auto.
    + destruct (a =? 0) eqn:E0.
      { split; [discriminate|]. intros c [_ [[? _]|[_ H]]]; lia. }
      assert (Hp : (-1) ^ (- b) = if Z.even b then 1 else -1).
      { rewrite <- (Z.even_opp b). assert (0 <= - b) by lia. generalize dependent (- b). intros m Hm.
        pose proof (Z.even_spec m) as He. destruct (Z.even m) eqn:Em.
        - destruct (proj1 He eq_refl) as [k ->]. rewrite Z.pow_mul_r by lia. apply Z.pow_1_l. lia.
        - assert (Ho : Z.odd m = true) by (rewrite <- Z.negb_even, Em; reflexivity).
          apply Z.odd_spec in Ho as [k ->]. rewrite Z.pow_add_r, Z.pow_mul_r by lia.
          change ((-1) ^ 2) with 1. rewrite Z.pow_1_l by lia. reflexivity. }
      destruct (a =? 1) eqn:Ea1; [|destruct (a =? -1) eqn:Ea2].
      * split; [|intros; eexists; reflexivity]. intros c Ec. injection Ec as <-. unfold int32. split; [lia|]. split; [lia|]. right. lia.
      * split; [|intros; eexists; reflexivity]. intros c Ec.
        apply (f_equal (fun o => match o with Some x => x | None => 0 end)) in Ec. cbv beta iota in Ec. subst c. rewrite <- Hp.
        assert (int32 ((-1) ^ (- b))) by (rewrite Hp; destruct (Z.even b); unfold int32; lia).
        split; [assumption|]. split; [assumption|]. right. split; [lia|]. right. left. split; [lia|reflexivity].
      * split; [|intros; eexists; reflexivity]. intros c Ec. injection Ec as <-. unfold int32. split; [lia|]. split; [lia|]. right. lia.
  - split; [|intros; eexists; reflexivity]. intros c Ec. injection Ec as <-. split; [apply land_int32; assumption|]. intros i _. apply Z.land_spec.
  - split; [|intros; eexists; reflexivity]. intros c Ec. injection Ec as <-. split; [apply lor_int32; assumption|]. intros i _. apply Z.lor_spec.
  - split; [|intros; eexists; reflexivity]. intros c Ec. injection Ec as <-. split; [apply lxor_int32; assumption|]. intros i _. apply Z.lxor_spec.
Qed.

Lemma exec_unary_float F o code : unary_code o false = Some code ->
  exists o', bz_decode code = Some (FltUn o') /\ forall a, unary_float F o a = Some (flt_unary F o' a).
Proof. destruct o; intros E; try discriminate; injection E as <-; eexists; (split; [vm_compute; reflexivity|]); reflexivity. Qed.

Lemma exec_binary_float F o code : binary_code o false = Some code ->
  if relational o
  then exists o', bz_decode code = Some (FltCmp o') /\ forall a b, binary_float F o a b = Some (VInt (truth (flt_compare F o' a b)))
  else exists o', bz_decode code = Some (FltBin o') /\ forall a b, binary_float F o a b = Some (VFloat (flt_binary F o' a b)).
Proof.
  destruct o; intros E; try discriminate; injection E as <-; cbn [relational]; eexists; (split; [vm_compute; reflexivity|]);
    intros a b; cbn [binary_float flt_compare flt_binary]; unfold close, truth; try reflexivity;
    destruct (f_lt F b a); cbn; destruct (f_lt F _ _); reflexivity.
Qed.
