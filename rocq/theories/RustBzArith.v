(** * The arithmetic of the Rust booleanizer against its specification (proofs) *)
From Coq Require Import List ZArith Bool Lia.
Require Import Verif.Binary Verif.Booleanizer Verif.BooleanizerSpec Verif.BooleanizerOps Verif.RustBooleanizer Verif.RustBzSpec.
Import ListNotations.
Local Open Scope Z_scope.

Lemma nearest_same z : int32 z -> nearest z z.
Proof. intros H. split; [exact H|]. intros c _. lia. Qed.
Lemma nearest_low z : z < int_min -> nearest int_min z.
Proof. unfold nearest, int32, int_min. intros H. split; [lia|]. intros c Hc. lia. Qed.
Lemma nearest_high z : int_max < z -> nearest int_max z.
Proof. unfold nearest, int32, int_max. intros H. split; [lia|]. intros c Hc. lia. Qed.
Lemma nearest_unique c c' z : nearest c z -> nearest c' z -> c = c'.
Proof.
  unfold nearest, int32. intros [I M] [I' M'].
  destruct (Z_lt_le_dec z (- 2 ^ 31)) as [L|L].
  - pose proof (M (- 2 ^ 31) ltac:(lia)). pose proof (M' (- 2 ^ 31) ltac:(lia)). lia.
  - destruct (Z_lt_le_dec z (2 ^ 31)) as [U|U].
    + pose proof (M z ltac:(lia)). pose proof (M' z ltac:(lia)). lia.
    + pose proof (M (2 ^ 31 - 1) ltac:(lia)). pose proof (M' (2 ^ 31 - 1) ltac:(lia)). lia.
Qed.
Lemma nearest_exact c z : nearest c z -> int32 z -> c = z.
Proof. intros N H. apply (nearest_unique c z z N), nearest_same, H. Qed.
Lemma in_int_none z : in_int z = None <-> ~ int32 z.
Proof.
  unfold in_int, int32. destruct (- 2 ^ 31 <=? z) eqn:E1; destruct (z <? 2 ^ 31) eqn:E2; cbn;
    split; intros H; try discriminate; try reflexivity; lia.
Qed.
Lemma in_int_ok z : int32 z -> in_int z = Some z.
Proof. intros H. apply in_int_some. auto. Qed.

(** ** Powers *)
Lemma pow_loop_value e : forall acc base, int32 acc -> int32 base -> (base = 0 \/ acc <> 0) -> (Z.abs base <= 1 -> Z.abs acc <= 1) ->
  checked_pow_loop acc base e = in_int (acc * base ^ Zpos e).
Proof.
  assert (Sq : forall base, in_int (base * base) = None -> 46341 <= Z.abs base).
  { intros base H. apply in_int_none in H. unfold int32 in H. nia. }
  assert (Big : forall x y, 2 ^ 31 < Z.abs x -> y <> 0 -> ~ int32 (x * y)).
  { unfold int32. intros x y Hx Hy H. assert (Z.abs x <= Z.abs (x * y)) by (rewrite Z.abs_mul; nia). lia. }
  induction e as [e IH|e IH|]; intros acc base Ia Ib Nz Un; cbn [checked_pow_loop].
  - assert (Ep : base ^ Zpos e~1 = base * (base * base) ^ Zpos e).
    { rewrite Pos2Z.inj_xI, Z.pow_add_r, Z.pow_mul_r, Z.pow_1_r, Z.pow_2_r by lia. ring. }
    assert (Es : 0 <= Z.abs base) by lia.
    destruct (in_int (acc * base)) as [acc'|] eqn:E1.
    + apply in_int_some in E1 as [-> I1]. destruct (in_int (base * base)) as [b|] eqn:E2.
      * apply in_int_some in E2 as [-> I2]. rewrite IH; [f_equal; rewrite Ep; ring|assumption|assumption|nia|nia].
      * symmetry. apply in_int_none. apply Sq in E2. rewrite Ep.
        assert (Nb : (base * base) ^ (Zpos e - 1) <> 0) by (apply Z.pow_nonzero; nia).
        replace (Zpos e) with (Z.succ (Zpos e - 1)) by lia. rewrite Z.pow_succ_r by lia.
        replace (acc * (base * (base * base * (base * base) ^ (Z.pos e - 1)))) with
          ((base * base) * (acc * base * (base * base) ^ (Z.pos e - 1))) by ring.
        apply Big; [rewrite Z.abs_mul; nia|]. destruct Nz as [->|Nz]; [cbn in E2; lia|]. nia.
    + symmetry. apply in_int_none. apply in_int_none in E1. rewrite Ep.
      assert (B2 : 2 <= Z.abs base).
      { destruct (Z_le_gt_dec (Z.abs base) 1) as [L|L]; [|lia]. exfalso. apply E1. specialize (Un L). unfold int32. nia. }
      assert (Na : acc <> 0) by (destruct Nz; lia).
      assert (Nb : (base * base) ^ (Zpos e - 1) <> 0) by (apply Z.pow_nonzero; nia).
      replace (Zpos e) with (Z.succ (Zpos e - 1)) by lia. rewrite Z.pow_succ_r by lia.
      replace (acc * (base * (base * base * (base * base) ^ (Z.pos e - 1)))) with
        ((acc * base * base) * (base * (base * base) ^ (Z.pos e - 1))) by ring.
      apply Big; [|nia]. assert (2 ^ 31 <= Z.abs (acc * base)) by (unfold int32 in E1; lia). rewrite Z.abs_mul. nia.
  - assert (Ep : base ^ Zpos e~0 = (base * base) ^ Zpos e).
    { rewrite Pos2Z.inj_xO, Z.pow_mul_r, Z.pow_2_r by lia. ring. }
    destruct (in_int (base * base)) as [b|] eqn:E2.
    + apply in_int_some in E2 as [-> I2]. rewrite IH; [rewrite Ep; reflexivity|assumption|assumption|nia|nia].
    + symmetry. apply in_int_none. apply Sq in E2. rewrite Ep.
      assert (Nb : (base * base) ^ (Zpos e - 1) <> 0) by (apply Z.pow_nonzero; nia).
      replace (Zpos e) with (Z.succ (Zpos e - 1)) by lia. rewrite Z.pow_succ_r by lia.
      replace (acc * (base * base * (base * base) ^ (Z.pos e - 1))) with
        ((base * base) * (acc * (base * base) ^ (Z.pos e - 1))) by ring.
      apply Big; [rewrite Z.abs_mul; nia|]. destruct Nz as [->|Nz]; [cbn in E2; lia|]. nia.
  - rewrite Z.pow_1_r. reflexivity.
Qed.
Lemma checked_pow_value a e : int32 a -> 0 <= e -> checked_pow a e = in_int (a ^ e).
Proof.
  intros Ia He. destruct e as [|e|e]; [reflexivity| |lia]. cbn [checked_pow].
  rewrite pow_loop_value; [f_equal; lia|unfold int32; lia|exact Ia|lia|lia].
Qed.
(** A negative exponent is a huge one: only 0, 1 and -1 have such a power. *)
Lemma big_pow a b : int32 a -> b < 0 -> - 2 ^ 31 <= b ->
  checked_pow a (b mod 2 ^ 32) = if a =? 0 then Some 0 else if Z.abs a =? 1 then Some (a ^ (- b)) else None.
Proof.
  intros Ia Hb Lb. set (e := b mod 2 ^ 32).
  assert (Ee : e = b + 2 ^ 32) by (unfold e; Z.to_euclidean_division_equations; lia). clearbody e.
  rewrite checked_pow_value by (try assumption; lia).
  destruct (a =? 0) eqn:E0.
  { replace a with 0 by lia. rewrite Z.pow_0_l by lia. reflexivity. }
  destruct (Z.abs a =? 1) eqn:E1.
  - assert (a = 1 \/ a = -1) as [->| ->] by lia; [rewrite !Z.pow_1_l by lia; reflexivity|].
    assert (P : (-1) ^ e = (-1) ^ (- b)).
    { replace e with (- b + 2 * (b + 2 ^ 31)) by lia. rewrite Z.pow_add_r, Z.pow_mul_r by lia. change ((-1) ^ 2) with 1.
      rewrite Z.pow_1_l by lia. lia. }
    rewrite P. apply in_int_ok.
    assert (Q : forall m, 0 <= m -> (-1) ^ m = 1 \/ (-1) ^ m = -1).
    { intros m Hm. pattern m. apply natlike_ind; [left; reflexivity| |exact Hm]. intros x Hx [H|H]; rewrite Z.pow_succ_r by lia; lia. }
    unfold int32. destruct (Q (- b) ltac:(lia)); lia.
  - apply in_int_none. intros H.
    assert (2 ^ 32 <= Z.abs (a ^ e)).
    { rewrite Z.abs_pow. transitivity (Z.abs a ^ 32); [apply Z.pow_le_mono_l; lia|]. apply Z.pow_le_mono_r; lia. }
    unfold int32 in H. lia.
Qed.

(** ** Uniqueness *)
Lemma unary_sat_unique o a c c' : unary_sat o a c -> unary_sat o a c' -> c = c'.
Proof.
  destruct o; cbn; intros H1 H2; try congruence; try (eapply nearest_unique; eassumption). nia.
Qed.
Lemma bitwise_unique f a b c c' : bitwise f a b c -> bitwise f a b c' -> c = c'.
Proof. intros H1 H2. apply Z.bits_inj'. intros n Hn. rewrite H1, H2 by exact Hn. reflexivity. Qed.
Lemma binary_sat_unique o a b c c' : binary_sat o a b c -> binary_sat o a b c' -> c = c'.
Proof.
  destruct o; cbn; intros H1 H2;
    try (eapply nearest_unique; eassumption); try (eapply bitwise_unique; eassumption); try (eapply says_unique; eassumption).
  - destruct H1 as [(Nb & q & r & E & B & S & N)|(-> & ->)]; destruct H2 as [(Nb' & q' & r' & E' & B' & S' & N')|(? & ->)]; try easy; try lia.
    destruct (quot_unique a b q r q' r' Nb E B S E' B' S') as [-> _]. eapply nearest_unique; eassumption.
  - destruct H1 as [(q & I & E & B & S)|(-> & ->)]; destruct H2 as [(q' & I' & E' & B' & S')|(? & ->)]; try lia.
    destruct (quot_unique a b q c q' c' ltac:(lia) E B S E' B' S') as [_ ->]. reflexivity.
  - destruct H1 as [_ [[? ->]|[? [[? ->]|[? ->]]]]]; destruct H2 as [_ [[? ->]|[? [[? ->]|[? ->]]]]]; lia.
Qed.
Lemma saturated_unique F le inp t e v : saturated F le inp t e v -> forall w, saturated F le inp t e w -> v = w.
Proof.
  induction 1; intros w Hw; inversion Hw; subst; try reflexivity;
    repeat match goal with
    | IH : forall w, saturated _ _ _ _ ?e w -> _ = w, H : saturated _ _ _ _ ?e _ |- _ => specialize (IH _ H); clear H
    end; try discriminate; try congruence;
    repeat match goal with H : VInt _ = VInt _ |- _ => injection H as -> end; try congruence.
  - f_equal. eapply unary_sat_unique; eassumption.
  - f_equal. eapply binary_sat_unique; eassumption.
Qed.

(** ** The instructions compute them, and flag what overflows *)
Definition flagged (code : Z) (f : option bool) (over : Prop) : Prop :=
  match f with Some x => arithmetic code /\ (x = true <-> over) | None => ~ arithmetic code /\ ~ over end.
Ltac is_arith := vm_compute; tauto.
Ltac not_arith := vm_compute; intuition discriminate.

Lemma negative_value a : int32 a -> exists c f, integer_negative a = (c, f) /\ nearest c (- a) /\ (f = true <-> ~ int32 (- a)).
Proof.
  unfold integer_negative. intros Ia. destruct (a =? int_min) eqn:E.
  - assert (a = int_min) as -> by lia. do 2 eexists. split; [reflexivity|]. split; [apply nearest_high; unfold int_max, int_min; lia|].
    split; [|reflexivity]. unfold int32, int_min. lia.
  - do 2 eexists. split; [reflexivity|]. assert (I : int32 (- a)) by (unfold int32, int_min in *; lia).
    split; [apply nearest_same, I|]. split; [discriminate|]. intros N. contradiction.
Qed.
Lemma exec_unary_sat o code : unary_code o true = Some code ->
  exists o', bz_decode code = Some (IntUn o') /\ forall a, int32 a ->
    exists c f, rust_unary o' a = (c, f) /\ int32 c /\ unary_sat o a c /\ flagged code f (overflow1 o a).
Proof.
  destruct o; intros E; injection E as <-; eexists; (split; [vm_compute; reflexivity|]); intros a Ha; cbn [rust_unary unary_sat overflow1].
  - destruct (negative_value a Ha) as (c & f & -> & N & Fl). exists c, (Some f). split; [reflexivity|]. split; [apply N|]. split; [exact N|].
    split; [is_arith|exact Fl].
  - do 2 eexists. split; [reflexivity|]. unfold Z.lnot. split; [unfold int32 in *; lia|]. split; [lia|]. split; [not_arith|easy].
  - destruct (a <? 0) eqn:El; do 2 eexists; (split; [reflexivity|]).
    + split; [unfold int32; lia|]. split; [right; lia|]. split; [not_arith|easy].
    + pose proof (Z.sqrt_spec a ltac:(lia)) as Sq. pose proof (Z.sqrt_nonneg a). cbv zeta in Sq.
      split; [unfold int32 in *; nia|]. split; [left; lia|]. split; [not_arith|easy].
  - destruct (a <? 0) eqn:El.
    + destruct (negative_value a Ha) as (c & f & -> & N & Fl). exists c, (Some f). split; [reflexivity|].
      replace (Z.abs a) with (- a) by lia. split; [apply N|]. split; [exact N|]. split; [is_arith|exact Fl].
    + exists a, (Some false). split; [reflexivity|]. replace (Z.abs a) with a by lia. split; [exact Ha|]. split; [apply nearest_same, Ha|].
      split; [is_arith|]. split; [discriminate|]. intros N. contradiction.
Qed.

Lemma exec_binary_sat o code : binary_code o true = Some code ->
  exists o', bz_decode code = Some (IntBin o') /\ forall a b, int32 a -> int32 b ->
    (forall c, binary_sat o a b c -> exists f, rust_binary o' a b = Some (c, f)) /\
    (forall c f, rust_binary o' a b = Some (c, f) -> int32 c /\ (o <> Pow -> binary_sat o a b c) /\ flagged code f (overflow2 o a b)).
Proof.
  assert (R : forall o code o' a b,
    (forall c f, rust_binary o' a b = Some (c, f) -> int32 c /\ binary_sat o a b c /\ flagged code f (overflow2 o a b)) ->
    ((exists c, binary_sat o a b c) -> exists c f, rust_binary o' a b = Some (c, f)) ->
    (forall c, binary_sat o a b c -> exists f, rust_binary o' a b = Some (c, f)) /\
    (forall c f, rust_binary o' a b = Some (c, f) -> int32 c /\ (o <> Pow -> binary_sat o a b c) /\ flagged code f (overflow2 o a b))).
  { intros o0 code0 o' a b H T. split.
    - intros c Hc. destruct (T (ex_intro _ c Hc)) as (c' & f & E). destruct (H c' f E) as (_ & Hc' & _).
      rewrite (binary_sat_unique _ _ _ _ _ Hc Hc'). eauto.
    - intros c f E. destruct (H c f E) as (I & B & Fl). auto. }
  assert (Sy : forall x c P (f : option bool), Some (if x : bool then 1 else 0, None) = Some (c, f) -> (x = true <-> P) -> int32 c /\ says c P /\ f = None).
  { intros x c P f Ec Hb. injection Ec as <- <-. change (if x then 1 else 0) with (truth x). split; [apply truth_int32|]. split; [apply truth_says, Hb|reflexivity]. }
  assert (Ck : forall z low code (P : Prop) c f, (in_int z = None -> if low : bool then z < int_min else int_max < z) -> arithmetic code -> (P <-> ~ int32 z) ->
    match in_int z with Some n => Some (n, Some false) | None => Some (if low then int_min else int_max, Some true) end = Some (c, f) ->
    int32 c /\ nearest c z /\ flagged code f P).
  { intros z low code0 P c f Hl Ar HP E. destruct (in_int z) as [n|] eqn:En.
    - injection E as <- <-. apply in_int_some in En as [-> I]. split; [exact I|]. split; [apply nearest_same, I|]. split; [exact Ar|].
      split; [discriminate|]. intros H. apply HP in H. contradiction.
    - specialize (Hl eq_refl). injection E as <- <-. assert (N : nearest (if low then int_min else int_max) z).
      { destruct low; [apply nearest_low, Hl|apply nearest_high, Hl]. }
      split; [apply N|]. split; [exact N|]. split; [exact Ar|]. split; [|reflexivity]. intros _. apply HP, in_int_none, En. }
  destruct o; intros E; injection E as <-; eexists; (split; [vm_compute; reflexivity|]); intros a b Ha Hb.
  - (* Add *) apply R; cbn [rust_binary binary_sat overflow2]; [|destruct (in_int (a + b)); eauto].
    intros c f. apply Ck; [|is_arith|reflexivity]. intros N. apply in_int_none in N. unfold int32, int_min, int_max in *.
    destruct (a <? 0) eqn:E1; destruct (b <? 0) eqn:E2; cbn [andb]; lia.
  - (* Sub *) apply R; cbn [rust_binary binary_sat overflow2]; [|destruct (in_int (a - b)); eauto].
    intros c f. apply Ck; [|is_arith|reflexivity]. intros N. apply in_int_none in N. unfold int32, int_min, int_max in *.
    destruct (a <? 0) eqn:E1; destruct (0 <? b) eqn:E2; cbn [andb]; lia.
  - (* Mul *) apply R; cbn [rust_binary binary_sat overflow2]; [|destruct (in_int (a * b)); eauto].
    intros c f. apply Ck; [|is_arith|reflexivity]. intros N. apply in_int_none in N. unfold int32, int_min, int_max in *.
    destruct (a <? 0) eqn:E1; destruct (0 <? b) eqn:E2; destruct (0 <? a) eqn:E3; destruct (b <? 0) eqn:E4; cbn [andb orb]; nia.
  - (* Div *) apply R; cbn [rust_binary binary_sat overflow2].
    2: { intros _. destruct (b =? 0); [eauto|]. destruct (in_int (Z.quot a b)); eauto. }
    intros c f. destruct (b =? 0) eqn:Eb.
    + intros E. injection E as <- <-. split; [unfold int32; lia|]. split; [right; lia|]. split; [is_arith|]. split; [intros _; left; lia|reflexivity].
    + destruct (quot_spec a b ltac:(lia)) as (r & E1 & B1 & S1 & _). intros E.
      assert (Q : int32 (Z.quot a b) <-> ~ (a = - 2 ^ 31 /\ b = -1)).
      { unfold int32 in *. split; [intros Hq [-> ->]; nia|]. intros Hf.
        destruct (Z.eq_dec b (-1)) as [->|]; [nia|]. destruct (Z.eq_dec b 1) as [->|]; [nia|].
        assert (2 <= Z.abs b) by lia. assert (Z.abs (Z.quot a b) * 2 <= Z.abs a + Z.abs b) by nia. nia. }
      destruct (Ck (Z.quot a b) (((a <? 0) && (0 <? b)) || ((0 <? a) && (b <? 0))) 30 (b = 0 \/ a = - 2 ^ 31 /\ b = -1) c f) as (I & N & Fl).
      { intros N. apply in_int_none in N. rewrite Q in N.
        assert (X : a = - 2 ^ 31 /\ b = -1) by (unfold int32 in *; lia). destruct X as [-> ->]. vm_compute. reflexivity. }
      { is_arith. }
      { rewrite Q. split; [|intros H; right; lia]. intros [?|H]; [lia|]. intros H'. apply H', H. }
      { exact E. }
      split; [exact I|]. split; [|exact Fl]. left. split; [lia|]. exists (Z.quot a b), r. auto.
  - (* Mod *) apply R; cbn [rust_binary binary_sat overflow2].
    2: { intros [c [(q & I & E & B & S)|[-> _]]]; [|cbn; eauto]. destruct (b =? 0) eqn:Eb; [eauto|].
         replace ((a =? int_min) && (b =? -1)) with false; [eauto|]. symmetry. apply andb_false_iff. unfold int32, int_min in *.
         destruct (Z.eq_dec b (-1)) as [->|]; [left; nia|right; lia]. }
    intros c f. destruct (b =? 0) eqn:Eb.
    + intros E. injection E as <- <-. split; [unfold int32; lia|]. split; [right; lia|]. split; [is_arith|]. split; [intros _; lia|reflexivity].
    + destruct ((a =? int_min) && (b =? -1)) eqn:Ex; [discriminate|]. intros E.
      apply (f_equal (fun o => match o with Some x => x | None => (0, None) end)) in E. cbv beta iota in E.
      assert (Ec : c = Z.rem a b) by (apply (f_equal fst) in E; symmetry; exact E).
      assert (Ef : f = Some false) by (apply (f_equal snd) in E; symmetry; exact E). subst c f. clear E.
      destruct (quot_spec a b ltac:(lia)) as (r & E1 & B1 & S1 & Er). rewrite <- Er. split; [unfold int32 in *; lia|]. split.
      * left. exists (Z.quot a b). split; [|auto]. apply andb_false_iff in Ex. unfold int32, int_min in *.
        destruct (Z.eq_dec b (-1)) as [->|]; [nia|]. destruct (Z.eq_dec b 1) as [->|]; [nia|].
        assert (2 <= Z.abs b) by lia. assert (Z.abs (Z.quot a b) * 2 <= Z.abs a + Z.abs b) by nia. nia.
      * split; [is_arith|]. split; [discriminate|lia].
  - (* Pow *) cbn [rust_binary binary_sat overflow2]. destruct (Z_le_gt_dec 0 b) as [Hp|Hn].
    + rewrite (Z.mod_small b) by (unfold int32 in *; lia). rewrite checked_pow_value by assumption.
      split.
      * intros c [I [[_ ->]|[? _]]]; [|lia]. rewrite in_int_ok by exact I. eauto.
      * intros c f E. destruct (in_int (a ^ b)) as [n|] eqn:En.
        -- injection E as <- <-. apply in_int_some in En as [-> I]. split; [exact I|]. split; [congruence|]. split; [is_arith|].
           split; [discriminate|]. intros [[_ H]|[H _]]; [contradiction|lia].
        -- injection E as <- <-. apply in_int_none in En. split; [destruct ((a <? 0) && _); unfold int32, int_min, int_max; lia|].
           split; [congruence|]. split; [is_arith|]. split; [auto|reflexivity].
    + rewrite big_pow by (unfold int32 in *; lia). split.
      * intros c [I [[? _]|[_ [[-> ->]|[-> ->]]]]]; [lia| |].
        -- cbn [Z.eqb Z.abs Pos.eqb]. rewrite Z.pow_1_l by lia. eauto.
        -- cbn [Z.eqb Z.abs Pos.eqb]. eauto.
      * intros c f E. destruct (a =? 0) eqn:E0; [|destruct (Z.abs a =? 1) eqn:E1].
        -- injection E as <- <-. split; [unfold int32; lia|]. split; [congruence|]. split; [is_arith|]. split; [discriminate|lia].
        -- assert (I : int32 (a ^ (- b))).
           { assert (Q : forall m, 0 <= m -> a ^ m = 1 \/ a ^ m = -1).
             { intros m Hm. pattern m. apply natlike_ind; [left; reflexivity| |exact Hm]. intros x Hx [H|H]; rewrite Z.pow_succ_r by lia; lia. }
             unfold int32. destruct (Q (- b) ltac:(lia)); lia. }
           apply (f_equal (fun o => match o with Some x => x | None => (0, None) end)) in E. cbv beta iota in E.
           assert (Ec : c = a ^ (- b)) by (apply (f_equal fst) in E; symmetry; exact E).
           assert (Ef : f = Some false) by (apply (f_equal snd) in E; symmetry; exact E). subst c f.
           split; [exact I|]. split; [congruence|]. split; [is_arith|]. split; [discriminate|lia].
        -- injection E as <- <-. split; [destruct ((a <? 0) && _); unfold int32, int_min, int_max; lia|]. split; [congruence|].
           split; [is_arith|]. split; [intros _; right; lia|reflexivity].
  - (* BitAnd *) apply R; cbn [rust_binary binary_sat overflow2]; [|eauto]. intros c f E. injection E as <- <-.
    split; [apply land_int32; assumption|]. split; [intros i _; apply Z.land_spec|]. split; [not_arith|easy].
  - (* BitOr *) apply R; cbn [rust_binary binary_sat overflow2]; [|eauto]. intros c f E. injection E as <- <-.
    split; [apply lor_int32; assumption|]. split; [intros i _; apply Z.lor_spec|]. split; [not_arith|easy].
  - (* BitXor *) apply R; cbn [rust_binary binary_sat overflow2]; [|eauto]. intros c f E. injection E as <- <-.
    split; [apply lxor_int32; assumption|]. split; [intros i _; apply Z.lxor_spec|]. split; [not_arith|easy].
  - apply R; cbn [rust_binary binary_sat overflow2]; [|eauto]. intros c f E. destruct (Sy _ _ (a = b) _ E) as (I & S & ->); [lia|].
    split; [exact I|]. split; [exact S|]. split; [not_arith|easy].
  - apply R; cbn [rust_binary binary_sat overflow2]; [|eauto]. intros c f E. destruct (Sy _ _ (a <> b) _ E) as (I & S & ->); [rewrite negb_true_iff; lia|].
    split; [exact I|]. split; [exact S|]. split; [not_arith|easy].
  - apply R; cbn [rust_binary binary_sat overflow2]; [|eauto]. intros c f E. destruct (Sy _ _ (a > b) _ E) as (I & S & ->); [lia|].
    split; [exact I|]. split; [exact S|]. split; [not_arith|easy].
  - apply R; cbn [rust_binary binary_sat overflow2]; [|eauto]. intros c f E. destruct (Sy _ _ (a >= b) _ E) as (I & S & ->); [lia|].
    split; [exact I|]. split; [exact S|]. split; [not_arith|easy].
  - apply R; cbn [rust_binary binary_sat overflow2]; [|eauto]. intros c f E. destruct (Sy _ _ (a < b) _ E) as (I & S & ->); [lia|].
    split; [exact I|]. split; [exact S|]. split; [not_arith|easy].
  - apply R; cbn [rust_binary binary_sat overflow2]; [|eauto]. intros c f E. destruct (Sy _ _ (a <= b) _ E) as (I & S & ->); [lia|].
    split; [exact I|]. split; [exact S|]. split; [not_arith|easy].
Qed.

Lemma exec_binary_sat_float F le o code : binary_code o false = Some code ->
  if relational o
  then exists o', bz_decode code = Some (FltCmp o') /\
         forall a b, binary_sat_float F le o a b = Some (VInt (if rust_compare F le o' a b then 1 else 0))
  else exists o', bz_decode code = Some (FltBin o') /\ forall a b, binary_sat_float F le o a b = Some (VFloat (flt_binary F o' a b)).
Proof.
  destruct o; intros E; try discriminate; injection E as <-; cbn [relational]; eexists; (split; [vm_compute; reflexivity|]);
    intros a b; reflexivity.
Qed.
