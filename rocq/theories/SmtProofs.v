(** * The satisfiability queries (proofs) *)
From Coq Require Import List Arith ZArith NArith Bool Lia.
From Verif Require Import Mltl MltlShape Transform Decompose DecomposeProofs SabreSpec SabreProofs Smt SmtSpec.
Import ListNotations.
Local Open Scope nat_scope.

(** ** Bit-vectors *)
Section Bits.
Variable W : nat.
Let w := W + 1.

Lemma bvshl_bit x s p : p < w ->
  position w (bvshl W x (to_bv W (N.of_nat s))) p = if p + s <? w then position w x (p + s) else false.
Proof.
  intros Hp. assert (Hw : N.of_nat w = width W) by reflexivity.
  assert (Hpow : (width W < 2 ^ width W)%N) by (apply N.pow_gt_lin_r; lia).
  unfold position, bvshl. rewrite <- Hw. rewrite N.mod_pow2_bits_low by lia.
  destruct (Nat.ltb_spec (p + s) w) as [Hlt|Hge].
  - replace (to_bv W (N.of_nat s)) with (N.of_nat s) by (unfold to_bv; lia).
    rewrite N.shiftl_spec_high' by lia. f_equal. lia.
  - apply N.shiftl_spec_low. unfold to_bv. lia.
Qed.

Lemma mask_bit s p : p < w -> position w (to_bv W (2 ^ N.of_nat s - 1)) p = (w <=? p + s).
Proof.
  intros Hp. assert (Hw : N.of_nat w = width W) by reflexivity.
  assert (E : to_bv W (2 ^ N.of_nat s - 1) = N.ones (N.min (N.of_nat s) (width W))).
  { rewrite N.ones_equiv, N.pred_sub. unfold to_bv.
    destruct (N.le_ge_cases (N.of_nat s) (width W)) as [H|H].
    - pose proof (N.pow_le_mono_r 2 _ _ ltac:(discriminate) H). rewrite (N.min_l _ _ H). lia.
    - pose proof (N.pow_le_mono_r 2 _ _ ltac:(discriminate) H). rewrite (N.min_r _ _ H). lia. }
  rewrite E. unfold position. destruct (Nat.leb_spec w (p + s)).
  - apply N.ones_spec_low. lia.
  - apply N.ones_spec_high. lia.
Qed.
Lemma global_shift_bit x s p : p < w ->
  position w (global_shift W x (N.of_nat s)) p = if p + s <? w then position w x (p + s) else true.
Proof.
  intros Hp. unfold global_shift. rewrite lor_bit, bvshl_bit, mask_bit by exact Hp.
  destruct (Nat.ltb_spec (p + s) w), (Nat.leb_spec w (p + s)); try lia; auto using orb_false_r, orb_true_r.
Qed.

Lemma pow2_N j : (2 ^ N.of_nat j)%N = N.of_nat (2 ^ j).
Proof. rewrite Nat2N.inj_pow. reflexivity. Qed.

(** [x] holds of [m] steps all at once. *)
Definition all_of (m : nat) (A : nat -> Prop) (x : N) : Prop :=
  forall p, p < w -> (position w x p = true <-> forall j, p <= j < p + m -> j < w -> A j).
Definition some_of (m : nat) (A : nat -> Prop) (x : N) : Prop :=
  forall p, p < w -> (position w x p = true <-> exists j, p <= j < p + m /\ j < w /\ A j).

Lemma global_rounds_all A n : forall j x,
  all_of (2 ^ j) A x -> all_of (2 ^ (j + n)) A (global_rounds W n j x).
Proof.
  induction n as [|n IH]; intros j x Hx; cbn [global_rounds].
  - rewrite Nat.add_0_r. exact Hx.
  - rewrite <- Nat.add_succ_comm. apply IH. intros p Hp.
    rewrite pow2_N, land_bit, global_shift_bit, andb_true_iff by exact Hp.
    rewrite (Hx p Hp), Nat.pow_succ_r'.
    destruct (Nat.ltb_spec (p + 2 ^ j) w) as [Hlt|Hge].
    + rewrite (Hx _ Hlt). split.
      * intros [H1 H2] i Hi Hw'. destruct (le_lt_dec (p + 2 ^ j) i); [apply H1|apply H2]; lia.
      * intros H. split; intros i Hi Hw'; apply H; lia.
    + split.
      * intros [_ H2] i Hi Hw'. apply H2; lia.
      * intros H. split; [reflexivity|]. intros i Hi Hw'. apply H; lia.
Qed.
Lemma future_rounds_some A n : forall j x,
  some_of (2 ^ j) A x -> some_of (2 ^ (j + n)) A (future_rounds W n j x).
Proof.
  induction n as [|n IH]; intros j x Hx; cbn [future_rounds].
  - rewrite Nat.add_0_r. exact Hx.
  - rewrite <- Nat.add_succ_comm. apply IH. intros p Hp.
    rewrite pow2_N, lor_bit, bvshl_bit, orb_true_iff by exact Hp.
    rewrite (Hx p Hp), Nat.pow_succ_r'.
    destruct (Nat.ltb_spec (p + 2 ^ j) w) as [Hlt|Hge].
    + rewrite (Hx _ Hlt). split.
      * intros [(i & H)|(i & H)]; exists i; (split; [lia|tauto]).
      * intros (i & Hi & H). destruct (le_lt_dec (p + 2 ^ j) i); [left|right]; exists i; (split; [lia|exact H]).
    + split.
      * intros [H|(i & Hi & H)]; [discriminate|]. exists i. split; [lia|exact H].
      * intros (i & Hi & Hw' & H). right. exists i. repeat split; auto; lia.
Qed.

Definition held_of (m : nat) (A B : nat -> Prop) (l r : N) : Prop :=
  (forall p, p < w -> (position w l p = true <-> forall j, p <= j < p + m -> j < w /\ A j)) /\
  (forall p, p < w -> (position w r p = true <->
     exists j, p <= j < p + m /\ j < w /\ B j /\ forall k, p <= k < j -> A k)).
Lemma until_rounds_held A B n : forall j l r,
  held_of (2 ^ j) A B l r -> 
  forall p, p < w -> (position w (until_rounds W n j l r) p = true <->
     exists i, p <= i < p + 2 ^ (j + n) /\ i < w /\ B i /\ forall k, p <= k < i -> A k).
Proof.
  induction n as [|n IH]; intros j l r [Hl Hr]; cbn [until_rounds].
  - rewrite Nat.add_0_r. exact Hr.
  - rewrite <- Nat.add_succ_comm. apply IH. split; intros p Hp.
    + rewrite pow2_N, land_bit, bvshl_bit, andb_true_iff by exact Hp.
      rewrite (Hl p Hp), Nat.pow_succ_r'.
      pose proof (Nat.pow_nonzero 2 j ltac:(discriminate)).
      destruct (Nat.ltb_spec (p + 2 ^ j) w) as [Hlt|Hge].
      * rewrite (Hl _ Hlt). split.
        -- intros [H1 H2] i Hi. destruct (le_lt_dec (p + 2 ^ j) i); [apply H1|apply H2]; lia.
        -- intros H'. split; intros i Hi; apply H'; lia.
      * split; [intros [H' _]; discriminate|].
        intros H'. specialize (H' (p + 2 ^ j) ltac:(lia)). lia.
    + rewrite pow2_N, lor_bit, land_bit, bvshl_bit, orb_true_iff, andb_true_iff by exact Hp.
      rewrite (Hl p Hp), (Hr p Hp), Nat.pow_succ_r'.
      pose proof (Nat.pow_nonzero 2 j ltac:(discriminate)).
      destruct (Nat.ltb_spec (p + 2 ^ j) w) as [Hlt|Hge].
      * rewrite (Hr _ Hlt). split.
        -- intros [[(i & Hi & Hw' & HB & HA) H2]|(i & Hi & H')].
           ++ exists i. split; [lia|]. split; [exact Hw'|]. split; [exact HB|].
              intros k Hk. destruct (le_lt_dec (p + 2 ^ j) k); [apply HA; lia|apply H2; lia].
           ++ exists i. split; [lia|exact H'].
        -- intros (i & Hi & Hw' & HB & HA). destruct (le_lt_dec (p + 2 ^ j) i).
           ++ left. split.
              ** exists i. split; [lia|]. split; [exact Hw'|]. split; [exact HB|]. intros k Hk. apply HA. lia.
              ** intros k Hk. split; [lia|apply HA; lia].
           ++ right. exists i. split; [lia|auto].
      * split.
        -- intros [[H' _]|(i & Hi & H')]; [discriminate|]. exists i. split; [lia|exact H'].
        -- intros (i & Hi & Hw' & H'). right. exists i. split; [lia|auto].
Qed.

Definition dyadic (lb ub : nat) : Prop := lb = ub \/ lb = 0 /\ exists k, ub = 2 ^ k - 1.
Lemma dyadic_rounds ub k : ub = 2 ^ k - 1 -> 2 ^ log2_floor ub = ub + 1.
Proof.
  intros ->. unfold log2_floor. pose proof (Nat.pow_nonzero 2 k ltac:(discriminate)).
  replace (2 ^ k - 1 + 1) with (2 ^ k) by lia. rewrite Nat.log2_pow2 by lia. reflexivity.
Qed.
Lemma dyadic_diff lb ub : dyadic lb ub -> 2 ^ log2_floor (ub - lb) = ub - lb + 1.
Proof.
  intros [->|[-> (k & Hk)]].
  - rewrite Nat.sub_diag. reflexivity.
  - rewrite Nat.sub_0_r. exact (dyadic_rounds ub k Hk).
Qed.

Lemma bv_global_bit lb ub x p : lb <= ub -> dyadic lb ub -> p < w ->
  position w (bv_global W lb ub x) p = true <->
  forall j, p + lb <= j <= p + ub -> j < w -> position w x j = true.
Proof.
  intros Hle Hd Hp. unfold bv_global. destruct (Nat.eqb_spec ub 0) as [->|Hub].
  - assert (lb = 0) by lia. subst lb. split.
    + intros H j Hj _. replace j with p by lia. exact H.
    + intros H. apply H; lia.
  - assert (E : bv_global W lb ub x = global_rounds W (log2_floor (ub - lb)) 0
                  (if 0 <? lb then global_shift W x (N.of_nat lb) else x)).
    { unfold bv_global. destruct (Nat.eqb_spec ub 0); [lia|]. destruct (Nat.ltb_spec 0 lb); [reflexivity|].
      replace (ub - lb) with ub by lia. reflexivity. }
    unfold bv_global in E. destruct (Nat.eqb_spec ub 0); [lia|]. rewrite E.
    assert (H1 : all_of (2 ^ 0) (fun j => j + lb < w -> position w x (j + lb) = true)
                   (if 0 <? lb then global_shift W x (N.of_nat lb) else x)).
    { intros q Hq. change (2 ^ 0) with 1. transitivity (q + lb < w -> position w x (q + lb) = true).
      - destruct (Nat.ltb_spec 0 lb).
        + rewrite global_shift_bit by exact Hq. destruct (Nat.ltb_spec (q + lb) w); split; auto; lia.
        + replace (q + lb) with q by lia. tauto.
      - split.
        + intros H' j Hj _. replace j with q by lia. exact H'.
        + intros H' . apply H'; lia. }
    pose proof (global_rounds_all _ (log2_floor (ub - lb)) 0 _ H1 p Hp) as H2.
    cbn [Nat.add] in H2. rewrite (dyadic_diff _ _ Hd) in H2. rewrite H2. split.
    + intros H j Hj Hw'. specialize (H (j - lb) ltac:(lia) ltac:(lia)).
      replace (j - lb + lb) with j in H by lia. auto.
    + intros H j Hj Hw' Hw''. apply H; lia.
Qed.
Lemma bv_future_bit lb ub x p : lb <= ub -> dyadic lb ub -> p < w ->
  position w (bv_future W lb ub x) p = true <->
  exists j, p + lb <= j <= p + ub /\ j < w /\ position w x j = true.
Proof.
  intros Hle Hd Hp. unfold bv_future. destruct (Nat.eqb_spec ub 0) as [->|Hub].
  - assert (lb = 0) by lia. subst lb. split.
    + intros H. exists p. repeat split; auto; lia.
    + intros (j & Hj & _ & H). replace p with j by lia. exact H.
  - assert (E : bv_future W lb ub x = future_rounds W (log2_floor (ub - lb)) 0
                  (if 0 <? lb then bvshl W x (to_bv W (N.of_nat lb)) else x)).
    { unfold bv_future. destruct (Nat.eqb_spec ub 0); [lia|]. destruct (Nat.ltb_spec 0 lb); [reflexivity|].
      replace (ub - lb) with ub by lia. reflexivity. }
    unfold bv_future in E. destruct (Nat.eqb_spec ub 0); [lia|]. rewrite E.
    assert (H1 : some_of (2 ^ 0) (fun j => j + lb < w /\ position w x (j + lb) = true)
                   (if 0 <? lb then bvshl W x (to_bv W (N.of_nat lb)) else x)).
    { intros q Hq. change (2 ^ 0) with 1. transitivity (q + lb < w /\ position w x (q + lb) = true).
      - destruct (Nat.ltb_spec 0 lb).
        + rewrite bvshl_bit by exact Hq. destruct (Nat.ltb_spec (q + lb) w); split; try tauto; try discriminate; lia.
        + replace (q + lb) with q by lia. tauto.
      - split.
        + intros H'. exists q. split; [lia|]. split; [exact Hq|exact H'].
        + intros (j & Hj & _ & H'). replace q with j by lia. exact H'. }
    pose proof (future_rounds_some _ (log2_floor (ub - lb)) 0 _ H1 p Hp) as H2.
    cbn [Nat.add] in H2. rewrite (dyadic_diff _ _ Hd) in H2. rewrite H2. split.
    + intros (j & Hj & _ & H & H'). exists (j + lb). repeat split; auto; lia.
    + intros (j & Hj & Hw' & H). exists (j - lb). replace (j - lb + lb) with j by lia. repeat split; auto; lia.
Qed.
Lemma bv_until_bit lb ub l r p : lb <= ub -> dyadic lb ub -> p < w ->
  position w (bv_until W lb ub l r) p = true <->
  exists j, p + lb <= j <= p + ub /\ j < w /\ position w r j = true /\
            forall k, p + lb <= k < j -> position w l k = true.
Proof.
  intros Hle Hd Hp. unfold bv_until. destruct (Nat.eqb_spec ub 0) as [->|Hub].
  - assert (lb = 0) by lia. subst lb. split.
    + intros H. exists p. repeat split; auto; lia.
    + intros (j & Hj & _ & H & _). replace p with j by lia. exact H.
  - set (l' := if 0 <? lb then bvshl W l (to_bv W (N.of_nat lb)) else l).
    set (r' := if 0 <? lb then bvshl W r (to_bv W (N.of_nat lb)) else r).
    assert (E : (if 0 <? lb
      then until_rounds W (log2_floor (ub - lb)) 0 (bvshl W l (to_bv W (N.of_nat lb))) (bvshl W r (to_bv W (N.of_nat lb)))
      else until_rounds W (log2_floor ub) 0 l r) = until_rounds W (log2_floor (ub - lb)) 0 l' r').
    { unfold l', r'. destruct (Nat.ltb_spec 0 lb); [reflexivity|].
      replace (ub - lb) with ub by lia. reflexivity. }
    rewrite E.
    assert (Hs : forall x q, q < w -> position w (if 0 <? lb then bvshl W x (to_bv W (N.of_nat lb)) else x) q = true
                   <-> q + lb < w /\ position w x (q + lb) = true).
    { intros x q Hq. destruct (Nat.ltb_spec 0 lb).
      - rewrite bvshl_bit by exact Hq. destruct (Nat.ltb_spec (q + lb) w); split; try tauto; try discriminate; lia.
      - replace (q + lb) with q by lia. tauto. }
    assert (H1 : held_of (2 ^ 0) (fun j => j + lb < w /\ position w l (j + lb) = true)
                    (fun j => j + lb < w /\ position w r (j + lb) = true) l' r').
    { split; intros q Hq; change (2 ^ 0) with 1; (etransitivity; [exact (Hs _ q Hq)|]); split.
      - intros H j Hj. replace j with q by lia. auto.
      - intros H. apply H. lia.
      - intros H. exists q. split; [lia|]. split; [exact Hq|]. split; [exact H|]. intros; lia.
      - intros (j & Hj & _ & H & _). replace q with j by lia. exact H. }
    pose proof (until_rounds_held _ _ (log2_floor (ub - lb)) 0 _ _ H1 p Hp) as H2.
    cbn [Nat.add] in H2. rewrite (dyadic_diff _ _ Hd) in H2. rewrite H2. split.
    + intros (j & Hj & _ & (H & H') & HA). exists (j + lb). repeat split; auto; try lia.
      intros k Hk. specialize (HA (k - lb) ltac:(lia)). replace (k - lb + lb) with k in HA by lia. apply HA.
    + intros (j & Hj & Hw' & H & HA). exists (j - lb). replace (j - lb + lb) with j by lia.
      repeat split; auto; try lia. apply HA. lia.
Qed.

Lemma ones_bit p : p < w -> position w (ones W) p = true.
Proof.
  intros Hp. unfold ones. rewrite <- N.pred_sub, <- N.ones_equiv. apply N.ones_spec_low.
  change (width W) with (N.of_nat w). lia.
Qed.
Lemma bvnot_bit x p : p < w -> position w (bvnot W x) p = negb (position w x p).
Proof. intros Hp. apply lnot_bit; [unfold w; lia|exact Hp]. Qed.

Lemma fold_land_bit xs : forall x p,
  position w (fold_left N.land xs x) p = true <-> position w x p = true /\ Forall (fun y => position w y p = true) xs.
Proof.
  induction xs as [|y xs IH]; intros x p; cbn [fold_left].
  - intuition constructor.
  - rewrite IH, land_bit, andb_true_iff. split.
    + intros [[H1 H2] H3]. auto.
    + intros [H1 H2]. inversion H2; subst. auto.
Qed.
Lemma fold_lor_bit xs : forall x p,
  position w (fold_left N.lor xs x) p = true <-> position w x p = true \/ Exists (fun y => position w y p = true) xs.
Proof.
  induction xs as [|y xs IH]; intros x p; cbn [fold_left].
  - split; [auto|]. intros [H|H]; [exact H|inversion H].
  - rewrite IH, lor_bit, orb_true_iff, Exists_cons. tauto.
Qed.

Definition dyadic_op (e : expr) : Prop :=
  match e with EF lb ub _ | EG lb ub _ | EU lb ub _ _ => dyadic lb ub | _ => True end.
Lemma all_nodes_here P e : all_nodes P e -> P e.
Proof. destruct e; intros H; exact (proj1 H). Qed.

Lemma bv_term_truncated f tr :
  (forall a p, p < w -> (position w (f a) p = true <-> tr p a = true)) ->
  forall e, legal e -> bv_supported e = true -> all_nodes dyadic_op e ->
  forall p, p < w -> (position w (bv_term W f e) p = true <-> tsat w tr e p).
Proof.
  intros Hf e. induction e as [b|a|e IH|es IH|es IH| | |p1 q1 IHp IHq| |lb ub e IH|lb ub e IH|lb ub p1 q1 IHp IHq| | | | |]
    using expr_ind'; intros Hl Hs Hd p Hp; cbn [bv_supported] in Hs; try discriminate; cbn [bv_term tsat].
  - destruct b.
    + rewrite (ones_bit p Hp). tauto.
    + unfold position. rewrite N.bits_0. intuition discriminate.
  - exact (Hf a p Hp).
  - rewrite (bvnot_bit _ p Hp), negb_true_iff, <- not_true_iff_false.
    rewrite (IH Hl Hs (proj2 Hd) p Hp). tauto.
  - apply andb_prop in Hs. destruct Hs as [Hn Hs]. destruct Hd as [_ Hd].
    assert (Hall : forall es, Forall (fun e => legal e -> bv_supported e = true -> all_nodes dyadic_op e ->
        forall p, p < w -> (position w (bv_term W f e) p = true <-> tsat w tr e p)) es ->
        legal (EAnd es) -> forallb bv_supported es = true -> fold_right (fun e Q => all_nodes dyadic_op e /\ Q) True es ->
        (Forall (fun y => position w y p = true) (map (bv_term W f) es) <-> tsat w tr (EAnd es) p)).
    { clear -Hp. induction es as [|e es IHes]; intros IH Hl Hs Hd; cbn.
      - split; auto.
      - cbn in Hs. apply andb_prop in Hs. cbn in Hl, Hd. inversion IH; subst.
        rewrite Forall_cons_iff. rewrite (H1 (proj1 Hl) (proj1 Hs) (proj1 Hd) p Hp).
        rewrite (IHes H2 (proj2 Hl) (proj2 Hs) (proj2 Hd)). reflexivity. }
    destruct es as [|e es]; [discriminate|].
    rewrite <- (Hall (e :: es) IH Hl Hs Hd). cbn [map]. rewrite fold_land_bit.
    symmetry. exact (Forall_cons_iff (fun y => position w y p = true) _ _).
  - apply andb_prop in Hs. destruct Hs as [Hn Hs]. destruct Hd as [_ Hd].
    assert (Hall : forall es, Forall (fun e => legal e -> bv_supported e = true -> all_nodes dyadic_op e ->
        forall p, p < w -> (position w (bv_term W f e) p = true <-> tsat w tr e p)) es ->
        legal (EOr es) -> forallb bv_supported es = true -> fold_right (fun e Q => all_nodes dyadic_op e /\ Q) True es ->
        (Exists (fun y => position w y p = true) (map (bv_term W f) es) <-> tsat w tr (EOr es) p)).
    { clear -Hp. induction es as [|e es IHes]; intros IH Hl Hs Hd; cbn.
      - split; [intros H; inversion H|intros []].
      - cbn in Hs. apply andb_prop in Hs. cbn in Hl, Hd. inversion IH; subst.
        rewrite Exists_cons. rewrite (H1 (proj1 Hl) (proj1 Hs) (proj1 Hd) p Hp).
        rewrite (IHes H2 (proj2 Hl) (proj2 Hs) (proj2 Hd)). reflexivity. }
    destruct es as [|e es]; [discriminate|].
    rewrite <- (Hall (e :: es) IH Hl Hs Hd). cbn [map]. rewrite fold_lor_bit.
    symmetry. exact (Exists_cons (fun y => position w y p = true) _ _).
  - apply andb_prop in Hs. destruct Hs as [Hs1 Hs2]. destruct Hl as [Hl1 Hl2]. destruct Hd as [_ [Hd1 Hd2]].
    unfold bvxnor. rewrite (bvnot_bit _ p Hp), lxor_bit.
    rewrite <- (IHp Hl1 Hs1 Hd1 p Hp), <- (IHq Hl2 Hs2 Hd2 p Hp).
    destruct (position w (bv_term W f p1) p), (position w (bv_term W f q1) p); cbn; intuition discriminate.
  - destruct Hl as [Hle Hl]. destruct Hd as [Hd0 Hd].
    rewrite (bv_future_bit lb ub _ p Hle Hd0 Hp).
    split; intros (j & Hj & Hw' & H); exists j; (split; [exact Hj|]); (split; [exact Hw'|]); apply (IH Hl Hs Hd j Hw'); exact H.
  - destruct Hl as [Hle Hl]. destruct Hd as [Hd0 Hd].
    rewrite (bv_global_bit lb ub _ p Hle Hd0 Hp).
    split; intros H j Hj Hw'; apply (IH Hl Hs Hd j Hw'); apply H; assumption.
  - apply andb_prop in Hs. destruct Hs as [Hs1 Hs2]. destruct Hl as [Hle [Hl1 Hl2]]. destruct Hd as [Hd0 [Hd1 Hd2]].
    rewrite (bv_until_bit lb ub _ _ p Hle Hd0 Hp).
    split; intros (j & Hj & Hw' & H & HA); exists j; (split; [exact Hj|]); (split; [exact Hw'|]);
      (split; [apply (IHq Hl2 Hs2 Hd2 j Hw'); exact H|]);
      intros k Hk; (apply (IHp Hl1 Hs1 Hd1 k); [lia|]); apply HA; exact Hk.
Qed.
End Bits.
