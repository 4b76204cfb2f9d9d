(** * Proofs about the rewrite optimiser *)
From Coq Require Import List Arith Bool Lia.
Require Import Verif.Mltl Verif.MltlShape Verif.MltlEval Verif.OpLaws.
Require Import Verif.Transform Verif.TransformProofs Verif.Rewrite.
Import ListNotations.
Arguments opF : simpl never.
Arguments opG : simpl never.
Arguments opU : simpl never.
Arguments opR : simpl never.

(** ** [expr_eqb] decides equality *)
Fixpoint elist_eqb (l1 l2 : list expr) : bool :=
  match l1, l2 with
  | [], [] => true
  | x :: l1, y :: l2 => expr_eqb x y && elist_eqb l1 l2
  | _, _ => false
  end.
Lemma expr_eqb_and l l' : expr_eqb (EAnd l) (EAnd l') = elist_eqb l l'.
Proof. revert l'; induction l as [|x l IH]; intros [|y l']; cbn in *; reflexivity. Qed.
Lemma expr_eqb_or l l' : expr_eqb (EOr l) (EOr l') = elist_eqb l l'.
Proof. revert l'; induction l as [|x l IH]; intros [|y l']; cbn in *; reflexivity. Qed.

Lemma elist_eqb_true l : Forall (fun e => forall e', expr_eqb e e' = true -> e = e') l ->
  forall l', elist_eqb l l' = true -> l = l'.
Proof.
  induction 1 as [|x l Hx _ IH]; intros [|y l'] E; cbn in E; try discriminate; [reflexivity|].
  apply andb_true_iff in E as [E1 E2]. f_equal; [apply Hx, E1 | apply IH, E2].
Qed.

Lemma expr_eqb_true e : forall e', expr_eqb e e' = true -> e = e'.
Proof.
  induction e as [b|a|e IH|es IH|es IH|p q IHp IHq|p q IHp IHq|p q IHp IHq|p q IHp IHq
                 |lb ub p IHp|lb ub p IHp|lb ub p q IHp IHq|lb ub p q IHp IHq
                 |lb ub p IHp|lb ub p IHp|lb ub p q IHp IHq|lb ub p q IHp IHq] using expr_ind';
    intros e' E; destruct e'; try discriminate E;
    try (rewrite expr_eqb_and in E; f_equal; apply elist_eqb_true; assumption);
    try (rewrite expr_eqb_or in E; f_equal; apply elist_eqb_true; assumption);
    cbn [expr_eqb] in E; repeat rewrite andb_true_iff in E.
  - apply eqb_prop in E. congruence.
  - apply Nat.eqb_eq in E. congruence.
  - f_equal; auto.
  - destruct E; f_equal; auto.
  - destruct E; f_equal; auto.
  - destruct E; f_equal; auto.
  - destruct E; f_equal; auto.
  - destruct E as [[E1 E2] E3]. apply Nat.eqb_eq in E1, E2. subst. f_equal; auto.
  - destruct E as [[E1 E2] E3]. apply Nat.eqb_eq in E1, E2. subst. f_equal; auto.
  - destruct E as [[[E1 E2] E3] E4]. apply Nat.eqb_eq in E1, E2. subst. f_equal; auto.
  - destruct E as [[[E1 E2] E3] E4]. apply Nat.eqb_eq in E1, E2. subst. f_equal; auto.
  - destruct E as [[E1 E2] E3]. apply Nat.eqb_eq in E1, E2. subst. f_equal; auto.
  - destruct E as [[E1 E2] E3]. apply Nat.eqb_eq in E1, E2. subst. f_equal; auto.
  - destruct E as [[[E1 E2] E3] E4]. apply Nat.eqb_eq in E1, E2. subst. f_equal; auto.
  - destruct E as [[[E1 E2] E3] E4]. apply Nat.eqb_eq in E1, E2. subst. f_equal; auto.
Qed.

(** ** Node by node *)
(** Result of one rewrite: equivalent, legal, and keeps atoms. *)
Definition good (e n : expr) : Prop :=
  deq n e /\ legal n /\ (has_atom e -> has_atom n).

Ltac dif E := match goal with
  | H : context [if ?b then _ else _] |- _ => destruct b eqn:E
  end.
Ltac bools := repeat match goal with
  | H : _ && _ = true |- _ => apply andb_true_iff in H as [? ?]
  | H : (_ <=? _) = true |- _ => apply Nat.leb_le in H
  | H : (_ =? _) = true |- _ => apply Nat.eqb_eq in H
  | H : expr_eqb _ _ = true |- _ => apply expr_eqb_true in H
  end.
Ltac gsplit := split; [unfold deq | split; [repeat split|]].
Ltac some := match goal with H : Some _ = Some _ |- _ => injection H as H; subst end.

Lemma rw_not_good p n : legal (ENot p) -> rw_not p = Some n -> good (ENot p) n.
Proof.
  intros L E. destruct p; try discriminate E; cbn [rw_not] in E.
  - destruct b; some; gsplit; cbn; auto.
  - some. gsplit; cbn in *; auto. intros tr i; cbn. rewrite negb_involutive; reflexivity.
  - destruct p; try discriminate E. some. cbn in L. gsplit; cbn; try tauto.
  - destruct p; try discriminate E. some. cbn in L. gsplit; cbn; try tauto.
    intros tr i. cbn. rewrite opG_neg. apply opF_ext. intros j. unfold bneg. cbn.
    apply eq_sym, negb_involutive.
Qed.

Lemma rw_eq_good p q n :
  legal (EBeq p q) ->
  (p = EConst true \/ is_const p = false) -> (q = EConst true \/ is_const q = false) ->
  rw_eq p q = Some n -> good (EBeq p q) n.
Proof.
  intros L Hp Hq E. unfold rw_eq in E. cbn in L.
  destruct (is_const p) eqn:Ep.
  - destruct Hp as [->|]; [|discriminate]. cbn in E.
    destruct (is_const q) eqn:Eq; [discriminate|]. some. gsplit; cbn; try tauto.
    intros tr i. cbn. destruct (den tr n i); reflexivity.
  - cbn in E. destruct (is_const q) eqn:Eq; [|discriminate]. some.
    destruct Hq as [->|]; [|discriminate]. gsplit; cbn; try tauto.
    intros tr i. cbn. destruct (den tr n i); reflexivity.
Qed.

Lemma rw_zero_G lb ub p n : legal (EG lb ub p) ->
  (if (lb =? 0) && (ub =? 0) then Some p else None) = Some n -> good (EG lb ub p) n.
Proof.
  intros L E. destruct ((lb =? 0) && (ub =? 0)) eqn:B; [|discriminate]. some. bools. subst.
  cbn in L. gsplit; cbn; try tauto. intros tr i. cbn. rewrite opG_point. f_equal; lia.
Qed.
Lemma rw_zero_F lb ub p n : legal (EF lb ub p) ->
  (if (lb =? 0) && (ub =? 0) then Some p else None) = Some n -> good (EF lb ub p) n.
Proof.
  intros L E. destruct ((lb =? 0) && (ub =? 0)) eqn:B; [|discriminate]. some. bools. subst.
  cbn in L. gsplit; cbn; try tauto. intros tr i. cbn. rewrite opF_point. f_equal; lia.
Qed.

Lemma rw_global_good lb ub p n : legal (EG lb ub p) -> rw_global lb ub p = Some n -> good (EG lb ub p) n.
Proof.
  intros L E. unfold rw_global in E.
  destruct p as [b| | | | | | | | |lb2 ub2 p|lb2 ub2 p| | | | | |];
    try (apply rw_zero_G; assumption).
  - destruct b; [|apply rw_zero_G; assumption]. some. cbn in L.
    gsplit; cbn; auto. intros tr i. cbn. symmetry. apply opG_const; tauto.
  - cbn in L. destruct (lb =? ub) eqn:B1.
    + bools; subst. some. gsplit; cbn; try tauto; [|lia].
      intros tr i. cbn. symmetry. apply opG_opF_point_out.
    + destruct (lb2 =? ub2) eqn:B2; [|apply rw_zero_G; [cbn; tauto | assumption]].
      bools; subst. some. gsplit; cbn; try tauto; [|lia].
      intros tr i. cbn. symmetry. apply opG_opF_point_in.
  - cbn in L. some. gsplit; cbn; try tauto; [|lia].
    intros tr i. cbn. symmetry. apply opG_opG; tauto.
Qed.

Lemma rw_future_good lb ub p n : legal (EF lb ub p) -> rw_future lb ub p = Some n -> good (EF lb ub p) n.
Proof.
  intros L E. unfold rw_future in E.
  destruct p as [b| | | | | | | | |lb2 ub2 p|lb2 ub2 p| | | | | |];
    try (apply rw_zero_F; assumption).
  - destruct b; [apply rw_zero_F; assumption|]. some. cbn in L.
    gsplit; cbn; auto. intros tr i. cbn. symmetry. apply opF_const; tauto.
  - cbn in L. some. gsplit; cbn; try tauto; [|lia].
    intros tr i. cbn. symmetry. apply opF_opF; tauto.
  - cbn in L. destruct (lb =? ub) eqn:B1.
    + bools; subst. some. gsplit; cbn; try tauto; [|lia].
      intros tr i. cbn. symmetry. apply opF_opG_point_out.
    + destruct (lb2 =? ub2) eqn:B2; [|apply rw_zero_F; [cbn; tauto | assumption]].
      bools; subst. some. gsplit; cbn; try tauto; [|lia].
      intros tr i. cbn. symmetry. apply opF_opG_point_in.
Qed.

Lemma rw_merge_G lb1 ub1 lb2 ub2 p n :
  lb1 <= ub1 -> lb2 <= ub2 -> legal p ->
  rw_merge EG lb1 ub1 lb2 ub2 p = Some n -> good (EAnd [EG lb1 ub1 p; EG lb2 ub2 p]) n.
Proof.
  intros L1 L2 Lp E. unfold rw_merge in E.
  destruct ((lb1 <=? lb2) && (ub2 <=? ub1)) eqn:B1.
  { some. bools. gsplit; cbn; try tauto. intros tr i. cbn. rewrite andb_true_r.
    symmetry; apply opG_sub; assumption. }
  destruct ((lb2 <=? lb1) && (ub1 <=? ub2)) eqn:B2.
  { some. bools. gsplit; cbn; try tauto. intros tr i. cbn. rewrite andb_true_r, andb_comm.
    symmetry; apply opG_sub; assumption. }
  destruct ((lb1 <=? lb2) && (lb2 <=? ub1 + 1)) eqn:B3.
  { some. bools. gsplit; cbn; try tauto; [|lia]. intros tr i. cbn. rewrite andb_true_r.
    symmetry; apply opG_union; assumption. }
  destruct ((lb2 <=? lb1) && (lb1 <=? ub2 + 1)) eqn:B4; [|discriminate].
  some. bools. gsplit; cbn; try tauto; [|lia]. intros tr i. cbn. rewrite andb_true_r, andb_comm.
  rewrite Nat.max_comm. symmetry; apply opG_union; assumption.
Qed.
Lemma rw_merge_F lb1 ub1 lb2 ub2 p n :
  lb1 <= ub1 -> lb2 <= ub2 -> legal p ->
  rw_merge EF lb1 ub1 lb2 ub2 p = Some n -> good (EOr [EF lb1 ub1 p; EF lb2 ub2 p]) n.
Proof.
  intros L1 L2 Lp E. unfold rw_merge in E.
  destruct ((lb1 <=? lb2) && (ub2 <=? ub1)) eqn:B1.
  { some. bools. gsplit; cbn; try tauto. intros tr i. cbn. rewrite orb_false_r.
    symmetry; apply opF_sub; assumption. }
  destruct ((lb2 <=? lb1) && (ub1 <=? ub2)) eqn:B2.
  { some. bools. gsplit; cbn; try tauto. intros tr i. cbn. rewrite orb_false_r, orb_comm.
    symmetry; apply opF_sub; assumption. }
  destruct ((lb1 <=? lb2) && (lb2 <=? ub1 + 1)) eqn:B3.
  { some. bools. gsplit; cbn; try tauto; [|lia]. intros tr i. cbn. rewrite orb_false_r.
    symmetry; apply opF_union; assumption. }
  destruct ((lb2 <=? lb1) && (lb1 <=? ub2 + 1)) eqn:B4; [|discriminate].
  some. bools. gsplit; cbn; try tauto; [|lia]. intros tr i. cbn. rewrite orb_false_r, orb_comm.
  rewrite Nat.max_comm. symmetry; apply opF_union; assumption.
Qed.

Lemma rw_and_good l r n : legal (EAnd [l; r]) -> rw_and [l; r] = Some n -> good (EAnd [l; r]) n.
Proof.
  intros L E. cbn [legal fold_right] in L. cbn [rw_and] in E.
  destruct l as [| | | | | | | | |lb1 ub1 p|lb1 ub1 p|lb1 ub1 p1 q1| | | | |]; try discriminate E;
    destruct r as [| | | | | | | | |lb2 ub2 q|lb2 ub2 q|lb2 ub2 p2 q2| | | | |]; try discriminate E;
    cbn in L.
  - destruct (expr_eqb p q) eqn:Eq; [|discriminate]. bools; subst q.
    destruct ((lb1 <=? lb2) && (ub2 <=? ub1)) eqn:B1.
    { some. bools. gsplit; cbn; try tauto. intros tr i. cbn. rewrite andb_true_r.
      symmetry; apply opF_sub_and; assumption. }
    destruct ((lb2 <=? lb1) && (ub1 <=? ub2)) eqn:B2; [|discriminate].
    some. bools. gsplit; cbn; try tauto. intros tr i. cbn. rewrite andb_true_r, andb_comm.
    symmetry; apply opF_sub_and; assumption.
  - destruct (expr_eqb p q) eqn:Eq.
    + bools; subst q. apply rw_merge_G; tauto.
    + some. gsplit; cbn; try tauto; try lia.
      intros tr i. cbn. rewrite andb_true_r.
      rewrite <- (opG_factor lb1 ub1 lb2 ub2 _ _ (den tr p) (den tr q) i eq_refl eq_refl) by tauto.
      apply opG_ext. intros j. unfold band. rewrite andb_true_r. reflexivity.
  - destruct (expr_eqb q1 q2 && (lb1 =? lb2)) eqn:B; [|discriminate]. bools. subst q2 lb2.
    some. gsplit; cbn; try tauto; [|lia].
    intros tr i. cbn. rewrite andb_true_r, opU_and. apply opU_ext; intros j; [|reflexivity].
    unfold band. rewrite andb_true_r; reflexivity.
Qed.

Lemma rw_or_good l r n : legal (EOr [l; r]) -> rw_or [l; r] = Some n -> good (EOr [l; r]) n.
Proof.
  intros L E. cbn [legal fold_right] in L. cbn [rw_or] in E.
  destruct l as [| | | | | | | | |lb1 ub1 p|lb1 ub1 p|lb1 ub1 p1 q1| | | | |]; try discriminate E;
    destruct r as [| | | | | | | | |lb2 ub2 q|lb2 ub2 q|lb2 ub2 p2 q2| | | | |]; try discriminate E;
    cbn in L.
  - destruct (expr_eqb p q) eqn:Eq.
    + bools; subst q. apply rw_merge_F; tauto.
    + some. gsplit; cbn; try tauto; try lia.
      intros tr i. cbn. rewrite orb_false_r.
      rewrite <- (opF_factor lb1 ub1 lb2 ub2 _ _ (den tr p) (den tr q) i eq_refl eq_refl) by tauto.
      apply opF_ext. intros j. unfold bor. rewrite orb_false_r. reflexivity.
  - destruct (expr_eqb p q) eqn:Eq; [|discriminate]. bools; subst q.
    destruct ((lb2 <=? lb1) && (ub1 <=? ub2)) eqn:B1.
    { some. bools. gsplit; cbn; try tauto. intros tr i. cbn. rewrite orb_false_r, orb_comm.
      symmetry; apply opG_sub_or; assumption. }
    destruct ((lb1 <=? lb2) && (ub2 <=? ub1)) eqn:B2; [|discriminate].
    some. bools. gsplit; cbn; try tauto. intros tr i. cbn. rewrite orb_false_r.
    symmetry; apply opG_sub_or; assumption.
Qed.

Lemma good_refl e : legal e -> good e e.
Proof. intros L. gsplit; auto. Qed.

Lemma rw_node_good e :
  legal e ->
  match e with
  | EAnd es | EOr es => length es = 2
  | EBeq p q => (p = EConst true \/ is_const p = false) /\ (q = EConst true \/ is_const q = false)
  | _ => True
  end -> good e (rw_node e).
Proof.
  intros L H. unfold rw_node. destruct e; try (apply good_refl; exact L).
  - destruct (rw_not e) eqn:E; [apply rw_not_good; assumption | apply good_refl; exact L].
  - destruct es as [|l [|r [|]]]; try discriminate H.
    destruct (rw_and [l; r]) eqn:E; [apply rw_and_good; assumption | apply good_refl; exact L].
  - destruct es as [|l [|r [|]]]; try discriminate H.
    destruct (rw_or [l; r]) eqn:E; [apply rw_or_good; assumption | apply good_refl; exact L].
  - destruct (rw_eq e1 e2) eqn:E; [apply rw_eq_good; tauto | apply good_refl; exact L].
  - destruct (rw_future lb ub e) eqn:E; [apply rw_future_good; assumption | apply good_refl; exact L].
  - destruct (rw_global lb ub e) eqn:E; [apply rw_global_good; assumption | apply good_refl; exact L].
Qed.

Lemma good_trans a b c : good a b -> good b c -> good a c.
Proof. intros (D1 & L1 & A1) (D2 & L2 & A2). gsplit; auto.
  eapply deq_trans; eassumption. Qed.

Lemma has_atom_not_const e : has_atom e -> is_const e = false.
Proof. destruct e; cbn; tauto || reflexivity. Qed.

Lemma has_atom_list es :
  fold_right (fun e Q => has_atom e \/ Q) False es <-> Exists has_atom es.
Proof.
  induction es as [|e es IH]; cbn [fold_right]; split; intros H.
  - contradiction.
  - inversion H.
  - destruct H; [left; assumption | right; apply IH; assumption].
  - inversion H; subst; [left; assumption | right; apply IH; assumption].
Qed.

Lemma good_and es es' : Forall2 good es es' -> good (EAnd es) (EAnd es').
Proof.
  intros H. gsplit.
  - intros tr i. rewrite !den_and. induction H as [|x y l l' [D _] _ IH]; cbn; [reflexivity|].
    rewrite D, IH; reflexivity.
  - apply fold_right_legal. induction H as [|x y l l' (_ & L & _) _ IH]; constructor; assumption.
  - cbn [has_atom]. rewrite !has_atom_list. induction H as [|x y l l' (_ & _ & A) _ IH]; intros Hx.
    + inversion Hx.
    + inversion Hx; subst; [left; auto | right; auto].
Qed.
Lemma good_or es es' : Forall2 good es es' -> good (EOr es) (EOr es').
Proof.
  intros H. gsplit.
  - intros tr i. rewrite !den_or. induction H as [|x y l l' [D _] _ IH]; cbn; [reflexivity|].
    rewrite D, IH; reflexivity.
  - apply fold_right_legal. induction H as [|x y l l' (_ & L & _) _ IH]; constructor; assumption.
  - cbn [has_atom]. rewrite !has_atom_list. induction H as [|x y l l' (_ & _ & A) _ IH]; intros Hx.
    + inversion Hx.
    + inversion Hx; subst; [left; auto | right; auto].
Qed.

Lemma rw_good e : legal e -> all_nodes rewrite_source_op e -> good e (optimize_rewrites e).
Proof.
  unfold optimize_rewrites.
  induction e as [b|a|e IH|es IH|es IH|p q IHp IHq|p q IHp IHq|p q IHp IHq|p q IHp IHq
                 |lb ub p IHp|lb ub p IHp|lb ub p q IHp IHq|lb ub p q IHp IHq
                 |lb ub p IHp|lb ub p IHp|lb ub p q IHp IHq|lb ub p q IHp IHq] using expr_ind';
    intros L [Hn Hk]; cbn [expr_map].
  - apply good_refl; exact I.
  - apply good_refl; exact I.
  - cbn in L. destruct (IH L Hk) as (D & L' & A).
    eapply good_trans; [|apply rw_node_good; [exact L' | exact I]].
    gsplit; auto. intros tr i; cbn; rewrite D; reflexivity.
  - cbn [legal] in L. apply fold_right_legal in L. apply fold_all_nodes in Hk.
    assert (F2 : Forall2 good es (map (expr_map rw_node) es)).
    { clear Hn. induction IH as [|x l Hx _ IHl]; cbn; constructor;
        inversion L; subst; inversion Hk; subst; auto. }
    eapply good_trans; [apply good_and, F2|]. apply rw_node_good.
    + apply good_and in F2. apply F2.
    + rewrite map_length. exact Hn.
  - cbn [legal] in L. apply fold_right_legal in L. apply fold_all_nodes in Hk.
    assert (F2 : Forall2 good es (map (expr_map rw_node) es)).
    { clear Hn. induction IH as [|x l Hx _ IHl]; cbn; constructor;
        inversion L; subst; inversion Hk; subst; auto. }
    eapply good_trans; [apply good_or, F2|]. apply rw_node_good.
    + apply good_or in F2. apply F2.
    + rewrite map_length. exact Hn.
  - cbn in L. destruct L as [Lp Lq], Hk as [Kp Kq].
    destruct (IHp Lp Kp) as (Dp & Lp' & Ap), (IHq Lq Kq) as (Dq & Lq' & Aq).
    gsplit; cbn; auto; [|tauto]. intros tr i; cbn; rewrite Dp, Dq; reflexivity.
  - cbn in L. destruct L as [Lp Lq], Hk as [Kp Kq].
    destruct (IHp Lp Kp) as (Dp & Lp' & Ap), (IHq Lq Kq) as (Dq & Lq' & Aq).
    gsplit; cbn; auto; [|tauto]. intros tr i; cbn; rewrite Dp, Dq; reflexivity.
  - cbn in L. destruct L as [Lp Lq], Hk as [Kp Kq].
    destruct (IHp Lp Kp) as (Dp & Lp' & Ap), (IHq Lq Kq) as (Dq & Lq' & Aq).
    gsplit; cbn; auto; [|tauto]. intros tr i; cbn; rewrite Dp, Dq; reflexivity.
  - cbn in L. destruct L as [Lp Lq], Hk as [Kp Kq].
    destruct (IHp Lp Kp) as (Dp & Lp' & Ap), (IHq Lq Kq) as (Dq & Lq' & Aq).
    eapply good_trans; [|apply rw_node_good].
    + gsplit; cbn; auto; [|tauto]. intros tr i; cbn; rewrite Dp, Dq; reflexivity.
    + split; assumption.
    + cbn in Hn. destruct Hn as [[->|Hp] [->|Hq]]; split; try (left; reflexivity);
        right; apply has_atom_not_const; auto.
  - cbn in L. destruct L as [Lb Lp]. destruct (IHp Lp Hk) as (Dp & Lp' & Ap).
    eapply good_trans; [|apply rw_node_good; [cbn; split; [exact Lb | exact Lp'] | exact I]].
    gsplit; cbn; auto. intros tr i; cbn. apply opF_ext; intros; apply Dp.
  - cbn in L. destruct L as [Lb Lp]. destruct (IHp Lp Hk) as (Dp & Lp' & Ap).
    eapply good_trans; [|apply rw_node_good; [cbn; split; [exact Lb | exact Lp'] | exact I]].
    gsplit; cbn; auto. intros tr i; cbn. apply opG_ext; intros; apply Dp.
  - cbn in L. destruct L as (Lb & Lp & Lq), Hk as [Kp Kq].
    destruct (IHp Lp Kp) as (Dp & Lp' & Ap), (IHq Lq Kq) as (Dq & Lq' & Aq).
    gsplit; cbn; auto; [|tauto]. intros tr i; cbn. apply opU_ext; intros; auto.
  - cbn in L. destruct L as (Lb & Lp & Lq), Hk as [Kp Kq].
    destruct (IHp Lp Kp) as (Dp & Lp' & Ap), (IHq Lq Kq) as (Dq & Lq' & Aq).
    gsplit; cbn; auto; [|tauto]. intros tr i; cbn. apply opR_ext; intros; auto.
  - cbn in L. destruct L as [Lb Lp]. destruct (IHp Lp Hk) as (Dp & Lp' & Ap).
    gsplit; cbn; auto. intros tr i; cbn. apply opO_ext; intros; apply Dp.
  - cbn in L. destruct L as [Lb Lp]. destruct (IHp Lp Hk) as (Dp & Lp' & Ap).
    gsplit; cbn; auto. intros tr i; cbn. apply opH_ext; intros; apply Dp.
  - cbn in L. destruct L as (Lb & Lp & Lq), Hk as [Kp Kq].
    destruct (IHp Lp Kp) as (Dp & Lp' & Ap), (IHq Lq Kq) as (Dq & Lq' & Aq).
    gsplit; cbn; auto; [|tauto]. intros tr i; cbn. apply opS_ext; intros; auto.
  - cbn in L. destruct L as (Lb & Lp & Lq), Hk as [Kp Kq].
    destruct (IHp Lp Kp) as (Dp & Lp' & Ap), (IHq Lq Kq) as (Dq & Lq' & Aq).
    gsplit; cbn; auto; [|tauto]. intros tr i; cbn. apply opT_ext; intros; auto.
Qed.

Lemma rewrites_equivalent e : legal e -> all_nodes rewrite_source_op e ->
  equivalent (optimize_rewrites e) e.
Proof. intros L H. apply deq_equivalent. apply (rw_good e L H). Qed.
Lemma rewrites_legal e : legal e -> all_nodes rewrite_source_op e -> legal (optimize_rewrites e).
Proof. intros L H. apply (rw_good e L H). Qed.

(** ** Refutations *)
Lemma rewrites_eq_refuted :
  exists e, legal e /\ all_nodes (fun e => match e with EAnd es | EOr es => length es = 2 | _ => True end) e /\
            ~ equivalent (optimize_rewrites e) e.
Proof.
  exists (EBeq (EConst false) (EAtom 0)). repeat split; cbn; auto.
  intros H. apply deq_equivalent in H. specialize (H (fun _ _ => true) 0). discriminate H.
Qed.
Lemma rewrites_nary_refuted :
  exists e, legal e /\ all_nodes (fun e => match e with EBeq _ _ => False | _ => True end) e /\
            ~ equivalent (optimize_rewrites e) e.
Proof.
  exists (EAnd [EG 0 3 (EAtom 0); EG 0 3 (EAtom 1); EAtom 2]).
  repeat split; cbn; auto; try lia.
  intros H. apply deq_equivalent in H.
  specialize (H (fun _ a => negb (a =? 2)) 0). discriminate H.
Qed.
