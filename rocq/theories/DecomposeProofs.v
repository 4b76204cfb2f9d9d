(** * Proofs about unrolling and interval decomposition *)
From Coq Require Import List Arith Bool Lia.
Require Import Verif.Mltl Verif.MltlShape Verif.MltlEval Verif.OpLaws.
Require Import Verif.Transform Verif.TransformProofs Verif.Decompose.
Import ListNotations.
Arguments opF : simpl never.
Arguments opG : simpl never.
Arguments opU : simpl never.
Arguments opR : simpl never.

(** ** A node function that is correct on legal nodes is correct on legal trees *)
Definition good_node (f : expr -> expr) : Prop :=
  forall e, legal e -> deq (f e) e /\ legal (f e).

Lemma legal_map f es : Forall (fun e => legal e -> deq (expr_map f e) e /\ legal (expr_map f e)) es ->
  fold_right (fun e Q => legal e /\ Q) True es ->
  Forall legal (map (expr_map f) es) /\
  forall tr i, map (fun e => den tr e i) (map (expr_map f) es) = map (fun e => den tr e i) es.
Proof.
  induction 1 as [|e es He Hes IH]; cbn [map fold_right]; intros L.
  - split; [constructor|reflexivity].
  - destruct L as [Le Les]. destruct (He Le) as [D L']. destruct (IH Les) as [IH1 IH2].
    split; [constructor; assumption|]. intros tr i. f_equal; [apply D | apply IH2].
Qed.

Lemma forallb_map_id {A} (g : A -> bool) (x : list A) :
  forallb g x = forallb (fun b => b) (map g x).
Proof. induction x; cbn; [reflexivity | f_equal; assumption]. Qed.
Lemma existsb_map_id {A} (g : A -> bool) (x : list A) :
  existsb g x = existsb (fun b => b) (map g x).
Proof. induction x; cbn; [reflexivity | f_equal; assumption]. Qed.

Lemma expr_map_legal f : good_node f ->
  forall e, legal e -> deq (expr_map f e) e /\ legal (expr_map f e).
Proof.
  intros Hf.
  assert (step : forall e e', deq e' e -> legal e' -> deq (f e') e /\ legal (f e')).
  { intros e e' D L. destruct (Hf e' L) as [D' L']. split; [eapply deq_trans; eassumption | exact L']. }
  induction e as [b|a|e IH|es IH|es IH|p q IHp IHq|p q IHp IHq|p q IHp IHq|p q IHp IHq
                 |lb ub p IHp|lb ub p IHp|lb ub p q IHp IHq|lb ub p q IHp IHq
                 |lb ub p IHp|lb ub p IHp|lb ub p q IHp IHq|lb ub p q IHp IHq] using expr_ind';
    intros L; cbn [expr_map]; cbn [legal] in L; apply step; try exact L; try apply deq_refl.
  - intros tr i. cbn [den]. rewrite (proj1 (IH L)); reflexivity.
  - exact (proj2 (IH L)).
  - intros tr i. rewrite !den_and, (forallb_map_id _ es), (forallb_map_id _ (map (expr_map f) es)).
    rewrite (proj2 (legal_map f es IH L)). reflexivity.
  - apply fold_right_legal, (legal_map f es IH L).
  - intros tr i. rewrite !den_or, (existsb_map_id _ es), (existsb_map_id _ (map (expr_map f) es)).
    rewrite (proj2 (legal_map f es IH L)). reflexivity.
  - apply fold_right_legal, (legal_map f es IH L).
  - destruct L as [Lp Lq]. intros tr i; cbn [den]. rewrite (proj1 (IHp Lp)), (proj1 (IHq Lq)); reflexivity.
  - destruct L as [Lp Lq]. split; [apply IHp | apply IHq]; assumption.
  - destruct L as [Lp Lq]. intros tr i; cbn [den]. rewrite (proj1 (IHp Lp)), (proj1 (IHq Lq)); reflexivity.
  - destruct L as [Lp Lq]. split; [apply IHp | apply IHq]; assumption.
  - destruct L as [Lp Lq]. intros tr i; cbn [den]. rewrite (proj1 (IHp Lp)), (proj1 (IHq Lq)); reflexivity.
  - destruct L as [Lp Lq]. split; [apply IHp | apply IHq]; assumption.
  - destruct L as [Lp Lq]. intros tr i; cbn [den]. rewrite (proj1 (IHp Lp)), (proj1 (IHq Lq)); reflexivity.
  - destruct L as [Lp Lq]. split; [apply IHp | apply IHq]; assumption.
  - destruct L as [Lb Lp]. intros tr i; cbn [den]. apply opF_ext. intros; apply (IHp Lp).
  - destruct L as [Lb Lp]. split; [exact Lb | apply IHp, Lp].
  - destruct L as [Lb Lp]. intros tr i; cbn [den]. apply opG_ext. intros; apply (IHp Lp).
  - destruct L as [Lb Lp]. split; [exact Lb | apply IHp, Lp].
  - destruct L as (Lb & Lp & Lq). intros tr i; cbn [den]. apply opU_ext; intros; [apply (IHp Lp)|apply (IHq Lq)].
  - destruct L as (Lb & Lp & Lq). split; [exact Lb | split; [apply IHp, Lp | apply IHq, Lq]].
  - destruct L as (Lb & Lp & Lq). intros tr i; cbn [den]. apply opR_ext; intros; [apply (IHp Lp)|apply (IHq Lq)].
  - destruct L as (Lb & Lp & Lq). split; [exact Lb | split; [apply IHp, Lp | apply IHq, Lq]].
  - destruct L as [Lb Lp]. intros tr i; cbn [den]. apply opO_ext. intros; apply (IHp Lp).
  - destruct L as [Lb Lp]. split; [exact Lb | apply IHp, Lp].
  - destruct L as [Lb Lp]. intros tr i; cbn [den]. apply opH_ext. intros; apply (IHp Lp).
  - destruct L as [Lb Lp]. split; [exact Lb | apply IHp, Lp].
  - destruct L as (Lb & Lp & Lq). intros tr i; cbn [den]. apply opS_ext; intros; [apply (IHp Lp)|apply (IHq Lq)].
  - destruct L as (Lb & Lp & Lq). split; [exact Lb | split; [apply IHp, Lp | apply IHq, Lq]].
  - destruct L as (Lb & Lp & Lq). intros tr i; cbn [den]. apply opT_ext; intros; [apply (IHp Lp)|apply (IHq Lq)].
  - destruct L as (Lb & Lp & Lq). split; [exact Lb | split; [apply IHp, Lp | apply IHq, Lq]].
Qed.

(** ** Unrolling *)
Lemma in_steps b lb ub : In b (steps lb ub) <-> lb <= b <= ub.
Proof. unfold steps. rewrite in_seq. lia. Qed.

Lemma opU_step lb ub p q i : lb < ub ->
  opU lb ub p q i = q (i + lb) || (p (i + lb) && opU (S lb) ub p q i).
Proof.
  intros H. apply bool_ext. rewrite orb_true_iff, andb_true_iff, !opU_true. split.
  - intros (j & Hj & Hq & Hp). destruct (Nat.eq_dec j (i + lb)) as [->|Hne]; [left; exact Hq|].
    right. split; [apply Hp; lia|]. exists j. split; [lia|]. split; [exact Hq|].
    intros k Hk. apply Hp; lia.
  - intros [Hq | [Hp (j & Hj & Hq & Hp')]].
    + exists (i + lb). split; [lia|]. split; [exact Hq|]. intros k Hk; lia.
    + exists j. split; [lia|]. split; [exact Hq|]. intros k Hk.
      destruct (Nat.eq_dec k (i + lb)) as [->|]; [exact Hp | apply Hp'; lia].
Qed.

Lemma unroll_until_den tr p q k : forall lb i,
  den tr (unroll_until p q lb k) i = opU lb (lb + k) (den tr p) (den tr q) i.
Proof.
  induction k as [|k IH]; intros lb i; cbn [unroll_until].
  - rewrite Nat.add_0_r, opU_point. cbn [den]. apply opF_point.
  - rewrite opU_step by lia. cbn [den fold_right]. rewrite IH, !opF_point, orb_false_r, andb_true_r.
    replace (S lb + k) with (lb + S k) by lia. reflexivity.
Qed.

Lemma unroll_until_legal p q k : legal p -> legal q -> forall lb, legal (unroll_until p q lb k).
Proof.
  intros Lp Lq. induction k as [|k IH]; intros lb; cbn; repeat split; auto.
Qed.

Lemma unroll_node_good : good_node unroll_node.
Proof.
  intros e L. destruct e; try (split; [apply deq_refl | exact L]); cbn [unroll_node].
  - destruct (Nat.eqb_spec lb ub) as [->|Hne]; [split; [apply deq_refl | exact L]|].
    cbn [legal] in L. split.
    + intros tr i. rewrite den_or, existsb_map'. cbn [den]. apply bool_ext.
      rewrite existsb_exists, opF_true. split.
      * intros (b & Hb & H). apply in_steps in Hb. rewrite opF_point in H.
        exists (i + b). split; [lia | exact H].
      * intros (j & Hj & H). exists (j - i). rewrite in_steps, opF_point.
        split; [lia|]. replace (i + (j - i)) with j by lia. exact H.
    + apply fold_right_legal, Forall_forall. intros x Hx. apply in_map_iff in Hx as (b & <- & _).
      cbn [legal]. split; [lia | tauto].
  - destruct (Nat.eqb_spec lb ub) as [->|Hne]; [split; [apply deq_refl | exact L]|].
    cbn [legal] in L. split.
    + intros tr i. rewrite den_and, forallb_map'. cbn [den]. apply bool_ext.
      rewrite forallb_forall, opG_true. split.
      * intros H j Hj. specialize (H (j - i)). rewrite in_steps, opG_point in H.
        replace (i + (j - i)) with j in H by lia. apply H; lia.
      * intros H b Hb. apply in_steps in Hb. rewrite opG_point. apply H; lia.
    + apply fold_right_legal, Forall_forall. intros x Hx. apply in_map_iff in Hx as (b & <- & _).
      cbn [legal]. split; [lia | tauto].
  - cbn [legal] in L. split.
    + intros tr i. rewrite unroll_until_den. cbn [den]. replace (lb + (ub - lb)) with ub by lia. reflexivity.
    + apply unroll_until_legal; tauto.
Qed.

Lemma unroll_equivalent e e' : legal e -> unroll e = Some e' -> equivalent e' e.
Proof.
  unfold unroll. intros L E. destruct (has_release e); [discriminate|]. injection E as <-.
  apply deq_equivalent, expr_map_legal; [exact unroll_node_good | exact L].
Qed.

Lemma has_release_false e : has_release e = false <-> all_nodes no_release_op e.
Proof.
  assert (L : forall es, Forall (fun e => has_release e = false <-> all_nodes no_release_op e) es ->
     (existsb has_release es = false <-> Forall (all_nodes no_release_op) es)).
  { induction 1 as [|x es Hx _ IH]; cbn [existsb].
    - split; [constructor | reflexivity].
    - rewrite orb_false_iff, Hx, IH. split; [intros []; constructor; assumption|].
      intros F; inversion F; auto. }
  induction e using expr_ind'; cbn [has_release all_nodes no_release_op];
    rewrite ?orb_false_iff; try tauto.
  - rewrite fold_all_nodes, L by assumption. tauto.
  - rewrite fold_all_nodes, L by assumption. tauto.
  - split; [discriminate | tauto].
Qed.

Lemma unroll_defined e : unroll e = None <-> ~ all_nodes no_release_op e.
Proof.
  unfold unroll. rewrite <- has_release_false. destruct (has_release e); split; intros X;
    try discriminate; try reflexivity; congruence.
Qed.

Lemma unroll_until_shape p q k : all_nodes unrolled_op p -> all_nodes unrolled_op q ->
  forall lb, all_nodes unrolled_op (unroll_until p q lb k).
Proof. intros Hp Hq. induction k as [|k IH]; intros lb; cbn; repeat split; auto. Qed.

(** The shape needs no release in the source, so it is an induction of its own. *)
Lemma unroll_map_shape e : all_nodes no_release_op e -> all_nodes unrolled_op (expr_map unroll_node e).
Proof.
  induction e using expr_ind'; cbn [all_nodes no_release_op]; intros Hn; cbn [expr_map unroll_node];
    try (cbn [all_nodes unrolled_op]; tauto).
  - destruct Hn as [_ Hn]. cbn [all_nodes unrolled_op]. split; [exact I|]. rewrite fold_all_nodes in *.
    rewrite Forall_forall in *. intros x Hx. apply in_map_iff in Hx as (y & <- & Hy). apply H; auto.
  - destruct Hn as [_ Hn]. cbn [all_nodes unrolled_op]. split; [exact I|]. rewrite fold_all_nodes in *.
    rewrite Forall_forall in *. intros x Hx. apply in_map_iff in Hx as (y & <- & Hy). apply H; auto.
  - destruct (Nat.eqb_spec lb ub); [cbn [all_nodes unrolled_op]; tauto|].
    cbn [all_nodes unrolled_op]. split; [exact I|]. rewrite fold_all_nodes.
    apply Forall_forall. intros x Hx. apply in_map_iff in Hx as (b & <- & _).
    cbn [all_nodes unrolled_op]. tauto.
  - destruct (Nat.eqb_spec lb ub); [cbn [all_nodes unrolled_op]; tauto|].
    cbn [all_nodes unrolled_op]. split; [exact I|]. rewrite fold_all_nodes.
    apply Forall_forall. intros x Hx. apply in_map_iff in Hx as (b & <- & _).
    cbn [all_nodes unrolled_op]. tauto.
  - apply unroll_until_shape; tauto.
Qed.

Lemma unroll_shape e e' : unroll e = Some e' -> all_nodes unrolled_op e'.
Proof.
  intros E. unfold unroll in E. destruct (has_release e) eqn:Hr; [discriminate|]. injection E as <-.
  apply unroll_map_shape, has_release_false, Hr.
Qed.

(** ** Decomposition *)
Lemma take_amounts_sum fuel a : forall s l s', 0 < a -> s <= fuel ->
  take_amounts fuel a s = (l, s') -> list_sum l + s' = s /\ s' < a.
Proof.
  induction fuel as [|fuel IH]; cbn [take_amounts]; intros s l s' Ha Hs E.
  - injection E as <- <-. cbn. lia.
  - destruct (Nat.leb_spec a s) as [H|H].
    + destruct (take_amounts fuel a (s - a)) as [l1 s1] eqn:E1. injection E as <- <-.
      apply IH in E1; [|lia|lia]. cbn [list_sum fold_right]. unfold list_sum in *. lia.
    + injection E as <- <-. cbn. lia.
Qed.
Lemma take_amounts_in fuel a : forall s l s', take_amounts fuel a s = (l, s') -> Forall (eq a) l.
Proof.
  induction fuel as [|fuel IH]; cbn [take_amounts]; intros s l s' E.
  - injection E as <- <-. constructor.
  - destruct (a <=? s).
    + destruct (take_amounts fuel a (s - a)) as [l1 s1] eqn:E1. injection E as <- <-.
      constructor; [reflexivity | eapply IH; exact E1].
    + injection E as <- <-. constructor.
Qed.

Lemma pow2_pos m : 0 < 2 ^ S m - 1.
Proof. cbn [Nat.pow]. pose proof (Nat.pow_nonzero 2 m). lia. Qed.

Lemma amounts_sum m : forall s, 0 < m -> list_sum (amounts m s) = s.
Proof.
  induction m as [|m IH]; intros s Hm; [lia|]. cbn [amounts].
  destruct (take_amounts s (2 ^ S m - 1) s) as [l s'] eqn:E.
  pose proof (take_amounts_sum _ _ _ _ _ (pow2_pos m) (le_n s) E) as [Hs Hlt].
  rewrite list_sum_app. destruct m as [|m].
  - cbn in Hlt. cbn [amounts list_sum fold_right]. lia.
  - rewrite IH by lia. exact Hs.
Qed.
Lemma amounts_pow m : forall s, Forall (fun a => exists k, a = 2 ^ k - 1) (amounts m s).
Proof.
  induction m as [|m IH]; intros s; cbn [amounts]; [constructor|].
  destruct (take_amounts s (2 ^ S m - 1) s) as [l s'] eqn:E. apply Forall_app. split; [|apply IH].
  apply take_amounts_in in E. eapply Forall_impl; [|exact E]. intros a <-. exists (S m). reflexivity.
Qed.

Lemma interval_amounts_sum lb ub : lb < ub -> list_sum (interval_amounts lb ub) = ub - lb.
Proof.
  intros H. unfold interval_amounts. apply amounts_sum. apply Nat.log2_pos. lia.
Qed.

Lemma opU_opU a b p q i : opU 0 a p (opU 0 b p q) i = opU 0 (a + b) p q i.
Proof.
  apply bool_ext. rewrite !opU_true. split.
  - intros (j & Hj & Hu & Hp). apply opU_true in Hu as (k & Hk & Hq & Hp2).
    exists k. split; [lia|]. split; [exact Hq|]. intros m Hm.
    destruct (le_lt_dec j m); [apply Hp2; lia | apply Hp; lia].
  - intros (j & Hj & Hq & Hp). exists (Nat.min j (i + a)). split; [lia|]. split.
    + apply opU_true. exists j. split; [lia|]. split; [exact Hq|]. intros k Hk; apply Hp; lia.
    + intros k Hk. apply Hp. lia.
Qed.
Lemma opU_opU_point l b p q i : opU l l p (opU 0 b p q) i = opU l (l + b) p q i.
Proof.
  rewrite opU_point. apply bool_ext. rewrite !opU_true. split.
  - intros (j & Hj & Hq & Hp). exists j. split; [lia|]. split; [exact Hq|]. intros k Hk; apply Hp; lia.
  - intros (j & Hj & Hq & Hp). exists j. split; [lia|]. split; [exact Hq|]. intros k Hk; apply Hp; lia.
Qed.

Lemma fold_F tr p l : forall i,
  den tr (fold_right (fun a r => EF 0 a r) p l) i = opF 0 (list_sum l) (den tr p) i.
Proof.
  induction l as [|a l IH]; intros i; cbn [fold_right].
  - cbn [list_sum fold_right]. rewrite opF_point, Nat.add_0_r. reflexivity.
  - cbn [den]. rewrite (opF_ext _ _ _ _ IH), opF_opF by lia. reflexivity.
Qed.
Lemma fold_G tr p l : forall i,
  den tr (fold_right (fun a r => EG 0 a r) p l) i = opG 0 (list_sum l) (den tr p) i.
Proof.
  induction l as [|a l IH]; intros i; cbn [fold_right].
  - cbn [list_sum fold_right]. rewrite opG_point, Nat.add_0_r. reflexivity.
  - cbn [den]. rewrite (opG_ext _ _ _ _ IH), opG_opG by lia. reflexivity.
Qed.
Lemma fold_U tr p q l : forall i,
  den tr (fold_right (fun a r => EU 0 a p r) q l) i = opU 0 (list_sum l) (den tr p) (den tr q) i.
Proof.
  induction l as [|a l IH]; intros i; cbn [fold_right].
  - cbn [list_sum fold_right]. rewrite opU_point, Nat.add_0_r. reflexivity.
  - cbn [den]. rewrite (opU_ext _ _ _ (den tr p) _ _ (fun _ => eq_refl) IH), opU_opU. reflexivity.
Qed.
Lemma fold_legal (mk : nat -> expr -> expr) p l :
  (forall a r, legal r -> legal (mk a r)) -> legal p -> legal (fold_right mk p l).
Proof. intros H Hp. induction l; cbn; auto. Qed.

Lemma decompose_node_good : good_node decompose_node.
Proof.
  intros e L. destruct e; try (split; [apply deq_refl | exact L]); cbn [decompose_node];
    (destruct (Nat.eqb_spec lb ub) as [->|Hne]; [split; [apply deq_refl | exact L]|]);
    cbn [legal] in L; cbv zeta.
  - assert (Hs : list_sum (interval_amounts lb ub) = ub - lb) by (apply interval_amounts_sum; lia).
    assert (Hl : legal (fold_right (fun a r => EF 0 a r) e (interval_amounts lb ub))).
    { apply fold_legal; [cbn; auto with arith | tauto]. }
    destruct (Nat.ltb_spec 0 lb).
    + split; [|cbn [legal]; split; [lia | exact Hl]].
      intros tr i. cbn [den]. rewrite (opF_ext _ _ _ _ (fold_F tr e _)), opF_opF, Hs by lia.
      replace (lb + 0) with lb by lia. replace (lb + (ub - lb)) with ub by lia. reflexivity.
    + split; [|exact Hl]. intros tr i. rewrite fold_F, Hs. cbn [den].
      replace lb with 0 by lia. rewrite Nat.sub_0_r. reflexivity.
  - assert (Hs : list_sum (interval_amounts lb ub) = ub - lb) by (apply interval_amounts_sum; lia).
    assert (Hl : legal (fold_right (fun a r => EG 0 a r) e (interval_amounts lb ub))).
    { apply fold_legal; [cbn; auto with arith | tauto]. }
    destruct (Nat.ltb_spec 0 lb).
    + split; [|cbn [legal]; split; [lia | exact Hl]].
      intros tr i. cbn [den]. rewrite (opG_ext _ _ _ _ (fold_G tr e _)), opG_opG, Hs by lia.
      replace (lb + 0) with lb by lia. replace (lb + (ub - lb)) with ub by lia. reflexivity.
    + split; [|exact Hl]. intros tr i. rewrite fold_G, Hs. cbn [den].
      replace lb with 0 by lia. rewrite Nat.sub_0_r. reflexivity.
  - assert (Hs : list_sum (interval_amounts lb ub) = ub - lb) by (apply interval_amounts_sum; lia).
    assert (Hl : legal (fold_right (fun a r => EU 0 a e1 r) e2 (interval_amounts lb ub))).
    { apply fold_legal; [|tauto]. intros a r Hr. cbn [legal]. split; [lia|]. split; tauto. }
    destruct (Nat.ltb_spec 0 lb).
    + split; [|cbn [legal]; split; [lia | split; [tauto | exact Hl]]].
      intros tr i. cbn [den].
      rewrite (opU_ext _ _ _ (den tr e1) _ _ (fun _ => eq_refl) (fold_U tr e1 e2 _)), opU_opU_point, Hs.
      replace (lb + (ub - lb)) with ub by lia. reflexivity.
    + split; [|exact Hl]. intros tr i. rewrite fold_U, Hs. cbn [den].
      replace lb with 0 by lia. rewrite Nat.sub_0_r. reflexivity.
Qed.

Lemma decompose_equivalent e : legal e -> equivalent (decompose e) e.
Proof. intros L. apply deq_equivalent, expr_map_legal; [exact decompose_node_good | exact L]. Qed.
Lemma decompose_legal e : legal e -> legal (decompose e).
Proof. intros L. apply expr_map_legal; [exact decompose_node_good | exact L]. Qed.

Lemma fold_shape P (mk : nat -> expr -> expr) p l :
  Forall (fun a => forall r, all_nodes P r -> all_nodes P (mk a r)) l ->
  all_nodes P p -> all_nodes P (fold_right mk p l).
Proof. intros H Hp. induction H; cbn; auto. Qed.

Lemma decompose_shape e : all_nodes decomposed_op (decompose e).
Proof.
  apply expr_map_shape; intros; cbn [decompose_node]; try (cbn [all_nodes decomposed_op]; tauto).
  - cbn [all_nodes decomposed_op]. rewrite fold_all_nodes. auto.
  - cbn [all_nodes decomposed_op]. rewrite fold_all_nodes. auto.
  - destruct (Nat.eqb_spec lb ub); [cbn [all_nodes decomposed_op]; auto|].
    assert (Hf : all_nodes decomposed_op (fold_right (fun a r => EF 0 a r) p (interval_amounts lb ub))).
    { apply fold_shape; [|assumption]. eapply Forall_impl; [|apply amounts_pow]. cbv beta.
      intros a Ha r Hr. cbn [all_nodes decomposed_op]. auto. }
    cbv zeta. destruct (0 <? lb); [cbn [all_nodes decomposed_op]; auto | exact Hf].
  - destruct (Nat.eqb_spec lb ub); [cbn [all_nodes decomposed_op]; auto|].
    assert (Hf : all_nodes decomposed_op (fold_right (fun a r => EG 0 a r) p (interval_amounts lb ub))).
    { apply fold_shape; [|assumption]. eapply Forall_impl; [|apply amounts_pow]. cbv beta.
      intros a Ha r Hr. cbn [all_nodes decomposed_op]. auto. }
    cbv zeta. destruct (0 <? lb); [cbn [all_nodes decomposed_op]; auto | exact Hf].
  - destruct (Nat.eqb_spec lb ub); [cbn [all_nodes decomposed_op]; auto|].
    assert (Hf : all_nodes decomposed_op (fold_right (fun a r => EU 0 a p r) q (interval_amounts lb ub))).
    { apply fold_shape; [|assumption]. eapply Forall_impl; [|apply amounts_pow]. cbv beta.
      intros a Ha r Hr. cbn [all_nodes decomposed_op]. auto. }
    cbv zeta. destruct (0 <? lb); [cbn [all_nodes decomposed_op]; auto | exact Hf].
Qed.
