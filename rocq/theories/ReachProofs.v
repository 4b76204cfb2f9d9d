(** * Future reach is the compiler's worst-case delay (proof infrastructure) *)
From Coq Require Import List Arith ZArith Bool Lia.
Require Import Verif.Mltl Verif.MltlShape Verif.Transform Verif.Scq Verif.Engine Verif.Monitoring Verif.MonitorProofs.
Import ListNotations.

Lemma fold_left_zmax l : forall x y, fold_left Z.max l (Z.max x y) = Z.max x (fold_left Z.max l y).
Proof. induction l as [|z l IH]; intros x y; cbn; [reflexivity|]. rewrite <- IH. f_equal. lia. Qed.
Lemma zmax_reach es :
  Forall (fun e => wpd e = Z.of_nat (reach e)) es ->
  zmax_list (map wpd es) = Z.of_nat (fold_right (fun e n => Nat.max (reach e) n) 0 es).
Proof.
  induction 1 as [|e es He Hes IH]; [reflexivity|]. cbn [map fold_right zmax_list].
  destruct es as [|e' es]; [cbn; lia|]. cbn [map fold_left].
  rewrite fold_left_zmax. cbn [map zmax_list] in IH. rewrite IH, He, Nat2Z.inj_max. reflexivity.
Qed.
Lemma wpd_reach e : all_nodes future_op e -> wpd e = Z.of_nat (reach e).
Proof.
  induction e using expr_ind'; intros HN; cbn [all_nodes] in HN; destruct HN as [Hop HN]; cbn [wpd reach];
    try reflexivity; try (cbn in Hop; tauto).
  all: try (apply zmax_reach; clear Hop;
            match goal with F : Forall _ ?l |- _ => induction F as [|x l Hx Hl IH] end;
            constructor; cbn in HN; tauto).
  all: repeat match goal with IH : all_nodes _ ?x -> _ |- _ => specialize (IH ltac:(tauto)) end; lia.
Qed.

Lemma exprs_future prog confs : ft_program prog confs ->
  Forall (all_nodes future_op) (exprs prog confs).
Proof.
  intros [Hl H]. unfold exprs.
  assert (G : forall p cs es, (forall j ins c, nth_error p j = Some ins -> nth_error cs j = Some c ->
              i_op ins <> SINCE /\ i_op ins <> TRIGGER) ->
            Forall (all_nodes future_op) es -> Forall (all_nodes future_op) (exprs_from es p cs)).
  { induction p as [|i p IH]; intros [|c cs] es Hp He; cbn; auto.
    apply IH; [intros j ins c' Hj Hc; apply (Hp (S j) ins c' Hj Hc)|].
    apply Forall_app. split; [assumption|]. constructor; [|constructor].
    destruct (Hp 0 i c eq_refl eq_refl) as [N1 N2].
    assert (HO : forall o, all_nodes future_op (operand_expr es o)).
    { intros o; destruct o as [c0|b|c0|] eqn:Eo; cbn [operand_expr]; try (cbn; tauto).
      all: destruct (nth_in_or_default c0 es (EConst false)) as [Hin|Hd];
        [rewrite Forall_forall in He; apply He; assumption|rewrite Hd; cbn; tauto]. }
    unfold instr_expr. destruct (i_op i); try congruence; cbn; auto. }
  apply G; [|constructor]. intros j ins c Hj Hc. specialize (H j ins c Hj Hc). destruct H as [_ H].
  destruct (i_op ins); split; try discriminate; intros _; exact H.
Qed.
Lemma node_wpd prog confs k : ft_program prog confs ->
  wpd (node_expr prog confs k) = Z.of_nat (reach (node_expr prog confs k)).
Proof.
  intros H. apply wpd_reach. pose proof (exprs_future _ _ H) as F. unfold node_expr.
  destruct (nth_in_or_default k (exprs prog confs) (EConst false)) as [Hin| ->]; [|cbn; auto].
  rewrite Forall_forall in F. apply F. assumption.
Qed.
