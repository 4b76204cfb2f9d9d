(** * Propagation delays bound the window a verdict depends on *)
From Coq Require Import List Arith ZArith Bool Lia.
Require Import Verif.Mltl Verif.MltlShape Verif.MltlEval Verif.Window.
Require Import Verif.Transform Verif.TransformProofs.
Import ListNotations.
Open Scope Z_scope.

Lemma fold_max_ge l : forall x, x <= fold_left Z.max l x /\ Forall (fun y => y <= fold_left Z.max l x) l.
Proof.
  induction l as [|y l IH]; intros x; cbn [fold_left].
  - split; [lia|constructor].
  - destruct (IH (Z.max x y)) as [H1 H2]. split; [lia|]. constructor; [lia|exact H2].
Qed.
Lemma fold_min_le l : forall x, fold_left Z.min l x <= x /\ Forall (fun y => fold_left Z.min l x <= y) l.
Proof.
  induction l as [|y l IH]; intros x; cbn [fold_left].
  - split; [lia|constructor].
  - destruct (IH (Z.min x y)) as [H1 H2]. split; [lia|]. constructor; [lia|exact H2].
Qed.
Lemma zmax_list_ge l x : In x l -> x <= zmax_list l.
Proof.
  destruct l as [|y l]; cbn; [tauto|]. destruct (fold_max_ge l y) as [H1 H2].
  rewrite Forall_forall in H2. intros [->|H]; auto.
Qed.
Lemma zmin_list_le l x : In x l -> zmin_list l <= x.
Proof.
  destruct l as [|y l]; cbn; [tauto|]. destruct (fold_min_le l y) as [H1 H2].
  rewrite Forall_forall in H2. intros [->|H]; auto.
Qed.

(** Operators whose recorded delays are right: every future-time one, once and
    historically over an operand with a single-point window. *)
Definition exact_delay_op (e : expr) : Prop :=
  match e with
  | EO _ _ p | EH _ _ p => bpd p = wpd p
  | ES _ _ _ _ | ET _ _ _ _ => False
  | _ => True
  end.

Lemma agree_mono lo hi lo' hi' tr tr' : agree lo hi tr tr' -> lo <= lo' -> hi' <= hi -> agree lo' hi' tr tr'.
Proof. intros H Hl Hh j a Hj. apply H. lia. Qed.

Lemma ex_from_ext' (f g : nat -> bool) lo n :
  (forall j, (lo <= j < lo + n)%nat -> f j = g j) -> ex_from f lo n = ex_from g lo n.
Proof. apply ex_from_ext. Qed.

Lemma window_den e : all_nodes exact_delay_op e -> forall tr tr' i,
  agree (Z.of_nat i + bpd e) (Z.of_nat i + wpd e) tr tr' -> den tr e i = den tr' e i.
Proof.
  induction e as [b|a|e IH|es IH|es IH|p q IHp IHq|p q IHp IHq|p q IHp IHq|p q IHp IHq
                 |lb ub p IHp|lb ub p IHp|lb ub p q IHp IHq|lb ub p q IHp IHq
                 |lb ub p IHp|lb ub p IHp|lb ub p q IHp IHq|lb ub p q IHp IHq] using expr_ind';
    intros [Hop Hs] tr tr' i Ha; cbn [wpd bpd] in Ha.
  - reflexivity.
  - cbn [den]. apply Ha. lia.
  - cbn [den]. f_equal. apply IH; assumption.
  - rewrite !den_and. apply forallb_ext_in. intros x Hx. rewrite fold_all_nodes, Forall_forall in Hs.
    rewrite Forall_forall in IH. apply IH; auto. eapply agree_mono; [exact Ha| |].
    + pose proof (zmin_list_le (map bpd es) (bpd x) (in_map _ _ _ Hx)). lia.
    + pose proof (zmax_list_ge (map wpd es) (wpd x) (in_map _ _ _ Hx)). lia.
  - rewrite !den_or. apply existsb_ext_in. intros x Hx. rewrite fold_all_nodes, Forall_forall in Hs.
    rewrite Forall_forall in IH. apply IH; auto. eapply agree_mono; [exact Ha| |].
    + pose proof (zmin_list_le (map bpd es) (bpd x) (in_map _ _ _ Hx)). lia.
    + pose proof (zmax_list_ge (map wpd es) (wpd x) (in_map _ _ _ Hx)). lia.
  - cbn [den]. destruct Hs. f_equal; [apply IHp | apply IHq]; auto; eapply agree_mono; try exact Ha; lia.
  - cbn [den]. destruct Hs. f_equal; [apply IHp | apply IHq]; auto; eapply agree_mono; try exact Ha; lia.
  - cbn [den]. destruct Hs. f_equal; [apply IHp | apply IHq]; auto; eapply agree_mono; try exact Ha; lia.
  - cbn [den]. destruct Hs. f_equal; [apply IHp | apply IHq]; auto; eapply agree_mono; try exact Ha; lia.
  - cbn [den]. apply ex_from_ext. intros j Hj. apply IHp; [exact Hs|]. eapply agree_mono; [exact Ha|lia|lia].
  - cbn [den]. apply all_from_ext. intros j Hj. apply IHp; [exact Hs|]. eapply agree_mono; [exact Ha|lia|lia].
  - cbn [den]. destruct Hs as [Hp Hq]. apply ex_from_ext. intros j Hj. f_equal.
    + apply IHq; [exact Hq|]. eapply agree_mono; [exact Ha|lia|lia].
    + apply all_from_ext. intros k Hk. apply IHp; [exact Hp|]. eapply agree_mono; [exact Ha|lia|lia].
  - cbn [den]. destruct Hs as [Hp Hq]. apply all_from_ext. intros j Hj. f_equal.
    + apply IHq; [exact Hq|]. eapply agree_mono; [exact Ha|lia|lia].
    + apply ex_from_ext. intros k Hk. apply IHp; [exact Hp|]. eapply agree_mono; [exact Ha|lia|lia].
  - cbn [den]. cbn in Hop. apply ex_from_ext. intros j Hj. apply pw_iff in Hj.
    apply IHp; [exact Hs|]. eapply agree_mono; [exact Ha|lia|lia].
  - cbn [den]. cbn in Hop. apply all_from_ext. intros j Hj. apply pw_iff in Hj.
    apply IHp; [exact Hs|]. eapply agree_mono; [exact Ha|lia|lia].
  - destruct Hop.
  - destruct Hop.
Qed.

Lemma window_exact e : all_nodes exact_delay_op e -> depends_only_on (bpd e) (wpd e) e.
Proof.
  intros H tr tr' i Ha. rewrite <- !den_sat. rewrite (window_den e H tr tr' i Ha). reflexivity.
Qed.

Lemma future_exact e : all_nodes future_op e -> all_nodes exact_delay_op e.
Proof.
  induction e using expr_ind'; cbn [all_nodes future_op exact_delay_op]; try tauto.
  - rewrite !fold_all_nodes. intros [_ F]. split; [exact I|]. rewrite Forall_forall in *. auto.
  - rewrite !fold_all_nodes. intros [_ F]. split; [exact I|]. rewrite Forall_forall in *. auto.
Qed.

Lemma window_future e : all_nodes future_op e -> depends_only_on (bpd e) (wpd e) e.
Proof. intros H. apply window_exact, future_exact, H. Qed.

(** Future-time delays are ordered: 0 <= bpd <= wpd (legal intervals, no empty
    conjunction). *)
Definition nonempty_op (e : expr) : Prop :=
  match e with EAnd es | EOr es => es <> [] | _ => True end.

(** Past-time formulas depend only on the past and present. *)
Lemma past_den e : all_nodes past_op e -> forall tr tr' i,
  agree 0 (Z.of_nat i) tr tr' -> den tr e i = den tr' e i.
Proof.
  induction e as [b|a|e IH|es IH|es IH|p q IHp IHq|p q IHp IHq|p q IHp IHq|p q IHp IHq
                 |lb ub p IHp|lb ub p IHp|lb ub p q IHp IHq|lb ub p q IHp IHq
                 |lb ub p IHp|lb ub p IHp|lb ub p q IHp IHq|lb ub p q IHp IHq] using expr_ind';
    intros [Hop Hs] tr tr' i Ha; cbn [past_op] in Hop; try contradiction.
  - reflexivity.
  - cbn [den]. apply Ha. lia.
  - cbn [den]. f_equal. apply IH; assumption.
  - rewrite !den_and. apply forallb_ext_in. intros x Hx. rewrite fold_all_nodes, Forall_forall in Hs.
    rewrite Forall_forall in IH. apply IH; auto.
  - rewrite !den_or. apply existsb_ext_in. intros x Hx. rewrite fold_all_nodes, Forall_forall in Hs.
    rewrite Forall_forall in IH. apply IH; auto.
  - cbn [den]. destruct Hs. f_equal; auto.
  - cbn [den]. destruct Hs. f_equal; auto.
  - cbn [den]. destruct Hs. f_equal; auto.
  - cbn [den]. destruct Hs. f_equal; auto.
  - cbn [den]. apply ex_from_ext. intros j Hj. apply pw_iff in Hj.
    apply IHp; [exact Hs|]. eapply agree_mono; [exact Ha|lia|lia].
  - cbn [den]. apply all_from_ext. intros j Hj. apply pw_iff in Hj.
    apply IHp; [exact Hs|]. eapply agree_mono; [exact Ha|lia|lia].
  - cbn [den]. destruct Hs as [Hp Hq]. apply ex_from_ext. intros j Hj. apply pw_iff in Hj. f_equal.
    + apply IHq; [exact Hq|]. eapply agree_mono; [exact Ha|lia|lia].
    + apply all_from_ext. intros k Hk. apply IHp; [exact Hp|]. eapply agree_mono; [exact Ha|lia|lia].
  - cbn [den]. destruct Hs as [Hp Hq]. apply all_from_ext. intros j Hj. apply pw_iff in Hj. f_equal.
    + apply IHq; [exact Hq|]. eapply agree_mono; [exact Ha|lia|lia].
    + apply ex_from_ext. intros k Hk. apply IHp; [exact Hp|]. eapply agree_mono; [exact Ha|lia|lia].
Qed.
Lemma past_causal e : all_nodes past_op e ->
  forall tr tr' i, agree 0 (Z.of_nat i) tr tr' -> (sat tr e i <-> sat tr' e i).
Proof. intros H tr tr' i Ha. rewrite <- !den_sat, (past_den e H tr tr' i Ha). reflexivity. Qed.

Lemma since_window_refuted :
  exists e, legal e /\ all_nodes past_op e /\ ~ depends_only_on (bpd e) (wpd e) e.
Proof.
  exists (ES 0 3 (EAtom 0) (EAtom 1)). split; [cbn; auto with arith|]. split; [cbn; auto|].
  intros H. specialize (H (fun i a => (a =? 0)%nat || (i =? 0)%nat) (fun i a => (a =? 0)%nat) 2%nat).
  rewrite <- !den_sat in H. apply proj1 in H.
  - vm_compute in H. specialize (H eq_refl). discriminate H.
  - intros j a Hj. cbn in Hj. destruct a; [reflexivity|]. destruct j; [lia|reflexivity].
Qed.
Lemma once_window_refuted :
  exists e, legal e /\ all_nodes (fun e => match e with EO _ _ _ | EAtom _ => True | _ => False end) e /\
            ~ depends_only_on (bpd e) (wpd e) e.
Proof.
  exists (EO 0 1 (EO 0 1 (EAtom 0))). split; [cbn; auto with arith|]. split; [cbn; auto|].
  intros H. specialize (H (fun i a => (i =? 2)%nat) (fun i a => false) 2%nat).
  rewrite <- !den_sat in H. apply proj1 in H.
  - vm_compute in H. specialize (H eq_refl). discriminate H.
  - intros j a Hj. cbn in Hj. destruct j as [|[|[|j]]]; try lia; reflexivity.
Qed.
