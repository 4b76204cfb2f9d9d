(** * Deciding the hypotheses of the monitor theorems (for examples) *)
From Coq Require Import List Arith Bool Lia.
Require Import Verif.Mltl Verif.Scq Verif.Engine Verif.Monitoring.
Import ListNotations.

Definition is_return (ins : instr) : bool := match i_op ins with RETURN => true | _ => false end.
Definition earlierb (prog : list instr) (k : nat) (o : operand) : bool :=
  match o with
  | Sub c => (c <? k) && match nth_error prog c with Some ins => negb (is_return ins) | None => false end
  | _ => false
  end.
Definition directb (o : operand) : bool := match o with Direct _ => true | _ => false end.
Definition isb (b : bool) (o : operand) : bool := match o with Direct c => Bool.eqb b c | _ => false end.
Definition atomicb (o : operand) : bool := match o with Atomic _ => true | _ => false end.
Definition unsetb (o : operand) : bool := match o with NotSet => true | _ => false end.

Definition ft_instrb (prog : list instr) (k : nat) (ins : instr) (c : qconf) : bool :=
  (1 <=? c_len c) &&
  match i_op ins with
  | LOAD => atomicb (i_op1 ins) && unsetb (i_op2 ins)
  | RETURN | NOT => earlierb prog k (i_op1 ins) && unsetb (i_op2 ins)
  | AND => (earlierb prog k (i_op1 ins) && (earlierb prog k (i_op2 ins) || isb true (i_op2 ins))) ||
           (isb true (i_op1 ins) && earlierb prog k (i_op2 ins))
  | OR => (earlierb prog k (i_op1 ins) && (earlierb prog k (i_op2 ins) || isb false (i_op2 ins))) ||
           (isb false (i_op1 ins) && earlierb prog k (i_op2 ins))
  | EQUIV => (earlierb prog k (i_op1 ins) && (earlierb prog k (i_op2 ins) || directb (i_op2 ins))) ||
           (directb (i_op1 ins) && earlierb prog k (i_op2 ins))
  | UNTIL | RELEASE => (earlierb prog k (i_op1 ins) || directb (i_op1 ins)) && earlierb prog k (i_op2 ins) &&
           (c_lb c <=? c_ub c)
  | SINCE | TRIGGER => false
  end.

Definition for_all (n : nat) (f : nat -> bool) : bool := forallb f (seq 0 n).
Lemma for_all_spec n f : for_all n f = true -> forall i, i < n -> f i = true.
Proof. unfold for_all. intros H i Hi. rewrite forallb_forall in H. apply H. apply in_seq. lia. Qed.

Definition ft_programb (prog : list instr) (confs : list qconf) : bool :=
  (length prog =? length confs) &&
  for_all (length prog) (fun k =>
    match nth_error prog k, nth_error confs k with Some ins, Some c => ft_instrb prog k ins c | _, _ => true end).

Lemma earlierb_spec prog k o : earlierb prog k o = true -> earlier prog k o.
Proof.
  destruct o as [| |c|]; try discriminate. cbn. rewrite andb_true_iff. intros [H1 H2].
  apply Nat.ltb_lt in H1. exists c. split; [reflexivity|]. split; [assumption|].
  destruct (nth_error prog c) as [ins|]; [|discriminate]. exists ins. split; [reflexivity|].
  unfold is_return in H2. destruct (i_op ins); discriminate.
Qed.
Lemma directb_spec o : directb o = true -> is_direct o.
Proof. destruct o; try discriminate. intros _. eexists. reflexivity. Qed.
Lemma isb_spec b o : isb b o = true -> o = Direct b.
Proof. destruct o; try discriminate. cbn. intros H. apply eqb_prop in H. congruence. Qed.
Lemma unsetb_spec o : unsetb o = true -> o = NotSet.
Proof. destruct o; try discriminate. reflexivity. Qed.
Lemma atomicb_spec o : atomicb o = true -> exists a, o = Atomic a.
Proof. destruct o; try discriminate. eauto. Qed.

Lemma ft_instrb_spec prog k ins c : ft_instrb prog k ins c = true -> ft_instr prog k ins c.
Proof.
  unfold ft_instrb, ft_instr. rewrite andb_true_iff. intros [H1 H2]. apply Nat.leb_le in H1. split; [assumption|].
  destruct (i_op ins); rewrite ?andb_true_iff, ?orb_true_iff, ?andb_true_iff, ?orb_true_iff, ?Nat.leb_le in H2; try discriminate.
  all: try (destruct H2 as [H2 H3]; eauto using earlierb_spec, unsetb_spec, atomicb_spec; fail).
  - destruct H2 as [[H2 H3] H4]. rewrite ?orb_true_iff in H2.
    split; [destruct H2; [left; apply earlierb_spec|right; apply directb_spec]; assumption|].
    split; [apply earlierb_spec|]; assumption.
  - destruct H2 as [[H2 H3] H4]. rewrite ?orb_true_iff in H2.
    split; [destruct H2; [left; apply earlierb_spec|right; apply directb_spec]; assumption|].
    split; [apply earlierb_spec|]; assumption.
  - destruct H2 as [[H2 H3]|[H2 H3]].
    + rewrite ?orb_true_iff in H3. left. destruct H3; eauto using earlierb_spec, isb_spec.
    + right. eauto using earlierb_spec, isb_spec.
  - destruct H2 as [[H2 H3]|[H2 H3]].
    + rewrite ?orb_true_iff in H3. left. destruct H3; eauto using earlierb_spec, isb_spec.
    + right. eauto using earlierb_spec, isb_spec.
  - destruct H2 as [[H2 H3]|[H2 H3]].
    + rewrite ?orb_true_iff in H3. left. destruct H3; eauto using earlierb_spec, directb_spec.
    + right. eauto using earlierb_spec, directb_spec.
Qed.

Lemma ft_programb_spec prog confs : ft_programb prog confs = true -> ft_program prog confs.
Proof.
  unfold ft_programb. rewrite andb_true_iff. intros [H1 H2]. apply Nat.eqb_eq in H1. split; [assumption|].
  intros k ins c Hp Hc. pose proof (for_all_spec _ _ H2 k) as H. cbv beta in H. rewrite Hp, Hc in H.
  apply ft_instrb_spec, H. apply nth_error_Some. congruence.
Qed.

Definition distinctb (prog : list instr) : bool :=
  for_all (length prog) (fun a => for_all (length prog) (fun b =>
    match nth_error prog a, nth_error prog b with
    | Some x, Some y => negb (is_return x && is_return y && (i_num x =? i_num y)) || (a =? b)
    | _, _ => true
    end)).
Lemma distinctb_spec prog : distinctb prog = true -> distinct_reports prog.
Proof.
  intros H a b x y Ha Hb Rx Ry E.
  pose proof (for_all_spec _ _ H a ltac:(apply nth_error_Some; congruence)) as H1. cbv beta in H1.
  pose proof (for_all_spec _ _ H1 b ltac:(apply nth_error_Some; congruence)) as H2. cbv beta in H2.
  rewrite Ha, Hb in H2. unfold is_return in H2. rewrite Rx, Ry, E, Nat.eqb_refl in H2. cbn in H2.
  apply Nat.eqb_eq. assumption.
Qed.

Definition readsb (ins : instr) (c : nat) : bool :=
  match i_op1 ins with Sub j => j =? c | _ => false end || match i_op2 ins with Sub j => j =? c | _ => false end.
Definition ampleb (prog : list instr) (confs : list qconf) : bool :=
  for_all (length prog) (fun k => for_all (length confs) (fun c =>
    match nth_error prog k, nth_error confs c with
    | Some ins, Some conf => negb (readsb ins c) || (reach (node_expr prog confs k) + 2 <=? c_len conf)
    | _, _ => true
    end)).
Lemma ampleb_spec prog confs : ampleb prog confs = true -> queues_ample prog confs.
Proof.
  intros H k ins c conf Hp Hr Hc.
  pose proof (for_all_spec _ _ H k ltac:(apply nth_error_Some; congruence)) as H1. cbv beta in H1.
  pose proof (for_all_spec _ _ H1 c ltac:(apply nth_error_Some; congruence)) as H2. cbv beta in H2.
  rewrite Hp, Hc in H2. assert (E : readsb ins c = true).
  { unfold readsb. destruct Hr as [-> | ->]; rewrite Nat.eqb_refl; [reflexivity|apply orb_true_r]. }
  rewrite E in H2. cbn in H2. apply Nat.leb_le. assumption.
Qed.
