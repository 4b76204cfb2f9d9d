(** * Deciding the hypotheses of the past-time theorems (for examples), and
      steps that repeat a state for ever *)
From Coq Require Import List Arith Bool Lia.
Require Import Verif.Mltl Verif.Scq Verif.Engine Verif.Monitoring Verif.ScqSize Verif.ScqSizeProofs.
Require Import Verif.MonitorCheck Verif.PastMonitor Verif.PastProofs.
Import ListNotations.

Definition pt_instrb (prog : list instr) (k : nat) (ins : instr) (c : qconf) : bool :=
  (1 <=? c_len c) &&
  match i_op ins with
  | LOAD => atomicb (i_op1 ins) && unsetb (i_op2 ins)
  | RETURN | NOT => earlierb prog k (i_op1 ins) && unsetb (i_op2 ins)
  | AND | OR | EQUIV => earlierb prog k (i_op1 ins) && earlierb prog k (i_op2 ins)
  | SINCE => isb true (i_op1 ins) && (earlierb prog k (i_op2 ins) && (c_lb c <=? c_ub c))
  | TRIGGER => isb false (i_op1 ins) && (earlierb prog k (i_op2 ins) && (c_lb c <=? c_ub c))
  | UNTIL | RELEASE => false
  end.
Definition pt_programb (prog : list instr) (confs : list qconf) : bool :=
  (length prog =? length confs) &&
  for_all (length prog) (fun k =>
    match nth_error prog k, nth_error confs k with Some ins, Some c => pt_instrb prog k ins c | _, _ => true end).

Lemma pt_instrb_spec prog k ins c : pt_instrb prog k ins c = true -> pt_instr prog k ins c.
Proof.
  unfold pt_instrb, pt_instr. rewrite andb_true_iff. intros [H1 H2]. apply Nat.leb_le in H1. split; [assumption|].
  destruct (i_op ins); rewrite ?andb_true_iff, ?Nat.leb_le in H2; try discriminate.
  all: try (destruct H2 as [H2 H3]; eauto using earlierb_spec, unsetb_spec, atomicb_spec; fail).
  all: destruct H2 as (H2 & H3 & H4); eauto using earlierb_spec, isb_spec.
Qed.
Lemma pt_programb_spec prog confs : pt_programb prog confs = true -> pt_program prog confs.
Proof.
  unfold pt_programb. rewrite andb_true_iff. intros [H1 H2]. apply Nat.eqb_eq in H1. split; [assumption|].
  intros k ins c Hp Hc. pose proof (for_all_spec _ _ H2 k) as H. cbv beta in H. rewrite Hp, Hc in H.
  apply pt_instrb_spec, H. apply nth_error_Some. congruence.
Qed.

Definition pt_ampleb (prog : list instr) (confs : list qconf) : bool :=
  for_all (length prog) (fun k => for_all (length confs) (fun c =>
    match nth_error prog k, nth_error confs c with
    | Some ins, Some conf => negb (readsb ins c) || (lead (node_expr prog confs c) + 2 <=? c_len conf)
    | _, _ => true
    end)).
Lemma pt_ampleb_spec prog confs : pt_ampleb prog confs = true -> pt_queues_ample prog confs.
Proof.
  intros H k ins c conf Hp Hr Hc.
  pose proof (for_all_spec _ _ H k ltac:(apply nth_error_Some; congruence)) as H1. cbv beta in H1.
  pose proof (for_all_spec _ _ H1 c ltac:(apply nth_error_Some; congruence)) as H2. cbv beta in H2.
  rewrite Hp, Hc in H2. assert (E : readsb ins c = true).
  { unfold readsb. destruct Hr as [-> | ->]; rewrite Nat.eqb_refl; [reflexivity|apply orb_true_r]. }
  rewrite E in H2. cbn in H2. apply Nat.leb_le. assumption.
Qed.

(** The option adding a constant to every queue. *)
Lemma past_sized_correct {I : impl} const prog confs tr n :
  length prog = length confs ->
  (forall k ins, nth_error prog k = Some ins -> lead (node_expr prog confs k) < const) ->
  pt_program prog (sized const prog confs) -> distinct_reports prog ->
  exists m, run (pt_max_passes prog confs) (rows tr n) prog (init prog (sized const prog confs)) = Some m /\
    forall k ins t, nth_error prog k = Some ins -> i_op ins = RETURN ->
      (forall b, reported (reports (i_num ins) m) t b -> (b = true <-> sat tr (node_expr prog confs k) t)) /\
      (t < n -> exists b, reported (reports (i_num ins) m) t b).
Proof.
  intros E H Hpt Hd.
  assert (Ha : pt_queues_ample prog (sized const prog confs)).
  { intros k ins c conf Hp Hr Hc. unfold node_expr. rewrite sized_exprs by assumption.
    assert (L : c < length prog).
    { rewrite <- (sized_length const prog confs E). apply nth_error_Some. congruence. }
    destruct (nth_error prog c) as [i|] eqn:Ei; [|apply nth_error_None in Ei; lia].
    specialize (H c i Ei). apply sized_len in Hc. unfold node_expr in H. lia. }
  destruct (prun_total prog (sized const prog confs) tr Hpt Hd Ha (pt_max_passes prog confs) n) as [m Hm].
  { unfold pt_max_passes. rewrite sized_exprs by assumption. lia. }
  exists m. split; [assumption|]. intros k ins t Hp Hr. split.
  - intros b Hb. pose proof (prun_sound prog _ tr Hpt Hd Ha _ n m k ins t b Hm Hp Hr Hb) as [S1 _].
    unfold node_expr in *. rewrite sized_exprs in S1 by assumption. exact S1.
  - exact (prun_timely prog _ tr Hpt Hd Ha _ n m k ins t Hm Hp Hr).
Qed.

Definition after_pass {I : impl} atoms prog m : monitor :=
  let m' := run_pass atoms 0 prog m in Monitor (m_queues m') (m_time m') NoProgress (m_out m').
Lemma step_repeats {I : impl} atoms prog m :
  m_progress (run_pass atoms 0 prog m) = WithProgress -> after_pass atoms prog m = m ->
  forall fuel, step fuel atoms prog m = None.
Proof.
  intros H1 H2. induction fuel as [|f IH]; [reflexivity|]. cbn [step]. rewrite H1.
  fold (after_pass atoms prog m). rewrite H2. exact IH.
Qed.
Lemma step_next {I : impl} atoms prog m :
  m_progress (run_pass atoms 0 prog m) <> NoProgress ->
  (forall fuel, step fuel atoms prog (after_pass atoms prog m) = None) ->
  forall fuel, step fuel atoms prog m = None.
Proof.
  intros H1 H2 [|f]; [reflexivity|]. cbn [step]. fold (after_pass atoms prog m).
  destruct (m_progress (run_pass atoms 0 prog m)); [apply H2|contradiction|apply H2].
Qed.
