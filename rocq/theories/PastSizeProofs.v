(** * Computed queue sizes and past-time programs (proof infrastructure) *)
From Coq Require Import List Arith ZArith Bool Lia.
Require Import Verif.Mltl Verif.Transform Verif.Scq Verif.Engine Verif.Monitoring Verif.ScqSize Verif.PastMonitor Verif.PastSize.
Require Import Verif.MonitorProofs Verif.ScqSizeProofs Verif.MonitorCheck Verif.TightProofs Verif.SizeProofs Verif.PastProofs Verif.PastTight.
Import ListNotations.

Lemma penough_monitored {I : impl} prog confs tr n :
  pt_program prog confs -> distinct_reports prog -> pt_flat prog confs -> pt_queues_enough prog confs ->
  pt_monitored prog confs confs tr n.
Proof.
  intros Hpt Hd Hf He. destruct (ptight_total prog confs tr Hpt Hd Hf He (pt_max_passes prog confs) n (le_n _)) as [m Hm].
  exists m. split; [assumption|]. intros k ins Hp Hr.
  split; [exact (ptight_increasing prog confs tr Hpt Hd Hf He _ n m k ins Hm Hp Hr)|]. intros t. split.
  - intros b. exact (ptight_sound prog confs tr Hpt Hd Hf He _ n m k ins t b Hm Hp Hr).
  - exact (ptight_timely prog confs tr Hpt Hd Hf He _ n m k ins t Hm Hp Hr).
Qed.

(** The compiler's best-case delay is as negative as the formula runs ahead. *)
Definition early (e : expr) : Prop := (bpd e <= - Z.of_nat (ahead e))%Z.
Lemma exprs_early prog confs part : pt_part part prog confs -> forall k, part k = true -> early (node_expr prog confs k).
Proof.
  intros (Hl & Hc & H). intros k. induction k as [k IH] using lt_wf_ind. intros HK.
  destruct (nth_error prog k) as [ins|] eqn:Ep.
  2:{ unfold node_expr. rewrite nth_overflow; [unfold early; cbn; lia|]. apply nth_error_None in Ep.
      rewrite exprs_within; assumption. }
  destruct (pnode_of prog confs part (conj Hl (conj Hc H)) k ins Ep HK) as [c Hn].
  rewrite (pnode_eq prog confs part (conj Hl (conj Hc H)) k ins c Hn).
  assert (HO : forall o, (forall i, o = Sub i -> reads ins i) -> early (operand_expr (exprs prog confs) o)).
  { intros o Ho. unfold early. destruct o as [b|a|i|]; cbn [operand_expr]; try (cbn; lia).
    destruct (psub_child prog confs part (conj Hl (conj Hc H)) k ins c i Hn (Ho i eq_refl)) as (Hlt & ins' & c' & Hn' & _).
    exact (IH i Hlt (proj2 (proj2 Hn'))). }
  pose proof (HO (i_op1 ins) (fun i E => or_introl E)) as H1. pose proof (HO (i_op2 ins) (fun i E => or_intror E)) as H2.
  pose proof (H k ins c HK Ep (proj1 (proj2 Hn))) as [_ Hi].
  unfold early, instr_expr in *.
  destruct (i_op ins); try destruct Hi; cbn [bpd ahead map zmin_list fold_left fold_right]; lia.
Qed.

Section Sizes.
  Variables (const : nat) (prog : list instr) (confs : list qconf) (part : nat -> bool).
  Hypothesis Hlen : length prog = length confs.
  Hypothesis Hpt : pt_part part prog (sized const prog confs).

  Lemma sized_past_enough : pt_part_enough part prog (sized const prog confs).
  Proof.
    intros k ins c conf HK Hp Hr Hc.
    destruct (pnode_of prog _ part Hpt k ins Hp HK) as [ck Hn].
    destruct (psub_child prog _ part Hpt k ins ck c Hn Hr) as (_ & ins' & c' & (E1 & E2 & E3) & HN).
    pose proof (exprs_early prog _ part Hpt c E3) as He. unfold node_expr in *.
    rewrite sized_exprs in * by assumption.
    rewrite (sized_nth const prog confs Hlen c conf ins' Hc E1). unfold early in He.
    unfold computed_size.
    destruct (zmax_fold (sibling_wpds (exprs prog confs) prog c)) as (H1 & _).
    destruct (i_op ins'); try lia. congruence.
  Qed.
End Sizes.

Lemma sized_past_monitored {I : impl} const prog confs tr n :
  length prog = length confs -> pt_program prog (sized const prog confs) -> distinct_reports prog -> pt_flat prog confs ->
  pt_monitored prog confs (sized const prog confs) tr n.
Proof.
  intros E Hpt Hd Hf.
  assert (Hf' : pt_flat prog (sized const prog confs)).
  { intros k ins j. unfold node_expr. rewrite sized_exprs by assumption. apply Hf. }
  assert (He : pt_queues_enough prog (sized const prog confs)).
  { intros k ins c conf. apply (sized_past_enough const prog confs all E (pwhole_part _ _ Hpt) k ins c conf eq_refl). }
  destruct (penough_monitored prog _ tr n Hpt Hd Hf' He) as (m & Hm & H).
  unfold pt_max_passes in Hm. rewrite sized_exprs in Hm by assumption. exists m. split; [exact Hm|].
  intros k ins Hp Hr. destruct (H k ins Hp Hr) as [H1 H2]. split; [assumption|]. intros t.
  unfold node_expr in *. rewrite sized_exprs in H2 by assumption. apply H2.
Qed.

(** ** Deciding the hypotheses (for examples) *)
Definition flatb (prog : list instr) (confs : list qconf) : bool :=
  forallb (fun ins => match i_op ins, i_op2 ins with
    | SINCE, Sub j | TRIGGER, Sub j => timeless (node_expr prog confs j) | _, _ => true end) prog.
Lemma flatb_spec prog confs : flatb prog confs = true -> pt_flat prog confs.
Proof.
  unfold flatb. rewrite forallb_forall. intros H k ins j Hp Ho Ej. specialize (H ins (nth_error_In _ _ Hp)).
  rewrite Ej in H. destruct Ho as [Eo|Eo]; rewrite Eo in H; exact H.
Qed.
Definition penoughb (prog : list instr) (confs : list qconf) : bool :=
  for_all (length prog) (fun k => for_all (length confs) (fun c =>
    match nth_error prog k, nth_error confs c with
    | Some ins, Some conf => negb (readsb ins c) || (ahead (node_expr prog confs c) <? c_len conf)
    | _, _ => true
    end)).
Lemma penoughb_spec prog confs : penoughb prog confs = true -> pt_queues_enough prog confs.
Proof.
  intros H k ins c conf Hp Hr Hc.
  pose proof (for_all_spec _ _ H k ltac:(apply nth_error_Some; congruence)) as H1. cbv beta in H1.
  pose proof (for_all_spec _ _ H1 c ltac:(apply nth_error_Some; congruence)) as H2. cbv beta in H2.
  rewrite Hp, Hc in H2. assert (E : readsb ins c = true).
  { unfold readsb. destruct Hr as [-> | ->]; rewrite Nat.eqb_refl; [reflexivity|apply orb_true_r]. }
  rewrite E in H2. cbn in H2. apply Nat.ltb_lt. assumption.
Qed.
