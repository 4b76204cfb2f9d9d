(** * Queues just long enough for both parts of a program (proofs) *)
From Coq Require Import List Arith Bool Lia.
Require Import Verif.Mltl Verif.Scq Verif.Engine Verif.Monitoring Verif.ScqSize Verif.PastMonitor Verif.TightSize Verif.PastSize Verif.SectionSize.
Require Import Verif.MonitorProofs Verif.ScqSizeProofs Verif.TightProofs Verif.SizeProofs Verif.PastProofs Verif.PastTight Verif.PastSizeProofs Verif.MixedProofs.
Import ListNotations.

Section Mixed.
  Context {I : impl}.
  Variables (prog : list instr) (confs : list qconf) (tr : trace) (ft pt : nat -> bool).
  Hypothesis Hft : ft_part ft prog confs.
  Hypothesis Hpt : pt_part pt prog confs.
  Hypothesis Hcover : forall k, k < length prog -> ft k = true \/ pt k = true.
  Hypothesis Hdist : distinct_reports prog.
  Hypothesis Hfe : part_enough ft prog confs.
  Hypothesis Hpe : pt_part_enough pt prog confs.
  Hypothesis Hflat : pt_flat prog confs.

  Definition mslack : nat := slack prog confs + pslack prog confs.
  Lemma mslack_reach k : reach (node_expr prog confs k) + 2 <= mslack.
  Proof using Type. pose proof (slack_ge prog confs k). unfold mslack. lia. Qed.
  Lemma mslack_lead k : lead (node_expr prog confs k) + 2 <= mslack.
  Proof using Type. pose proof (pslack_ge prog confs k). unfold mslack. lia. Qed.
  Local Notation Wide := (wide confs mslack).

  Definition mlock (ts k : nat) (h g : nat -> list verdict) (ma mt : monitor) : Prop :=
    lock prog confs tr ft mslack ts k h ma mt /\ plock prog confs tr pt mslack ts k g ma mt.

  Lemma mlock_visit ts k h g ma mt ins :
    mlock ts k h g ma mt -> nth_error prog k = Some ins ->
    exists h' g', mlock ts (S k) h' g' (update (tr ts) k ins ma) (update (tr ts) k ins mt).
  Proof using Hft Hpt Hcover Hdist Hfe Hpe Hflat.
    intros [L1 L2] Hp. pose proof (lock_alike _ _ _ _ _ _ _ _ _ _ L1) as HA.
    assert (V1 : ft k = true -> exists h', lock prog confs tr ft mslack ts (S k) h' (update (tr ts) k ins ma) (update (tr ts) k ins mt)).
    { intros HK. destruct (Node_of prog confs ft mslack Hft k ins Hp HK) as [c Hn].
      destruct (pass_visit prog Wide tr ft (wide_ft prog confs ft mslack Hft) Hdist (wide_ample prog confs ft mslack mslack_reach)
                  ts k h ma ins c (k_pass _ _ _ _ _ _ _ _ _ _ L1) Hn) as (h1 & V & P & _).
      exists h1. exact (lock_visit prog confs tr ft mslack Hft Hfe mslack_reach h ts ma mt k ins c L1 Hn h1 V P). }
    assert (V2 : pt k = true -> exists g', plock prog confs tr pt mslack ts (S k) g' (update (tr ts) k ins ma) (update (tr ts) k ins mt) /\
      alike (update (tr ts) k ins ma) (update (tr ts) k ins mt)).
    { intros HK. destruct (pnode_of prog (pwide confs mslack) pt (pwide_pt prog confs pt mslack Hpt) k ins Hp HK) as [c Hn].
      destruct (ppass_visit prog (pwide confs mslack) tr pt (pwide_pt prog confs pt mslack Hpt) Hdist
                  (pwide_ample prog confs pt mslack mslack_lead) ts k g ma ins c (l_pass _ _ _ _ _ _ _ _ _ _ L2) Hn)
        as (g1 & V & P & _).
      exists g1. exact (plock_visit prog confs tr pt mslack Hpt Hflat Hpe mslack_lead g ts ma mt k ins c L2 HA Hn g1 V P). }
    destruct (pt k) eqn:Ep.
    - destruct (V2 eq_refl) as (g1 & P2 & A2). destruct (ft k) eqn:Ef.
      + destruct (V1 eq_refl) as (h1 & P1). exists h1, g1. split; assumption.
      + exists h, g1. split; [|assumption]. exact (lock_frame prog confs tr ft mslack Hft Hdist ts k h ma mt ins L1 Hp Ef A2).
    - destruct (V1 ltac:(destruct (Hcover k); [apply nth_error_Some; congruence|assumption|congruence])) as (h1 & P1).
      exists h1, g. split; [assumption|]. exact (plock_frame prog confs tr pt mslack Hpt Hdist ts k g ma mt ins L2 Hp Ep).
  Qed.
  Lemma mlock_run ts : forall rest k h g ma mt,
    (forall i, nth_error rest i = nth_error prog (k + i)) -> k + length rest = length prog ->
    mlock ts k h g ma mt ->
    exists h' g', mlock ts (length prog) h' g' (run_pass (tr ts) k rest ma) (run_pass (tr ts) k rest mt).
  Proof using Hft Hpt Hcover Hdist Hfe Hpe Hflat.
    induction rest as [|ins rest IH]; intros k h g ma mt Hnth Hlen HL.
    - cbn in *. rewrite Nat.add_0_r in Hlen. subst k. exists h, g. assumption.
    - assert (Hp : nth_error prog k = Some ins) by (rewrite <- (Nat.add_0_r k); symmetry; apply (Hnth 0)).
      destruct (mlock_visit ts k h g ma mt ins HL Hp) as (h1 & g1 & L1).
      cbn [run_pass]. apply (IH (S k) h1 g1); auto.
      + intros i. specialize (Hnth (S i)). cbn in Hnth. rewrite Hnth. f_equal. lia.
      + cbn in Hlen. lia.
  Qed.
  Lemma mlock_again ts h g ma mt : mlock ts (length prog) h g ma mt -> mlock ts 0 h g (again ma) (again mt).
  Proof using Type. intros [L1 L2]. split; [apply lock_again|apply plock_again]; assumption. Qed.
  Lemma mlock_onward ts h g ma mt :
    mlock ts (length prog) h g ma mt -> m_progress ma = NoProgress -> mlock (S ts) 0 h g (onward ma) (onward mt).
  Proof using Hpt. intros [L1 L2] E. split; [apply lock_onward|apply plock_onward]; assumption. Qed.
  Lemma mlock_init : mlock 0 0 (fun _ => []) (fun _ => []) (init prog Wide) (init prog confs).
  Proof using Hft Hpt.
    split; [exact (lock_init prog confs tr ft mslack Hft)|exact (plock_init prog confs tr pt mslack Hpt)].
  Qed.
  Lemma mlock_alike ts k h g ma mt : mlock ts k h g ma mt -> alike ma mt.
  Proof using Type. intros [L _]. exact (lock_alike _ _ _ _ _ _ _ _ _ _ L). Qed.

  Lemma mstep_lock ts : forall fuel h g ma mt, mlock ts 0 h g ma mt ->
    match step fuel (tr ts) prog ma, step fuel (tr ts) prog mt with
    | Some ma', Some mt' => exists h' g', mlock (S ts) 0 h' g' ma' mt'
    | None, None => True
    | _, _ => False
    end.
  Proof using Hft Hpt Hcover Hdist Hfe Hpe Hflat.
    induction fuel as [|fuel IH]; intros h g ma mt HL; cbn [step]; [exact Logic.I|].
    destruct (mlock_run ts prog 0 h g ma mt (fun i => eq_refl) eq_refl HL) as (h1 & g1 & L1).
    set (ma1 := run_pass (tr ts) 0 prog ma) in *. set (mt1 := run_pass (tr ts) 0 prog mt) in *.
    specialize (IH h1 g1 _ _ (mlock_again ts h1 g1 ma1 mt1 L1)).
    rewrite (a_progress _ _ (mlock_alike _ _ _ _ _ _ L1)).
    destruct (m_progress ma1) eqn:Ep.
    - exact IH.
    - exists h1, g1. exact (mlock_onward ts h1 g1 ma1 mt1 L1 Ep).
    - exact IH.
  Qed.
  Lemma mrun_lock fuel : forall n ts h g ma mt, mlock ts 0 h g ma mt ->
    match run fuel (map tr (seq ts n)) prog ma, run fuel (map tr (seq ts n)) prog mt with
    | Some ma', Some mt' => m_out mt' = m_out ma'
    | None, None => True
    | _, _ => False
    end.
  Proof using Hft Hpt Hcover Hdist Hfe Hpe Hflat.
    induction n as [|n IH]; intros ts h g ma mt HL; cbn [seq map run].
    - apply (a_out _ _ (mlock_alike _ _ _ _ _ _ HL)).
    - pose proof (mstep_lock ts fuel h g ma mt HL) as S1.
      destruct (step fuel (tr ts) prog ma) as [ma1|], (step fuel (tr ts) prog mt) as [mt1|]; try destruct S1; auto.
      destruct H as [g1 S1]. apply (IH (S ts) x g1). assumption.
  Qed.

  Lemma menough_monitored n : both_monitored ft prog confs confs tr n.
  Proof using Hft Hpt Hcover Hdist Hfe Hpe Hflat.
    pose proof (wide_ft prog confs ft mslack Hft) as Wf. pose proof (wide_ample prog confs ft mslack mslack_reach) as Wa.
    pose proof (pwide_pt prog confs pt mslack Hpt) as Wp. pose proof (pwide_ample prog confs pt mslack mslack_lead) as Wb.
    change (pwide confs mslack) with Wide in Wp, Wb.
    pose proof (mrun_lock (mixed_passes prog confs) n 0 _ _ _ _ mlock_init) as S1. fold (rows tr n) in S1.
    destruct (mixed_total prog Wide tr ft pt Wf Wp Hcover Hdist Wa Wb (mixed_passes prog confs) n) as [ma Ha].
    { unfold mixed_passes, max_passes, pt_max_passes. rewrite (wide_exprs prog confs mslack). lia. }
    rewrite Ha in S1. destruct (run _ _ prog (init prog confs)) as [m|] eqn:Hm; [|destruct S1].
    exists m. split; [exact Hm|]. intros k ins Hp Hr e. rewrite (reports_of ma m _ S1).
    assert (Ee : e = node_expr prog Wide k) by (symmetry; apply (wide_node prog confs mslack)).
    destruct (ft k) eqn:Ef.
    - split; [exact (part_increasing prog Wide tr ft Wf Hdist Wa _ n ma k ins Ha Hp Ef Hr)|]. intros t. rewrite Ee. split.
      + rewrite Nat.add_0_r. intros b. exact (part_sound prog Wide tr ft Wf Hdist Wa _ n ma k ins t b Ha Hp Ef Hr).
      + exact (part_timely prog Wide tr ft Wf Hdist Wa _ n ma k ins t Ha Hp Ef Hr).
    - assert (Ep : pt k = true) by (destruct (Hcover k); [apply nth_error_Some; congruence|congruence|assumption]).
      split; [exact (ppart_increasing prog Wide tr pt Wp Hdist Wb _ n ma k ins Ha Hp Ep Hr)|]. intros t. rewrite Ee. split.
      + intros b. exact (ppart_sound prog Wide tr pt Wp Hdist Wb _ n ma k ins t b Ha Hp Ep Hr).
      + rewrite Nat.add_0_r. exact (ppart_timely prog Wide tr pt Wp Hdist Wb _ n ma k ins t Ha Hp Ep Hr).
  Qed.
End Mixed.

Lemma sized_both_monitored {I : impl} const prog confs tr ft pt n :
  length prog = length confs ->
  ft_part ft prog (sized const prog confs) -> pt_part pt prog (sized const prog confs) ->
  (forall k, k < length prog -> ft k = true \/ pt k = true) -> distinct_reports prog ->
  part_modest ft prog confs -> pt_flat prog confs ->
  both_monitored ft prog confs (sized const prog confs) tr n.
Proof.
  intros E Hft Hpt Hc Hd Hm Hf.
  assert (Hf' : pt_flat prog (sized const prog confs)).
  { intros k ins j. unfold node_expr. rewrite sized_exprs by assumption. apply Hf. }
  destruct (menough_monitored prog _ tr ft pt Hft Hpt Hc Hd
    (part_modest_enough const prog confs ft E Hft Hm) (sized_past_enough const prog confs pt E Hpt) Hf' n) as (m & Hr & H).
  unfold max_passes, pt_max_passes in Hr. rewrite sized_exprs in Hr by assumption. exists m. split; [exact Hr|].
  intros k ins Hp Ho. cbv zeta. destruct (H k ins Hp Ho) as [H1 H2]. split; [assumption|]. intros t.
  rewrite (sized_node const prog confs E) in H2. apply H2.
Qed.
