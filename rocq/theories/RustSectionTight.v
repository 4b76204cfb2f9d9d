(** * Short queues for both parts of a program in the Rust monitor (proofs) *)
From Coq Require Import List Arith Bool Lia.
Require Import Verif.Mltl Verif.Scq Verif.Engine Verif.Monitoring Verif.ScqProofs Verif.EngineLocal Verif.NodeProofs Verif.PastMonitor.
Require Import Verif.TightSize Verif.PastSize Verif.SectionSize Verif.MonitorProofs Verif.PastProofs Verif.MixedProofs.
Require Import Verif.TightQueue Verif.TightProofs Verif.PastTight Verif.SectionTight.
Require Import Verif.RustEngine Verif.RustProofs Verif.RustTight Verif.RustMixed.
Import ListNotations.
Local Existing Instance Rust_monitor.

(** ** Past-time instructions *)
Section Past.
  Variables (prog : list instr) (confs : list qconf) (tr : trace) (pt : nat -> bool) (room : nat).
  Hypothesis Hpt : pt_part pt prog confs.
  Local Notation Node := (node prog (pwide confs room) pt).
  Local Notation plock := (plock prog confs tr pt room).

  Lemma plook_total ts h ma mt k ins c (second : bool) :
    plock ts k h ma mt -> Node k ins c -> rust_check_operand (tr ts) k ins second mt <> None.
  Proof.
    intros HL Hn. pose proof (pwide_pt prog confs pt room Hpt) as Wp. pose proof (l_twin _ _ _ _ _ _ _ _ _ _ HL) as HT.
    unfold rust_check_operand. destruct (if second then i_op2 ins else i_op1 ins) as [b|a|j|] eqn:E.
    - destruct (i_op ins); discriminate.
    - destruct (m_progress mt); discriminate.
    - assert (Hr : reads ins j) by (destruct second; [right|left]; assumption).
      destruct (psub_child _ _ _ Wp k ins c j Hn Hr) as (_ & ins' & c' & Hn' & _).
      destruct (l_read _ _ _ _ _ _ _ _ _ _ HL k ins c second j Hn E) as [R _]. unfold rp in R.
      rewrite (w_next _ _ _ _ _ _ _ HT k ins c Hn).
      pose proof (tight_read_total _ _ _ _ _ _ _ (w_hold _ _ _ _ _ _ _ HT j ins' c' Hn') R) as T.
      destruct (rust_scq_read _ _ _ _) as [[r v]|]; [discriminate|congruence].
    - discriminate.
  Qed.
  Lemma plook_total2 ts h ma mt k ins c r :
    plock ts k h ma mt -> length (m_queues mt) = length prog -> Node k ins c ->
    rust_check_operand (tr ts) k ins true (set_queue mt k (with_read (get_queue mt k) false r)) <> None.
  Proof.
    intros HL Hlen Hn. pose proof (plook_total ts h ma mt k ins c true HL Hn) as H.
    assert (Hk : k < length (m_queues mt)) by (rewrite Hlen; apply (node_lt _ _ _ _ _ _ Hn)).
    unfold rust_check_operand in *. destruct (i_op2 ins) as [b|a|j|] eqn:E; try discriminate.
    - destruct (i_op ins); discriminate.
    - cbn [set_queue m_progress]. destruct (m_progress mt); discriminate.
    - destruct (psub_child _ _ _ (pwide_pt prog confs pt room Hpt) k ins c j Hn (or_intror E)) as (Hj & _).
      assert (E1 : get_queue (set_queue mt k (with_read (get_queue mt k) false r)) j = get_queue mt j)
        by (unfold get_queue, set_queue; cbn [m_queues]; apply nth_set_other; lia).
      assert (E2 : get_queue (set_queue mt k (with_read (get_queue mt k) false r)) k = with_read (get_queue mt k) false r)
        by (unfold get_queue, set_queue; cbn [m_queues]; apply nth_set_same; assumption).
      rewrite E1, E2. cbn [with_read q_next q_read2].
      destruct (rust_scq_read _ _ _ _) as [[r' v]|]; [discriminate|assumption].
  Qed.
  Lemma plook_binary op ts h ma mt k ins c :
    plock ts k h ma mt -> length (m_queues mt) = length prog -> Node k ins c ->
    (forall r0 r1 q, op r0 r1 q <> None) -> rust_binary op (tr ts) k ins mt <> None.
  Proof.
    intros HL Hlen Hn Hop. unfold rust_binary.
    destruct (rust_check_operand (tr ts) k ins false mt) as [[m1 r0]|] eqn:E0.
    2:{ intros _. revert E0. eapply plook_total; eassumption. }
    destruct (check_moves _ _ _ _ _ _ E0) as [x ->].
    destruct (rust_check_operand (tr ts) k ins true _) as [[m2 r1]|] eqn:E1.
    2:{ intros _. revert E1. eapply plook_total2; eassumption. }
    destruct (op r0 r1 (get_queue m2 k)) as [[q r]|] eqn:Eo; [discriminate|]. exfalso. revert Eo. apply Hop.
  Qed.
  Lemma ptight_update_some ts h ma mt k ins c :
    plock ts k h ma mt -> length (m_queues mt) = length prog -> Node k ins c ->
    rust_update (tr ts) k ins mt = Some (update (tr ts) k ins mt).
  Proof.
    intros HL Hlen Hn.
    assert (T : rust_update (tr ts) k ins mt <> None).
    { pose proof (pnode_pt _ _ _ (pwide_pt prog confs pt room Hpt) k ins c Hn) as [_ F].
      unfold rust_update. pose proof (plook_total ts h ma mt k ins c false HL Hn) as T.
      destruct (i_op ins) eqn:Eop; try (destruct F; fail).
      all: try (destruct (rust_check_operand _ _ _ _ _) as [[? [?|]]|]; congruence).
      all: try (unfold rust_unary; destruct (rust_check_operand _ _ _ _ _) as [[? [[? ?]|]]|]; cbn; congruence).
      all: eapply plook_binary; [eassumption|eassumption|eassumption|].
      all: first [exact since_defined|exact trigger_defined|intros [[[] ?]|] [[[] ?]|] q; discriminate]. }
    destruct (rust_update (tr ts) k ins mt) as [m'|] eqn:E; [|congruence]. f_equal. symmetry.
    apply rust_update_eq; [|assumption]. rewrite Hlen. apply (node_lt _ _ _ _ _ _ Hn).
  Qed.
End Past.

(** ** Both parts *)
Section Mixed.
  Variables (prog : list instr) (confs : list qconf) (tr : trace) (ft pt : nat -> bool).
  Hypothesis Hft : ft_part ft prog confs.
  Hypothesis Hpt : pt_part pt prog confs.
  Hypothesis Hcover : forall k, k < length prog -> ft k = true \/ pt k = true.
  Hypothesis Hdist : distinct_reports prog.
  Hypothesis Hfe : part_enough ft prog confs.
  Hypothesis Hpe : pt_part_enough pt prog confs.
  Hypothesis Hflat : pt_flat prog confs.
  Local Notation mlock := (mlock prog confs tr ft pt).

  Lemma mtight_update_some ts k h g ma mt ins :
    mlock ts k h g ma mt -> nth_error prog k = Some ins ->
    rust_update (tr ts) k ins mt = Some (update (tr ts) k ins mt).
  Proof.
    intros [L1 L2] Hp. destruct (Hcover k) as [HK|HK]; [apply nth_error_Some; congruence| |].
    - destruct (Node_of prog confs ft (mslack prog confs) Hft k ins Hp HK) as [c Hn].
      exact (tight_update_some prog confs tr ft _ Hft ts h ma mt k ins c L1 Hn).
    - destruct (pnode_of prog _ pt (pwide_pt prog confs pt (mslack prog confs) Hpt) k ins Hp HK) as [c Hn].
      exact (ptight_update_some prog confs tr pt _ Hpt ts g ma mt k ins c L2 (t_length _ _ _ _ _ _ _ (k_twin _ _ _ _ _ _ _ _ _ _ L1)) Hn).
  Qed.
  Lemma mtight_pass_some ts : forall rest k h g ma mt,
    (forall i, nth_error rest i = nth_error prog (k + i)) -> k + length rest = length prog ->
    mlock ts k h g ma mt -> rust_pass (tr ts) k rest mt = Some (run_pass (tr ts) k rest mt).
  Proof.
    induction rest as [|ins rest IH]; intros k h g ma mt Hnth Hlen HB; [reflexivity|].
    assert (Hp : nth_error prog k = Some ins) by (rewrite <- (Nat.add_0_r k); symmetry; apply (Hnth 0)).
    cbn [rust_pass run_pass]. rewrite (mtight_update_some ts k h g ma mt ins HB Hp).
    destruct (mlock_visit prog confs tr ft pt Hft Hpt Hcover Hdist Hfe Hpe Hflat ts k h g ma mt ins HB Hp) as (h1 & g1 & P1).
    apply (IH (S k) h1 g1 (update (tr ts) k ins ma)); [|cbn in Hlen; lia|exact P1].
    intros i. specialize (Hnth (S i)). cbn in Hnth. rewrite Hnth. f_equal. lia.
  Qed.
  Lemma mtight_step_some ts : forall fuel h g ma mt, mlock ts 0 h g ma mt ->
    rust_step fuel (tr ts) prog mt = match step fuel (tr ts) prog mt with Some m' => Finished m' | None => Unfinished end.
  Proof.
    induction fuel as [|fuel IH]; intros h g ma mt HL; cbn [step rust_step]; [reflexivity|].
    rewrite (mtight_pass_some ts prog 0 h g ma mt (fun i => eq_refl) eq_refl HL).
    destruct (mlock_run prog confs tr ft pt Hft Hpt Hcover Hdist Hfe Hpe Hflat ts prog 0 h g ma mt (fun i => eq_refl) eq_refl HL) as (h1 & g1 & L1).
    destruct (m_progress (run_pass (tr ts) 0 prog mt)); [|reflexivity|];
      exact (IH h1 g1 _ _ (mlock_again prog confs tr ft pt ts h1 g1 _ _ L1)).
  Qed.
  Lemma mtight_run_from fuel : forall n ts h g ma mt, mlock ts 0 h g ma mt ->
    rust_run fuel (map tr (seq ts n)) prog mt =
    match run fuel (map tr (seq ts n)) prog mt with Some m' => Finished m' | None => Unfinished end.
  Proof.
    induction n as [|n IH]; intros ts h g ma mt HL; cbn [seq map run rust_run]; [reflexivity|].
    rewrite (mtight_step_some ts fuel h g ma mt HL).
    pose proof (mstep_lock prog confs tr ft pt Hft Hpt Hcover Hdist Hfe Hpe Hflat ts fuel h g ma mt HL) as S1.
    destruct (step fuel (tr ts) prog ma) as [ma1|], (step fuel (tr ts) prog mt) as [mt1|]; try (destruct S1; fail); try reflexivity.
    destruct S1 as (h1 & g1 & S1). exact (IH (S ts) h1 g1 _ _ S1).
  Qed.
  Lemma mtight_finished fuel n m :
    rust_run fuel (rows tr n) prog (rust_init prog confs) = Finished m <->
    run fuel (rows tr n) prog (init prog confs) = Some m.
  Proof.
    unfold rows. rewrite rust_init_eq, (mtight_run_from fuel n 0 _ _ _ _ (mlock_init prog confs tr ft pt Hft Hpt)).
    destruct (run _ _ _ _); split; congruence.
  Qed.

  Lemma mtight_finishes fuel n : mixed_passes prog confs <= fuel ->
    exists m, rust_run fuel (rows tr n) prog (rust_init prog confs) = Finished m.
  Proof.
    intros H. destruct (menough_monitored prog confs tr ft pt Hft Hpt Hcover Hdist Hfe Hpe Hflat n) as (m & Hm & _).
    exists m. apply mtight_finished. exact (run_fuel prog _ _ _ _ _ H Hm).
  Qed.
End Mixed.
