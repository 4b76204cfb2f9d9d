(** * The Rust monitor on programs with a future-time and a past-time part *)
From Coq Require Import List Arith Bool Lia.
Require Import Verif.Mltl Verif.Scq Verif.Engine Verif.Monitoring Verif.ScqSize Verif.ScqProofs Verif.EngineLocal Verif.NodeProofs.
Require Import Verif.MonitorProofs Verif.PastMonitor Verif.PastProofs Verif.MonitorCheck Verif.PastCheck Verif.MixedProofs.
Require Import Verif.RustEngine Verif.RustProofs.
Import ListNotations.
Local Existing Instance Rust_monitor.

Section PastNoPanic.
  Variables (prog : list instr) (confs : list qconf) (tr : trace) (pt : nat -> bool).
  Hypothesis Hpt : pt_part pt prog confs.

  Lemma pcheck_total h ts m k ins c (second : bool) :
    PInv prog confs tr pt h ts m -> node prog confs pt k ins c ->
    rust_check_operand (tr ts) k ins second m <> None.
  Proof.
    intros HI Hn. pose proof (pi_nodes _ _ _ _ _ _ _ HI k ins c Hn) as N. unfold rust_check_operand.
    assert (G : forall o, (forall j, o = Sub j -> reads ins j) ->
                oreader confs h o (q_next (get_queue m k)) (if second then q_read2 (get_queue m k) else q_read1 (get_queue m k)) (ts - 1) ->
                forall j, o = Sub j -> rust_scq_read (q_slots (get_queue m j)) (q_write (get_queue m j)) (q_next (get_queue m k))
                          (if second then q_read2 (get_queue m k) else q_read1 (get_queue m k)) <> None).
    { intros o Ho Hr j ->. destruct (psub_child _ _ _ Hpt k ins c j Hn (Ho j eq_refl)) as (_ & ins' & c' & Hn' & _).
      pose proof (pi_nodes _ _ _ _ _ _ _ HI j ins' c' Hn') as Nj. cbn in Hr.
      pose proof (node_len _ _ _ j ins' c' Hn') as Hl. rewrite <- (pn_len _ _ _ _ _ _ _ _ _ Nj) in Hl. rewrite Hl in Hr.
      eapply rust_read_total; [exact (pn_ring _ _ _ _ _ _ _ _ _ Nj)|exact Hr]. }
    destruct (if second then i_op2 ins else i_op1 ins) as [b|a|j|] eqn:E.
    - destruct (i_op ins); discriminate.
    - destruct (m_progress m); discriminate.
    - assert (G' := G (if second then i_op2 ins else i_op1 ins)).
      destruct (rust_scq_read _ _ _ _) as [[r v]|] eqn:Er; [discriminate|]. exfalso.
      destruct second; (eapply G'; [| |exact E|exact Er]).
      + intros; right; assumption.
      + exact (pn_rd2 _ _ _ _ _ _ _ _ _ N).
      + intros; left; assumption.
      + exact (pn_rd1 _ _ _ _ _ _ _ _ _ N).
    - discriminate.
  Qed.
  Lemma pcheck_total2 h ts m k ins c r :
    PInv prog confs tr pt h ts m -> node prog confs pt k ins c ->
    rust_check_operand (tr ts) k ins true (set_queue m k (with_read (get_queue m k) false r)) <> None.
  Proof.
    intros HI Hn. pose proof (pcheck_total h ts m k ins c true HI Hn) as H.
    assert (Hk : k < length (m_queues m)) by (rewrite (pi_length _ _ _ _ _ _ _ HI); apply (node_lt _ _ _ _ _ _ Hn)).
    unfold rust_check_operand in *. destruct (i_op2 ins) as [b|a|j|] eqn:E; try discriminate.
    - destruct (i_op ins); discriminate.
    - cbn [set_queue m_progress]. destruct (m_progress m); discriminate.
    - destruct (psub_child _ _ _ Hpt k ins c j Hn (or_intror E)) as (Hj & _).
      assert (E1 : get_queue (set_queue m k (with_read (get_queue m k) false r)) j = get_queue m j)
        by (unfold get_queue, set_queue; cbn [m_queues]; apply nth_set_other; lia).
      assert (E2 : get_queue (set_queue m k (with_read (get_queue m k) false r)) k = with_read (get_queue m k) false r)
        by (unfold get_queue, set_queue; cbn [m_queues]; apply nth_set_same; assumption).
      rewrite E1, E2. cbn [with_read q_next q_read2].
      destruct (rust_scq_read _ _ _ _) as [[r' v]|]; [discriminate|assumption].
  Qed.

  (** The first look-up only moves a read pointer. *)
  Lemma check_moves atoms k ins m m1 r :
    rust_check_operand atoms k ins false m = Some (m1, r) ->
    exists x, m1 = set_queue m k (with_read (get_queue m k) false x).
  Proof.
    intros H. apply rust_check_eq in H. unfold check_operand in H.
    assert (Hid : set_queue m k (with_read (get_queue m k) false (q_read1 (get_queue m k))) = m).
    { assert (E : with_read (get_queue m k) false (q_read1 (get_queue m k)) = get_queue m k)
        by (destruct (get_queue m k); reflexivity).
      rewrite E. unfold set_queue, get_queue. rewrite set_nth_id. destruct m; reflexivity. }
    destruct (i_op1 ins) as [b|a|j|].
    - destruct (i_op ins); injection H as <- _; eexists; symmetry; exact Hid.
    - destruct (m_progress m); injection H as <- _; eexists; symmetry; exact Hid.
    - destruct (scq_read _ _ _ _) as [x v]. injection H as <- _. eexists; reflexivity.
    - injection H as <- _. eexists; symmetry; exact Hid.
  Qed.
  Lemma pbinary_total op h ts m k ins c :
    PInv prog confs tr pt h ts m -> node prog confs pt k ins c ->
    (forall r0 r1 q, op r0 r1 q <> None) -> rust_binary op (tr ts) k ins m <> None.
  Proof.
    intros HI Hn Hop. unfold rust_binary.
    destruct (rust_check_operand (tr ts) k ins false m) as [[m1 r0]|] eqn:E0.
    2:{ intros _. revert E0. eapply pcheck_total; eassumption. }
    destruct (check_moves _ _ _ _ _ _ E0) as [x ->].
    destruct (rust_check_operand (tr ts) k ins true _) as [[m2 r1]|] eqn:E1.
    2:{ intros _. revert E1. eapply pcheck_total2; eassumption. }
    destruct (op r0 r1 (get_queue m2 k)) as [[q r]|] eqn:Eo; [discriminate|]. exfalso. revert Eo. apply Hop.
  Qed.
  Lemma since_defined r0 r1 q : since_operator r0 r1 q <> None.
  Proof.
    unfold since_operator. destruct r0 as [[[] ?]|], r1 as [[[] ?]|]; cbv zeta;
      repeat (match goal with |- context [if ?b then _ else _] => destruct b
                            | |- context [usub ?a ?b] => destruct (usub a b) end; try discriminate).
  Qed.
  Lemma trigger_defined r0 r1 q : trigger_operator r0 r1 q <> None.
  Proof.
    unfold trigger_operator. destruct r0 as [[[] ?]|], r1 as [[[] ?]|]; cbv zeta;
      repeat (match goal with |- context [if ?b then _ else _] => destruct b
                            | |- context [usub ?a ?b] => destruct (usub a b) end; try discriminate).
  Qed.

  Lemma pupdate_some h ts m k ins c :
    PInv prog confs tr pt h ts m -> node prog confs pt k ins c ->
    rust_update (tr ts) k ins m = Some (update (tr ts) k ins m).
  Proof.
    intros HI Hn.
    assert (T : rust_update (tr ts) k ins m <> None).
    { pose proof (pnode_pt _ _ _ Hpt k ins c Hn) as [_ F].
      unfold rust_update. pose proof (pcheck_total h ts m k ins c false HI Hn) as T.
      destruct (i_op ins) eqn:Eop; try (destruct F; fail).
      all: try (destruct (rust_check_operand _ _ _ _ _) as [[? [?|]]|]; congruence).
      all: try (unfold rust_unary; destruct (rust_check_operand _ _ _ _ _) as [[? [[? ?]|]]|]; cbn; congruence).
      all: eapply pbinary_total; [eassumption|eassumption|].
      all: first [exact since_defined|exact trigger_defined|intros [[[] ?]|] [[[] ?]|] q; discriminate]. }
    destruct (rust_update (tr ts) k ins m) as [m'|] eqn:E; [|congruence]. f_equal. symmetry.
    apply rust_update_eq; [|assumption]. rewrite (pi_length _ _ _ _ _ _ _ HI). apply (node_lt _ _ _ _ _ _ Hn).
  Qed.
End PastNoPanic.

Section RustMixed.
  Variables (prog : list instr) (confs : list qconf) (tr : trace) (ft pt : nat -> bool).
  Hypothesis Hft : ft_part ft prog confs.
  Hypothesis Hpt : pt_part pt prog confs.
  Hypothesis Hcover : forall k, k < length prog -> ft k = true \/ pt k = true.
  Hypothesis Hdist : distinct_reports prog.
  Hypothesis Hfa : part_ample ft prog confs.
  Hypothesis Hpa : pt_part_ample pt prog confs.
  Notation both := (both prog confs tr ft pt).
  Notation begins := (begins prog confs tr ft pt).

  Lemma mixed_update_some ts k h g m ins :
    both ts k h g m -> nth_error prog k = Some ins ->
    rust_update (tr ts) k ins m = Some (update (tr ts) k ins m).
  Proof.
    intros [B1 B2] Hp. destruct (Hcover k) as [HK|HK]; [apply nth_error_Some; congruence| |].
    - destruct (node_of prog confs ft Hft k ins Hp HK) as [c Hn].
      exact (rust_update_some prog confs tr ft Hft h ts m k ins c (p_inv _ _ _ _ _ _ _ _ B1) Hn).
    - destruct (pnode_of prog confs pt Hpt k ins Hp HK) as [c Hn].
      exact (pupdate_some prog confs tr pt Hpt g ts m k ins c (pp_inv _ _ _ _ _ _ _ _ B2) Hn).
  Qed.
  Lemma mixed_pass_some ts : forall rest k h g m,
    (forall i, nth_error rest i = nth_error prog (k + i)) -> k + length rest = length prog ->
    both ts k h g m -> rust_pass (tr ts) k rest m = Some (run_pass (tr ts) k rest m).
  Proof.
    induction rest as [|ins rest IH]; intros k h g m Hnth Hlen HB; [reflexivity|].
    assert (Hp : nth_error prog k = Some ins) by (rewrite <- (Nat.add_0_r k); symmetry; apply (Hnth 0)).
    cbn [rust_pass run_pass]. rewrite (mixed_update_some ts k h g m ins HB Hp).
    destruct (mixed_visit prog confs tr ft pt Hft Hpt Hcover Hdist Hfa Hpa ts k h g m ins HB Hp) as (h1 & g1 & P1 & _).
    apply (IH (S k) h1 g1); [|cbn in Hlen; lia|exact P1].
    intros i. specialize (Hnth (S i)). cbn in Hnth. rewrite Hnth. f_equal. lia.
  Qed.
  Lemma mixed_step_some ts : forall fuel h g m,
    both ts 0 h g m ->
    rust_step fuel (tr ts) prog m = match step fuel (tr ts) prog m with Some m' => Finished m' | None => Unfinished end.
  Proof.
    induction fuel as [|fuel IH]; intros h g m HB; cbn [step rust_step]; [reflexivity|].
    rewrite (mixed_pass_some ts prog 0 h g m (fun i => eq_refl) eq_refl HB).
    destruct (mixed_pass prog confs tr ft pt Hft Hpt Hcover Hdist Hfa Hpa ts prog 0 h g m (fun i => eq_refl) eq_refl HB)
      as (h1 & g1 & [P1 Q1] & _).
    destruct (m_progress (run_pass (tr ts) 0 prog m)); [|reflexivity|];
      (apply (IH h1 g1); split; [apply next_pass|apply pnext_pass]; assumption).
  Qed.
  Lemma mixed_run_from fuel : forall n ts h g m,
    begins ts h g m ->
    rust_run fuel (map tr (seq ts n)) prog m =
    match run fuel (map tr (seq ts n)) prog m with Some m' => Finished m' | None => Unfinished end.
  Proof.
    induction n as [|n IH]; intros ts h g m [HS HP]; cbn [seq map run rust_run]; [reflexivity|].
    pose proof (conj (start_passing _ _ _ _ ts h m HS) (pstart_passing _ _ _ _ ts g m HP)) as HB.
    rewrite (mixed_step_some ts fuel h g m HB).
    pose proof (mixed_step prog confs tr ft pt Hft Hpt Hcover Hdist Hfa Hpa ts fuel h g m HB) as SP.
    rewrite (s_prog _ _ _ _ _ _ _ HS) in SP. specialize (SP ltac:(discriminate)).
    destruct (step fuel (tr ts) prog m) as [m1|]; [|reflexivity].
    destruct SP as (h1 & g1 & S1). apply (IH (S ts) h1 g1 m1 S1).
  Qed.
  Lemma mixed_run_eq fuel n :
    rust_run fuel (rows tr n) prog (rust_init prog confs) =
    match run fuel (rows tr n) prog (init prog confs) with Some m' => Finished m' | None => Unfinished end.
  Proof.
    apply (mixed_run_from fuel n 0 _ _ _ (conj (start_init prog confs tr ft Hft) (pstart_init prog confs tr pt Hpt))).
  Qed.
  Lemma mixed_finished fuel n m :
    rust_run fuel (rows tr n) prog (rust_init prog confs) = Finished m <->
    run fuel (rows tr n) prog (init prog confs) = Some m.
  Proof. rewrite mixed_run_eq. destruct (run _ _ _ _); split; congruence. Qed.
  Lemma mixed_finishes fuel n :
    mixed_passes prog confs <= fuel ->
    exists m, rust_run fuel (rows tr n) prog (rust_init prog confs) = Finished m.
  Proof.
    intros H. destruct (mixed_total prog confs tr ft pt Hft Hpt Hcover Hdist Hfa Hpa fuel n H) as [m Hm].
    exists m. apply mixed_finished. exact Hm.
  Qed.
End RustMixed.
