(** * Programs with a future-time and a past-time part: every step ends *)
From Coq Require Import List Arith Bool Lia.
Require Import Verif.Mltl Verif.Scq Verif.Engine Verif.Monitoring Verif.ScqSize Verif.ScqSizeProofs.
Require Import Verif.EngineLocal Verif.MonitorProofs Verif.PastMonitor Verif.PastProofs.
Require Import Verif.MonitorCheck Verif.PastCheck.
Import ListNotations.

Section Mixed.
  Context {I : impl}.
  Variables (prog : list instr) (confs : list qconf) (tr : trace) (ft pt : nat -> bool).
  Hypothesis Hft : ft_part ft prog confs.
  Hypothesis Hpt : pt_part pt prog confs.
  Hypothesis Hcover : forall k, k < length prog -> ft k = true \/ pt k = true.
  Hypothesis Hdist : distinct_reports prog.
  Hypothesis Hfa : part_ample ft prog confs.
  Hypothesis Hpa : pt_part_ample pt prog confs.

  Definition both (ts k : nat) (h g : nat -> list verdict) (m : monitor) : Prop :=
    passing prog confs tr ft ts k h m /\ ppassing prog confs tr pt ts k g m.
  Definition nu (ts : nat) (h g : nat -> list verdict) (m : monitor) : nat :=
    mu prog ft ts h m + pmu prog confs pt ts g m.

  Lemma mixed_visit ts k h g m ins :
    both ts k h g m -> nth_error prog k = Some ins ->
    let m' := update (tr ts) k ins m in
    exists h' g', both ts (S k) h' g' m' /\
      ((m_progress m' = m_progress m /\ nu ts h' g' m' <= nu ts h g m) \/
       (m_progress m' = flag (m_progress m) /\ nu ts h' g' m' < nu ts h g m)).
  Proof.
    intros [B1 B2] Hp m'. unfold nu.
    pose proof (pass_frame prog confs tr ft Hft Hdist ts k h m ins B1 Hp) as F1.
    pose proof (ppass_frame prog confs tr pt Hpt Hdist ts k g m ins B2 Hp) as F2. cbv zeta in F1, F2. fold m' in F1, F2.
    assert (V1 : ft k = true -> exists h', passing prog confs tr ft ts (S k) h' m' /\
      ((m_progress m' = m_progress m /\ mu prog ft ts h' m' <= mu prog ft ts h m) \/
       (m_progress m' = flag (m_progress m) /\ mu prog ft ts h' m' < mu prog ft ts h m))).
    { intros HK. destruct (node_of prog confs ft Hft k ins Hp HK) as [c Hn].
      destruct (pass_visit prog confs tr ft Hft Hdist Hfa ts k h m ins c B1 Hn) as (h1 & _ & P1 & M1). exists h1. auto. }
    assert (V2 : pt k = true -> exists g', ppassing prog confs tr pt ts (S k) g' m' /\
      ((m_progress m' = m_progress m /\ pmu prog confs pt ts g' m' <= pmu prog confs pt ts g m) \/
       (m_progress m' = flag (m_progress m) /\ pmu prog confs pt ts g' m' < pmu prog confs pt ts g m))).
    { intros HK. destruct (pnode_of prog confs pt Hpt k ins Hp HK) as [c Hn].
      destruct (ppass_visit prog confs tr pt Hpt Hdist Hpa ts k g m ins c B2 Hn) as (g1 & _ & P1 & M1). exists g1. auto. }
    clearbody m'. destruct (ft k) eqn:Ef, (pt k) eqn:Ep.
    - destruct (V1 eq_refl) as (h' & P1 & M1), (V2 eq_refl) as (g' & P2 & M2). exists h', g'.
      split; [split; assumption|].
      destruct M1 as [[E1 L1]|[E1 L1]], M2 as [[E2 L2]|[E2 L2]].
      + left. split; [assumption|lia].
      + right. split; [assumption|lia].
      + right. split; [assumption|lia].
      + right. split; [assumption|lia].
    - destruct (V1 eq_refl) as (h' & P1 & M1), (F2 eq_refl) as [P2 M2]. exists h', g.
      split; [split; assumption|]. destruct M1 as [[E1 L1]|[E1 L1]]; [left|right]; (split; [assumption|lia]).
    - destruct (F1 eq_refl) as [P1 M1], (V2 eq_refl) as (g' & P2 & M2). exists h, g'.
      split; [split; assumption|]. destruct M2 as [[E1 L1]|[E1 L1]]; [left|right]; (split; [assumption|lia]).
    - exfalso. destruct (Hcover k); [apply nth_error_Some; congruence| |]; congruence.
  Qed.

  Lemma mixed_pass ts : forall rest k h g m,
    (forall i, nth_error rest i = nth_error prog (k + i)) -> k + length rest = length prog ->
    both ts k h g m ->
    let m' := run_pass (tr ts) k rest m in
    exists h' g', both ts (length prog) h' g' m' /\
      ((m_progress m' = m_progress m /\ nu ts h' g' m' <= nu ts h g m) \/
       (m_progress m' = flag (m_progress m) /\ nu ts h' g' m' < nu ts h g m)).
  Proof.
    induction rest as [|ins rest IH]; intros k h g m Hnth Hlen HB m'.
    - cbn in *. exists h, g. rewrite Nat.add_0_r in Hlen. subst k. split; [assumption|]. left. auto.
    - assert (Hp : nth_error prog k = Some ins) by (rewrite <- (Nat.add_0_r k); symmetry; apply (Hnth 0)).
      destruct (mixed_visit ts k h g m ins HB Hp) as (h1 & g1 & P1 & M1).
      destruct (IH (S k) h1 g1 (update (tr ts) k ins m)) as (h2 & g2 & P2 & M2); auto.
      + intros i. specialize (Hnth (S i)). cbn in Hnth. rewrite Hnth. f_equal. lia.
      + cbn in Hlen. lia.
      + exists h2, g2. split; [exact P2|]. cbn [run_pass] in m'. fold m' in M2, P2.
        destruct M1 as [[E1 L1]|[E1 L1]], M2 as [[E2 L2]|[E2 L2]]; rewrite E1 in E2.
        * left. split; [assumption|lia].
        * right. split; [assumption|lia].
        * right. split; [assumption|lia].
        * right. split; [|lia]. rewrite E2. destruct (m_progress m); reflexivity.
  Qed.

  Definition begins (ts : nat) (h g : nat -> list verdict) (m : monitor) : Prop :=
    start prog confs tr ft ts h m /\ pstart prog confs tr pt ts g m.

  Lemma mixed_step ts : forall fuel h g m,
    both ts 0 h g m -> m_progress m <> WithProgress ->
    match step fuel (tr ts) prog m with
    | Some m' => exists h' g', begins (S ts) h' g' m'
    | None => fuel <= nu ts h g m + match m_progress m with FirstLoop => 1 | _ => 0 end
    end.
  Proof.
    induction fuel as [|fuel IH]; intros h g m HB Hne; cbn [step]; [lia|].
    destruct (mixed_pass ts prog 0 h g m (fun i => eq_refl) eq_refl HB) as (h1 & g1 & [P1 Q1] & M1).
    set (m1 := run_pass (tr ts) 0 prog m) in *.
    specialize (IH h1 g1 _ (conj (next_pass _ _ _ _ ts h1 m1 P1) (pnext_pass _ _ _ _ ts g1 m1 Q1))). cbn [m_progress] in IH.
    specialize (IH ltac:(discriminate)).
    change (nu ts h1 g1 {| m_queues := m_queues m1; m_time := m_time m1; m_progress := NoProgress; m_out := m_out m1 |})
      with (nu ts h1 g1 m1) in IH.
    destruct (m_progress m1) eqn:Ep.
    - destruct (step _ _ _ _); [assumption|]. destruct (m_progress m), M1 as [[M1 M2]|[M1 M2]]; cbn in M1; try discriminate; lia.
    - exists h1, g1. split; [apply step_end|apply pstep_end; [exact Hpt| |]]; assumption.
    - destruct (step _ _ _ _); [assumption|]. destruct (m_progress m), M1 as [[M1 M2]|[M1 M2]]; cbn in M1; try discriminate; try lia.
      all: congruence.
  Qed.

  Definition mixed_passes : nat := max_passes prog confs + pt_max_passes prog confs.

  Lemma mixed_spec fuel : forall n ts h g m,
    begins ts h g m ->
    match run fuel (map tr (seq ts n)) prog m with
    | Some m' => exists h' g', begins (ts + n) h' g' m'
    | None => fuel < mixed_passes
    end.
  Proof.
    induction n as [|n IH]; intros ts h g m [HS HP]; cbn [seq map run].
    - exists h, g. rewrite Nat.add_0_r. split; assumption.
    - pose proof (mixed_step ts fuel h g m (conj (start_passing _ _ _ _ ts h m HS) (pstart_passing _ _ _ _ ts g m HP))) as SP.
      rewrite (s_prog _ _ _ _ _ _ _ HS) in SP. specialize (SP ltac:(discriminate)).
      destruct (step fuel (tr ts) prog m) as [m1|].
      + destruct SP as (h1 & g1 & S1). specialize (IH (S ts) h1 g1 m1 S1).
        rewrite Nat.add_succ_r. exact IH.
      + pose proof (mu_bound prog confs tr ft Hft ts h m (s_inv _ _ _ _ _ _ _ HS)) as M1.
        pose proof (pmu_bound prog confs tr pt Hpt ts g m (ps_inv _ _ _ _ _ _ _ HP)) as M2.
        rewrite (total_sum prog confs ft Hft) in M1. rewrite (ptotal_sum prog confs pt Hpt) in M2.
        unfold nu in SP. unfold mixed_passes, max_passes, pt_max_passes. lia.
  Qed.
  Lemma mixed_total fuel n :
    mixed_passes <= fuel -> exists m, run fuel (rows tr n) prog (init prog confs) = Some m.
  Proof.
    intros H. pose proof (mixed_spec fuel n 0 _ _ _
      (conj (start_init prog confs tr ft Hft) (pstart_init prog confs tr pt Hpt))) as R. fold (rows tr n) in R.
    destruct (run fuel (rows tr n) prog (init prog confs)) as [m|]; [eauto|lia].
  Qed.
End Mixed.

(** The option adding a constant to every queue. *)
Lemma mixed_sized_correct {I : impl} const prog confs tr ft pt n :
  length prog = length confs ->
  (forall k ins, nth_error prog k = Some ins ->
     reach (node_expr prog confs k) < const /\ lead (node_expr prog confs k) < const) ->
  ft_part ft prog (sized const prog confs) -> pt_part pt prog (sized const prog confs) ->
  (forall k, k < length prog -> ft k = true \/ pt k = true) -> distinct_reports prog ->
  exists m, run (mixed_passes prog confs) (rows tr n) prog (init prog (sized const prog confs)) = Some m /\
    forall k ins t, nth_error prog k = Some ins -> i_op ins = RETURN ->
      (forall b, reported (reports (i_num ins) m) t b -> (b = true <-> sat tr (node_expr prog confs k) t)) /\
      (t + (if ft k then reach (node_expr prog confs k) else 0) < n -> exists b, reported (reports (i_num ins) m) t b).
Proof.
  intros E H Hft Hpt Hc Hd.
  assert (Hfa : part_ample ft prog (sized const prog confs)).
  { intros k ins c conf _ Hp Hr Hq. unfold node_expr. rewrite sized_exprs by assumption.
    specialize (H k ins Hp). apply sized_len in Hq. unfold node_expr in H. lia. }
  assert (Hpa : pt_part_ample pt prog (sized const prog confs)).
  { intros k ins c conf _ Hp Hr Hq. unfold node_expr. rewrite sized_exprs by assumption.
    assert (L : c < length prog).
    { rewrite <- (sized_length const prog confs E). apply nth_error_Some. congruence. }
    destruct (nth_error prog c) as [i|] eqn:Ei; [|apply nth_error_None in Ei; lia].
    specialize (H c i Ei). apply sized_len in Hq. unfold node_expr in H. lia. }
  destruct (mixed_total prog (sized const prog confs) tr ft pt Hft Hpt Hc Hd Hfa Hpa (mixed_passes prog confs) n) as [m Hm].
  { unfold mixed_passes, max_passes, pt_max_passes. rewrite sized_exprs by assumption. lia. }
  exists m. split; [assumption|]. intros k ins t Hp Hr.
  assert (En : node_expr prog (sized const prog confs) k = node_expr prog confs k)
    by (unfold node_expr; rewrite sized_exprs by assumption; reflexivity).
  destruct (ft k) eqn:Ef.
  - split.
    + intros b Hb. rewrite <- En. apply (part_sound prog _ tr ft Hft Hd Hfa _ n m k ins t b Hm Hp Ef Hr Hb).
    + rewrite <- En. exact (part_timely prog _ tr ft Hft Hd Hfa _ n m k ins t Hm Hp Ef Hr).
  - assert (Ep : pt k = true).
    { destruct (Hc k); [apply nth_error_Some; congruence|congruence|assumption]. }
    split.
    + intros b Hb. rewrite <- En. apply (ppart_sound prog _ tr pt Hpt Hd Hpa _ n m k ins t b Hm Hp Ep Hr Hb).
    + rewrite Nat.add_0_r. exact (ppart_timely prog _ tr pt Hpt Hd Hpa _ n m k ins t Hm Hp Ep Hr).
Qed.

(** ** Deciding the hypotheses (for examples) *)
Definition partb (check : nat -> instr -> qconf -> bool) (part : nat -> bool) (prog : list instr) (confs : list qconf) : bool :=
  for_all (length prog) (fun k =>
    match nth_error prog k, nth_error confs k with Some ins, Some c => negb (part k) || check k ins c | _, _ => true end).
Definition readsinb (part : nat -> bool) (prog : list instr) : bool :=
  for_all (length prog) (fun k => match nth_error prog k with
    | Some ins => negb (part k) || (match i_op1 ins with Sub j => part j | _ => true end && match i_op2 ins with Sub j => part j | _ => true end)
    | None => true end).
Lemma readsinb_spec part prog : readsinb part prog = true -> closed prog part.
Proof.
  intros H k ins j Hk Hp Hr. pose proof (for_all_spec _ _ H k ltac:(apply nth_error_Some; congruence)) as H1. cbv beta in H1.
  rewrite Hp, Hk in H1. cbn [negb orb] in H1. apply andb_true_iff in H1 as [H1 H2].
  destruct Hr as [E|E]; rewrite E in *; assumption.
Qed.
Lemma partb_spec check part prog confs :
  partb check part prog confs = true ->
  forall k ins c, part k = true -> nth_error prog k = Some ins -> nth_error confs k = Some c -> check k ins c = true.
Proof.
  intros H k ins c Hk Hp Hc. pose proof (for_all_spec _ _ H k ltac:(apply nth_error_Some; congruence)) as H1. cbv beta in H1.
  rewrite Hp, Hc, Hk in H1. exact H1.
Qed.
Definition ft_partb (part : nat -> bool) (prog : list instr) (confs : list qconf) : bool :=
  (length prog =? length confs) && readsinb part prog && partb (ft_instrb prog) part prog confs.
Definition pt_partb (part : nat -> bool) (prog : list instr) (confs : list qconf) : bool :=
  (length prog =? length confs) && readsinb part prog && partb (pt_instrb prog) part prog confs.
Lemma ft_partb_spec part prog confs : ft_partb part prog confs = true -> ft_part part prog confs.
Proof.
  unfold ft_partb. rewrite !andb_true_iff, Nat.eqb_eq. intros [[H1 H2] H3]. split; [assumption|].
  split; [apply readsinb_spec; assumption|]. intros k ins c Hk Hp Hc. apply ft_instrb_spec. eapply partb_spec; eassumption.
Qed.
Lemma pt_partb_spec part prog confs : pt_partb part prog confs = true -> pt_part part prog confs.
Proof.
  unfold pt_partb. rewrite !andb_true_iff, Nat.eqb_eq. intros [[H1 H2] H3]. split; [assumption|].
  split; [apply readsinb_spec; assumption|]. intros k ins c Hk Hp Hc. apply pt_instrb_spec. eapply partb_spec; eassumption.
Qed.
Definition part_ampleb (size : nat -> nat -> nat) (part : nat -> bool) (prog : list instr) (confs : list qconf) : bool :=
  for_all (length prog) (fun k => for_all (length confs) (fun c =>
    match nth_error prog k, nth_error confs c with
    | Some ins, Some conf => negb (part k) || negb (readsb ins c) || (size k c + 2 <=? c_len conf)
    | _, _ => true
    end)).
Lemma part_ampleb_any size part prog confs :
  part_ampleb size part prog confs = true ->
  forall k ins c conf, part k = true -> nth_error prog k = Some ins -> reads ins c -> nth_error confs c = Some conf ->
  size k c + 2 <= c_len conf.
Proof.
  intros H k ins c conf Hk Hp Hr Hc.
  pose proof (for_all_spec _ _ H k ltac:(apply nth_error_Some; congruence)) as H1. cbv beta in H1.
  pose proof (for_all_spec _ _ H1 c ltac:(apply nth_error_Some; congruence)) as H2. cbv beta in H2.
  rewrite Hp, Hc, Hk in H2. assert (E : readsb ins c = true).
  { unfold readsb. destruct Hr as [-> | ->]; rewrite Nat.eqb_refl; [reflexivity|apply orb_true_r]. }
  rewrite E in H2. cbn in H2. apply Nat.leb_le. assumption.
Qed.
Lemma part_ampleb_spec part prog confs :
  part_ampleb (fun k _ => reach (node_expr prog confs k)) part prog confs = true -> part_ample part prog confs.
Proof. intros H k ins c conf. exact (part_ampleb_any _ part prog confs H k ins c conf). Qed.
Lemma pt_part_ampleb_spec part prog confs :
  part_ampleb (fun _ c => lead (node_expr prog confs c)) part prog confs = true -> pt_part_ample part prog confs.
Proof. intros H k ins c conf. exact (part_ampleb_any _ part prog confs H k ins c conf). Qed.
