(** * Short queues in the Rust monitor (proofs) *)
From Coq Require Import List Arith Bool Lia.
Require Import Verif.Mltl Verif.Scq Verif.Engine Verif.Monitoring Verif.TightSize Verif.ScqProofs Verif.EngineLocal Verif.NodeProofs.
Require Import Verif.MonitorProofs Verif.TightQueue Verif.TightProofs Verif.RustEngine Verif.RustProofs.
Import ListNotations.
Local Existing Instance Rust_monitor.

Lemma tight_read_total L slots w h n r x :
  holding L slots w h -> ready L h n r x -> rust_scq_read slots w n r <> None.
Proof.
  intros [El [[HL R]|(-> & -> & ->)]] [(E1 & -> & _)|[H1 H2]]; try lia.
  - rewrite <- El in H2. exact (rust_read_total _ _ _ _ _ _ R H2).
  - unfold rust_scq_read. cbn [get_slot nth]. destruct h; [discriminate|].
    cbn. destruct (n <=? _); discriminate.
Qed.

Section Update.
  Variables (prog : list instr) (confs : list qconf) (tr : trace) (part : nat -> bool) (room : nat).
  Hypothesis Hft : ft_part part prog confs.
  Local Notation Node := (node prog (wide confs room) part).
  Local Notation lock := (lock prog confs tr part room).

  Lemma tight_update_total ts h ma mt k ins c : lock ts k h ma mt -> Node k ins c -> rust_update (tr ts) k ins mt <> None.
  Proof using Hft.
    intros HL Hn. pose proof (wide_ft prog confs part room Hft) as Wp.
    pose proof (p_inv _ _ _ _ _ _ _ _ (k_pass _ _ _ _ _ _ _ _ _ _ HL)) as HI. pose proof (k_twin _ _ _ _ _ _ _ _ _ _ HL) as HT.
    pose proof (i_nodes _ _ _ _ _ _ _ HI k ins c Hn) as N.
    apply (rust_update_safe prog (tr ts) ts k ins c mt).
    - rewrite (t_length _ _ _ _ _ _ _ HT). apply (node_lt _ _ _ _ _ _ Hn).
    - rewrite (t_time _ _ _ _ _ _ _ HT). exact (i_time _ _ _ _ _ _ _ HI).
    - intros j Hj. destruct (sub_child _ _ _ Wp k ins c j Hn Hj) as (Hlt & _). lia.
    - intros second j E.
      assert (Hrd : reads ins j) by (destruct second; [right|left]; assumption).
      destruct (sub_child _ _ _ Wp k ins c j Hn Hrd) as (_ & ins' & c' & Hn' & _).
      pose proof (k_read _ _ _ _ _ _ _ _ _ _ HL k ins c second j Hn E) as [R _]. unfold rp in R.
      pose proof (t_hold _ _ _ _ _ _ _ HT j ins' c' Hn') as Ho.
      rewrite (t_next _ _ _ _ _ _ _ HT k ins c Hn).
      pose proof (tight_read_total _ _ _ _ _ _ _ Ho R) as T.
      destruct (rust_scq_read _ _ _ _) as [[r v]|] eqn:Er; [|congruence]. exists r, v. split; [reflexivity|].
      intros w ->. apply rust_read_eq in Er.
      pose proof (i_nodes _ _ _ _ _ _ _ HI j ins' c' Hn') as Nj.
      destruct (ready_read _ _ _ _ _ _ _ Ho (n_incr _ _ _ _ _ _ _ _ _ Nj) R) as [V _]. rewrite Er in V. cbn [snd] in V.
      symmetry in V. pose proof (rd_ge _ _ _ V) as [V1 _]. apply rd_time in V. pose proof (n_hi _ _ _ _ _ _ _ _ _ Nj). lia.
    - exact (node_ft _ _ _ Wp k ins c Hn).
    - pose proof (n_op _ _ _ _ _ _ _ _ _ N) as O. unfold opinv in O.
      rewrite (t_lb _ _ _ _ _ _ _ HT k ins c Hn), (t_next _ _ _ _ _ _ _ HT k ins c Hn).
      destruct (i_op ins); try exact Logic.I; destruct O as [[_ Hlo _ _ _] _]; lia.
  Qed.
  Lemma tight_update_some ts h ma mt k ins c : lock ts k h ma mt -> Node k ins c ->
    rust_update (tr ts) k ins mt = Some (update (tr ts) k ins mt).
  Proof using Hft.
    intros HL Hn. pose proof (tight_update_total ts h ma mt k ins c HL Hn) as T.
    destruct (rust_update (tr ts) k ins mt) as [m'|] eqn:E; [|congruence]. f_equal. symmetry.
    apply rust_update_eq; [|assumption]. rewrite (t_length _ _ _ _ _ _ _ (k_twin _ _ _ _ _ _ _ _ _ _ HL)). apply (node_lt _ _ _ _ _ _ Hn).
  Qed.

End Update.

Section Tight.
  Variables (prog : list instr) (confs : list qconf) (tr : trace).
  Hypothesis Hft : ft_program prog confs.
  Hypothesis Hdist : distinct_reports prog.
  Hypothesis Henough : queues_enough prog confs.
  Let Hpart := whole_part prog confs Hft.
  Let Hall : part_enough all prog confs := fun k ins conf c conf_c _ => Henough k ins conf c conf_c.
  Local Notation lock := (lock prog confs tr all (slack prog confs)).

  Lemma tight_pass_some ts : forall rest k h ma mt,
    (forall i, nth_error rest i = nth_error prog (k + i)) -> k + length rest = length prog ->
    lock ts k h ma mt -> rust_pass (tr ts) k rest mt = Some (run_pass (tr ts) k rest mt).
  Proof using Hft Hdist Henough.
    induction rest as [|ins rest IH]; intros k h ma mt Hnth Hlen HL; [reflexivity|].
    assert (Hp : nth_error prog k = Some ins) by (rewrite <- (Nat.add_0_r k); symmetry; apply (Hnth 0)).
    destruct (Node_of prog confs all (slack prog confs) Hpart k ins Hp eq_refl) as [c Hn].
    cbn [rust_pass run_pass]. rewrite (tight_update_some prog confs tr all (slack prog confs) Hpart ts h ma mt k ins c HL Hn).
    destruct (pass_visit prog (wide confs (slack prog confs)) tr all (wide_ft prog confs all _ Hpart) Hdist
      (wide_ample prog confs all _ (slack_ge prog confs)) ts k h ma ins c (k_pass _ _ _ _ _ _ _ _ _ _ HL) Hn) as (h1 & V & P & _).
    apply (IH (S k) h1 (update (tr ts) k ins ma)).
    - intros i. specialize (Hnth (S i)). cbn in Hnth. rewrite Hnth. f_equal. lia.
    - cbn in Hlen. lia.
    - apply (lock_visit prog confs tr all _ Hpart Hall (slack_ge prog confs) h ts ma mt k ins c HL Hn h1 V P).
  Qed.
  Lemma tight_step_some ts : forall fuel h ma mt, lock ts 0 h ma mt ->
    rust_step fuel (tr ts) prog mt = match step fuel (tr ts) prog mt with Some m' => Finished m' | None => Unfinished end.
  Proof using Hft Hdist Henough.
    induction fuel as [|fuel IH]; intros h ma mt HL; cbn [step rust_step]; [reflexivity|].
    rewrite (tight_pass_some ts prog 0 h ma mt (fun i => eq_refl) eq_refl HL).
    destruct (lock_run prog confs tr Hft Hdist Henough ts prog 0 h ma mt (fun i => eq_refl) eq_refl HL) as (h1 & L1).
    destruct (m_progress (run_pass (tr ts) 0 prog mt)); [|reflexivity|];
      apply (IH h1 _ _ (lock_again prog confs tr all _ ts h1 _ _ L1)).
  Qed.
  Lemma tight_run_from fuel : forall n ts h ma mt, lock ts 0 h ma mt ->
    rust_run fuel (map tr (seq ts n)) prog mt =
    match run fuel (map tr (seq ts n)) prog mt with Some m' => Finished m' | None => Unfinished end.
  Proof using Hft Hdist Henough.
    induction n as [|n IH]; intros ts h ma mt HL; cbn [seq map run rust_run]; [reflexivity|].
    rewrite (tight_step_some ts fuel h ma mt HL).
    pose proof (step_lock prog confs tr Hft Hdist Henough ts fuel h ma mt HL) as S1.
    destruct (step fuel (tr ts) prog ma) as [ma1|], (step fuel (tr ts) prog mt) as [mt1|]; try (destruct S1; fail); try reflexivity.
    destruct S1 as [h1 S1]. exact (IH (S ts) h1 _ _ S1).
  Qed.
  Lemma tight_finished fuel n m :
    rust_run fuel (rows tr n) prog (rust_init prog confs) = Finished m <->
    run fuel (rows tr n) prog (init prog confs) = Some m.
  Proof using Hft Hdist Henough.
    unfold rows. rewrite rust_init_eq, (tight_run_from fuel n 0 _ _ _ (lock_init prog confs tr all _ Hpart)).
    destruct (run _ _ _ _); split; congruence.
  Qed.
End Tight.

(** ** Ample queues are long enough *)
Lemma ample_enough prog confs : ft_program prog confs -> queues_ample prog confs -> queues_enough prog confs.
Proof.
  intros Hft Ha k ins conf c conf_c Hp Hc Hcc. cbv zeta.
  pose proof (whole_part prog confs Hft) as Wp.
  assert (Hn : node prog confs all k ins conf) by (split; [exact Hp|]; split; [exact Hc|reflexivity]).
  assert (W : forall a b, (forall j, b = Sub j -> reads ins j) -> (b = i_op1 ins \/ b = i_op2 ins) ->
                wait prog confs ins conf (node_expr prog confs k) a b <= reach (node_expr prog confs k)).
  { intros a b _ Hb. pose proof (wd_ge prog confs all Wp k ins conf Hn) as [G1 G2].
    unfold wd, owd in G1, G2. unfold wait.
    assert (G : reach (operand_expr (exprs prog confs) b) <= reach (node_expr prog confs k)) by (destruct Hb as [->| ->]; assumption).
    destruct (i_op ins); try lia; try (destruct (operand_pace _ _); lia); destruct (i_op1 ins); lia. }
  split; intros E.
  - pose proof (Ha k ins c conf_c Hp (or_introl E) Hcc). specialize (W (i_op1 ins) (i_op2 ins) (fun j H => or_intror H) (or_intror eq_refl)). lia.
  - pose proof (Ha k ins c conf_c Hp (or_intror E) Hcc). specialize (W (i_op2 ins) (i_op1 ins) (fun j H => or_introl H) (or_introl eq_refl)). lia.
Qed.

(** ** Both monitors together *)
Section Both.
  Variables (prog : list instr) (confs : list qconf) (tr : trace).
  Hypothesis Hft : ft_program prog confs.
  Hypothesis Hdist : distinct_reports prog.
  Hypothesis Henough : queues_enough prog confs.

  Lemma rust_tight_finishes n :
    exists m, rust_run (max_passes prog confs) (rows tr n) prog (rust_init prog confs) = Finished m.
  Proof.
    destruct (tight_total prog confs tr Hft Hdist Henough (max_passes prog confs) n (le_n _)) as [m H].
    exists m. apply (tight_finished prog confs tr Hft Hdist Henough). exact H.
  Qed.
  Lemma rust_tight_sound fuel n m k ins t b :
    rust_run fuel (rows tr n) prog (rust_init prog confs) = Finished m ->
    nth_error prog k = Some ins -> i_op ins = RETURN ->
    reported (reports (i_num ins) m) t b ->
    (b = true <-> sat tr (node_expr prog confs k) t) /\ t < n.
  Proof.
    intros H. apply (tight_finished prog confs tr Hft Hdist Henough) in H. revert H.
    exact (tight_sound prog confs tr Hft Hdist Henough fuel n m k ins t b).
  Qed.
  Lemma tight_agree fuel fuel' n n' mc mr k ins t b b' :
    @run C_monitor fuel (rows tr n) prog (@init C_monitor prog confs) = Some mc ->
    rust_run fuel' (rows tr n') prog (rust_init prog confs) = Finished mr ->
    nth_error prog k = Some ins -> i_op ins = RETURN ->
    reported (reports (i_num ins) mc) t b -> reported (reports (i_num ins) mr) t b' -> b = b'.
  Proof.
    intros H1 H2 Hp Hr R1 R2.
    destruct (@tight_sound C_monitor prog confs tr Hft Hdist Henough fuel n mc k ins t b H1 Hp Hr R1) as [S1 _].
    destruct (rust_tight_sound fuel' n' mr k ins t b' H2 Hp Hr R2) as [S2 _].
    destruct b, b'; try reflexivity; exfalso.
    - assert (false = true) by tauto. discriminate.
    - assert (false = true) by tauto. discriminate.
  Qed.
  Lemma tight_same n mc mr k ins :
    @run C_monitor (max_passes prog confs) (rows tr n) prog (@init C_monitor prog confs) = Some mc ->
    rust_run (max_passes prog confs) (rows tr n) prog (rust_init prog confs) = Finished mr ->
    nth_error prog k = Some ins -> i_op ins = RETURN ->
    increasing (reports (i_num ins) mc) /\ increasing (reports (i_num ins) mr) /\
    forall t, t + reach (node_expr prog confs k) < n ->
      exists b, reported (reports (i_num ins) mc) t b /\ reported (reports (i_num ins) mr) t b /\
                (b = true <-> sat tr (node_expr prog confs k) t).
  Proof.
    intros H1 H2 Hp Hr. pose proof (proj1 (tight_finished prog confs tr Hft Hdist Henough _ _ _) H2) as H2'.
    split; [exact (@tight_increasing C_monitor prog confs tr Hft Hdist Henough _ n mc k ins H1 Hp Hr)|].
    split; [exact (tight_increasing prog confs tr Hft Hdist Henough _ n mr k ins H2' Hp Hr)|].
    intros t Ht.
    destruct (@tight_timely C_monitor prog confs tr Hft Hdist Henough _ n mc k ins t H1 Hp Hr Ht) as [b Rb].
    destruct (tight_timely prog confs tr Hft Hdist Henough _ n mr k ins t H2' Hp Hr Ht) as [b' Rb'].
    assert (E : b = b') by (eapply tight_agree; eassumption). subst b'.
    exists b. split; [assumption|]. split; [assumption|].
    apply (rust_tight_sound _ n mr k ins t b H2 Hp Hr Rb').
  Qed.
End Both.
