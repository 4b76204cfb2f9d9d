(** * Both sections with the compiler's own queue sizes, in both monitors (proofs) *)
From Coq Require Import List Arith ZArith Bool Lia.
Require Import Verif.Mltl Verif.MltlShape Verif.Transform Verif.Rewrite Verif.Pipeline.
Require Import Verif.Graph Verif.GraphSpec Verif.Binary Verif.BinarySpec Verif.Assembly Verif.Layout Verif.AssemblySpec Verif.LayoutSpec Verif.BootProofs.
Require Import Verif.Scq Verif.Engine Verif.Monitoring Verif.MonitorProofs Verif.PastMonitor Verif.TightSize Verif.PastSize Verif.MixedProofs.
Require Import Verif.SectionSize Verif.SectionTight.
Require Import Verif.EndToEnd Verif.EndToEndProofs Verif.SectionSpec Verif.EndToEndSections Verif.DefaultSpec Verif.DefaultProofs Verif.SectionDefault.
Require Import Verif.RustEngine Verif.RustSectionTight Verif.RustLayout Verif.RustLayoutSpec Verif.RustLayoutProofs Verif.RustBoot Verif.SectionReports.
Import ListNotations.
Local Open Scope Z_scope.

(** ** Agreement *)
Section Agree.
Variables (prog : list instr) (confs : list qconf) (tr : trace) (ft pt : nat -> bool).
Hypothesis Hft : ft_part ft prog confs.
Hypothesis Hpt : pt_part pt prog confs.
Hypothesis Hcover : forall k, (k < length prog)%nat -> ft k = true \/ pt k = true.
Hypothesis Hdist : distinct_reports prog.
Hypothesis Hfe : part_enough ft prog confs.
Hypothesis Hpe : pt_part_enough pt prog confs.
Hypothesis Hflat : pt_flat prog confs.

(** A run with any number of passes that ends is the run of [both_monitored]. *)
Lemma monitored_run {I : impl} fuel n m : run fuel (rows tr n) prog (init prog confs) = Some m ->
  forall k ins, nth_error prog k = Some ins -> i_op ins = RETURN ->
  let e := node_expr prog confs k in
  increasing (reports (i_num ins) m) /\
  forall t,
    (forall b, reported (reports (i_num ins) m) t b -> (b = true <-> sat tr e t) /\ (t < n + (if ft k then 0 else lead e))%nat) /\
    ((t + (if ft k then reach e else 0) < n)%nat -> exists b, reported (reports (i_num ins) m) t b).
Proof using Hft Hpt Hcover Hdist Hfe Hpe Hflat.
  intros Em. destruct (menough_monitored prog confs tr ft pt Hft Hpt Hcover Hdist Hfe Hpe Hflat n) as (m' & Em' & H).
  set (F := (max_passes prog confs + pt_max_passes prog confs)%nat) in *.
  pose proof (run_fuel prog _ _ (Nat.max fuel F) _ _ (Nat.le_max_l _ _) Em) as Q1.
  pose proof (run_fuel prog _ _ (Nat.max fuel F) _ _ (Nat.le_max_r _ _) Em') as Q2.
  assert (m' = m) as -> by congruence. exact H.
Qed.
Lemma tight_sections_agree fuel fuel' n n' mc mr k ins t b b' :
  @run C_monitor fuel (rows tr n) prog (@init C_monitor prog confs) = Some mc ->
  RustEngine.rust_run fuel' (rows tr n') prog (rust_init prog confs) = Finished mr ->
  nth_error prog k = Some ins -> i_op ins = RETURN ->
  reported (reports (i_num ins) mc) t b -> reported (reports (i_num ins) mr) t b' -> b = b'.
Proof using Hft Hpt Hcover Hdist Hfe Hpe Hflat.
  intros H1 H2 Hp Hr R1 R2. apply (mtight_finished prog confs tr ft pt Hft Hpt Hcover Hdist Hfe Hpe Hflat) in H2.
  destruct (proj1 (proj2 (monitored_run _ _ _ H1 k ins Hp Hr) t) b R1) as [S1 _].
  destruct (proj1 (proj2 (monitored_run _ _ _ H2 k ins Hp Hr) t) b' R2) as [S2 _].
  destruct b, b'; try reflexivity; exfalso; assert (false = true) by tauto; discriminate.
Qed.
Lemma tight_sections_same fuel fuel' n mc mr k ins :
  @run C_monitor fuel (rows tr n) prog (@init C_monitor prog confs) = Some mc ->
  RustEngine.rust_run fuel' (rows tr n) prog (rust_init prog confs) = Finished mr ->
  nth_error prog k = Some ins -> i_op ins = RETURN ->
  increasing (reports (i_num ins) mc) /\ increasing (reports (i_num ins) mr) /\
  forall t, (t + (if ft k then reach (node_expr prog confs k) else 0) < n)%nat ->
    exists b, reported (reports (i_num ins) mc) t b /\ reported (reports (i_num ins) mr) t b /\
              (b = true <-> sat tr (node_expr prog confs k) t).
Proof using Hft Hpt Hcover Hdist Hfe Hpe Hflat.
  intros H1 H2 Hp Hr.
  pose proof (proj1 (mtight_finished prog confs tr ft pt Hft Hpt Hcover Hdist Hfe Hpe Hflat _ _ _) H2) as H2'.
  destruct (monitored_run _ _ _ H1 k ins Hp Hr) as [I1 V1]. destruct (monitored_run _ _ _ H2' k ins Hp Hr) as [I2 V2].
  split; [exact I1|]. split; [exact I2|]. intros t Ht.
  destruct (proj2 (V1 t) Ht) as [b Rb]. destruct (proj2 (V2 t) Ht) as [b' Rb'].
  assert (E : b = b') by exact (tight_sections_agree _ _ _ _ _ _ k ins t b b' H1 H2 Hp Hr Rb Rb'). subst b'.
  exists b. split; [exact Rb|]. split; [exact Rb'|]. apply (proj1 (V1 t) b Rb).
Qed.
End Agree.

Lemma rust_default_sections_end_to_end h T cls wpd_of bpd_of const ft pt fspecs pspecs aux :
  denotes h T -> well_shaped h -> nkind (h ft) = KSet -> nkind (h pt) = KSet ->
  named_apart h cls -> cls ft = CSet -> cls pt = CSet ->
  (forall n, reachable h [ft] n -> ~ reachable h [pt] n) -> tl_shaped h cls ->
  (forall n, reachable h [ft] n -> assemblable h cls ft_code n) ->
  (forall n, reachable h [pt] n -> assemblable h cls pt_code n) ->
  delays_kept h cls wpd_of bpd_of ->
  Forall2 (spec_of compile_expr h cls) (nchildren (h ft)) fspecs ->
  Forall2 (spec_of compile_expr h cls) (nchildren (h pt)) pspecs -> NoDup (map fst (fspecs ++ pspecs)) ->
  ft_default fspecs -> pt_default pspecs -> 0 <= const ->
  exists depth0, forall depth, (depth0 <= depth)%nat -> exists fuel0 h' asm,
    (forall fuel, (fuel0 <= fuel)%nat -> optimize_cse depth fuel h ft pt = Some h' /\
                                         gen_assembly fuel h' cls wpd_of bpd_of const ft pt = Some asm) /\
    forall bytes, Forall fits asm -> Forall small aux -> arena_slots asm < 2 ^ 32 -> assemble_binary asm aux = Some bytes ->
    exists prog confs passes0, rust_boot bytes = Some (prog, confs) /\
      forall tr n passes, (passes0 <= passes)%nat ->
      exists m, RustEngine.rust_run passes (rows tr n) prog (rust_init prog confs) = Finished m /\
        ft_answers tr n fspecs m /\ pt_answers tr n pspecs m.
Proof.
  intros D Ws K1 K2 A Sft Spt Ap Sh A1 A2 De Ff Fp Nd Sf Sp Hc.
  destruct (default_small fspecs pspecs Sf Sp) as (Sf' & Sp' & Hl).
  destruct (default_sections_assembled h T cls wpd_of bpd_of const ft pt fspecs pspecs aux D Ws K1 K2 A Sft Spt Ap Sh A1 A2 De Ff Fp Nd Sf' Sp' Hc)
    as (depth0 & HD).
  exists depth0. intros depth Hd. destruct (HD depth Hd) as (f1 & h' & asm & E1 & (D' & Ap' & Sh' & A1' & A2' & Ff' & Fp') & HB).
  set (K := S (bound reach fspecs + bound lead pspecs)).
  destruct (graph_same h' T cls wpd_of bpd_of const ft pt aux D' Sh' A1' A2') as (f2 & asm' & E2 & HR).
  { intros n R1 R2. destruct (Ap' n R1 R2). }
  { intros n [R|R].
    - eapply (reached_engine h' cls ft_code ft); [exact Sft|apply (ft_kept h' cls K)|exact A1'|exact Ff'| |exact R].
      unfold ft_small in Sf'. rewrite Forall_forall in Sf' |- *. intros s Hs. destruct (Sf' s Hs) as [H1 _]. split; [exact H1|].
      pose proof (bound_ge reach fspecs s Hs). unfold K. lia.
    - eapply (reached_engine h' cls pt_code pt); [exact Spt|apply (pt_kept h' cls K)|exact A2'|exact Fp'| |exact R].
      unfold pt_small in Sp'. rewrite Forall_forall in Sp' |- *. intros s Hs. destruct (Sp' s Hs) as [H1 _]. split; [exact H1|].
      pose proof (bound_ge lead pspecs s Hs). unfold K. lia. }
  { exact Hc. }
  assert (asm' = asm) as ->.
  { destruct (E1 (Nat.max f1 f2) (Nat.le_max_l _ _)) as [_ Q]. rewrite (E2 (Nat.max f1 f2) (Nat.le_max_r _ _)) in Q. injection Q as Q. exact Q. }
  exists f1, h', asm. split; [exact E1|]. intros bytes Hf Hx Ha Eb. destruct (HR bytes Hf Hx Ha Eb) as [Q _].
  destruct (HB bytes Hf Ha Eb) as (prog & confs & nft & Ebt & P1 & P2 & P3 & P4 & P5 & P6 & HF & HP).
  exists prog, confs, (mixed_passes prog confs). split; [rewrite Q; exact Ebt|]. intros tr n passes Hp.
  pose proof (sections_cover nft prog) as Hcov.
  destruct (mtight_finishes prog confs tr _ _ P1 P2 Hcov P3 P4 P5 P6 passes n Hp) as [m Em]. exists m. split; [exact Em|].
  apply (mtight_finished prog confs tr _ _ P1 P2 Hcov P3 P4 P5 P6) in Em.
  pose proof (@menough_monitored Rust_monitor prog confs tr _ _ P1 P2 Hcov P3 P4 P5 P6 n) as M.
  eapply both_answers; eassumption.
Qed.
