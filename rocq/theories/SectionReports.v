(** * Both monitors from signals to reports, for programs with two sections (proofs) *)
From Coq Require Import List Arith ZArith Bool Lia.
Require Import Verif.Mltl Verif.MltlShape Verif.Transform Verif.TransformProofs Verif.Rewrite Verif.Pipeline Verif.PipelineProofs.
Require Import Verif.Graph Verif.GraphSpec Verif.GraphProofs Verif.CseProofs Verif.Binary Verif.BinarySpec Verif.BinaryProofs.
Require Import Verif.Assembly Verif.Layout Verif.AssemblySpec Verif.LayoutSpec Verif.AssembleTotal Verif.LayoutProofs Verif.BootProofs.
Require Import Verif.Scq Verif.Engine Verif.Monitoring Verif.MonitorProofs Verif.ReachProofs.
Require Import Verif.PastMonitor Verif.PastProofs Verif.MixedProofs.
Require Import Verif.EndToEnd Verif.EndToEndProofs Verif.SectionSpec Verif.EndToEndSections.
Require Import Verif.Booleanizer Verif.BooleanizerSpec Verif.BooleanizerProofs Verif.BooleanizerChain.
Require Import Verif.RustEngine Verif.RustProofs Verif.RustMixed.
Require Import Verif.RustBooleanizer Verif.RustBzSpec Verif.RustBzOps Verif.RustBzProofs Verif.RustBzChain.
Require Import Verif.RustLayout Verif.RustLayoutSpec Verif.RustLayoutProofs Verif.RustBoot.
Import ListNotations.
Local Open Scope Z_scope.

(** ** Agreement on programs with two sections *)
Section Agree.
Variables (prog : list instr) (confs : list qconf) (tr : trace) (ft pt : nat -> bool).
Hypothesis Hft : ft_part ft prog confs.
Hypothesis Hpt : pt_part pt prog confs.
Hypothesis Hcover : forall k, (k < length prog)%nat -> ft k = true \/ pt k = true.
Hypothesis Hdist : distinct_reports prog.
Hypothesis Hfa : part_ample ft prog confs.
Hypothesis Hpa : pt_part_ample pt prog confs.
Lemma sections_sound {I : impl} fuel n m k ins t b :
  run fuel (rows tr n) prog (init prog confs) = Some m ->
  nth_error prog k = Some ins -> i_op ins = RETURN -> reported (reports (i_num ins) m) t b ->
  (b = true <-> sat tr (node_expr prog confs k) t).
Proof.
  intros Em Ek Ro R. destruct (Hcover k) as [Pk|Pk]; [apply nth_error_Some; congruence| |].
  - apply (part_sound prog confs tr ft Hft Hdist Hfa fuel n m k ins t b Em Ek Pk Ro R).
  - apply (ppart_sound prog confs tr pt Hpt Hdist Hpa fuel n m k ins t b Em Ek Pk Ro R).
Qed.
Lemma sections_increasing {I : impl} fuel n m k ins :
  run fuel (rows tr n) prog (init prog confs) = Some m ->
  nth_error prog k = Some ins -> i_op ins = RETURN -> increasing (reports (i_num ins) m).
Proof.
  intros Em Ek Ro. destruct (Hcover k) as [Pk|Pk]; [apply nth_error_Some; congruence| |].
  - apply (part_increasing prog confs tr ft Hft Hdist Hfa fuel n m k ins Em Ek Pk Ro).
  - apply (ppart_increasing prog confs tr pt Hpt Hdist Hpa fuel n m k ins Em Ek Pk Ro).
Qed.
Lemma sections_timely {I : impl} fuel n m k ins t :
  run fuel (rows tr n) prog (init prog confs) = Some m ->
  nth_error prog k = Some ins -> i_op ins = RETURN ->
  (t + (if ft k then reach (node_expr prog confs k) else 0) < n)%nat -> exists b, reported (reports (i_num ins) m) t b.
Proof.
  intros Em Ek Ro Ht. destruct (ft k) eqn:Pk.
  - apply (part_timely prog confs tr ft Hft Hdist Hfa fuel n m k ins t Em Ek Pk Ro Ht).
  - destruct (Hcover k) as [Pk'|Pk']; [apply nth_error_Some; congruence|congruence|].
    apply (ppart_timely prog confs tr pt Hpt Hdist Hpa fuel n m k ins t Em Ek Pk' Ro). lia.
Qed.

Lemma sections_finish fuel n : (mixed_passes prog confs <= fuel)%nat ->
  exists m, RustEngine.rust_run fuel (rows tr n) prog (rust_init prog confs) = Finished m.
Proof. exact (mixed_finishes prog confs tr ft pt Hft Hpt Hcover Hdist Hfa Hpa fuel n). Qed.
Lemma sections_agree fuel fuel' n n' mc mr k ins t b b' :
  @run C_monitor fuel (rows tr n) prog (@init C_monitor prog confs) = Some mc ->
  RustEngine.rust_run fuel' (rows tr n') prog (rust_init prog confs) = Finished mr ->
  nth_error prog k = Some ins -> i_op ins = RETURN ->
  reported (reports (i_num ins) mc) t b -> reported (reports (i_num ins) mr) t b' -> b = b'.
Proof.
  intros H1 H2 Hp Hr R1 R2. apply (mixed_finished prog confs tr ft pt Hft Hpt Hcover Hdist Hfa Hpa) in H2.
  pose proof (sections_sound _ _ _ k ins t b H1 Hp Hr R1) as S1.
  pose proof (sections_sound _ _ _ k ins t b' H2 Hp Hr R2) as S2.
  destruct b, b'; try reflexivity; exfalso; assert (false = true) by tauto; discriminate.
Qed.
Lemma sections_same fuel fuel' n mc mr k ins :
  @run C_monitor fuel (rows tr n) prog (@init C_monitor prog confs) = Some mc ->
  RustEngine.rust_run fuel' (rows tr n) prog (rust_init prog confs) = Finished mr ->
  nth_error prog k = Some ins -> i_op ins = RETURN ->
  increasing (reports (i_num ins) mc) /\ increasing (reports (i_num ins) mr) /\
  forall t, (t + (if ft k then reach (node_expr prog confs k) else 0) < n)%nat ->
    exists b, reported (reports (i_num ins) mc) t b /\ reported (reports (i_num ins) mr) t b /\
              (b = true <-> sat tr (node_expr prog confs k) t).
Proof.
  intros H1 H2 Hp Hr.
  pose proof (proj1 (mixed_finished prog confs tr ft pt Hft Hpt Hcover Hdist Hfa Hpa _ _ _) H2) as H2'.
  split; [exact (sections_increasing _ n mc k ins H1 Hp Hr)|].
  split; [exact (sections_increasing _ n mr k ins H2' Hp Hr)|].
  intros t Ht. destruct (sections_timely _ n mc k ins t H1 Hp Hr Ht) as [b Rb].
  destruct (sections_timely _ n mr k ins t H2' Hp Hr Ht) as [b' Rb'].
  assert (E : b = b') by (eapply sections_agree; eassumption). subst b'.
  exists b. split; [assumption|]. split; [assumption|]. exact (sections_sound _ n mr k ins t b H2' Hp Hr Rb').
Qed.
End Agree.

(** ** The Rust loader makes the same program *)
Section Monitored.
Variables (h : heap) (T : nat -> tree) (cls : nat -> nclass) (wpd_of bpd_of : nat -> Z) (const : Z) (ft pt : nat).
Variables (fspecs pspecs : list (Z * expr)) (aux : list Z).
Hypothesis D : denotes h T.
Hypothesis Sft : cls ft = CSet.
Hypothesis Spt : cls pt = CSet.
Hypothesis Sh : tl_shaped h cls.
Hypothesis A1 : forall n, reachable h [ft] n -> assemblable h cls ft_code n.
Hypothesis A2 : forall n, reachable h [pt] n -> assemblable h cls pt_code n.
Hypothesis Ap : forall n, reachable h [ft] n -> ~ reachable h [pt] n.
Hypothesis Ff : Forall2 (spec_of compile_expr h cls) (nchildren (h ft)) fspecs.
Hypothesis Fp : Forall2 (spec_of compile_expr h cls) (nchildren (h pt)) pspecs.
Hypothesis Nd : NoDup (map fst (fspecs ++ pspecs)).
Hypothesis Sf : ft_ready const fspecs.
Hypothesis Sp : pt_ready const pspecs.
Hypothesis Hconst : 0 <= const.

Lemma stated_engine M n : stated h cls M n -> engine_node cls n.
Proof.
  intros [(num & e & (C & _) & _)|(e & Hm & _)]; unfold engine_node.
  - rewrite C. exact I.
  - inversion Hm; subst; match goal with E : cls n = _ |- _ => rewrite E end; exact I.
Qed.
Lemma reached_engine code root M specs : cls root = CSet -> EndToEndSections.kept h cls M ->
  (forall n, reachable h [root] n -> assemblable h cls code n) ->
  Forall2 (spec_of compile_expr h cls) (nchildren (h root)) specs ->
  Forall (fun s => M (compile_expr (snd s))) specs ->
  forall n, reachable h [root] n -> engine_node cls n.
Proof.
  intros Sr K As Fs Ss n R.
  assert (G : forall f, In f (nchildren (h root)) -> exists num e, formula_means h cls f num e /\ M e).
  { intros f Hf. destruct (Forall2_in _ _ _ Fs f Hf) as (s & Hs & Hm). rewrite Forall_forall in Ss. exists (fst s), (compile_expr (snd s)). auto. }
  destruct (reachable_stated h cls code root M K G As n R) as [->|[H|[[b Hb]|Hb]]].
  - unfold engine_node. rewrite Sr. exact I.
  - eapply stated_engine, H.
  - unfold engine_node. rewrite Hb. exact I.
  - unfold engine_node. unfold bz_class in Hb. destruct (cls n); try contradiction; exact I.
Qed.

Lemma rust_assembled_sections :
  exists fuel0 asm, (forall fuel, (fuel0 <= fuel)%nat -> gen_assembly fuel h cls wpd_of bpd_of const ft pt = Some asm) /\
  forall bytes, Forall fits asm -> Forall small aux -> arena_slots asm < 2 ^ 32 -> assemble_binary asm aux = Some bytes ->
  exists prog confs nft, rust_boot bytes = Some (prog, confs) /\
    ft_part (in_ft nft) prog confs /\ pt_part (in_pt nft) prog confs /\ distinct_reports prog /\
    part_ample (in_ft nft) prog confs /\ pt_part_ample (in_pt nft) prog confs /\
    (forall num e, In (num, e) fspecs -> exists k ins, nth_error prog k = Some ins /\ in_ft nft k = true /\ i_op ins = RETURN /\
      i_num ins = Z.to_nat num /\ node_expr prog confs k = compile_expr e) /\
    (forall num e, In (num, e) pspecs -> exists k ins, nth_error prog k = Some ins /\ in_pt nft k = true /\ i_op ins = RETURN /\
      i_num ins = Z.to_nat num /\ node_expr prog confs k = compile_expr e).
Proof.
  destruct (sections_known const fspecs pspecs Sf Sp) as [Sf' Sp'].
  destruct (assembled_sections h T cls wpd_of bpd_of const ft pt fspecs pspecs aux D Sft Spt Sh A1 A2) as (f1 & asm & E1 & HB); auto.
  { intros n R1 R2. destruct (Ap n R1 R2). }
  destruct (graph_same h T cls wpd_of bpd_of const ft pt aux D Sh A1 A2) as (f2 & asm' & E2 & HR).
  { intros n R1 R2. destruct (Ap n R1 R2). }
  { intros n [R|R].
    - eapply (reached_engine ft_code ft); [exact Sft|apply ft_kept|exact A1|exact Ff|exact Sf'|exact R].
    - eapply (reached_engine pt_code pt); [exact Spt|apply pt_kept|exact A2|exact Fp|exact Sp'|exact R]. }
  { exact Hconst. }
  assert (asm' = asm) as ->.
  { pose proof (E1 (Nat.max f1 f2) (Nat.le_max_l _ _)) as Q. rewrite (E2 (Nat.max f1 f2) (Nat.le_max_r _ _)) in Q. injection Q as Q. exact Q. }
  exists f1, asm. split; [exact E1|]. intros bytes Hf Hx Ha Eb. destruct (HR bytes Hf Hx Ha Eb) as [Q _]. rewrite Q.
  exact (HB bytes Hf Ha Eb).
Qed.

(** ** From signals *)
Variable types : Z -> bool.
Hypothesis Nm : numeric h cls types (in_program h ft pt).
Lemma apart_bz : forall n, reachable h [ft] n -> reachable h [pt] n -> engine_of (cls n) <> EngBz.
Proof. intros n R1 R2. destruct (Ap n R1 R2). Qed.

Lemma sections_signals_to_reports :
  exists fuel0 asm, (forall fuel, (fuel0 <= fuel)%nat -> gen_assembly fuel h cls wpd_of bpd_of const ft pt = Some asm) /\
  forall bytes, Forall fits asm -> arena_slots asm < 2 ^ 32 -> assemble_binary asm aux = Some bytes ->
  exists acts prog confs passes0, load bytes = Some acts /\ boot bytes = Some (prog, confs) /\
    forall F inp n passes, typed types inp -> Z.of_nat n <= 2 ^ 31 -> (passes0 <= passes)%nat ->
    (forall t x e int, (t < n)%nat -> in_program h ft pt x -> stands h cls types x e int -> exists v, yields F inp t e v) ->
    exists rs tr m, bz_rows F (fst (bz_load acts)) (snd (bz_load acts)) inp n = Some rs /\
      @run C_monitor passes rs prog (@init C_monitor prog confs) = Some m /\
      (forall t a k x e, (t < n)%nat -> in_program h ft pt k -> cls k = CAtomic a -> nchildren (h k) = [x] ->
         stands h cls types x e true -> 0 <= a ->
         exists v, yields F inp t e (VInt v) /\ tr t (Z.to_nat a) = negb (v =? 0)) /\
      ft_answers tr n fspecs m /\ pt_answers tr n pspecs m.
Proof.
  destruct (sections_known const fspecs pspecs Sf Sp) as [Sf' Sp'].
  destruct (assembled_sections h T cls wpd_of bpd_of const ft pt fspecs pspecs aux D Sft Spt Sh A1 A2) as (f1 & asm & E1 & HB); auto.
  { intros n R1 R2. destruct (Ap n R1 R2). }
  destruct (chain h T cls types wpd_of bpd_of const ft pt aux D Sh A1 A2 apart_bz Nm) as (f2 & asm' & E2 & HZ).
  assert (asm' = asm) as ->.
  { pose proof (E1 (Nat.max f1 f2) (Nat.le_max_l _ _)) as Q. rewrite (E2 (Nat.max f1 f2) (Nat.le_max_r _ _)) in Q. injection Q as Q. exact Q. }
  exists f1, asm. split; [exact E1|]. intros bytes Hfi Ha Eb.
  destruct (HB bytes Hfi Ha Eb) as (prog & confs & nft & Ebt & P1 & P2 & P3 & P4 & P5 & HF & HP).
  destruct (HZ bytes Hfi Eb) as (acts & El & HR).
  exists acts, prog, confs, (mixed_passes prog confs). split; [exact El|]. split; [exact Ebt|].
  intros F inp n passes Ty Hn Hp Df. destruct (HR F inp Ty) as [Hs Ht].
  set (table := fst (bz_load acts)) in *. set (vb := snd (bz_load acts)) in *.
  assert (Hruns : forall t, (t <= n)%nat -> exists s, bz_run F table vb inp t = Some s).
  { intros t L. apply Ht; [lia|]. intros t' x e int L' R S. eapply Df; [lia|exact R|exact S]. }
  destruct (bz_rows_total F table vb inp n Hruns) as [rs Ers].
  set (tr := bz_trace F table vb inp).
  destruct (@mixed_total C_monitor prog confs tr (in_ft nft) (in_pt nft) P1 P2 (sections_cover nft prog) P3 P4 P5 passes n Hp) as [m Em].
  exists rs, tr, m. split; [exact Ers|]. split; [rewrite (bz_rows_trace _ _ _ _ _ _ Ers); exact Em|]. split.
  - intros t a k x e L R Ck Ch St Ha0. destruct (Hruns (S t) L) as [s Es].
    destruct (Hs t s ltac:(lia) Es k a x e R Ck Ch St) as (v & Y & A). exists v. split; [exact Y|].
    unfold tr, bz_trace. rewrite Es, Z2Nat.id by exact Ha0. exact A.
  - eapply (@section_reports C_monitor); eassumption.
Qed.

Lemma rust_sections_signals_to_reports :
  exists fuel0 asm, (forall fuel, (fuel0 <= fuel)%nat -> gen_assembly fuel h cls wpd_of bpd_of const ft pt = Some asm) /\
  forall bytes, Forall fits asm -> Forall small aux -> arena_slots asm < 2 ^ 32 -> assemble_binary asm aux = Some bytes ->
  exists acts prog confs passes0, rust_load bytes = Some acts /\ rust_boot bytes = Some (prog, confs) /\
    forall F le inp n passes, typed types inp -> Z.of_nat n <= 2 ^ 31 -> (passes0 <= passes)%nat ->
    (forall t x e int, (t < n)%nat -> in_program h ft pt x -> stands h cls types x e int -> exists v, saturated F le inp t e v) ->
    exists rs tr m, rust_bz_rows F le acts inp n = Some rs /\
      RustEngine.rust_run passes rs prog (rust_init prog confs) = Finished m /\
      (forall t a k x e, (t < n)%nat -> in_program h ft pt k -> cls k = CAtomic a -> nchildren (h k) = [x] ->
         stands h cls types x e true -> 0 <= a ->
         exists v, saturated F le inp t e (VInt v) /\ tr t (Z.to_nat a) = negb (v =? 0)) /\
      ft_answers tr n fspecs m /\ pt_answers tr n pspecs m.
Proof.
  destruct rust_assembled_sections as (f1 & asm & E1 & HB).
  destruct (rust_values_chain h T cls types wpd_of bpd_of const ft pt aux D Sh A1 A2 apart_bz Nm) as (f2 & asm' & E2 & HZ).
  assert (asm' = asm) as ->.
  { pose proof (E1 (Nat.max f1 f2) (Nat.le_max_l _ _)) as Q. rewrite (E2 (Nat.max f1 f2) (Nat.le_max_r _ _)) in Q. injection Q as Q. exact Q. }
  exists f1, asm. split; [exact E1|]. intros bytes Hfi Hx Ha Eb.
  destruct (HB bytes Hfi Hx Ha Eb) as (prog & confs & nft & Ebt & P1 & P2 & P3 & P4 & P5 & HF & HP).
  destruct (HZ bytes Hfi Hx Eb) as (acts & El & HR).
  exists acts, prog, confs, (mixed_passes prog confs). split; [exact El|]. split; [exact Ebt|].
  intros F le inp n passes Ty Hn Hp Df. destruct (HR F le inp Ty) as [Hs Ht].
  assert (Hruns : forall t, (t <= n)%nat -> exists s, RustBooleanizer.rust_run F le acts inp t = Some s).
  { intros t L. apply Ht; [lia|]. intros t' x e int L' R S. eapply Df; [lia|exact R|exact S]. }
  destruct (rust_rows_total F le acts inp n Hruns) as [rs Ers].
  set (tr := rust_trace F le acts inp).
  pose proof (sections_cover nft prog) as Hcov.
  destruct (mixed_finishes prog confs tr (in_ft nft) (in_pt nft) P1 P2 Hcov P3 P4 P5 passes n Hp) as [m Em].
  pose proof (proj1 (mixed_finished prog confs tr (in_ft nft) (in_pt nft) P1 P2 Hcov P3 P4 P5 passes n m) Em) as Em'.
  exists rs, tr, m. split; [exact Ers|]. split; [rewrite (rust_rows_trace _ _ _ _ _ _ Ers); exact Em|]. split.
  - intros t a k x e L R Ck Ch St Ha0. destruct (Hruns (S t) L) as [s Es].
    assert (Rx : in_program h ft pt x) by (destruct R as [R|R]; [left|right]; (eapply reach_child; [exact R|rewrite Ch; left; reflexivity])).
    destruct (Df t x e true L Rx St) as [w Y]. pose proof (saturated_int h cls types F le inp Ty t e w Y x true St) as Iw. destruct w as [v|bits]; [|discriminate].
    exists v. split; [exact Y|].
    unfold tr, rust_trace. rewrite Es, Z2Nat.id by exact Ha0. exact (Hs t s ltac:(lia) Es k a x e v R Ck Ch St Y).
  - eapply (@section_reports Rust_monitor); eassumption.
Qed.
End Monitored.

Lemma rust_sections_end_to_end h T cls wpd_of bpd_of const ft pt fspecs pspecs aux :
  denotes h T -> well_shaped h -> nkind (h ft) = KSet -> nkind (h pt) = KSet ->
  named_apart h cls -> cls ft = CSet -> cls pt = CSet ->
  (forall n, reachable h [ft] n -> ~ reachable h [pt] n) -> tl_shaped h cls ->
  (forall n, reachable h [ft] n -> assemblable h cls ft_code n) ->
  (forall n, reachable h [pt] n -> assemblable h cls pt_code n) ->
  Forall2 (spec_of compile_expr h cls) (nchildren (h ft)) fspecs ->
  Forall2 (spec_of compile_expr h cls) (nchildren (h pt)) pspecs -> NoDup (map fst (fspecs ++ pspecs)) ->
  ft_ready const fspecs -> pt_ready const pspecs -> 0 <= const ->
  exists depth0, forall depth, (depth0 <= depth)%nat -> exists fuel0 h' asm,
    (forall fuel, (fuel0 <= fuel)%nat -> optimize_cse depth fuel h ft pt = Some h' /\
                                         gen_assembly fuel h' cls wpd_of bpd_of const ft pt = Some asm) /\
    forall bytes, Forall fits asm -> Forall small aux -> arena_slots asm < 2 ^ 32 -> assemble_binary asm aux = Some bytes ->
    exists prog confs passes0, rust_boot bytes = Some (prog, confs) /\
      forall tr n passes, (passes0 <= passes)%nat ->
      exists m, RustEngine.rust_run passes (rows tr n) prog (rust_init prog confs) = Finished m /\
        ft_answers tr n fspecs m /\ pt_answers tr n pspecs m.
Proof.
  intros D Ws K1 K2 A Sft Spt Ap Sh A1 A2 Ff Fp Nd Sf Sp Hc.
  destruct (sections_shared h T cls ft pt fspecs pspecs D Ws K1 K2 A Ap Sh A1 A2 Ff Fp) as (depth0 & HC).
  exists depth0. intros depth Hd. destruct (HC depth Hd) as (f1 & h' & E1 & D' & Ap' & Sh' & A1' & A2' & Ff' & Fp').
  destruct (rust_assembled_sections h' T cls wpd_of bpd_of const ft pt fspecs pspecs aux D' Sft Spt Sh' A1' A2' Ap' Ff' Fp' Nd Sf Sp Hc) as (f2 & asm & E2 & HB).
  exists (Nat.max f1 f2), h', asm. split; [intros fuel Hf; split; [apply E1; lia|apply E2; lia]|].
  intros bytes Hfi Hx Ha Eb. destruct (HB bytes Hfi Hx Ha Eb) as (prog & confs & nft & Ebt & P1 & P2 & P3 & P4 & P5 & HF & HP).
  exists prog, confs, (mixed_passes prog confs). split; [exact Ebt|]. intros tr n passes Hp.
  pose proof (sections_cover nft prog) as Hcov.
  destruct (mixed_finishes prog confs tr (in_ft nft) (in_pt nft) P1 P2 Hcov P3 P4 P5 passes n Hp) as [m Em].
  pose proof (proj1 (mixed_finished prog confs tr (in_ft nft) (in_pt nft) P1 P2 Hcov P3 P4 P5 passes n m) Em) as Em'.
  exists m. split; [exact Em|]. eapply (@section_reports Rust_monitor); eassumption.
Qed.
