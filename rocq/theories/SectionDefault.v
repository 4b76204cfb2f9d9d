(** * Both sections with the compiler's own queue sizes (proofs) *)
From Coq Require Import List Arith ZArith Bool Lia.
Require Import Verif.Mltl Verif.MltlShape Verif.Transform Verif.Rewrite Verif.Pipeline Verif.PipelineProofs.
Require Import Verif.Graph Verif.GraphSpec Verif.GraphProofs Verif.CseProofs Verif.Binary Verif.BinarySpec.
Require Import Verif.Assembly Verif.Layout Verif.AssemblySpec Verif.LayoutSpec Verif.LayoutProofs Verif.BootProofs.
Require Import Verif.Scq Verif.Engine Verif.Monitoring Verif.MonitorProofs Verif.ReachProofs Verif.PastMonitor Verif.PastProofs.
Require Import Verif.TightSize Verif.SizeProofs Verif.PastSize Verif.MixedProofs Verif.SectionSize Verif.SectionTight.
Require Import Verif.EndToEnd Verif.EndToEndProofs Verif.SectionSpec Verif.EndToEndSections Verif.DefaultSpec Verif.DefaultProofs.
Import ListNotations.
Local Open Scope Z_scope.

Definition flat_known (K : nat) (e : expr) : Prop := pt_monitorable e /\ flat_formula e /\ (lead e < K)%nat.
Lemma flat_kept h cls K : kept h cls (flat_known K).
Proof.
  intros n e c Hm (He & Fl & Hr) Hc N1 N2.
  destruct (pt_kept h cls K n e c Hm (conj He Hr) Hc N1 N2) as (p & Hp & Q). exists p. split; [exact Hp|].
  destruct Q as [[Q1 Q2]|Q]; [left|right; exact Q]. split; [exact Q1|]. split; [|exact Q2].
  inversion Hm; subst; try congruence; cbn [pt_monitorable] in He; unfold flat_formula in *; cbn [all_nodes fold_right] in Fl; try contradiction;
    match goal with E : nchildren (h n) = _ |- _ => rewrite E in Hc end; cbn [In] in Hc;
    repeat (destruct Hc as [<-|Hc]; [
      match goal with A : means h cls ?x p, B : means h cls ?x ?r |- _ => pose proof (means_det h cls x p A r B); subst p end|]);
    try contradiction; try tauto.
Qed.

(** ** Queue sizes of the past-time section *)
Section Enough.
Variables (h : heap) (cls : nat -> nclass) (wpd_of bpd_of : nat -> Z) (const : Z) (K : nat) (nodes owners : list nat).
Let size := scq_size h cls wpd_of bpd_of const nodes.
Variables (prog : list instr) (confs : list qconf) (part : nat -> bool).
Hypothesis Hconst : 0 <= const.
Hypothesis prog_len : length prog = length owners.
Hypothesis confs_len : length confs = length owners.
Hypothesis prog_ok : forall k ins n, nth_error prog k = Some ins -> nth_error owners k = Some n -> instr_ok h cls owners k n ins.
Hypothesis confs_ok : forall k c n, nth_error confs k = Some c -> nth_error owners k = Some n -> conf_ok cls size n c.
Hypothesis Hpt : pt_part part prog confs.
Hypothesis Hst : forall k n, part k = true -> nth_error owners k = Some n -> stated h cls (flat_known K) n.
Hypothesis Delays : forall n e, means h cls n e -> pt_monitorable e -> bpd_of n <= - Z.of_nat (ahead e).

Lemma default_past_enough : pt_part_enough part prog confs.
Proof.
  intros k ins c conf Pk Ei Hr Ec.
  destruct (pnode_of prog confs part Hpt k ins Ei Pk) as [ck Hn].
  destruct (psub_child prog confs part Hpt k ins ck c Hn Hr) as (_ & ins' & c' & (E1 & E2 & E3) & HN).
  destruct (owner_at h cls size owners prog confs prog_len confs_len prog_ok confs_ok c) as (n & ins2 & c2 & En & Ei2 & Ec2 & O & Q);
    [rewrite <- prog_len; apply nth_error_Some; congruence|].
  replace ins2 with ins' in * by congruence. replace c2 with conf in * by congruence. clear ins2 c2 Ei2 Ec2.
  destruct (Hst c n E3 En) as [(num & e & (Ef & _) & _)|(e & Hm & He & _)].
  - unfold instr_ok in O. rewrite Ef in O. destruct O as (o & _ & ->). cbn in HN. congruence.
  - rewrite (node_means h cls size owners prog confs prog_len confs_len prog_ok confs_ok c n e En Hm).
    destruct Q as [-> _]. specialize (Delays n e Hm He). unfold size, scq_size.
    destruct (zmax_fold (map wpd_of (siblings h nodes n))) as (H1 & _).
    destruct (cls n) eqn:C; clear - C Hm He Delays H1 Hconst; try lia.
    + exfalso. inversion Hm; try congruence. subst. exact He.
    + exfalso. exact (means_no_formula h cls n e _ Hm C).
Qed.
Lemma default_past_flat k ins j : part k = true -> nth_error prog k = Some ins -> i_op ins = SINCE \/ i_op ins = TRIGGER ->
  i_op2 ins = Sub j -> timeless (node_expr prog confs j) = true.
Proof.
  intros Pk Ei Ho Ej.
  destruct (owner_at h cls size owners prog confs prog_len confs_len prog_ok confs_ok k) as (n & ins2 & c2 & En & Ei2 & Ec2 & O & Q);
    [rewrite <- prog_len; apply nth_error_Some; congruence|].
  replace ins2 with ins in * by congruence. clear ins2 Ei2.
  unfold instr_ok in O. destruct (Hst k n Pk En) as [(num & e & (Ef & _) & _)|(e & Hm & He & Fl & _)].
  - rewrite Ef in O. destruct O as (o & _ & ->). cbn in Ho. destruct Ho; discriminate.
  - inversion Hm; subst; match goal with E : cls n = _ |- _ => rewrite E in O end;
      try match goal with E : nchildren (h n) = _ |- _ => rewrite E in O end; cbn [nth_error slot_ok] in O;
      cbn [pt_monitorable] in He; try contradiction.
    1,2: subst ins; cbn in Ho; destruct Ho; discriminate.
    all: destruct O as (c' & o1 & o2 & Hc & S1 & S2 & ->); injection Hc as <-; cbn [i_op i_op2] in Ho, Ej;
      try (destruct Ho; discriminate).
    all: subst o2; unfold flat_formula in Fl; destruct Fl as [Fl _]; cbn in Fl;
      destruct (operand_cases cls owners k y (Sub j) S2) as [(j' & E & _ & Ej & _)|(b & _ & E)]; [injection E as <-|discriminate];
      rewrite (node_means h cls size owners prog confs prog_len confs_len prog_ok confs_ok j y q Ej); assumption.
Qed.
End Enough.

(** ** Assembling and loading *)
Definition delays_kept (h : heap) (cls : nat -> nclass) (wpd_of bpd_of : nat -> Z) : Prop :=
  forall n e, means h cls n e -> wpd e <= wpd_of n /\ bpd_of n <= Z.of_nat (soonest e) /\
                                 (pt_monitorable e -> bpd_of n <= - Z.of_nat (ahead e)).

Section Assembled.
Variables (h : heap) (T : nat -> tree) (cls : nat -> nclass) (wpd_of bpd_of : nat -> Z) (const : Z) (K ft pt : nat).
Variables (fspecs pspecs : list (Z * expr)) (aux : list Z).
Hypothesis D : denotes h T.
Hypothesis Sft : cls ft = CSet.
Hypothesis Spt : cls pt = CSet.
Hypothesis Sh : tl_shaped h cls.
Hypothesis A1 : forall n, reachable h [ft] n -> assemblable h cls ft_code n.
Hypothesis A2 : forall n, reachable h [pt] n -> assemblable h cls pt_code n.
Hypothesis Ap : forall n, reachable h [ft] n -> reachable h [pt] n -> owns (cls n) = false.
Hypothesis Ff : Forall2 (spec_of compile_expr h cls) (nchildren (h ft)) fspecs.
Hypothesis Fp : Forall2 (spec_of compile_expr h cls) (nchildren (h pt)) pspecs.
Hypothesis Nd : NoDup (map fst (fspecs ++ pspecs)).
Hypothesis Sf : Forall (fun s => small_known K (compile_expr (snd s))) fspecs.
Hypothesis Sp : Forall (fun s => flat_known K (compile_expr (snd s))) pspecs.
Hypothesis Hconst : 0 <= const.
Hypothesis De : delays_kept h cls wpd_of bpd_of.

Lemma default_sections :
  exists fuel0 asm, (forall fuel, (fuel0 <= fuel)%nat -> gen_assembly fuel h cls wpd_of bpd_of const ft pt = Some asm) /\
  forall bytes, Forall fits asm -> arena_slots asm < 2 ^ 32 -> assemble_binary asm aux = Some bytes ->
  exists prog confs nft, boot bytes = Some (prog, confs) /\
    ft_part (in_ft nft) prog confs /\ pt_part (in_pt nft) prog confs /\ distinct_reports prog /\
    part_enough (in_ft nft) prog confs /\ pt_part_enough (in_pt nft) prog confs /\ pt_flat prog confs /\
    (forall num e, In (num, e) fspecs -> exists k ins, nth_error prog k = Some ins /\ in_ft nft k = true /\ i_op ins = RETURN /\
      i_num ins = Z.to_nat num /\ node_expr prog confs k = compile_expr e) /\
    (forall num e, In (num, e) pspecs -> exists k ins, nth_error prog k = Some ins /\ in_pt nft k = true /\ i_op ins = RETURN /\
      i_num ins = Z.to_nat num /\ node_expr prog confs k = compile_expr e).
Proof.
  assert (Sf' : Forall (fun s => ft_known K (compile_expr (snd s))) fspecs).
  { eapply Forall_impl; [|exact Sf]. intros s (H1 & _ & H2). split; assumption. }
  assert (Sp' : Forall (fun s => pt_known K (compile_expr (snd s))) pspecs).
  { eapply Forall_impl; [|exact Sp]. intros s (H1 & _ & H2). split; assumption. }
  destruct (loaded_sections h T cls wpd_of bpd_of const K ft pt fspecs pspecs aux D Sft Spt Sh A1 A2 Ap Ff Fp Nd Sf' Sp' Hconst)
    as (fuel0 & asm & E & HB).
  exists fuel0, asm. split; [exact E|]. intros bytes Hfi Ha Eb.
  destruct (HB bytes Hfi Ha Eb) as (prog & confs & nft & nodes & owners & Ebt & [Lp Lc Hp Hq Hi I1 I2] & P1 & P2 & P3 & HF & HP).
  exists prog, confs, nft.
  assert (Cf : forall k n, in_ft nft k = true -> nth_error owners k = Some n -> stated h cls (small_known K) n).
  { intros k n Hk En. destruct (proj1 (I1 n) (nth_ft owners nft k n En Hk)) as [R O].
    exact (section_formulas h cls _ _ ft _ Sft (small_kept h cls K) Ff Sf A1 n R O). }
  assert (Cp : forall k n, in_pt nft k = true -> nth_error owners k = Some n -> stated h cls (flat_known K) n).
  { intros k n Hk En. destruct (proj1 (I2 n) (nth_pt owners nft k n En Hk)) as [R O].
    exact (section_formulas h cls _ _ pt _ Spt (flat_kept h cls K) Fp Sp A2 n R O). }
  split; [exact Ebt|]. split; [exact P1|]. split; [exact P2|]. split; [exact P3|]. split; [|split; [|split; [|split; [exact HF|exact HP]]]].
  - apply (default_enough h cls wpd_of bpd_of const K nodes owners prog confs (in_ft nft) Hconst Lp Lc Hp Hq Cf).
    + intros n Hin. apply Hi, Hin.
    + intros n Hin. apply scq_size_pos; [exact Hconst|]. apply Hi, Hin.
    + intros n e Hm. destruct (De n e Hm) as (W & B & _). split; assumption.
  - apply (default_past_enough h cls wpd_of bpd_of const K nodes owners prog confs (in_pt nft) Hconst Lp Lc Hp Hq P2 Cp).
    intros n e Hm He. destruct (De n e Hm) as (_ & _ & B). exact (B He).
  - intros k ins j Ei Ho Ej. destruct (in_pt nft k) eqn:Pk.
    + exact (default_past_flat h cls wpd_of bpd_of const K nodes owners prog confs (in_pt nft) Lp Lc Hp Hq Cp k ins j Pk Ei Ho Ej).
    + exfalso. unfold in_pt in Pk. apply negb_false_iff in Pk. destruct P1 as (L & _ & H).
      destruct (nth_error confs k) as [c|] eqn:Ec; [|apply nth_error_None in Ec; assert (k < length prog)%nat by (apply nth_error_Some; congruence); lia].
      destruct (H k ins c Pk Ei Ec) as [_ F]. destruct Ho as [Ho|Ho]; rewrite Ho in F; exact F.
Qed.
End Assembled.

(** A bound on what the formulas reach. *)
Definition bound (f : expr -> nat) (specs : list (Z * expr)) : nat := fold_right Nat.max O (map (fun s => f (compile_expr (snd s))) specs).
Lemma bound_ge f specs s : In s specs -> (f (compile_expr (snd s)) <= bound f specs)%nat.
Proof. unfold bound. induction specs as [|s0 l IH]; [intros []|]. intros [->|H]; cbn [map fold_right]; [lia|]. specialize (IH H). lia. Qed.

Definition ft_small (specs : list (Z * expr)) : Prop :=
  Forall (fun s => monitorable (compile_expr (snd s)) /\ modest_formula (compile_expr (snd s))) specs.
Definition pt_small (specs : list (Z * expr)) : Prop :=
  Forall (fun s => pt_monitorable (compile_expr (snd s)) /\ flat_formula (compile_expr (snd s))) specs.

Lemma default_sections_assembled h T cls wpd_of bpd_of const ft pt fspecs pspecs aux :
  denotes h T -> well_shaped h -> nkind (h ft) = KSet -> nkind (h pt) = KSet ->
  named_apart h cls -> cls ft = CSet -> cls pt = CSet ->
  (forall n, reachable h [ft] n -> ~ reachable h [pt] n) -> tl_shaped h cls ->
  (forall n, reachable h [ft] n -> assemblable h cls ft_code n) ->
  (forall n, reachable h [pt] n -> assemblable h cls pt_code n) ->
  delays_kept h cls wpd_of bpd_of ->
  Forall2 (spec_of compile_expr h cls) (nchildren (h ft)) fspecs ->
  Forall2 (spec_of compile_expr h cls) (nchildren (h pt)) pspecs -> NoDup (map fst (fspecs ++ pspecs)) ->
  ft_small fspecs -> pt_small pspecs -> 0 <= const ->
  exists depth0, forall depth, (depth0 <= depth)%nat -> exists fuel0 h' asm,
    (forall fuel, (fuel0 <= fuel)%nat -> optimize_cse depth fuel h ft pt = Some h' /\
                                         gen_assembly fuel h' cls wpd_of bpd_of const ft pt = Some asm) /\
    (denotes h' T /\ (forall n, reachable h' [ft] n -> ~ reachable h' [pt] n) /\ tl_shaped h' cls /\
     (forall n, reachable h' [ft] n -> assemblable h' cls ft_code n) /\
     (forall n, reachable h' [pt] n -> assemblable h' cls pt_code n) /\
     Forall2 (spec_of compile_expr h' cls) (nchildren (h' ft)) fspecs /\
     Forall2 (spec_of compile_expr h' cls) (nchildren (h' pt)) pspecs) /\
    forall bytes, Forall fits asm -> arena_slots asm < 2 ^ 32 -> assemble_binary asm aux = Some bytes ->
    exists prog confs nft, boot bytes = Some (prog, confs) /\
      ft_part (in_ft nft) prog confs /\ pt_part (in_pt nft) prog confs /\ distinct_reports prog /\
      part_enough (in_ft nft) prog confs /\ pt_part_enough (in_pt nft) prog confs /\ pt_flat prog confs /\
      (forall num e, In (num, e) fspecs -> exists k ins, nth_error prog k = Some ins /\ in_ft nft k = true /\ i_op ins = RETURN /\
        i_num ins = Z.to_nat num /\ node_expr prog confs k = compile_expr e) /\
      (forall num e, In (num, e) pspecs -> exists k ins, nth_error prog k = Some ins /\ in_pt nft k = true /\ i_op ins = RETURN /\
        i_num ins = Z.to_nat num /\ node_expr prog confs k = compile_expr e).
Proof.
  intros D Ws K1 K2 A Sft Spt Ap Sh A1 A2 De Ff Fp Nd Sf Sp Hc.
  destruct (sections_shared h T cls ft pt fspecs pspecs D Ws K1 K2 A Ap Sh A1 A2 Ff Fp) as (depth0 & HC).
  exists depth0. intros depth Hd. destruct (HC depth Hd) as (f1 & h' & E1 & D' & Ap' & Sh' & A1' & A2' & Ff' & Fp').
  assert (A' : named_apart h' cls).
  { intros n m Ek Es. apply A; pose proof (D n) as Dn; pose proof (D m) as Dm; pose proof (D' n) as Dn'; pose proof (D' m) as Dm'; congruence. }
  assert (De' : delays_kept h' cls wpd_of bpd_of).
  { intros n e Hm. apply De. exact (means_transfer h' h T cls D' D A' n e Hm n eq_refl). }
  set (K := S (bound reach fspecs + bound lead pspecs)).
  destruct (default_sections h' T cls wpd_of bpd_of const K ft pt fspecs pspecs aux D' Sft Spt Sh' A1' A2') as (f2 & asm & E2 & HB); auto.
  { intros n R1 R2. destruct (Ap' n R1 R2). }
  { unfold ft_small in Sf. rewrite Forall_forall in Sf |- *. intros s Hs. destruct (Sf s Hs) as (H1 & H2). split; [exact H1|]. split; [exact H2|].
    pose proof (bound_ge reach fspecs s Hs). unfold K. lia. }
  { unfold pt_small in Sp. rewrite Forall_forall in Sp |- *. intros s Hs. destruct (Sp s Hs) as (H1 & H2). split; [exact H1|]. split; [exact H2|].
    pose proof (bound_ge lead pspecs s Hs). unfold K. lia. }
  exists (Nat.max f1 f2), h', asm. split; [intros fuel Hf; split; [apply E1; lia|apply E2; lia]|].
  split; [tauto|exact HB].
Qed.

(** What the reports say about the specifications. *)
Lemma both_answers {I : impl} prog confs nft tr fspecs pspecs passes n m :
  (forall num e, In (num, e) fspecs -> exists k ins, nth_error prog k = Some ins /\ in_ft nft k = true /\ i_op ins = RETURN /\
      i_num ins = Z.to_nat num /\ node_expr prog confs k = compile_expr e) ->
  (forall num e, In (num, e) pspecs -> exists k ins, nth_error prog k = Some ins /\ in_pt nft k = true /\ i_op ins = RETURN /\
      i_num ins = Z.to_nat num /\ node_expr prog confs k = compile_expr e) ->
  Forall (fun s => legal (snd s) /\ all_nodes rewrite_source_op (snd s)) (fspecs ++ pspecs) -> ft_small fspecs ->
  run passes (rows tr n) prog (init prog confs) = Some m -> both_monitored (in_ft nft) prog confs confs tr n ->
  (mixed_passes prog confs <= passes)%nat ->
  ft_answers tr n fspecs m /\ pt_answers tr n pspecs m.
Proof.
  intros HF HP Hl Sf Em (m' & Em' & H) Hpa.
  assert (m' = m) as ->.
  { pose proof (run_fuel prog _ _ _ _ _ Hpa Em') as Q. congruence. }
  clear Em'. rewrite Forall_forall in Hl. unfold ft_small in Sf. rewrite Forall_forall in Sf. split; intros num e Hin.
  - destruct (HF num e Hin) as (k & ins & Ek & Pk & Ro & Hn & Hx). rewrite <- Hn.
    destruct (Hl (num, e)) as [L1 L2]; [apply in_app_iff; auto|]. cbn [snd] in *.
    destruct (Sf _ Hin) as [Hm _]. cbn [snd] in Hm.
    pose proof (compile_equivalent e L1 L2) as Heq.
    destruct (H k ins Ek Ro) as [H1 H2]. rewrite Pk, Hx in H2. split; [exact H1|]. split.
    + intros t b Hrep. destruct (proj1 (H2 t) b Hrep) as [S1 S2]. split; [|lia]. rewrite S1. apply Heq.
    + intros t Ht. apply (H2 t). rewrite (wpd_reach _ (monitorable_future _ Hm)) in Ht. lia.
  - destruct (HP num e Hin) as (k & ins & Ek & Pk & Ro & Hn & Hx). rewrite <- Hn.
    destruct (Hl (num, e)) as [L1 L2]; [apply in_app_iff; auto|]. cbn [snd] in *.
    pose proof (compile_equivalent e L1 L2) as Heq. unfold in_pt in Pk. apply negb_true_iff in Pk.
    destruct (H k ins Ek Ro) as [H1 H2]. rewrite Pk, Hx in H2. split; [exact H1|]. split.
    + intros t b Hrep. destruct (proj1 (H2 t) b Hrep) as [S1 S2]. split; [|exact S2]. rewrite S1. apply Heq.
    + intros t Ht. apply (H2 t). lia.
Qed.

Lemma default_small fspecs pspecs : ft_default fspecs -> pt_default pspecs ->
  ft_small fspecs /\ pt_small pspecs /\ Forall (fun s => legal (snd s) /\ all_nodes rewrite_source_op (snd s)) (fspecs ++ pspecs).
Proof.
  intros Sf Sp. split; [|split].
  - eapply Forall_impl; [|exact Sf]. intros s (_ & _ & H1 & H2). exact (conj H1 H2).
  - eapply Forall_impl; [|exact Sp]. intros s (_ & _ & H1 & H2). exact (conj H1 H2).
  - apply Forall_app. split; (eapply Forall_impl; [|eassumption]); intros s (H1 & H2 & _); exact (conj H1 H2).
Qed.

Lemma default_sections_end_to_end h T cls wpd_of bpd_of const ft pt fspecs pspecs aux :
  denotes h T -> well_shaped h -> nkind (h ft) = KSet -> nkind (h pt) = KSet ->
  named_apart h cls -> cls ft = CSet -> cls pt = CSet ->
  (forall n, reachable h [ft] n -> ~ reachable h [pt] n) -> tl_shaped h cls ->
  (forall n, reachable h [ft] n -> assemblable h cls ft_code n) ->
  (forall n, reachable h [pt] n -> assemblable h cls pt_code n) ->
  delays_kept h cls wpd_of bpd_of ->
  Forall2 (spec_of compile_expr h cls) (nchildren (h ft)) fspecs ->
  Forall2 (spec_of compile_expr h cls) (nchildren (h pt)) pspecs -> NoDup (map fst (fspecs ++ pspecs)) ->
  ft_default fspecs -> pt_default pspecs -> 0 <= const ->
  exists depth0, forall depth, (depth0 <= depth)%nat -> exists fuel0 h' asm,
    (forall fuel, (fuel0 <= fuel)%nat -> optimize_cse depth fuel h ft pt = Some h' /\
                                         gen_assembly fuel h' cls wpd_of bpd_of const ft pt = Some asm) /\
    forall bytes, Forall fits asm -> arena_slots asm < 2 ^ 32 -> assemble_binary asm aux = Some bytes ->
    exists prog confs passes0, boot bytes = Some (prog, confs) /\
      forall tr n passes, (passes0 <= passes)%nat ->
      exists m, @run C_monitor passes (rows tr n) prog (@init C_monitor prog confs) = Some m /\
        ft_answers tr n fspecs m /\ pt_answers tr n pspecs m.
Proof.
  intros D Ws K1 K2 A Sft Spt Ap Sh A1 A2 De Ff Fp Nd Sf Sp Hc.
  destruct (default_small fspecs pspecs Sf Sp) as (Sf' & Sp' & Hl).
  destruct (default_sections_assembled h T cls wpd_of bpd_of const ft pt fspecs pspecs aux D Ws K1 K2 A Sft Spt Ap Sh A1 A2 De Ff Fp Nd Sf' Sp' Hc)
    as (depth0 & HD).
  exists depth0. intros depth Hd. destruct (HD depth Hd) as (fuel0 & h' & asm & E & _ & HB).
  exists fuel0, h', asm. split; [exact E|]. intros bytes Hfi Ha Eb.
  destruct (HB bytes Hfi Ha Eb) as (prog & confs & nft & Ebt & P1 & P2 & P3 & P4 & P5 & P6 & HF & HP).
  exists prog, confs, (mixed_passes prog confs). split; [exact Ebt|]. intros tr n passes Hpa.
  pose proof (@menough_monitored C_monitor prog confs tr _ _ P1 P2 (sections_cover nft prog) P3 P4 P5 P6 n) as M.
  pose proof M as (m & Em & _). exists m. pose proof (@run_fuel C_monitor prog _ _ _ _ _ Hpa Em) as Em2. split; [exact Em2|].
  eapply both_answers; eassumption.
Qed.
