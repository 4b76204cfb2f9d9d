(** * Programs of two sections with the compiler's own queue sizes: C30 and C39

    As [Prop_Sections], for any queue constant (the default is 0): [ft_default] and
    [pt_default] say which formulas are meant, and the queue sizes are those that
    the compiler derives from the delays of siblings. *)
From Coq Require Import List Arith ZArith Bool Ascii Lia.
Require Import Verif.Mltl Verif.MltlShape Verif.Transform Verif.Pipeline Verif.Graph Verif.GraphSpec.
Require Import Verif.Binary Verif.BinarySpec Verif.Assembly Verif.Layout Verif.AssemblySpec Verif.LayoutSpec.
Require Import Verif.Scq Verif.Engine Verif.Monitoring Verif.PastMonitor Verif.TightSize Verif.PastSize.
Require Import Verif.EndToEnd Verif.SectionSpec Verif.DefaultSpec Verif.DefaultProofs Verif.SectionDefault.
Require Import Verif.RustEngine Verif.RustLayout Verif.RustLayoutSpec Verif.RustBoot Verif.RustSectionTight Verif.RustSectionDefault.
Require Verif.SizeProofs Verif.PastSizeProofs Verif.Prop_Mixed Verif.Prop_Sections.
Import ListNotations.
Local Open Scope Z_scope.

(** C30: with queues long enough for what their readers wait for, the Rust
    monitor never panics on a program of two sections and every step ends. *)
Theorem C30_sections_enough_finish prog confs tr ft pt fuel n :
  ft_part ft prog confs -> pt_part pt prog confs ->
  (forall k, (k < length prog)%nat -> ft k = true \/ pt k = true) -> distinct_reports prog ->
  part_enough ft prog confs -> pt_part_enough pt prog confs -> pt_flat prog confs ->
  (max_passes prog confs + pt_max_passes prog confs <= fuel)%nat ->
  exists m, RustEngine.rust_run fuel (rows tr n) prog (rust_init prog confs) = Finished m.
Proof. intros H1 H2 H3 H4 H5 H6 H7. exact (mtight_finishes prog confs tr ft pt H1 H2 H3 H4 H5 H6 H7 fuel n). Qed.
Print Assumptions C30_sections_enough_finish.

(** C30: the two monitors never contradict each other on it. *)
Theorem C30_sections_enough_no_contradiction prog confs tr ft pt fuel fuel' n n' mc mr k ins t b b' :
  ft_part ft prog confs -> pt_part pt prog confs ->
  (forall k, (k < length prog)%nat -> ft k = true \/ pt k = true) -> distinct_reports prog ->
  part_enough ft prog confs -> pt_part_enough pt prog confs -> pt_flat prog confs ->
  @run C_monitor fuel (rows tr n) prog (@init C_monitor prog confs) = Some mc ->
  RustEngine.rust_run fuel' (rows tr n') prog (rust_init prog confs) = Finished mr ->
  nth_error prog k = Some ins -> i_op ins = RETURN ->
  reported (reports (i_num ins) mc) t b -> reported (reports (i_num ins) mr) t b' -> b = b'.
Proof. intros H1 H2 H3 H4 H5 H6 H7. exact (tight_sections_agree prog confs tr ft pt H1 H2 H3 H4 H5 H6 H7 fuel fuel' n n' mc mr k ins t b b'). Qed.
Print Assumptions C30_sections_enough_no_contradiction.

(** C30: both report every time that is due, in order and with the same, right
    verdict. *)
Theorem C30_sections_enough_same_verdicts prog confs tr ft pt fuel fuel' n mc mr k ins :
  ft_part ft prog confs -> pt_part pt prog confs ->
  (forall k, (k < length prog)%nat -> ft k = true \/ pt k = true) -> distinct_reports prog ->
  part_enough ft prog confs -> pt_part_enough pt prog confs -> pt_flat prog confs ->
  @run C_monitor fuel (rows tr n) prog (@init C_monitor prog confs) = Some mc ->
  RustEngine.rust_run fuel' (rows tr n) prog (rust_init prog confs) = Finished mr ->
  nth_error prog k = Some ins -> i_op ins = RETURN ->
  increasing (reports (i_num ins) mc) /\ increasing (reports (i_num ins) mr) /\
  forall t, (t + (if ft k then reach (node_expr prog confs k) else 0) < n)%nat ->
    exists b, reported (reports (i_num ins) mc) t b /\ reported (reports (i_num ins) mr) t b /\
              (b = true <-> sat tr (node_expr prog confs k) t).
Proof. intros H1 H2 H3 H4 H5 H6 H7. exact (tight_sections_same prog confs tr ft pt H1 H2 H3 H4 H5 H6 H7 fuel fuel' n mc mr k ins). Qed.
Print Assumptions C30_sections_enough_same_verdicts.

(** C39: with the sizes the compiler computes, every report of a program of two
    sections is right and arrives in time, if the operands of future-time
    formulas keep up with each other and past-time operators are not nested; C
    monitor. *)
Theorem C39_sections_default_sizes_end_to_end h T cls wpd_of bpd_of const ft pt fspecs pspecs aux :
  denotes h T -> well_shaped h -> nkind (h ft) = KSet -> nkind (h pt) = KSet ->
  named_apart h cls -> cls ft = CSet -> cls pt = CSet ->
  (forall n, reachable h [ft] n -> ~ reachable h [pt] n) -> tl_shaped h cls ->
  (forall n, reachable h [ft] n -> assemblable h cls ft_code n) ->
  (forall n, reachable h [pt] n -> assemblable h cls pt_code n) ->
  (forall n e, means h cls n e -> wpd e <= wpd_of n /\ bpd_of n <= Z.of_nat (soonest e) /\
                                  (pt_monitorable e -> bpd_of n <= - Z.of_nat (ahead e))) ->
  Forall2 (spec_of compile_expr h cls) (nchildren (h ft)) fspecs ->
  Forall2 (spec_of compile_expr h cls) (nchildren (h pt)) pspecs -> NoDup (map fst (fspecs ++ pspecs)) ->
  ft_default fspecs -> pt_default pspecs -> 0 <= const ->
  exists depth0, forall depth, (depth0 <= depth)%nat -> exists fuel0 h' asm,
    (forall fuel, (fuel0 <= fuel)%nat -> optimize_cse depth fuel h ft pt = Some h' /\
                                         gen_assembly fuel h' cls wpd_of bpd_of const ft pt = Some asm) /\
    forall bytes, Forall fits asm -> arena_slots asm < 2 ^ 32 -> assemble_binary asm aux = Some bytes ->
    exists prog confs passes0, boot bytes = Some (prog, confs) /\
      forall tr n passes, (passes0 <= passes)%nat ->
      exists m, @run C_monitor passes (rows tr n) prog (@init C_monitor prog confs) = Some m /\
        ft_answers tr n fspecs m /\ pt_answers tr n pspecs m.
Proof. exact (default_sections_end_to_end h T cls wpd_of bpd_of const ft pt fspecs pspecs aux). Qed.
Print Assumptions C39_sections_default_sizes_end_to_end.

(** And for the Rust monitor, which moreover does not panic. *)
Theorem C39_rust_sections_default_sizes_end_to_end h T cls wpd_of bpd_of const ft pt fspecs pspecs aux :
  denotes h T -> well_shaped h -> nkind (h ft) = KSet -> nkind (h pt) = KSet ->
  named_apart h cls -> cls ft = CSet -> cls pt = CSet ->
  (forall n, reachable h [ft] n -> ~ reachable h [pt] n) -> tl_shaped h cls ->
  (forall n, reachable h [ft] n -> assemblable h cls ft_code n) ->
  (forall n, reachable h [pt] n -> assemblable h cls pt_code n) ->
  (forall n e, means h cls n e -> wpd e <= wpd_of n /\ bpd_of n <= Z.of_nat (soonest e) /\
                                  (pt_monitorable e -> bpd_of n <= - Z.of_nat (ahead e))) ->
  Forall2 (spec_of compile_expr h cls) (nchildren (h ft)) fspecs ->
  Forall2 (spec_of compile_expr h cls) (nchildren (h pt)) pspecs -> NoDup (map fst (fspecs ++ pspecs)) ->
  ft_default fspecs -> pt_default pspecs -> 0 <= const ->
  exists depth0, forall depth, (depth0 <= depth)%nat -> exists fuel0 h' asm,
    (forall fuel, (fuel0 <= fuel)%nat -> optimize_cse depth fuel h ft pt = Some h' /\
                                         gen_assembly fuel h' cls wpd_of bpd_of const ft pt = Some asm) /\
    forall bytes, Forall fits asm -> Forall small aux -> arena_slots asm < 2 ^ 32 -> assemble_binary asm aux = Some bytes ->
    exists prog confs passes0, rust_boot bytes = Some (prog, confs) /\
      forall tr n passes, (passes0 <= passes)%nat ->
      exists m, RustEngine.rust_run passes (rows tr n) prog (rust_init prog confs) = Finished m /\
        ft_answers tr n fspecs m /\ pt_answers tr n pspecs m.
Proof. exact (rust_default_sections_end_to_end h T cls wpd_of bpd_of const ft pt fspecs pspecs aux). Qed.
Print Assumptions C39_rust_sections_default_sizes_end_to_end.

(** ** Example: the program of [Prop_Sections.C39_sections_hypotheses],
    FTSPEC F[0,2] (a && b), PTSPEC O[1,3] !(a && b) && (a && b), with the delays
    the compiler records and constant 0 *)
Local Open Scope char_scope.
Definition mix_wpd (n : nat) : Z := match nsym (Prop_Sections.mix n) with ["U"] => 2 | ["O"] => -1 | _ => 0 end.
Definition mix_bpd (n : nat) : Z := match nsym (Prop_Sections.mix n) with ["O"] => -1 | _ => if (n =? 5)%nat then -1 else 0 end.
Definition mix_expr (n : nat) : option expr :=
  let ab := EAnd [EAtom 0; EAtom 1] in
  match n with
  | 0%nat | 1%nat | 2%nat | 3%nat => None
  | 4%nat => Some (EU 0 2 (EConst true) ab)
  | 5%nat => Some (EAnd [ES 1 3 (EConst true) (ENot ab); ab])
  | 7%nat | 9%nat | 12%nat => Some ab
  | 8%nat => Some (ES 1 3 (EConst true) (ENot ab))
  | 11%nat => Some (ENot ab)
  | 13%nat | 15%nat | 17%nat => Some (EAtom 0)
  | 14%nat | 16%nat | 18%nat => Some (EAtom 1)
  | _ => Some (EConst true)
  end.
Ltac leaf := first [apply (means_signal _ _ _ 0); [reflexivity|lia] | apply (means_signal _ _ _ 1); [reflexivity|lia]
                   | apply means_const; reflexivity].
Ltac meaning := first
  [ leaf
  | eapply means_not; [reflexivity|reflexivity|meaning]
  | eapply means_and; [reflexivity|reflexivity|meaning|meaning]
  | eapply (means_until _ _ _ _ _ 0 2); [reflexivity|lia|reflexivity|meaning|meaning]
  | eapply (means_since _ _ _ _ _ 1 3); [reflexivity|lia|reflexivity|meaning|meaning] ].
Lemma mix_means n e : mix_expr n = Some e -> means Prop_Sections.mix Prop_Sections.mix_cls n e.
Proof.
  do 19 (destruct n as [|n]; [cbn; intros E; try discriminate; injection E as <-; meaning|]).
  cbn; intros E; injection E as <-; meaning.
Qed.
Example C39_sections_default_delays n e : means Prop_Sections.mix Prop_Sections.mix_cls n e -> mix_wpd n = wpd e /\ mix_bpd n = bpd e.
Proof.
  intros M. destruct (mix_expr n) as [e'|] eqn:E.
  - rewrite <- (means_det _ _ n e' (mix_means n e' E) e M). clear M.
    do 19 (destruct n as [|n]; [cbn in E; try discriminate; injection E as <-; split; reflexivity|]).
    cbn in E. injection E as <-. split; reflexivity.
  - do 4 (destruct n as [|n]; [inversion M; discriminate|]). do 15 (destruct n as [|n]; [discriminate|]). discriminate.
Qed.
Example C39_sections_default_hypotheses :
  (forall n e, means Prop_Sections.mix Prop_Sections.mix_cls n e -> wpd e <= mix_wpd n /\ mix_bpd n <= Z.of_nat (soonest e) /\
                                  (pt_monitorable e -> mix_bpd n <= - Z.of_nat (ahead e))) /\
  ft_default Prop_Sections.mix_ft /\ pt_default Prop_Sections.mix_pt.
Proof.
  split; [|split].
  - intros n e M. destruct (mix_expr n) as [e'|] eqn:E.
    + rewrite <- (means_det _ _ n e' (mix_means n e' E) e M). clear M.
      do 19 (destruct n as [|n]; [cbn in E; try discriminate; injection E as <-; cbn; lia|]).
      cbn in E. injection E as <-. cbn. lia.
    + do 4 (destruct n as [|n]; [inversion M; discriminate|]). do 15 (destruct n as [|n]; [discriminate|]). discriminate.
  - constructor; [|constructor]. cbn. unfold keeps_up; cbn. repeat split; eauto 10; try lia; try discriminate.
  - constructor; [|constructor]. cbn. repeat split; eauto 10; lia.
Qed.
Definition mix_bytes : option (list Z) :=
  match optimize_cse 20 200 Prop_Sections.mix 0 1 with
  | Some h => match gen_assembly 200 h Prop_Sections.mix_cls mix_wpd mix_bpd 0 0 1 with
              | Some asm => assemble_binary asm []
              | None => None
              end
  | None => None
  end.
Example C39_sections_default_case :
  match mix_bytes with
  | Some bytes =>
      match boot bytes, rust_boot bytes with
      | Some (prog, confs), Some (prog', confs') =>
          Some (map c_len confs,
            option_map (fun m => (reports 0 m, reports 1 m))
              (@run C_monitor 40 (rows Prop_Sections.mix_trace 7) prog (@init C_monitor prog confs)),
            match RustEngine.rust_run 40 (rows Prop_Sections.mix_trace 7) prog' (rust_init prog' confs') with
            | Finished m => Some (reports 0 m, reports 1 m)
            | _ => None
            end)
      | _, _ => None
      end
  | None => None
  end = Some ([1; 1; 1; 1; 1; 1; 1; 1; 1; 2; 2; 1]%nat,
    Some ([(false, 0); (true, 3); (true, 4); (true, 5); (true, 6)],
          [(false, 0); (false, 1); (false, 2); (true, 3); (true, 4); (true, 5); (false, 6); (false, 7)])%nat,
    Some ([(false, 0); (true, 3); (true, 4); (true, 5); (true, 6)],
          [(false, 0); (false, 1); (false, 2); (true, 3); (true, 4); (true, 5); (false, 6); (false, 7)])%nat).
Proof. vm_compute. reflexivity. Qed.

(** The program of [Prop_Mixed.two_sized_hypotheses] on the Rust monitor. *)
Definition two_tight : list qconf := ScqSize.sized 0 Prop_Mixed.two_prog Prop_Mixed.two_bounds.
Example C30_sections_enough_hypotheses :
  ft_part Prop_Mixed.future_part Prop_Mixed.two_prog two_tight /\ pt_part Prop_Mixed.past_part Prop_Mixed.two_prog two_tight /\
  (forall k, (k < length Prop_Mixed.two_prog)%nat -> Prop_Mixed.future_part k = true \/ Prop_Mixed.past_part k = true) /\
  distinct_reports Prop_Mixed.two_prog /\
  part_enough Prop_Mixed.future_part Prop_Mixed.two_prog two_tight /\
  pt_part_enough Prop_Mixed.past_part Prop_Mixed.two_prog two_tight /\ pt_flat Prop_Mixed.two_prog two_tight.
Proof.
  destruct Prop_Mixed.two_sized_hypotheses as (H1 & H2 & H3 & H4). destruct Prop_Mixed.two_hypotheses as (_ & _ & H5 & H6 & _).
  split; [exact H1|]. split; [exact H2|]. split; [exact H5|]. split; [exact H6|].
  split; [exact (SizeProofs.part_modest_enough 0 Prop_Mixed.two_prog Prop_Mixed.two_bounds _ eq_refl H1 H3)|].
  split; [exact (PastSizeProofs.sized_past_enough 0 Prop_Mixed.two_prog Prop_Mixed.two_bounds _ eq_refl H2)|].
  apply PastSizeProofs.flatb_spec. reflexivity.
Qed.
Example C30_sections_enough_case :
  match RustEngine.rust_run 60 (rows Prop_Mixed.two_trace 10) Prop_Mixed.two_prog (rust_init Prop_Mixed.two_prog two_tight) with
  | Finished m => Some (reports 0 m, reports 1 m)
  | _ => None
  end =
  Some ([(true, 0); (true, 1); (true, 2); (false, 6)],
        [(true, 0); (true, 1); (true, 2); (true, 3); (true, 4); (true, 5); (true, 6); (false, 7); (false, 8); (true, 9); (true, 10)])%nat.
Proof. vm_compute. reflexivity. Qed.
