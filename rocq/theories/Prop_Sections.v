(** * Programs with a future-time and a past-time section: C30 and C39

    [fspecs] and [pspecs] list the report numbers and MLTL formulas of the two
    sections.  [ft_ready] and [pt_ready] say which formulas are meant,
    [ft_answers] and [pt_answers] what must be reported.  The other notions are
    those of [Prop_EndToEnd], [Prop_Booleanizer] and [Prop_RustBoot]. *)
From Coq Require Import List Arith ZArith Bool Ascii Lia.
Require Import Verif.Mltl Verif.MltlShape Verif.Transform Verif.Pipeline Verif.Graph Verif.GraphSpec.
Require Import Verif.Binary Verif.BinarySpec Verif.Assembly Verif.Layout Verif.AssemblySpec Verif.LayoutSpec.
Require Import Verif.Scq Verif.Engine Verif.Monitoring Verif.PastMonitor Verif.EndToEnd Verif.SectionSpec Verif.EndToEndSections.
Require Import Verif.Booleanizer Verif.BooleanizerSpec Verif.BooleanizerProofs Verif.BooleanizerChain.
Require Import Verif.RustEngine Verif.RustBooleanizer Verif.RustBzSpec Verif.RustLayout Verif.RustLayoutSpec Verif.RustBoot.
Require Import Verif.SectionReports.
Require Verif.Prop_Mixed Verif.Prop_Booleanizer.
Import ListNotations.
Local Open Scope Z_scope.

(** C30: on a program of two sections the Rust monitor never panics and every
    step ends. *)
Theorem C30_sections_finish prog confs tr ft pt fuel n :
  ft_part ft prog confs -> pt_part pt prog confs ->
  (forall k, (k < length prog)%nat -> ft k = true \/ pt k = true) -> distinct_reports prog ->
  part_ample ft prog confs -> pt_part_ample pt prog confs ->
  (max_passes prog confs + pt_max_passes prog confs <= fuel)%nat ->
  exists m, RustEngine.rust_run fuel (rows tr n) prog (rust_init prog confs) = Finished m.
Proof. intros H1 H2 H3 H4 H5 H6. exact (sections_finish prog confs tr ft pt H1 H2 H3 H4 H5 H6 fuel n). Qed.
Print Assumptions C30_sections_finish.

(** C30: the two monitors never contradict each other on it, whatever part of
    the trace each has seen. *)
Theorem C30_sections_no_contradiction prog confs tr ft pt fuel fuel' n n' mc mr k ins t b b' :
  ft_part ft prog confs -> pt_part pt prog confs ->
  (forall k, (k < length prog)%nat -> ft k = true \/ pt k = true) -> distinct_reports prog ->
  part_ample ft prog confs -> pt_part_ample pt prog confs ->
  @run C_monitor fuel (rows tr n) prog (@init C_monitor prog confs) = Some mc ->
  RustEngine.rust_run fuel' (rows tr n') prog (rust_init prog confs) = Finished mr ->
  nth_error prog k = Some ins -> i_op ins = RETURN ->
  reported (reports (i_num ins) mc) t b -> reported (reports (i_num ins) mr) t b' -> b = b'.
Proof. intros H1 H2 H3 H4 H5 H6. exact (sections_agree prog confs tr ft pt H1 H2 H3 H4 H5 H6 fuel fuel' n n' mc mr k ins t b b'). Qed.
Print Assumptions C30_sections_no_contradiction.

(** C30: both report every time that is due, in order and with the same, right
    verdict. *)
Theorem C30_sections_same_verdicts prog confs tr ft pt fuel fuel' n mc mr k ins :
  ft_part ft prog confs -> pt_part pt prog confs ->
  (forall k, (k < length prog)%nat -> ft k = true \/ pt k = true) -> distinct_reports prog ->
  part_ample ft prog confs -> pt_part_ample pt prog confs ->
  @run C_monitor fuel (rows tr n) prog (@init C_monitor prog confs) = Some mc ->
  RustEngine.rust_run fuel' (rows tr n) prog (rust_init prog confs) = Finished mr ->
  nth_error prog k = Some ins -> i_op ins = RETURN ->
  increasing (reports (i_num ins) mc) /\ increasing (reports (i_num ins) mr) /\
  forall t, (t + (if ft k then reach (node_expr prog confs k) else 0) < n)%nat ->
    exists b, reported (reports (i_num ins) mc) t b /\ reported (reports (i_num ins) mr) t b /\
              (b = true <-> sat tr (node_expr prog confs k) t).
Proof. intros H1 H2 H3 H4 H5 H6. exact (sections_same prog confs tr ft pt H1 H2 H3 H4 H5 H6 fuel fuel' n mc mr k ins). Qed.
Print Assumptions C30_sections_same_verdicts.

(** C39 for both sections, C monitor. *)
Theorem C39_sections_end_to_end h T cls wpd_of bpd_of const ft pt fspecs pspecs aux :
  denotes h T -> well_shaped h -> nkind (h ft) = KSet -> nkind (h pt) = KSet ->
  named_apart h cls -> cls ft = CSet -> cls pt = CSet ->
  (forall n, reachable h [ft] n -> ~ reachable h [pt] n) -> tl_shaped h cls ->
  (forall n, reachable h [ft] n -> assemblable h cls ft_code n) ->
  (forall n, reachable h [pt] n -> assemblable h cls pt_code n) ->
  Forall2 (spec_of compile_expr h cls) (nchildren (h ft)) fspecs ->
  Forall2 (spec_of compile_expr h cls) (nchildren (h pt)) pspecs -> NoDup (map fst (fspecs ++ pspecs)) ->
  ft_ready const fspecs -> pt_ready const pspecs -> 0 <= const ->
  exists depth0, forall depth, (depth0 <= depth)%nat -> exists fuel0 h' asm,
    (forall fuel, (fuel0 <= fuel)%nat -> optimize_cse depth fuel h ft pt = Some h' /\
                                         gen_assembly fuel h' cls wpd_of bpd_of const ft pt = Some asm) /\
    forall bytes, Forall fits asm -> arena_slots asm < 2 ^ 32 -> assemble_binary asm aux = Some bytes ->
    exists prog confs passes0, boot bytes = Some (prog, confs) /\
      forall tr n passes, (passes0 <= passes)%nat ->
      exists m, @run C_monitor passes (rows tr n) prog (@init C_monitor prog confs) = Some m /\
        ft_answers tr n fspecs m /\ pt_answers tr n pspecs m.
Proof. exact (sections_end_to_end h T cls wpd_of bpd_of const ft pt fspecs pspecs aux). Qed.
Print Assumptions C39_sections_end_to_end.

(** And for the Rust monitor, which moreover does not panic. *)
Theorem C39_rust_sections_end_to_end h T cls wpd_of bpd_of const ft pt fspecs pspecs aux :
  denotes h T -> well_shaped h -> nkind (h ft) = KSet -> nkind (h pt) = KSet ->
  named_apart h cls -> cls ft = CSet -> cls pt = CSet ->
  (forall n, reachable h [ft] n -> ~ reachable h [pt] n) -> tl_shaped h cls ->
  (forall n, reachable h [ft] n -> assemblable h cls ft_code n) ->
  (forall n, reachable h [pt] n -> assemblable h cls pt_code n) ->
  Forall2 (spec_of compile_expr h cls) (nchildren (h ft)) fspecs ->
  Forall2 (spec_of compile_expr h cls) (nchildren (h pt)) pspecs -> NoDup (map fst (fspecs ++ pspecs)) ->
  ft_ready const fspecs -> pt_ready const pspecs -> 0 <= const ->
  exists depth0, forall depth, (depth0 <= depth)%nat -> exists fuel0 h' asm,
    (forall fuel, (fuel0 <= fuel)%nat -> optimize_cse depth fuel h ft pt = Some h' /\
                                         gen_assembly fuel h' cls wpd_of bpd_of const ft pt = Some asm) /\
    forall bytes, Forall fits asm -> Forall small aux -> arena_slots asm < 2 ^ 32 -> assemble_binary asm aux = Some bytes ->
    exists prog confs passes0, rust_boot bytes = Some (prog, confs) /\
      forall tr n passes, (passes0 <= passes)%nat ->
      exists m, RustEngine.rust_run passes (rows tr n) prog (rust_init prog confs) = Finished m /\
        ft_answers tr n fspecs m /\ pt_answers tr n pspecs m.
Proof. exact (rust_sections_end_to_end h T cls wpd_of bpd_of const ft pt fspecs pspecs aux). Qed.
Print Assumptions C39_rust_sections_end_to_end.

(** C39 for both sections from signals, C monitor. *)
Theorem C39_sections_signals_to_reports h T cls types wpd_of bpd_of const ft pt fspecs pspecs aux :
  denotes h T -> cls ft = CSet -> cls pt = CSet -> tl_shaped h cls ->
  (forall n, reachable h [ft] n -> assemblable h cls ft_code n) ->
  (forall n, reachable h [pt] n -> assemblable h cls pt_code n) ->
  (forall n, reachable h [ft] n -> ~ reachable h [pt] n) ->
  Forall2 (spec_of compile_expr h cls) (nchildren (h ft)) fspecs ->
  Forall2 (spec_of compile_expr h cls) (nchildren (h pt)) pspecs -> NoDup (map fst (fspecs ++ pspecs)) ->
  ft_ready const fspecs -> pt_ready const pspecs -> 0 <= const -> numeric h cls types (in_program h ft pt) ->
  exists fuel0 asm, (forall fuel, (fuel0 <= fuel)%nat -> gen_assembly fuel h cls wpd_of bpd_of const ft pt = Some asm) /\
  forall bytes, Forall fits asm -> arena_slots asm < 2 ^ 32 -> assemble_binary asm aux = Some bytes ->
  exists acts prog confs passes0, load bytes = Some acts /\ boot bytes = Some (prog, confs) /\
    forall F inp n passes, typed types inp -> Z.of_nat n <= 2 ^ 31 -> (passes0 <= passes)%nat ->
    (forall t x e int, (t < n)%nat -> in_program h ft pt x -> stands h cls types x e int -> exists v, yields F inp t e v) ->
    exists rs tr m, bz_rows F (fst (bz_load acts)) (snd (bz_load acts)) inp n = Some rs /\
      @run C_monitor passes rs prog (@init C_monitor prog confs) = Some m /\
      (forall t a k x e, (t < n)%nat -> in_program h ft pt k -> cls k = CAtomic a -> nchildren (h k) = [x] ->
         stands h cls types x e true -> 0 <= a ->
         exists v, yields F inp t e (VInt v) /\ tr t (Z.to_nat a) = negb (v =? 0)) /\
      ft_answers tr n fspecs m /\ pt_answers tr n pspecs m.
Proof.
  intros H1 H2 H3 H4 H5 H6 H7 H8 H9 H10 H11 H12 H13.
  exact (sections_signals_to_reports h T cls wpd_of bpd_of const ft pt fspecs pspecs aux H1 H2 H3 H4 H5 H6 H7 H8 H9 H10 H11 H12 H13 types).
Qed.
Print Assumptions C39_sections_signals_to_reports.

(** And for the Rust monitor. *)
Theorem C39_rust_sections_signals_to_reports h T cls types wpd_of bpd_of const ft pt fspecs pspecs aux :
  denotes h T -> cls ft = CSet -> cls pt = CSet -> tl_shaped h cls ->
  (forall n, reachable h [ft] n -> assemblable h cls ft_code n) ->
  (forall n, reachable h [pt] n -> assemblable h cls pt_code n) ->
  (forall n, reachable h [ft] n -> ~ reachable h [pt] n) ->
  Forall2 (spec_of compile_expr h cls) (nchildren (h ft)) fspecs ->
  Forall2 (spec_of compile_expr h cls) (nchildren (h pt)) pspecs -> NoDup (map fst (fspecs ++ pspecs)) ->
  ft_ready const fspecs -> pt_ready const pspecs -> 0 <= const -> numeric h cls types (in_program h ft pt) ->
  exists fuel0 asm, (forall fuel, (fuel0 <= fuel)%nat -> gen_assembly fuel h cls wpd_of bpd_of const ft pt = Some asm) /\
  forall bytes, Forall fits asm -> Forall small aux -> arena_slots asm < 2 ^ 32 -> assemble_binary asm aux = Some bytes ->
  exists acts prog confs passes0, rust_load bytes = Some acts /\ rust_boot bytes = Some (prog, confs) /\
    forall F le inp n passes, typed types inp -> Z.of_nat n <= 2 ^ 31 -> (passes0 <= passes)%nat ->
    (forall t x e int, (t < n)%nat -> in_program h ft pt x -> stands h cls types x e int -> exists v, saturated F le inp t e v) ->
    exists rs tr m, rust_bz_rows F le acts inp n = Some rs /\
      RustEngine.rust_run passes rs prog (rust_init prog confs) = Finished m /\
      (forall t a k x e, (t < n)%nat -> in_program h ft pt k -> cls k = CAtomic a -> nchildren (h k) = [x] ->
         stands h cls types x e true -> 0 <= a ->
         exists v, saturated F le inp t e (VInt v) /\ tr t (Z.to_nat a) = negb (v =? 0)) /\
      ft_answers tr n fspecs m /\ pt_answers tr n pspecs m.
Proof.
  intros H1 H2 H3 H4 H5 H6 H7 H8 H9 H10 H11 H12 H13.
  exact (rust_sections_signals_to_reports h T cls wpd_of bpd_of const ft pt fspecs pspecs aux H1 H2 H3 H4 H5 H6 H7 H8 H9 H10 H11 H12 H13 types).
Qed.
Print Assumptions C39_rust_sections_signals_to_reports.

(** Past-time formulas over once, historically and the connectives, without
    constants, are monitorable after compilation. *)
Theorem C39_past_constant_free e : all_nodes pt_simple_op e -> pt_monitorable (compile_expr e).
Proof. exact (pt_compiled_monitorable e). Qed.
Print Assumptions C39_past_constant_free.

(** ** Example: FTSPEC F[0,2] (a && b), PTSPEC O[1,3] !(a && b) && (a && b),
    where the past-time section has the conjunction twice *)
Local Open Scope char_scope.
Definition mix (n : nat) : node :=
  match n with
  | 0%nat => Node KSet ["S"] [2%nat]
  | 1%nat => Node KSet ["P"] [3%nat]
  | 2%nat => Node KFormula ["f"] [4%nat]
  | 3%nat => Node KFormula ["g"] [5%nat]
  | 4%nat => Node KOp ["U"] [6; 7]%nat
  | 5%nat => Node KOp ["&"] [8; 9]%nat
  | 7%nat => Node KOp ["&"] [13; 14]%nat
  | 8%nat => Node KOp ["O"] [10; 11]%nat
  | 9%nat => Node KOp ["&"] [15; 16]%nat
  | 11%nat => Node KOp ["!"] [12]%nat
  | 12%nat => Node KOp ["&"] [17; 18]%nat
  | 13%nat | 15%nat | 17%nat => Node KLeaf ["a"] []
  | 14%nat | 16%nat | 18%nat => Node KLeaf ["b"] []
  | _ => Node KLeaf ["t"] []
  end.
Definition mix_class (s : list ascii) : nclass :=
  match s with
  | ["S"] | ["P"] => CSet
  | ["f"] => CFormula 0
  | ["g"] => CFormula 1
  | ["U"] => CTemporal OpUntil 0 2
  | ["O"] => CTemporal OpSince 1 3
  | ["!"] => COp OpNot
  | ["&"] => COp OpAnd
  | ["a"] => CSignal 0
  | ["b"] => CSignal 1
  | _ => CBool true
  end.
Definition mix_cls (n : nat) : nclass := mix_class (nsym (mix n)).
Fixpoint tree_of (g : nat -> node) (fuel n : nat) : tree :=
  match fuel with
  | O => Tree (nkind (g n)) (nsym (g n)) []
  | S fuel => Tree (nkind (g n)) (nsym (g n)) (map (tree_of g fuel) (nchildren (g n)))
  end.
Definition mix_ft : list (Z * expr) := [(0%Z, EF 0 2 (EAnd [EAtom 0; EAtom 1]))].
Definition mix_pt : list (Z * expr) := [(1%Z, EAnd [EO 1 3 (ENot (EAnd [EAtom 0; EAtom 1])); EAnd [EAtom 0; EAtom 1]])].
Lemma mix_reach_ft n : reachable mix [0%nat] n -> In n [0; 2; 4; 6; 7; 13; 14]%nat.
Proof.
  induction 1 as [n H|n c H IH Hc]; [destruct H as [<-|[]]; cbn; auto|].
  cbn in IH. repeat (destruct IH as [<-|IH]; [cbn in Hc; cbn; intuition|]). easy.
Qed.
Lemma mix_reach_pt n : reachable mix [1%nat] n -> In n [1; 3; 5; 8; 9; 10; 11; 12; 15; 16; 17; 18]%nat.
Proof.
  induction 1 as [n H|n c H IH Hc]; [destruct H as [<-|[]]; cbn; auto|].
  cbn in IH. repeat (destruct IH as [<-|IH]; [cbn in Hc; cbn; intuition|]). easy.
Qed.
Example C39_sections_hypotheses :
  denotes mix (tree_of mix 7) /\ well_shaped mix /\ nkind (mix 0) = KSet /\ nkind (mix 1) = KSet /\
  named_apart mix mix_cls /\ mix_cls 0 = CSet /\ mix_cls 1 = CSet /\
  (forall n, reachable mix [0%nat] n -> ~ reachable mix [1%nat] n) /\ tl_shaped mix mix_cls /\
  (forall n, reachable mix [0%nat] n -> assemblable mix mix_cls ft_code n) /\
  (forall n, reachable mix [1%nat] n -> assemblable mix mix_cls pt_code n) /\
  Forall2 (spec_of compile_expr mix mix_cls) (nchildren (mix 0)) mix_ft /\
  Forall2 (spec_of compile_expr mix mix_cls) (nchildren (mix 1)) mix_pt /\ NoDup (map fst (mix_ft ++ mix_pt)) /\
  ft_ready 4 mix_ft /\ pt_ready 4 mix_pt.
Proof.
  assert (And : forall n x y, mix_cls n = COp OpAnd -> nchildren (mix n) = [x; y] ->
            mix_cls x = CSignal 0 -> mix_cls y = CSignal 1 -> means mix mix_cls n (EAnd [EAtom 0; EAtom 1])).
  { intros n x y Hn Hc Hx Hy. eapply means_and; [exact Hn|exact Hc| |].
    - apply (means_signal _ _ x 0); [exact Hx|lia].
    - apply (means_signal _ _ y 1); [exact Hy|lia]. }
  repeat apply conj; try reflexivity.
  - intros n. do 19 (destruct n as [|n]; [reflexivity|]). reflexivity.
  - intros n. split.
    + do 19 (destruct n as [|n]; [split; [discriminate|repeat constructor; discriminate]|]).
      split; [discriminate|repeat constructor; discriminate].
    + do 19 (destruct n as [|n]; [cbn; first [reflexivity|eexists; split; [reflexivity|right; reflexivity]
               |split; [discriminate|]; repeat constructor
               |repeat constructor]|]); try reflexivity.
      all: repeat (first [left; reflexivity|right; reflexivity|constructor]).
  - intros n m _ E. unfold mix_cls. rewrite E. reflexivity.
  - intros n R1 R2. apply mix_reach_ft in R1. apply mix_reach_pt in R2. cbn in R1, R2.
    repeat (destruct R1 as [<-|R1]; [intuition discriminate|]). easy.
  - intros n. do 19 (destruct n as [|n]; [cbn; first [exact I|eexists; split; [reflexivity|exact I]|repeat constructor]|]). exact I.
  - intros n H. apply mix_reach_ft in H. cbn in H.
    repeat (destruct H as [<-|H]; [cbn; first [exact I|reflexivity|eexists; split; [reflexivity|discriminate]|split; [discriminate|lia]]|]). easy.
  - intros n H. apply mix_reach_pt in H. cbn in H.
    repeat (destruct H as [<-|H]; [cbn; first [exact I|reflexivity|eexists; split; [reflexivity|discriminate]|split; [discriminate|lia]]|]). easy.
  - constructor; [|constructor]; (split; [reflexivity|]); (split; [cbn; lia|]); eexists; (split; [reflexivity|]).
    apply (means_until _ _ 4 6 7 0 2 (EConst true)); [reflexivity|lia|reflexivity|apply means_const; reflexivity|].
    apply (And 7%nat 13%nat 14%nat); reflexivity.
  - constructor; [|constructor]; (split; [reflexivity|]); (split; [cbn; lia|]); eexists; (split; [reflexivity|]).
    apply (means_and _ _ 5 8 9); [reflexivity|reflexivity| |apply (And 9%nat 15%nat 16%nat); reflexivity].
    apply (means_since _ _ 8 10 11 1 3 (EConst true)); [reflexivity|lia|reflexivity|apply means_const; reflexivity|].
    apply (means_not _ _ 11 12); [reflexivity|reflexivity|]. apply (And 12%nat 17%nat 18%nat); reflexivity.
  - repeat constructor; cbn; intuition discriminate.
  - unfold ft_ready, mix_ft. constructor; [|constructor]. cbn. repeat split; eauto 10; lia.
  - unfold pt_ready, mix_pt. constructor; [|constructor]. cbn. repeat split; eauto 10; lia.
Qed.
Definition mix_bytes : option (list Z) :=
  match optimize_cse 20 200 mix 0 1 with
  | Some h => match gen_assembly 200 h mix_cls (fun _ => 0%Z) (fun _ => 0%Z) 4 0 1 with
              | Some asm => assemble_binary asm []
              | None => None
              end
  | None => None
  end.
Definition mix_trace (t a : nat) : bool := match a with O => negb (t =? 1)%nat | _ => (3 <=? t)%nat end.
Definition mix_reports : list verdict * list verdict :=
  ([(false, 0); (true, 3); (true, 4); (true, 5); (true, 6)],
   [(false, 0); (false, 1); (false, 2); (true, 3); (true, 4); (true, 5); (false, 6); (false, 7)])%nat.
Example C39_sections_case :
  match mix_bytes with
  | Some bytes =>
      match boot bytes with
      | Some (prog, confs) =>
          option_map (fun m => (length prog, (reports 0 m, reports 1 m)))
            (@run C_monitor 40 (rows mix_trace 7) prog (@init C_monitor prog confs))
      | None => None
      end
  | None => None
  end = Some (12%nat, mix_reports).
Proof. vm_compute. reflexivity. Qed.
Example C39_rust_sections_case :
  match mix_bytes with
  | Some bytes =>
      match rust_boot bytes with
      | Some (prog, confs) =>
          match RustEngine.rust_run 40 (rows mix_trace 7) prog (rust_init prog confs) with
          | Finished m => Some (reports 0 m, reports 1 m)
          | _ => None
          end
      | None => None
      end
  | None => None
  end = Some mix_reports.
Proof. vm_compute. reflexivity. Qed.

(** The program of [Prop_Mixed.two_hypotheses] on the Rust monitor. *)
Example C30_sections_case :
  match RustEngine.rust_run 60 (rows Prop_Mixed.two_trace 10) Prop_Mixed.two_prog (rust_init Prop_Mixed.two_prog Prop_Mixed.two_confs) with
  | Finished m => Some (reports 0 m, reports 1 m)
  | _ => None
  end = Some ([(true, 0); (true, 1); (true, 2); (false, 6)],
              [(true, 0); (true, 1); (true, 2); (true, 3); (true, 4); (true, 5); (true, 6); (false, 7); (false, 8); (true, 9); (true, 10)])%nat.
Proof. vm_compute. reflexivity. Qed.

(** ** Example with signals: FTSPEC x > 1, PTSPEC O[0,2] (y > 3) *)
Local Open Scope Z_scope.
Definition sig (n : nat) : node :=
  match n with
  | 0%nat => Node KSet (Prop_Booleanizer.sym 0) [2%nat]
  | 1%nat => Node KSet (Prop_Booleanizer.sym 1) [3%nat]
  | 2%nat => Node KFormula (Prop_Booleanizer.sym 2) [4%nat]
  | 3%nat => Node KFormula (Prop_Booleanizer.sym 3) [8%nat]
  | 4%nat => Node KOp (Prop_Booleanizer.sym 4) [5%nat]
  | 5%nat => Node KOp (Prop_Booleanizer.sym 5) [6; 7]%nat
  | 8%nat => Node KOp (Prop_Booleanizer.sym 8) [9; 10]%nat
  | 10%nat => Node KOp (Prop_Booleanizer.sym 10) [11]%nat
  | 11%nat => Node KOp (Prop_Booleanizer.sym 11) [12; 13]%nat
  | _ => Node KLeaf (Prop_Booleanizer.sym n) []
  end.
Definition sig_cls (n : nat) : nclass :=
  match n with
  | 0%nat | 1%nat => CSet
  | 2%nat => CFormula 0
  | 3%nat => CFormula 1
  | 4%nat => CAtomic 0
  | 5%nat | 11%nat => Assembly.CBz 14
  | 6%nat => CBzLoad 1 0
  | 7%nat => CBzConst 3 (BzInt 1)
  | 8%nat => CTemporal OpSince 0 2
  | 10%nat => CAtomic 1
  | 12%nat => CBzLoad 1 1
  | 13%nat => CBzConst 3 (BzInt 3)
  | _ => CBool true
  end.
Definition sig_ft : list (Z * expr) := [(0, EAtom 0)].
Definition sig_pt : list (Z * expr) := [(1, EO 0 2 (EAtom 1))].
Lemma sig_reach_ft n : reachable sig [0%nat] n -> In n [0; 2; 4; 5; 6; 7]%nat.
Proof.
  induction 1 as [n H|n c H IH Hc]; [destruct H as [<-|[]]; cbn; auto|].
  cbn in IH. repeat (destruct IH as [<-|IH]; [cbn in Hc; cbn; intuition|]). easy.
Qed.
Lemma sig_reach_pt n : reachable sig [1%nat] n -> In n [1; 3; 8; 9; 10; 11; 12; 13]%nat.
Proof.
  induction 1 as [n H|n c H IH Hc]; [destruct H as [<-|[]]; cbn; auto|].
  cbn in IH. repeat (destruct IH as [<-|IH]; [cbn in Hc; cbn; intuition|]). easy.
Qed.
Lemma sig_in n : in_program sig 0 1 n -> In n (seq 0 14).
Proof.
  intros [R|R]; [apply sig_reach_ft in R|apply sig_reach_pt in R]; cbn in R |- *; intuition.
Qed.
Ltac leaf := repeat first [reflexivity | lia | vm_compute; first [reflexivity | intros; discriminate] | split].
Definition gt (k v : Z) : nexpr := NBinary Gt (NSignal k) (NValue (VInt v)).
Lemma sig_x : stands sig sig_cls Prop_Booleanizer.ints 5 (gt 0 1) true.
Proof.
  apply (st_binary _ _ _ 5 Gt 14 6 7 _ _ true); try reflexivity; [apply (st_signal _ _ Prop_Booleanizer.ints 6 0); leaf|].
  apply (st_value _ _ _ 7 (VInt 1)). leaf.
Qed.
Lemma sig_y : stands sig sig_cls Prop_Booleanizer.ints 11 (gt 1 3) true.
Proof.
  apply (st_binary _ _ _ 11 Gt 14 12 13 _ _ true); try reflexivity; [apply (st_signal _ _ Prop_Booleanizer.ints 12 1); leaf|].
  apply (st_value _ _ _ 13 (VInt 3)). leaf.
Qed.
Example C39_sections_signal_hypotheses :
  denotes sig (tree_of sig 6) /\ sig_cls 0 = CSet /\ sig_cls 1 = CSet /\ tl_shaped sig sig_cls /\
  (forall n, reachable sig [0%nat] n -> assemblable sig sig_cls ft_code n) /\
  (forall n, reachable sig [1%nat] n -> assemblable sig sig_cls pt_code n) /\
  (forall n, reachable sig [0%nat] n -> ~ reachable sig [1%nat] n) /\
  Forall2 (spec_of compile_expr sig sig_cls) (nchildren (sig 0)) sig_ft /\
  Forall2 (spec_of compile_expr sig sig_cls) (nchildren (sig 1)) sig_pt /\ NoDup (map fst (sig_ft ++ sig_pt)) /\
  ft_ready 3 sig_ft /\ pt_ready 3 sig_pt /\ numeric sig sig_cls Prop_Booleanizer.ints (in_program sig 0 1).
Proof.
  repeat apply conj; try reflexivity.
  - intros n. do 14 (destruct n as [|n]; [reflexivity|]). reflexivity.
  - intros n. do 14 (destruct n as [|n]; [cbn; first [exact I|eexists; split; [reflexivity|exact I]|repeat constructor]|]). exact I.
  - intros n R. apply sig_reach_ft in R. cbn in R.
    repeat (destruct R as [<-|R]; [cbn; first [exact I|reflexivity|eexists; split; [reflexivity|discriminate]|
      split; [discriminate|lia]|eexists; split; [reflexivity|exact I]|repeat constructor]|]). easy.
  - intros n R. apply sig_reach_pt in R. cbn in R.
    repeat (destruct R as [<-|R]; [cbn; first [exact I|reflexivity|eexists; split; [reflexivity|discriminate]|
      split; [discriminate|lia]|eexists; split; [reflexivity|exact I]|repeat constructor]|]). easy.
  - intros n R1 R2. apply sig_reach_ft in R1. apply sig_reach_pt in R2. cbn in R1, R2.
    repeat (destruct R1 as [<-|R1]; [intuition discriminate|]). easy.
  - constructor; [|constructor]; (split; [reflexivity|]); (split; [cbn; lia|]); eexists; (split; [reflexivity|]).
    apply (means_atomic _ _ 4 0); [reflexivity|lia].
  - constructor; [|constructor]; (split; [reflexivity|]); (split; [cbn; lia|]); eexists; (split; [reflexivity|]).
    apply (means_since _ _ 8 9 10 0 2 (EConst true)); [reflexivity|lia|reflexivity|apply means_const; reflexivity|].
    apply (means_atomic _ _ 10 1); [reflexivity|lia].
  - repeat constructor; cbn; intuition discriminate.
  - unfold ft_ready, sig_ft. constructor; [|constructor]. cbn. repeat split; eauto 10; lia.
  - unfold pt_ready, sig_pt. constructor; [|constructor]. cbn. repeat split; eauto 10; lia.
  - split.
    + intros n R B. apply sig_in in R. cbn in R.
      repeat (destruct R as [<-|R]; [try contradiction B|]); try easy.
      * do 2 eexists. exact sig_x.
      * do 2 eexists. apply (st_signal _ _ Prop_Booleanizer.ints 6 0); leaf.
      * do 2 eexists. apply (st_value _ _ _ 7 (VInt 1)). leaf.
      * do 2 eexists. exact sig_y.
      * do 2 eexists. apply (st_signal _ _ Prop_Booleanizer.ints 12 1); leaf.
      * do 2 eexists. apply (st_value _ _ _ 13 (VInt 3)). leaf.
    + intros n m aid Rn Rm. apply sig_in in Rn. apply sig_in in Rm. cbn in Rn, Rm.
      repeat (destruct Rn as [<-|Rn]; [intros E; try discriminate E; injection E as <-;
        repeat (destruct Rm as [<-|Rm]; [intros E; try discriminate E; reflexivity|]); easy|]). easy.
    + intros n R x0 x. apply sig_in in R. cbn in R.
      repeat (destruct R as [<-|R]; [intros C; try discriminate C; intros E; cbn in E; injection E as <- <-; discriminate|]). easy.
Qed.
Definition sig_inputs (t : nat) (k : Z) : value :=
  VInt (nth t (if k =? 0 then [0; 2; 5; 1; 3] else [4; 0; 3; 0; 9]) 0).
Definition sig_reports : list verdict * list verdict :=
  ([(false, 0); (true, 1); (true, 2); (false, 3); (true, 4)], [(true, 0); (true, 2); (false, 3); (true, 4); (true, 6)])%nat.
Example C39_sections_signals :
  match gen_assembly 100 sig sig_cls (fun _ => 0) (fun _ => 0) 3 0 1 with
  | Some asm =>
      match assemble_binary asm [] with
      | Some bytes =>
          (match load bytes, boot bytes with
           | Some acts, Some (prog, confs) =>
               match bz_rows Prop_Booleanizer.no_floats (fst (bz_load acts)) (snd (bz_load acts)) sig_inputs 5 with
               | Some rs => option_map (fun m => (reports 0 m, reports 1 m)) (@run C_monitor 30 rs prog (@init C_monitor prog confs))
               | None => None
               end
           | _, _ => None
           end,
           match rust_load bytes, rust_boot bytes with
           | Some acts, Some (prog, confs) =>
               match rust_bz_rows Prop_Booleanizer.no_floats (fun _ _ => false) acts sig_inputs 5 with
               | Some rs =>
                   match RustEngine.rust_run 30 rs prog (rust_init prog confs) with
                   | Finished m => Some (reports 0 m, reports 1 m)
                   | _ => None
                   end
               | None => None
               end
           | _, _ => None
           end)
      | None => (None, None)
      end
  | None => (None, None)
  end = (Some sig_reports, Some sig_reports).
Proof. vm_compute. reflexivity. Qed.
