(** * C16: assembled programs; C19: queue memory; C20: bounds *)
From Coq Require Import List Arith ZArith Bool Ascii Lia.
Require Import Verif.Graph Verif.GraphSpec Verif.Binary Verif.BinarySpec Verif.Assembly Verif.AssemblySpec.
Require Import Verif.AssembleTotal Verif.Layout Verif.LayoutSpec Verif.BootProofs Verif.Bounds Verif.BoundsProofs.
Require Verif.Scq Verif.Engine Verif.Monitoring Verif.MonitorCheck.
Import ListNotations.
Local Existing Instance Verif.Scq.C_monitor.
Local Open Scope Z_scope.

(** C16: on a program graph whose nodes the assembler has encodings for, and
    whose future-time and past-time parts share no computed node, assembly
    succeeds and is well-formed (AssemblySpec.v); instructions are exactly the
    nodes to be computed, the future-time ones first. *)
Theorem C16_assembly_well_formed h T cls wpd bpd const ft pt :
  denotes h T -> tl_shaped h cls ->
  (forall n, reachable h [ft] n -> assemblable h cls ft_code n) ->
  (forall n, reachable h [pt] n -> assemblable h cls pt_code n) ->
  (forall n, reachable h [ft] n -> reachable h [pt] n -> owns (cls n) = false) ->
  exists fuel0 nodes nft owners asm,
    (forall fuel, (fuel0 <= fuel)%nat -> gen_assembly fuel h cls wpd bpd const ft pt = Some asm) /\
    (forall n, In n nodes <-> reachable h [ft] n \/ reachable h [pt] n) /\
    (forall n, In n (firstn nft owners) <-> reachable h [ft] n /\ owns (cls n) = true) /\
    (forall n, In n (skipn nft owners) <-> reachable h [pt] n /\ owns (cls n) = true) /\
    well_formed h cls (scq_size h cls wpd bpd const nodes) nft owners asm.
Proof. exact (assembly_correct h T cls wpd bpd const ft pt). Qed.

(** A future formula (a U[0,2] (b && a)) and a past formula (!a): nodes 0 and 1
    are the specification sets. *)
Definition sym (n : nat) : list ascii := [ascii_of_nat (97 + n)].
Definition demo (n : nat) : node :=
  match n with
  | 0%nat => Node KSet (sym 0) [2%nat]
  | 1%nat => Node KSet (sym 1) [7%nat]
  | 2%nat => Node KFormula (sym 2) [3%nat]
  | 3%nat => Node KOp (sym 3) [4%nat; 5%nat]
  | 5%nat => Node KOp (sym 4) [6%nat; 4%nat]
  | 7%nat => Node KFormula (sym 5) [8%nat]
  | 8%nat => Node KOp (sym 6) [9%nat]
  | _ => Node KLeaf (sym n) []
  end.
Definition demo_cls (n : nat) : nclass :=
  match n with
  | 0%nat | 1%nat => CSet
  | 2%nat => CFormula 0
  | 3%nat => CTemporal OpUntil 0 2
  | 4%nat | 9%nat => CSignal 0
  | 5%nat => COp OpAnd
  | 6%nat => CSignal 1
  | 7%nat => CFormula 1
  | 8%nat => COp OpNot
  | _ => CBool true
  end.
Fixpoint demo_tree (fuel n : nat) : tree :=
  match fuel with
  | O => Tree (nkind (demo n)) (nsym (demo n)) []
  | S fuel => Tree (nkind (demo n)) (nsym (demo n)) (map (demo_tree fuel) (nchildren (demo n)))
  end.
Example demo_denotes : denotes demo (demo_tree 5).
Proof. intros n. do 10 (destruct n as [|n]; [reflexivity|]). reflexivity. Qed.
Example demo_shaped : tl_shaped demo demo_cls.
Proof.
  intros n. do 10 (destruct n as [|n]; [cbn; first [exact I|eexists; split; [reflexivity|exact I]|repeat constructor]|]). exact I.
Qed.
Lemma demo_reach_ft n : reachable demo [0%nat] n -> In n [0; 2; 3; 4; 5; 6]%nat.
Proof.
  induction 1 as [n H|n c H IH Hc]; [destruct H as [<-|[]]; cbn; auto|].
  cbn in IH. repeat (destruct IH as [<-|IH]; [cbn in Hc; cbn; intuition|]). easy.
Qed.
Lemma demo_reach_pt n : reachable demo [1%nat] n -> In n [1; 7; 8; 9]%nat.
Proof.
  induction 1 as [n H|n c H IH Hc]; [destruct H as [<-|[]]; cbn; auto|].
  cbn in IH. repeat (destruct IH as [<-|IH]; [cbn in Hc; cbn; intuition|]). easy.
Qed.
Example demo_hypotheses :
  (forall n, reachable demo [0%nat] n -> assemblable demo demo_cls ft_code n) /\
  (forall n, reachable demo [1%nat] n -> assemblable demo demo_cls pt_code n) /\
  (forall n, reachable demo [0%nat] n -> reachable demo [1%nat] n -> owns (demo_cls n) = false).
Proof.
  split; [|split].
  - intros n H. apply demo_reach_ft in H. cbn in H.
    repeat (destruct H as [<-|H]; [cbn; first [exact I|reflexivity|eexists; split; [reflexivity|discriminate]|split; [discriminate|lia]]|]). easy.
  - intros n H. apply demo_reach_pt in H. cbn in H.
    repeat (destruct H as [<-|H]; [cbn; first [exact I|reflexivity|eexists; split; [reflexivity|discriminate]|split; [discriminate|lia]]|]). easy.
  - intros n H1 H2. apply demo_reach_ft in H1. apply demo_reach_pt in H2. cbn in *. intuition (subst; try discriminate; auto).
Qed.
Definition demo_wpd (n : nat) : Z := match n with 3%nat => 2 | _ => 0 end.
Definition demo_asm : list instruction :=
  [ ITl (TlInstruction 29 0 0 3 0 0); ITl (TlInstruction 29 0 1 3 0 1); ITl (TlInstruction 22 2 1 2 0 2);
    ITl (TlInstruction 25 2 0 2 2 3); ITl (TlInstruction 28 2 3 1 0 4);
    ITl (TlInstruction 29 0 0 3 0 5); ITl (TlInstruction 23 2 5 3 0 6); ITl (TlInstruction 28 2 6 1 1 7);
    ICg (TlInstruction 30 0 4 3 0 0); ICg (TlInstruction 30 0 4 3 0 1); ICg (TlInstruction 30 0 4 3 0 2);
    ICg (TlInstruction 30 0 4 0 0 3); ICg (TlInstruction 30 0 4 3 0 4); ICg (TlInstruction 30 0 4 3 0 5);
    ICg (TlInstruction 30 0 4 3 0 6); ICg (TlInstruction 30 0 4 3 0 7); ICg (TlInstruction 30 2 0 2 2 3) ].
Example C16_case : gen_assembly 100 demo demo_cls demo_wpd (fun _ => 0) 3 0 1 = Some demo_asm.
Proof. vm_compute. reflexivity. Qed.

(** C16 fails when a past formula and a future formula share a node (through a
    definition): some instruction's queue is never configured. *)
Definition shared (n : nat) : node :=
  match n with
  | 0%nat => Node KSet (sym 0) [2%nat]
  | 1%nat => Node KSet (sym 1) [3%nat]
  | 2%nat => Node KFormula (sym 2) [4%nat]
  | 3%nat => Node KFormula (sym 3) [4%nat]
  | _ => Node KLeaf (sym n) []
  end.
Definition shared_cls (n : nat) : nclass :=
  match n with 0%nat | 1%nat => CSet | 2%nat => CFormula 0 | 3%nat => CFormula 1 | _ => CSignal 0 end.
Theorem C16_shared_node_refuted :
  exists h T cls wpd bpd const ft pt fuel asm,
    denotes h T /\ tl_shaped h cls /\
    (forall n, assemblable h cls ft_code n /\ assemblable h cls pt_code n) /\
    gen_assembly fuel h cls wpd bpd const ft pt = Some asm /\
    exists i, In i (temporal_part asm) /\ forall c, In c (config_part asm) -> tl_id c <> tl_id i.
Proof.
  exists shared, (fun n => match n with
    | 0%nat => Tree KSet (sym 0) [Tree KFormula (sym 2) [Tree KLeaf (sym 4) []]]
    | 1%nat => Tree KSet (sym 1) [Tree KFormula (sym 3) [Tree KLeaf (sym 4) []]]
    | 2%nat => Tree KFormula (sym 2) [Tree KLeaf (sym 4) []]
    | 3%nat => Tree KFormula (sym 3) [Tree KLeaf (sym 4) []]
    | _ => Tree KLeaf (sym n) [] end), shared_cls, (fun _ => 0), (fun _ => 0), 0, 0%nat, 1%nat, 50%nat.
  eexists. split; [|split; [|split; [|split; [vm_compute; reflexivity|]]]].
  - intros n. do 4 (destruct n as [|n]; [reflexivity|]). reflexivity.
  - intros n. do 4 (destruct n as [|n]; [cbn; first [exact I|eexists; split; [reflexivity|exact I]]|]). exact I.
  - intros n. do 4 (destruct n as [|n]; [cbn; split; first [exact I|eexists; split; [reflexivity|discriminate]]|]). split; reflexivity.
  - exists (TlInstruction 29 0 0 3 0 0). split; [left; reflexivity|].
    intros c Hc. cbn in Hc. repeat (destruct Hc as [<-|Hc]; [vm_compute; discriminate|]). easy.
Qed.

(** C19: after loading the binary into a fresh monitor, every queue and
    parameter block has its own slots inside the arena of the generated size,
    with the contents the engine expects (LayoutSpec.v). *)
Theorem C19_queue_memory h T cls wpd bpd const ft pt aux :
  denotes h T -> tl_shaped h cls ->
  (forall n, reachable h [ft] n -> assemblable h cls ft_code n) ->
  (forall n, reachable h [pt] n -> assemblable h cls pt_code n) ->
  (forall n, reachable h [ft] n -> reachable h [pt] n -> owns (cls n) = false) ->
  0 <= const ->
  exists fuel0 nodes owners asm,
    (forall fuel, (fuel0 <= fuel)%nat -> gen_assembly fuel h cls wpd bpd const ft pt = Some asm) /\
    (forall n, In n owners <-> (reachable h [ft] n \/ reachable h [pt] n) /\ owns (cls n) = true) /\
    (forall bytes, Forall fits asm -> arena_slots asm < 2 ^ 32 -> assemble_binary asm aux = Some bytes ->
     exists acts, load bytes = Some acts /\
       forall k n, nth_error owners k = Some n ->
         queue_at cls (scq_size h cls wpd bpd const nodes) (arena_slots asm) owners (load_arena acts) k n).
Proof. exact (graph_queues h T cls wpd bpd const ft pt aux). Qed.

Example C19_case : exists bytes,
  Forall fits demo_asm /\ arena_slots demo_asm = 36 /\ assemble_binary demo_asm [] = Some bytes /\
  option_map (fun acts =>
    (map (fun k => let b := a_blocks (load_arena acts) (Z.of_nat k) in (b_queue b, b_length b)) (seq 0 8),
     map (a_mem (load_arena acts)) [12; 13; 16; 17; 18; 19; 20; 21])) (load bytes) =
  Some ([(0, 4); (4, 4); (8, 4); (12, 4); (20, 4); (24, 4); (28, 4); (32, 4)],
        [infinity_word; 0; 0; 0; 0; 2; infinity_word; 0]).
Proof.
  eexists. split; [|split; [reflexivity|split; [vm_compute; reflexivity|vm_compute; reflexivity]]].
  repeat constructor; cbn; unfold word, small; lia.
Qed.

(** C20: instruction identifiers and operand references of a well-formed
    program are below the generated number of instructions. *)
Theorem C20_instruction_bound h cls size nft owners asm :
  well_formed h cls size nft owners asm ->
  forall i, In i (temporal_part asm) ->
    0 <= tl_id i < max_tl asm /\
    (tl_type1 i = type_sub -> 0 <= tl_value1 i < max_tl asm) /\
    (tl_type2 i = type_sub -> 0 <= tl_value2 i < max_tl asm).
Proof. exact (well_formed_bounds h cls size nft owners asm). Qed.

(** C20: with the booleanizer the atomic identifiers are below the generated
    bound, and signal identifiers of a generated map are, too. *)
Theorem C20_booleanizer_atomics nodes a :
  In a (atomic_ids true 0 nodes) -> 0 <= a < max_atomics (atomic_ids true 0 nodes).
Proof. exact (bz_ids_bounded nodes a). Qed.
Theorem C20_generated_signals declared s i : generated_id declared s = Some i -> 0 <= i < max_signals declared.
Proof. exact (generated_bounded declared s i). Qed.
(** Without the booleanizer this needs the identifiers in use to have no gap. *)
Theorem C20_atomics_partial ids :
  (forall a b, In a ids -> 0 <= b <= a -> In b ids) -> forall a, In a ids -> a < max_atomics ids.
Proof. exact (dense_bounded ids). Qed.
Example C20_case :
  atomic_ids true 0 [ASignal 4 true; ABz false; ATl; ABz true; ASignal 7 true] = [0; 1; 2] /\
  atomic_ids false 0 [ASignal 1 true; ASignal 0 true; ATl] = [1; 0] /\ max_atomics [1; 0] = 2.
Proof. repeat split. Qed.

(** C20 is false for atomics without the booleanizer even with a map generated
    by the compiler: of two declared signals the program uses the second. *)
Theorem C20_atomics_refuted :
  exists declared s sid, generated_id declared s = Some sid /\
    In sid (atomic_ids false 0 [ASignal sid true; ATl]) /\
    max_atomics (atomic_ids false 0 [ASignal sid true; ATl]) <= sid.
Proof. exists [0; 1]%nat, 1%nat, 1. split; [reflexivity|]. split; [left; reflexivity|vm_compute; discriminate]. Qed.
(** C20 is false for signals when the map comes from a trace with a column the
    program does not declare. *)
Theorem C20_signals_refuted :
  exists declared columns s sid, In s declared /\ incl declared columns /\ header_id columns s = Some sid /\
    max_signals declared <= sid.
Proof.
  exists [0]%nat, [1; 0]%nat, 0%nat, 1. split; [left; reflexivity|]. split; [intros x [<-|[]]; right; left; reflexivity|].
  split; [reflexivity|vm_compute; discriminate].
Qed.
(** C20 is false for outputs (assemble.py 1164-1168 reserves two per formula):
    [a0 && F[0,5] a1] reports six verdicts in step 5. *)
Section Outputs.
Import Verif.Scq Verif.Engine Verif.Monitoring Verif.MonitorCheck.
Definition out_prog : list instr :=
  [ Instr LOAD (Atomic 0) NotSet 0; Instr LOAD (Atomic 1) NotSet 0; Instr UNTIL (Direct true) (Sub 1) 0;
    Instr AND (Sub 0) (Sub 2) 0; Instr RETURN (Sub 3) NotSet 0 ].
Definition out_confs : list qconf := [ QConf 10 0 0; QConf 10 0 0; QConf 10 0 5; QConf 10 0 0; QConf 4 0 0 ].
Definition out_trace : Mltl.trace := fun i a => match a with O => Nat.even i | _ => (i =? 5)%nat end.
Theorem C20_outputs_refuted :
  exists prog confs tr n m m', ft_program prog confs /\ queues_ample prog confs /\
    length (filter (fun i => match i_op i with RETURN => true | _ => false end) prog) = 1%nat /\
    run 50 (rows tr n) prog (init prog confs) = Some m /\
    step 50 (tr n) prog m = Some m' /\ length (m_out m') = (length (m_out m) + 6)%nat.
Proof.
  exists out_prog, out_confs, out_trace, 5%nat. do 2 eexists.
  split; [apply ft_programb_spec; vm_compute; reflexivity|].
  split; [apply ampleb_spec; vm_compute; reflexivity|].
  split; [reflexivity|]. split; [vm_compute; reflexivity|]. split; [vm_compute; reflexivity|reflexivity].
Qed.
End Outputs.

Print Assumptions C16_assembly_well_formed.
Print Assumptions C16_shared_node_refuted.
Print Assumptions C19_queue_memory.
Print Assumptions C20_instruction_bound.
Print Assumptions C20_booleanizer_atomics.
Print Assumptions C20_generated_signals.
Print Assumptions C20_atomics_partial.
Print Assumptions C20_atomics_refuted.
Print Assumptions C20_signals_refuted.
Print Assumptions C20_outputs_refuted.
