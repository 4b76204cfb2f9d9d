(** * From formulas to reports: C39

    [specs] lists the report numbers and MLTL formulas of the future-time
    section.  Node [f] of the graph carries the formula after the rewrite,
    desugaring and binarisation passes ([compile_expr]); then come common
    subexpression elimination, assembly, packing, the loader ([boot]) and the
    engine ([run]).  [wpd_of] and [bpd_of] are the delays the compiler uses for
    sizing queues on top of the constant [const]; they can be anything. *)
From Coq Require Import List Arith ZArith Bool Ascii Lia.
Require Import Verif.Mltl Verif.MltlShape Verif.Transform Verif.Pipeline Verif.Graph Verif.GraphSpec.
Require Import Verif.Binary Verif.BinarySpec Verif.Assembly Verif.Layout Verif.AssemblySpec Verif.LayoutSpec.
Require Import Verif.Scq Verif.Engine Verif.Monitoring Verif.EndToEnd Verif.EndToEndProofs.
Import ListNotations.
Local Existing Instance C_monitor.
Local Open Scope Z_scope.

(** C39: every formula's reports are in order, true of the source formula, and
    arrive within the compiler's worst-case delay. *)
Theorem C39_end_to_end h T cls wpd_of bpd_of const ft pt specs aux :
  denotes h T -> well_shaped h -> nkind (h ft) = KSet -> nkind (h pt) = KSet ->
  named_apart h cls -> cls ft = CSet -> cls pt = CSet -> nchildren (h pt) = [] ->
  tl_shaped h cls -> (forall n, reachable h [ft] n -> assemblable h cls ft_code n) ->
  Forall2 (spec_of compile_expr h cls) (nchildren (h ft)) specs -> NoDup (map fst specs) ->
  Forall (fun s => legal (snd s) /\ all_nodes rewrite_source_op (snd s) /\
                   monitorable (compile_expr (snd s)) /\ wpd (compile_expr (snd s)) < const) specs ->
  0 <= const ->
  exists depth0, forall depth, (depth0 <= depth)%nat -> exists fuel0 h' asm,
    (forall fuel, (fuel0 <= fuel)%nat -> optimize_cse depth fuel h ft pt = Some h' /\
                                         gen_assembly fuel h' cls wpd_of bpd_of const ft pt = Some asm) /\
    forall bytes, Forall fits asm -> arena_slots asm < 2 ^ 32 -> assemble_binary asm aux = Some bytes ->
    exists prog confs passes0, boot bytes = Some (prog, confs) /\
      forall tr n passes, (passes0 <= passes)%nat ->
      exists m, run passes (rows tr n) prog (init prog confs) = Some m /\
        forall num e, In (num, e) specs ->
          increasing (reports (Z.to_nat num) m) /\
          (forall t b, reported (reports (Z.to_nat num) m) t b -> (b = true <-> sat tr e t) /\ (t < n)%nat) /\
          (forall t, Z.of_nat t + wpd (compile_expr e) < Z.of_nat n -> exists b, reported (reports (Z.to_nat num) m) t b).
Proof. exact (end_to_end h T cls wpd_of bpd_of const ft pt specs aux). Qed.
Print Assumptions C39_end_to_end.

(** Formulas without constants are monitorable after compilation. *)
Theorem C39_constant_free e : all_nodes simple_op e -> monitorable (compile_expr e).
Proof. exact (compiled_monitorable e). Qed.
Print Assumptions C39_constant_free.

(** Formulas 0: F[0,2] (a && b), 1: !(a && b); the conjunction occurs twice in
    the graph, nodes 7 and 8. *)
Local Open Scope char_scope.
Definition e2e (n : nat) : node :=
  match n with
  | 0%nat => Node KSet ["S"] [2; 3]%nat
  | 1%nat => Node KSet ["P"] []
  | 2%nat => Node KFormula ["f"] [4]%nat
  | 3%nat => Node KFormula ["g"] [5]%nat
  | 4%nat => Node KOp ["U"] [6; 7]%nat
  | 5%nat => Node KOp ["!"] [8]%nat
  | 7%nat => Node KOp ["&"] [9; 10]%nat
  | 8%nat => Node KOp ["&"] [11; 12]%nat
  | 9%nat | 11%nat => Node KLeaf ["a"] []
  | 10%nat | 12%nat => Node KLeaf ["b"] []
  | _ => Node KLeaf ["t"] []
  end.
Definition e2e_class (s : list ascii) : nclass :=
  match s with
  | ["S"] | ["P"] => CSet
  | ["f"] => CFormula 0
  | ["g"] => CFormula 1
  | ["U"] => CTemporal OpUntil 0 2
  | ["!"] => COp OpNot
  | ["&"] => COp OpAnd
  | ["a"] => CSignal 0
  | ["b"] => CSignal 1
  | _ => CBool true
  end.
Definition e2e_cls (n : nat) : nclass := e2e_class (nsym (e2e n)).
Fixpoint e2e_tree (fuel n : nat) : tree :=
  match fuel with
  | O => Tree (nkind (e2e n)) (nsym (e2e n)) []
  | S fuel => Tree (nkind (e2e n)) (nsym (e2e n)) (map (e2e_tree fuel) (nchildren (e2e n)))
  end.
Definition e2e_specs : list (Z * expr) :=
  [(0%Z, EF 0 2 (EAnd [EAtom 0; EAtom 1])); (1%Z, ENot (EAnd [EAtom 0; EAtom 1]))].
Lemma e2e_reach n : reachable e2e [0%nat] n -> In n (0 :: seq 2 11)%nat.
Proof.
  induction 1 as [n H|n c H IH Hc]; [destruct H as [<-|[]]; cbn; auto|].
  cbn in IH. repeat (destruct IH as [<-|IH]; [cbn in Hc; cbn; intuition|]). easy.
Qed.
Example C39_hypotheses :
  denotes e2e (e2e_tree 5) /\ well_shaped e2e /\ nkind (e2e 0) = KSet /\ nkind (e2e 1) = KSet /\
  named_apart e2e e2e_cls /\ e2e_cls 0 = CSet /\ e2e_cls 1 = CSet /\ nchildren (e2e 1) = [] /\
  tl_shaped e2e e2e_cls /\ (forall n, reachable e2e [0%nat] n -> assemblable e2e e2e_cls ft_code n) /\
  Forall2 (spec_of compile_expr e2e e2e_cls) (nchildren (e2e 0)) e2e_specs /\ NoDup (map fst e2e_specs) /\
  Forall (fun s => legal (snd s) /\ all_nodes rewrite_source_op (snd s) /\
                   monitorable (compile_expr (snd s)) /\ wpd (compile_expr (snd s)) < 3)%Z e2e_specs.
Proof.
  assert (And : forall n x y, e2e_cls n = COp OpAnd -> nchildren (e2e n) = [x; y] ->
            e2e_cls x = CSignal 0 -> e2e_cls y = CSignal 1 -> means e2e e2e_cls n (EAnd [EAtom 0; EAtom 1])).
  { intros n x y Hn Hc Hx Hy. eapply means_and; [exact Hn|exact Hc| |].
    - apply (means_signal _ _ x 0); [exact Hx|lia].
    - apply (means_signal _ _ y 1); [exact Hy|lia]. }
  repeat apply conj; try reflexivity.
  - intros n. do 13 (destruct n as [|n]; [reflexivity|]). reflexivity.
  - intros n. split.
    + do 13 (destruct n as [|n]; [split; [discriminate|repeat constructor; discriminate]|]).
      split; [discriminate|repeat constructor; discriminate].
    + do 13 (destruct n as [|n]; [cbn; first [reflexivity|eexists; split; [reflexivity|right; reflexivity]
               |split; [discriminate|]; repeat constructor
               |repeat constructor]|]); try reflexivity.
      all: repeat (first [left; reflexivity|right; reflexivity|constructor]).
  - intros n m _ E. unfold e2e_cls. rewrite E. reflexivity.
  - intros n. do 13 (destruct n as [|n]; [cbn; first [exact I|eexists; split; [reflexivity|exact I]|repeat constructor]|]). exact I.
  - intros n H. apply e2e_reach in H. cbn in H.
    repeat (destruct H as [<-|H]; [cbn; first [exact I|reflexivity|eexists; split; [reflexivity|discriminate]|split; [discriminate|lia]]|]). easy.
  - constructor; [|constructor; [|constructor]]; (split; [reflexivity|]); (split; [cbn; lia|]); eexists; (split; [reflexivity|]).
    + apply (means_until _ _ 4 6 7 0 2 (EConst true)); [reflexivity|lia|reflexivity|apply means_const; reflexivity|].
      apply (And 7%nat 9%nat 10%nat); reflexivity.
    + apply (means_not _ _ 5 8); [reflexivity|reflexivity|]. apply (And 8%nat 11%nat 12%nat); reflexivity.
  - repeat constructor; cbn; intuition discriminate.
  - repeat constructor; cbn; eauto 10; lia.
Qed.
(** The whole chain on that graph: nodes 8, 11 and 12 disappear, and six rows
    give these reports. *)
Definition e2e_bytes : option (list Z) :=
  match optimize_cse 20 200 e2e 0 1 with
  | Some h => match gen_assembly 200 h e2e_cls (fun _ => 0%Z) (fun _ => 0%Z) 3 0 1 with
              | Some asm => assemble_binary asm []
              | None => None
              end
  | None => None
  end.
Definition e2e_trace (t a : nat) : bool := match a with O => negb (t =? 1)%nat | _ => (3 <=? t)%nat end.
Example C39_case :
  option_map (fun asm => (length (temporal_part asm), arena_slots asm))
    (match optimize_cse 20 200 e2e 0 1 with
     | Some h => gen_assembly 200 h e2e_cls (fun _ => 0%Z) (fun _ => 0%Z) 3 0 1 | None => None end) = Some (7%nat, 32%Z) /\
  match e2e_bytes with
  | Some bytes =>
      match boot bytes with
      | Some (prog, confs) =>
          option_map (fun m => (reports 0 m, reports 1 m)) (run 20 (rows e2e_trace 6) prog (init prog confs))
      | None => None
      end
  | None => None
  end = Some ([(false, 0); (true, 3); (true, 4); (true, 5)]%nat,
              [(true, 0); (true, 1); (true, 2); (false, 3); (false, 4); (false, 5)]%nat).
Proof. split; vm_compute; reflexivity. Qed.
