(** * C40: worst-case execution time *)
From Coq Require Import List Arith ZArith Bool Ascii Lia.
Require Import Verif.Graph Verif.GraphSpec Verif.Binary Verif.Assembly Verif.AssemblySpec.
Require Import Verif.Wcet Verif.WcetSpec Verif.WcetProofs.
Import ListNotations.
Local Open Scope Z_scope.

(** Full statement: [clk * cpu_wcet] is the sum of the latencies of the executed
    instructions, and more specifications never lower it.  The sum holds for a
    clock of 1 and a table with every operator; in general every instruction is
    rounded down separately, so the estimate may be too low by up to
    [clk - 1] for each instruction, and never too high. *)
Theorem C40_sum_exact table lat nft asm : covers table lat (executed nft asm) ->
  cpu_wcet table 1 nft asm = sum (map lat (executed nft asm)).
Proof. exact (covers_exact table lat nft asm). Qed.
Print Assumptions C40_sum_exact.
Theorem C40_sum_bounds table lat clk nft asm : 0 < clk -> covers table lat (executed nft asm) ->
  (forall o, In o (executed nft asm) -> 0 <= lat o) ->
  clk * cpu_wcet table clk nft asm <= sum (map lat (executed nft asm)) <=
  clk * cpu_wcet table clk nft asm + Z.of_nat (length (executed nft asm)) * (clk - 1).
Proof. exact (wcet_bounds table lat clk nft asm). Qed.
Print Assumptions C40_sum_bounds.

(** With the default table (10 for every operator) and a clock of 11 any program
    takes no time. *)
Theorem C40_rounding_refuted : exists table lat clk nft asm, 0 < clk /\ covers table lat (executed nft asm) /\
  0 < sum (map lat (executed nft asm)) /\ cpu_wcet table clk nft asm = 0 /\
  10 * clk < sum (map lat (executed nft asm)).
Proof.
  exists (fun _ => Some 10), (fun _ => 10), 11, 20%nat, (repeat (ITl (TlInstruction 29 0 0 3 0 0)) 20).
  split; [lia|]. split; [intros o _; reflexivity|]. vm_compute. auto.
Qed.
Print Assumptions C40_rounding_refuted.

(** Adding formulas to a program: [ft'] and [pt'] contain the formulas of [ft]
    and [pt], and possibly more. *)
Theorem C40_monotone h T cls wpd bpd const ft pt ft' pt' table lat clk nft nft' :
  denotes h T -> tl_shaped h cls ->
  cls ft = CSet -> cls pt = CSet ->
  incl (nchildren (h ft)) (nchildren (h ft')) -> incl (nchildren (h pt)) (nchildren (h pt')) ->
  legal_program h cls ft pt -> legal_program h cls ft' pt' ->
  0 < clk -> (forall o, 0 <= lat o) -> future_count h cls ft nft -> future_count h cls ft' nft' ->
  exists fuel0 asm asm',
    (forall fuel, (fuel0 <= fuel)%nat -> gen_assembly fuel h cls wpd bpd const ft pt = Some asm) /\
    (forall fuel, (fuel0 <= fuel)%nat -> gen_assembly fuel h cls wpd bpd const ft' pt' = Some asm') /\
    (covers table lat (executed nft' asm') ->
     0 <= cpu_wcet table clk nft asm <= cpu_wcet table clk nft' asm').
Proof. exact (wcet_monotone h T cls wpd bpd const ft pt ft' pt' table lat clk nft nft'). Qed.
Print Assumptions C40_monotone.

(** Without a complete table it fails: one unknown operator makes the estimate 0. *)
Theorem C40_missing_operator table clk nft asm o :
  In o (executed nft asm) -> table o = None -> cpu_wcet table clk nft asm = 0.
Proof. exact (wcet_missing table clk nft asm o). Qed.
Print Assumptions C40_missing_operator.

(** ** Examples *)
(** Formula 2 is [a && (x == 3)]; set 10 adds the formula 11, [(x == 3) U[0,4] (a && (x == 3))]. *)
Definition wg (n : nat) : node :=
  let s := [ascii_of_nat (97 + n)] in
  match n with
  | 0%nat => Node KSet s [2%nat]
  | 2%nat => Node KFormula s [3%nat]
  | 3%nat => Node KOp s [5%nat; 4%nat]
  | 4%nat => Node KOp s [7%nat]
  | 7%nat => Node KOp s [8%nat; 9%nat]
  | 10%nat => Node KSet s [2%nat; 11%nat]
  | 11%nat => Node KFormula s [12%nat]
  | 12%nat => Node KOp s [4%nat; 3%nat]
  | _ => Node KLeaf s []
  end.
Definition wg_cls (n : nat) : nclass :=
  match n with
  | 0%nat | 1%nat | 10%nat => CSet
  | 2%nat => CFormula 0
  | 3%nat => COp OpAnd
  | 4%nat => CAtomic 0
  | 5%nat => CSignal 1
  | 7%nat => Assembly.CBz 13
  | 8%nat => CBzLoad 1 0
  | 9%nat => CBzConst 3 (BzInt 3)
  | 11%nat => CFormula 1
  | 12%nat => CTemporal OpUntil 0 4
  | _ => CBool true
  end.
Fixpoint wg_tree (fuel n : nat) : tree :=
  match fuel with
  | O => Tree (nkind (wg n)) (nsym (wg n)) []
  | S fuel => Tree (nkind (wg n)) (nsym (wg n)) (map (wg_tree fuel) (nchildren (wg n)))
  end.
Lemma wg_reach n : reachable wg [0%nat] n -> In n [0; 2; 3; 4; 5; 7; 8; 9]%nat.
Proof.
  induction 1 as [n H|n c H IH Hc]; [destruct H as [<-|[]]; cbn; auto|].
  cbn in IH. repeat (destruct IH as [<-|IH]; [cbn in Hc; cbn; intuition|]). easy.
Qed.
Lemma wg_reach_more n : reachable wg [10%nat] n -> In n [10; 11; 12; 2; 3; 4; 5; 7; 8; 9]%nat.
Proof.
  induction 1 as [n H|n c H IH Hc]; [destruct H as [<-|[]]; cbn; auto|].
  cbn in IH. repeat (destruct IH as [<-|IH]; [cbn in Hc; cbn; intuition|]). easy.
Qed.
Lemma wg_reach_pt n : reachable wg [1%nat] n -> n = 1%nat.
Proof. induction 1 as [n H|n c H IH Hc]; [destruct H as [<-|[]]; reflexivity|]. subst. destruct Hc. Qed.
Ltac node := cbn; first [exact I|reflexivity|eexists; split; [reflexivity|first [discriminate|exact I]]
                        |split; [discriminate|lia]|repeat constructor].
Example C40_monotone_case :
  denotes wg (wg_tree 8) /\ tl_shaped wg wg_cls /\ legal_program wg wg_cls 0 1 /\ legal_program wg wg_cls 10 1 /\
  incl (nchildren (wg 0)) (nchildren (wg 10)) /\ future_count wg wg_cls 0 4 /\ future_count wg wg_cls 10 6.
Proof.
  split; [intros n; do 13 (destruct n as [|n]; [reflexivity|]); reflexivity|].
  split; [intros n; do 13 (destruct n as [|n]; [node|]); exact I|].
  split; [|split; [|split; [|split]]].
  - repeat split.
    + intros n H. apply wg_reach in H. cbn in H. repeat (destruct H as [<-|H]; [node|]). easy.
    + intros n H. apply wg_reach_pt in H as ->. exact I.
    + apply wg_reach_pt in H0 as ->. reflexivity.
    + apply wg_reach_pt in H0 as ->. discriminate.
  - repeat split.
    + intros n H. apply wg_reach_more in H. cbn in H. repeat (destruct H as [<-|H]; [node|]). easy.
    + intros n H. apply wg_reach_pt in H as ->. exact I.
    + apply wg_reach_pt in H0 as ->. reflexivity.
    + apply wg_reach_pt in H0 as ->. discriminate.
  - intros c H. cbn in *. intuition.
  - assert (R2 : reachable wg [0%nat] 2) by (eapply reach_child; [apply reach_start; left; reflexivity|left; reflexivity]).
    assert (R3 : reachable wg [0%nat] 3) by (eapply reach_child; [exact R2|left; reflexivity]).
    assert (R4 : reachable wg [0%nat] 4) by (eapply reach_child; [exact R3|right; left; reflexivity]).
    assert (R5 : reachable wg [0%nat] 5) by (eapply reach_child; [exact R3|left; reflexivity]).
    exists [2; 3; 4; 5]%nat. split; [repeat constructor; cbn; intuition discriminate|]. split; [|reflexivity].
    intros n; split.
    + intros H. cbn in H. repeat (destruct H as [<-|H]; [split; [assumption|reflexivity]|]). easy.
    + intros [H O]. apply wg_reach in H. cbn in H. repeat (destruct H as [<-|H]; [cbn in O; try discriminate; cbn; auto|]). easy.
  - assert (R2 : reachable wg [10%nat] 2) by (eapply reach_child; [apply reach_start; left; reflexivity|left; reflexivity]).
    assert (R11 : reachable wg [10%nat] 11) by (eapply reach_child; [apply reach_start; left; reflexivity|right; left; reflexivity]).
    assert (R12 : reachable wg [10%nat] 12) by (eapply reach_child; [exact R11|left; reflexivity]).
    assert (R3 : reachable wg [10%nat] 3) by (eapply reach_child; [exact R2|left; reflexivity]).
    assert (R4 : reachable wg [10%nat] 4) by (eapply reach_child; [exact R3|right; left; reflexivity]).
    assert (R5 : reachable wg [10%nat] 5) by (eapply reach_child; [exact R3|left; reflexivity]).
    exists [2; 3; 4; 5; 11; 12]%nat. split; [repeat constructor; cbn; intuition discriminate|]. split; [|reflexivity].
    intros n; split.
    + intros H. cbn in H. repeat (destruct H as [<-|H]; [split; [assumption|reflexivity]|]). easy.
    + intros [H O]. apply wg_reach_more in H. cbn in H. repeat (destruct H as [<-|H]; [cbn in O; try discriminate; cbn; auto 10|]). easy.
Qed.
Example C40_case :
  option_map (cpu_wcet (fun _ => Some 10) 3 4) (gen_assembly 100 wg wg_cls (fun _ => 0) (fun _ => 0) 0 0 1) = Some 24 /\
  option_map (cpu_wcet (fun _ => Some 10) 3 6) (gen_assembly 100 wg wg_cls (fun _ => 0) (fun _ => 0) 0 10 1) = Some 30.
Proof. vm_compute. auto. Qed.
