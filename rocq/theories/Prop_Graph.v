(** * C15: traversal order; C06: common-subexpression elimination *)
From Coq Require Import List Arith Ascii.
Require Import Verif.Graph Verif.GraphSpec Verif.GraphProofs Verif.CseProofs.
Import ListNotations.

(** The traversal ends, yields exactly the reachable nodes, each once, and
    every node after all its operands. *)
Theorem C15_postorder : forall h T starts, denotes h T ->
  exists fuel0 out, (forall fuel, fuel0 <= fuel -> postorder fuel h starts = Some out) /\
    NoDup out /\ (forall n, In n out <-> reachable h starts n) /\
    (forall l1 n l2, out = l1 ++ n :: l2 -> forall c, In c (nchildren (h n)) -> In c l1).
Proof. exact postorder_correct. Qed.
Print Assumptions C15_postorder.

(** The pass ends; afterwards every node denotes the expression it denoted
    before, and no two nodes below one specification set denote the same one. *)
Theorem C06_cse : forall T h ft pt,
  denotes h T -> well_shaped h -> nkind (h ft) = KSet -> nkind (h pt) = KSet ->
  exists depth0, forall depth, depth0 <= depth -> exists fuel0 h',
    (forall fuel, fuel0 <= fuel -> optimize_cse depth fuel h ft pt = Some h') /\
    denotes h' T /\
    (forall n m, reachable h' [ft] n -> reachable h' [ft] m -> T n = T m -> n = m) /\
    (forall n m, reachable h' [pt] n -> reachable h' [pt] m -> T n = T m -> n = m).
Proof. exact optimize_cse_correct. Qed.
Print Assumptions C06_cse.

(** [f: (a && b) || (a && b)] as a tree, 0 = future set, 1 = past set. *)
Definition demo_sym (n : nat) : list ascii := [ascii_of_nat (97 + n)].
Definition demo (n : nat) : node :=
  match n with
  | 0 => Node KSet (demo_sym 0) [2]
  | 1 => Node KSet (demo_sym 0) []
  | 2 => Node KFormula (demo_sym 5) [3]
  | 3 => Node KOp (demo_sym 9) [4; 5]
  | 4 => Node KOp (demo_sym 8) [6; 7]
  | 5 => Node KOp (demo_sym 8) [8; 9]
  | 6 | 8 => Node KLeaf (demo_sym 0) []
  | 7 | 9 => Node KLeaf (demo_sym 1) []
  | _ => Node KLeaf (demo_sym 25) []
  end.
Definition demo_tree (n : nat) : tree :=
  let leaf k := Tree KLeaf (demo_sym k) [] in
  let conj := Tree KOp (demo_sym 8) [leaf 0; leaf 1] in
  let disj := Tree KOp (demo_sym 9) [conj; conj] in
  match n with
  | 0 => Tree KSet (demo_sym 0) [Tree KFormula (demo_sym 5) [disj]]
  | 1 => Tree KSet (demo_sym 0) []
  | 2 => Tree KFormula (demo_sym 5) [disj]
  | 3 => disj
  | 4 | 5 => conj
  | 6 | 8 => leaf 0
  | 7 | 9 => leaf 1
  | _ => leaf 25
  end.
Example C15_case : denotes demo demo_tree /\
  postorder 100 demo [2] = Some [6; 7; 4; 8; 9; 5; 3; 2].
Proof. split; [|reflexivity]. intros n. do 10 (destruct n as [|n]; [reflexivity|]). reflexivity. Qed.
Example C06_case : well_shaped demo /\
  option_map (fun h => map (fun n => nchildren (h n)) [2; 3; 4]) (optimize_cse 20 100 demo 0 1)
  = Some [[3]; [4; 4]; [6; 7]].
Proof.
  split; [|vm_compute; reflexivity].
  intros n. split.
  - do 10 (destruct n as [|n]; [split; [discriminate|repeat constructor; discriminate]|]).
    split; [discriminate|repeat constructor; discriminate].
  - do 10 (destruct n as [|n];
      [cbn; unfold is_expr; repeat split; try discriminate; repeat constructor; eauto; try (eexists; split; [reflexivity|right; reflexivity])|]).
    reflexivity.
Qed.
