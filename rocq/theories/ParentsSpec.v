(** * When the recorded parents can be relied on (specification) *)
From Coq Require Import List Arith Ascii.
Require Import Verif.Graph Verif.GraphSpec Verif.Parents.
Import ListNotations.
Local Open Scope nat_scope.

(** Every object of the program (whatever is below [roots]) is recorded as a
    parent by each of its operands. *)
Definition complete (roots : list nat) (g : graph) : Prop :=
  forall p c, reachable (fst g) roots p -> In c (nchildren (fst g p)) -> In p (snd g c).
(** Nothing else is recorded. *)
Definition only_users (roots : list nat) (g : graph) : Prop :=
  forall p c, reachable (fst g) roots c -> In p (snd g c) -> reachable (fst g) roots p /\ In c (nchildren (fst g p)).

(** The ways in which the passes change the graph: constructing an object over
    existing ones, replacing one object by another, dropping references.  [roots]
    also lists the objects a pass still holds on to. *)
Inductive edited : list nat -> graph -> list nat -> graph -> Prop :=
| ed_none roots g : edited roots g roots g
| ed_construct roots g id k s cs roots' g' :
    ~ reachable (fst g) roots id -> Forall (reachable (fst g) roots) cs ->
    edited (id :: roots) (construct id k s cs g) roots' g' -> edited roots g roots' g'
| ed_replace roots g old new roots' g' :
    reachable (fst g) roots new ->
    edited (without old roots) (replace old new g) roots' g' -> edited roots g roots' g'
| ed_drop roots g kept roots' g' :
    incl kept roots -> edited kept g roots' g' -> edited roots g roots' g'.

(** The atomics named by the leaves of an expression. *)
Fixpoint atomics_of (atomic : list ascii -> option nat) (t : tree) : list nat :=
  match t with
  | Tree k s args =>
      match k, atomic s with KLeaf, Some x => [x] | _, _ => [] end ++ flat_map (atomics_of atomic) args
  end.
(** The program without what is below formula [f]. *)
Definition rest (f : nat) (h : heap) : heap :=
  fun n => if n =? f then Node (nkind (h n)) (nsym (h n)) [] else h n.
