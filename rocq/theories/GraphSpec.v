(** * What a shared graph denotes (specification) *)
From Coq Require Import List Ascii.
Require Import Verif.Graph.
Import ListNotations.

(** The expression a node stands for: its symbol applied to the expressions
    of its operands. *)
Inductive tree := Tree (k : kind) (sym : list ascii) (args : list tree).

(** [T] gives every node of the graph the expression it denotes.  Such a [T]
    exists only if no node is its own descendant. *)
Definition denotes (h : heap) (T : nat -> tree) : Prop :=
  forall n, T n = Tree (nkind (h n)) (nsym (h n)) (map T (nchildren (h n))).

Inductive reachable (h : heap) (starts : list nat) : nat -> Prop :=
| reach_start n : In n starts -> reachable h starts n
| reach_child n c : reachable h starts n -> In c (nchildren (h n)) -> reachable h starts c.

(** Symbols as the lexer and the classes of cpt.py produce them: non-empty,
    without blanks, parentheses or colons. *)
Definition plain (s : list ascii) : Prop :=
  s <> [] /\ Forall (fun c => c <> space /\ c <> lpar /\ c <> rpar /\ c <> colon) s.

(** Shape of a program after desugaring: a set of formulas, each over one
    expression; leaves have no operands, operators have some. *)
Definition is_expr (k : kind) : Prop := k = KLeaf \/ k = KOp.
Definition well_shaped (h : heap) : Prop :=
  forall n, plain (nsym (h n)) /\
  match nkind (h n) with
  | KLeaf => nchildren (h n) = []
  | KOp => nchildren (h n) <> [] /\ Forall (fun c => is_expr (nkind (h c))) (nchildren (h n))
  | KFormula => exists c, nchildren (h n) = [c] /\ is_expr (nkind (h c))
  | KSet => Forall (fun c => nkind (h c) = KFormula) (nchildren (h n))
  end.
