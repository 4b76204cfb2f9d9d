(** * Expansion of definitions and of references to other formulas (model)

    desugar.py 4-23.  A symbol leaf (cpt.Variable) is [EAtom s]; signals are
    the symbols nobody defines.  The nodes are collected before the loop
    (lines 9-13): first the post-order of every definition body, in
    declaration order, then the post-order of the specifications. *)
From Coq Require Import List Arith.
Require Import Verif.Mltl Verif.Transform.
Import ListNotations.

(** Symbol tables: context.definitions and context.specifications
    (cpt.py 1433-1607), as association lists. *)
Definition table := list (nat * expr).
Fixpoint lookup (t : table) (s : nat) : option expr :=
  match t with
  | [] => None
  | (x, e) :: t => if x =? s then Some e else lookup t s
  end.

(** Lines 14-20 on one node: [expr.replace(context.definitions[expr.symbol])]. *)
Definition expand_node (t : table) (e : expr) : expr :=
  match e with
  | EAtom s => match lookup t s with Some b => b | None => e end
  | _ => e
  end.

(** A definition body.  [replace] (cpt.py 93-97) rewrites the child slots of
    the parents of the node; the root of a definition body has no parent, so a
    body that is itself a symbol stays as it is. *)
Definition expand_body (t : table) (b : expr) : expr :=
  match b with
  | EAtom s => EAtom s
  | _ => expr_map (expand_node t) b
  end.

(** The first part of the list: a body is expanded with the (already expanded)
    definitions before it.  Simplification: the type checker only accepts
    references to earlier symbols (type_check.py 82-110, 625-637), so tables
    hold exactly the entries processed so far. *)
Definition expand_definitions (ds : table) : table :=
  fold_left (fun t d => t ++ [(fst d, expand_body t (snd d))]) ds [].

(** The second part: formulas in order.  The root of a formula has the
    cpt.Formula node as its parent and is replaced.  Definitions are looked up
    before specifications (lines 17-20). *)
Definition expand_specs (ds fs : table) : table :=
  fold_left (fun t f => t ++ [(fst f, expr_map (expand_node (ds ++ t)) (snd f))]) fs [].

(** desugar.py 4-23 on the definitions [ds] and the labelled formulas [fs]. *)
Definition expand (ds fs : table) : table := expand_specs (expand_definitions ds) fs.
