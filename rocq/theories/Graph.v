(** * The shared expression graph and its traversal (model)

    A node is an object of class Expression (cpt.py 31-131): a printed symbol
    and a list of children, which are references (here: numbers) to other
    nodes.  [heap] maps references to nodes. *)
From Coq Require Import List Arith Bool Ascii.
Import ListNotations.

(** Classes that print differently (cpt.py 2089-2185): leaves (Constant,
    Signal, Variable), operators, Formula, SpecificationSet. *)
Inductive kind := KLeaf | KOp | KFormula | KSet.
Record node := Node { nkind : kind; nsym : list ascii; nchildren : list nat }.
Definition heap := nat -> node.

(** cpt.py 1609-1641: [postorder].  The stack holds (seen, node) pairs, top
    first; [act] is the body of the loop over the generator, run when a node
    is yielded (it may change the graph); SetAggregation/Bind nodes (lines
    1624-1630) do not occur after desugaring.  Fuel counts loop iterations. *)
Fixpoint traverse {A} (act : nat -> heap -> A -> heap * A) (fuel : nat)
    (stack : list (bool * nat)) (visited : list nat) (h : heap) (a : A) : option (heap * A) :=
  match fuel with
  | O => None
  | S fuel =>
      match stack with
      | [] => Some (h, a)
      | (true, e) :: stack =>
          let '(h, a) := act e h a in traverse act fuel stack visited h a
      | (false, e) :: stack =>
          if existsb (Nat.eqb e) visited then traverse act fuel stack visited h a
          else traverse act fuel (map (pair false) (nchildren (h e)) ++ (true, e) :: stack)
                        (e :: visited) h a
      end
  end.

(** The sequence of nodes yielded when nothing is changed.  Line 1618-1621: a
    list of start nodes is pushed in order, so the last one is on top. *)
Definition postorder (fuel : nat) (h : heap) (starts : list nat) : option (list nat) :=
  option_map snd (traverse (fun e h out => (h, out ++ [e])) fuel (map (pair false) (rev starts)) [] h []).

(** ** to_prefix_str: cpt.py 2089-2185 *)
Definition space : ascii := " "%char.
Definition lpar : ascii := "("%char.
Definition rpar : ascii := ")"%char.
Definition colon : ascii := ":"%char.
(** The running string always ends with a space; an operator drops it before
    its closing parenthesis ([s[:-1] + ") "], lines 2155-2156).  Fuel bounds
    the depth of the expression. *)
Fixpoint prefix_run (fuel : nat) (h : heap) (n : nat) : option (list ascii) :=
  match fuel with
  | O => None
  | S fuel =>
      let operands :=
        fold_right (fun c acc =>
          match prefix_run fuel h c, acc with Some s, Some s' => Some (s ++ s') | _, _ => None end)
          (Some []) (nchildren (h n)) in
      match operands with
      | None => None
      | Some cs =>
          match nkind (h n) with
          | KLeaf => Some (nsym (h n) ++ [space])
          | KOp => Some (removelast (lpar :: nsym (h n) ++ space :: cs) ++ [rpar; space])
          | KFormula => Some (nsym (h n) ++ colon :: space :: cs)
          | KSet => Some cs
          end
      end
  end.
(** Line 2185: [return s[:-1]]. *)
Definition prefix_str (fuel : nat) (h : heap) (n : nat) : option (list ascii) :=
  option_map (@removelast ascii) (prefix_run fuel h n).

(** ** optimize_cse: cse.py 4-32 *)
(** [old.replace(new)] (cpt.py 87-104): child slots holding [old] now hold
    [new].  Simplification: slots of all nodes are rewritten; the code rewrites
    those of the recorded parents, which contain every node with such a slot
    ([parents] is filled by the constructor, cpt.py 49-56, and by [replace]). *)
Definition redirect (old new : nat) (h : heap) : heap :=
  fun n => Node (nkind (h n)) (nsym (h n)) (map (fun c => if c =? old then new else c) (nchildren (h n))).

Fixpoint string_eqb (s t : list ascii) : bool :=
  match s, t with
  | [], [] => true
  | a :: s, b :: t => Ascii.eqb a b && string_eqb s t
  | _, _ => false
  end.
Fixpoint find_str (m : list (list ascii * nat)) (k : list ascii) : option nat :=
  match m with
  | [] => None
  | (k', e) :: m => if string_eqb k' k then Some e else find_str m k
  end.

(** Lines 13-21. *)
Definition cse_node (fuel : nat) (e : nat) (h : heap) (m : list (list ascii * nat)) : heap * list (list ascii * nat) :=
  match prefix_str fuel h e with
  | None => (h, m)
  | Some k =>
      match find_str m k with
      | Some e' => (if e =? e' then h else redirect e e' h, m)
      | None => (h, (k, e) :: m)
      end
  end.

(** Lines 23-29; [ft] and [pt] are the two SpecificationSet nodes.
    Simplification: the set node itself, yielded last, is not processed; it has
    no parent, so replacing it changes no slot. *)
Definition cse_set (depth fuel : nat) (h : heap) (s : nat) : option heap :=
  option_map fst (traverse (cse_node depth) fuel (map (pair false) (nchildren (h s))) [] h []).
Definition optimize_cse (depth fuel : nat) (h : heap) (ft pt : nat) : option heap :=
  match cse_set depth fuel h ft with
  | None => None
  | Some h => cse_set depth fuel h pt
  end.
