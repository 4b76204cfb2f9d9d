(** * Extraction by integer programming: the terms of an e-graph (specification) *)
From Coq Require Import List Arith ZArith Bool.
Require Import Verif.Mltl Verif.Transform Verif.Egglog Verif.Ilp.
Import ListNotations.
Local Open Scope list_scope.
Local Open Scope nat_scope.

(** The constructors of egglog/ilp/mltl.egg 4-21. *)
Definition term_of (o : eop) (ts : list eterm) : option eterm :=
  match o, ts with
  | OBool b, [] => Some (TBool b)
  | OVar a, [] => Some (TVar a)
  | ONot, [p] => Some (TNot p)
  | OImplies, [p; q] => Some (TImplies p q)
  | OEquiv, [p; q] => Some (TEquiv p q)
  | OAnd, [p; q] => Some (TAnd2 p q)
  | OAnd, [p; q; r] => Some (TAnd3 p q r)
  | OAnd, [p; q; r; s] => Some (TAnd4 p q r s)
  | OOr, [p; q] => Some (TOr2 p q)
  | OOr, [p; q; r] => Some (TOr3 p q r)
  | OOr, [p; q; r; s] => Some (TOr4 p q r s)
  | OGlobal l u, [p] => Some (TGlobal l u p)
  | OFuture l u, [p] => Some (TFuture l u p)
  | OUntil l u, [p; q] => Some (TUntil l u p q)
  | ORelease l u, [p; q] => Some (TRelease l u p q)
  | _, _ => None
  end.
(** [holds_term g c t]: the e-class [c] holds the term [t]. *)
Inductive holds_term (g : graph) : nat -> eterm -> Prop :=
| holds_node c n ts t : In n (members g c) -> hold_terms g (kids n) ts -> term_of (op_of n) ts = Some t -> holds_term g c t
with hold_terms (g : graph) : list nat -> list eterm -> Prop :=
| hold_none : hold_terms g [] []
| hold_more c cs t ts : holds_term g c t -> hold_terms g cs ts -> hold_terms g (c :: cs) (t :: ts).

(** A term without the operators [->], [G] and [F]. *)
Fixpoint core (t : eterm) : Prop :=
  match t with
  | TBool _ | TVar _ => True
  | TNot p => core p
  | TEquiv p q | TAnd2 p q | TOr2 p q | TUntil _ _ p q | TRelease _ _ p q => core p /\ core q
  | TAnd3 p q r | TOr3 p q r => core p /\ core q /\ core r
  | TAnd4 p q r s | TOr4 p q r s => core p /\ core q /\ core r /\ core s
  | TImplies _ _ | TGlobal _ _ _ | TFuture _ _ _ => False
  end.
Definition not_extended_op (e : expr) : Prop :=
  match e with EImpl _ _ | EG _ _ _ | EF _ _ _ => False | _ => True end.
Definition allowed (extended : bool) (t : eterm) : Prop := extended = false -> core t.

Definition arity_ok (o : eop) (k : nat) : Prop :=
  match o with
  | OBool _ | OVar _ => k = 0
  | ONot | OGlobal _ _ | OFuture _ _ => k = 1
  | OImplies | OEquiv | OUntil _ _ | ORelease _ _ => k = 2
  | OAnd | OOr => 2 <= k <= 4
  end.
(** Every child is a class of the e-graph, with the arities of the constructors. *)
Definition well_formed (g : graph) : Prop :=
  root g < length (classes g) /\
  forall c n, In n (members g c) -> arity_ok (op_of n) (length (kids n)) /\ Forall (fun k => k < length (classes g)) (kids n).
(** Bounds are naturals, the lower ones at most [w]. *)
Definition bounded (g : graph) (w : Z) : Prop :=
  forall c n l u, In n (members g c) -> interval_of (op_of n) = Some (l, u) -> (0 <= l <= w /\ 0 <= u)%Z.

(** ** The queue slots of a formula without shared subformulas: scq.py 5-65
    with the default constant 0; constants have no queue. *)
Definition is_constant (e : expr) : bool := match e with EConst _ => true | _ => false end.
Definition slots_among (others : list expr) (e : expr) : Z :=
  (if is_constant e then 0 else Z.max 0 (fold_right Z.max 0 (map wpd others) - bpd e) + 1)%Z.
Fixpoint operand_slots (before after : list expr) : Z :=
  match after with
  | [] => 0
  | e :: after => slots_among (before ++ after) e + operand_slots (before ++ [e]) after
  end%Z.
Fixpoint inner_slots (e : expr) : Z :=
  match e with
  | EConst _ | EAtom _ => 0
  | ENot p | EF _ _ p | EG _ _ p | EO _ _ p | EH _ _ p => operand_slots [] [p] + inner_slots p
  | EAnd es | EOr es => operand_slots [] es + fold_right Z.add 0 (map inner_slots es)
  | EXor p q | EImpl p q | EEquiv p q | EBeq p q | EU _ _ p q | ER _ _ p q | ES _ _ p q | ET _ _ p q =>
      operand_slots [] [p; q] + (inner_slots p + inner_slots q)
  end%Z.
(** With the queue of the formula's root and that of its report. *)
Definition queue_slots (e : expr) : Z := (slots_among [] e + inner_slots e + 1)%Z.
