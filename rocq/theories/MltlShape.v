(** * Syntactic shapes of expressions (specification layer)

    Independent of the passes: [all_nodes P] says that [P] holds at every node. *)
From Coq Require Import List Arith.
Require Import Verif.Mltl.
Import ListNotations.

(** [all_nodes P e]: [P] holds at every node of [e] (specification side). *)
Fixpoint all_nodes (P : expr -> Prop) (e : expr) : Prop :=
  P e /\
  match e with
  | EConst _ | EAtom _ => True
  | ENot p => all_nodes P p
  | EAnd es | EOr es => fold_right (fun e Q => all_nodes P e /\ Q) True es
  | EXor p q | EImpl p q | EEquiv p q | EBeq p q => all_nodes P p /\ all_nodes P q
  | EF _ _ p | EG _ _ p | EO _ _ p | EH _ _ p => all_nodes P p
  | EU _ _ p q | ER _ _ p q | ES _ _ p q | ET _ _ p q => all_nodes P p /\ all_nodes P q
  end.

Definition binary_op (e : expr) : Prop :=
  match e with EAnd es | EOr es => length es <= 2 | _ => True end.

(** Core shape: cpt.py 2300-2316 [has_no_extended_operators] and 2291-2298
    [is_only_binary_operators]. *)
Definition core_op (e : expr) : Prop :=
  match e with
  | EXor _ _ | EImpl _ _ | EF _ _ _ | EG _ _ _ | EO _ _ _ | EH _ _ _ => False
  | EAnd es | EOr es => length es <= 2
  | _ => True
  end.

(** Shape: transform.py 6: only negation, conjunction and until. *)
Definition bnf_op (e : expr) : Prop :=
  match e with
  | EConst _ | EAtom _ | ENot _ | EAnd _ | EU _ _ _ _ => True
  | _ => False
  end.
(** Operators [to_bnf] has no rule for. *)
Definition bnf_source_op (e : expr) : Prop :=
  match e with
  | EEquiv _ _ | EBeq _ _ | EO _ _ _ | EH _ _ _ | ES _ _ _ _ | ET _ _ _ _ => False
  | _ => True
  end.
Definition no_xor_op (e : expr) : Prop := match e with EXor _ _ => False | _ => True end.

(** Shape of negation normal form: negation only on literals. *)
Definition nnf_op (e : expr) : Prop :=
  match e with
  | ENot (EAtom _) | ENot (EConst _) => True
  | ENot _ => False
  | _ => True
  end.
(** Operators for which a rule under negation exists, and no [!!]. *)
Definition nnf_source_op (e : expr) : Prop :=
  match e with
  | ENot (ENot _) => False
  | EBeq _ _ | EO _ _ _ | EH _ _ _ | ES _ _ _ _ | ET _ _ _ _ => False
  | _ => True
  end.

Definition no_release_op (e : expr) : Prop := match e with ER _ _ _ _ => False | _ => True end.

(** Some atomic proposition occurs in the expression. *)
Fixpoint has_atom (e : expr) : Prop :=
  match e with
  | EConst _ => False
  | EAtom _ => True
  | ENot p => has_atom p
  | EAnd es | EOr es => fold_right (fun e Q => has_atom e \/ Q) False es
  | EXor p q | EImpl p q | EEquiv p q | EBeq p q => has_atom p \/ has_atom q
  | EF _ _ p | EG _ _ p | EO _ _ p | EH _ _ p => has_atom p
  | EU _ _ p q | ER _ _ p q | ES _ _ p q | ET _ _ p q => has_atom p \/ has_atom q
  end.

(** Sources on which the rewrite optimiser is proved correct: binary [&&] and
    [||]; an operand of a Boolean [==] is the constant true or mentions an atom. *)
Definition rewrite_source_op (e : expr) : Prop :=
  match e with
  | EAnd es | EOr es => length es = 2
  | EBeq p q => (p = EConst true \/ has_atom p) /\ (q = EConst true \/ has_atom q)
  | _ => True
  end.

(** Intervals after unrolling: single points for F and G, no until or release. *)
Definition unrolled_op (e : expr) : Prop :=
  match e with
  | EF lb ub _ | EG lb ub _ => lb = ub
  | EU _ _ _ _ | ER _ _ _ _ => False
  | _ => True
  end.

(** Intervals after decomposition: a point, or [0, 2^k - 1]. *)
Definition decomposed_op (e : expr) : Prop :=
  match e with
  | EF lb ub _ | EG lb ub _ | EU lb ub _ _ =>
      lb = ub \/ (lb = 0 /\ exists k, ub = 2 ^ k - 1)
  | _ => True
  end.

(** No past-time operator. *)
Definition future_op (e : expr) : Prop :=
  match e with EO _ _ _ | EH _ _ _ | ES _ _ _ _ | ET _ _ _ _ => False | _ => True end.
(** No future-time operator. *)
Definition past_op (e : expr) : Prop :=
  match e with EF _ _ _ | EG _ _ _ | EU _ _ _ _ | ER _ _ _ _ => False | _ => True end.
