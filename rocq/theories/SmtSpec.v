(** * What a satisfiability query should decide (specification) *)
From Coq Require Import List Arith ZArith Bool.
From Verif Require Import Mltl MltlShape.
Import ListNotations.

(** "Some trace satisfies the formula at time zero." *)
Definition satisfiable (e : expr) : Prop := exists tr, sat tr e 0.

(** ** Finite traces, as in docs/Preliminaries/mltl.md 18-26
    [len] is the length |pi|; no atomic proposition holds beyond the end.
    Future-time operators only. *)
Fixpoint fsat (len : nat) (tr : trace) (e : expr) (i : nat) : Prop :=
  match e with
  | EConst b => b = true
  | EAtom a => i < len /\ tr i a = true
  | ENot p => ~ fsat len tr p i
  | EAnd es => fold_right (fun p P => fsat len tr p i /\ P) True es
  | EOr es => fold_right (fun p P => fsat len tr p i \/ P) False es
  | EXor p q => ~ (fsat len tr p i <-> fsat len tr q i)
  | EImpl p q => fsat len tr p i -> fsat len tr q i
  | EEquiv p q | EBeq p q => fsat len tr p i <-> fsat len tr q i
  | EG lb ub p => len <= i + lb \/ forall j, i + lb <= j <= i + ub -> fsat len tr p j
  | EF lb ub p => len > i + lb /\ exists j, i + lb <= j <= i + ub /\ fsat len tr p j
  | EU lb ub p q =>
      len > i + lb /\ exists j, i + lb <= j <= i + ub /\ fsat len tr q j /\
                                forall k, i + lb <= k < j -> fsat len tr p k
  | ER lb ub p q =>
      len <= i + lb \/ forall j, i + lb <= j <= i + ub -> ~ fsat len tr q j ->
                                 exists k, i + lb <= k < j /\ fsat len tr p k
  | _ => False
  end.

(** ** Truncated traces
    The other reading of a trace that ends: what lies beyond the end is neither
    required of an "always" nor available to an "eventually". *)
Fixpoint tsat (len : nat) (tr : trace) (e : expr) (i : nat) : Prop :=
  match e with
  | EConst b => b = true
  | EAtom a => tr i a = true
  | ENot p => ~ tsat len tr p i
  | EAnd es => fold_right (fun p P => tsat len tr p i /\ P) True es
  | EOr es => fold_right (fun p P => tsat len tr p i \/ P) False es
  | EXor p q => ~ (tsat len tr p i <-> tsat len tr q i)
  | EImpl p q => tsat len tr p i -> tsat len tr q i
  | EEquiv p q | EBeq p q => tsat len tr p i <-> tsat len tr q i
  | EG lb ub p => forall j, i + lb <= j <= i + ub -> j < len -> tsat len tr p j
  | EF lb ub p => exists j, i + lb <= j <= i + ub /\ j < len /\ tsat len tr p j
  | EU lb ub p q =>
      exists j, i + lb <= j <= i + ub /\ j < len /\ tsat len tr q j /\
                forall k, i + lb <= k < j -> tsat len tr p k
  | ER lb ub p q =>
      forall j, i + lb <= j <= i + ub -> j < len -> ~ tsat len tr q j ->
                exists k, i + lb <= k < j /\ tsat len tr p k
  | _ => False
  end.

(** ** The fragments *)
(** Negation, n-ary conjunction and disjunction, equivalence, always,
    eventually, until. *)
Definition bit_vector_op (e : expr) : Prop :=
  match e with
  | EConst _ | EAtom _ | ENot _ | EEquiv _ _ | EG _ _ _ | EF _ _ _ | EU _ _ _ _ => True
  | EAnd es | EOr es => 2 <= length es
  | _ => False
  end.
(** The same with implication and comparison. *)
Definition function_op (e : expr) : Prop :=
  match e with
  | EConst _ | EAtom _ | ENot _ | EAnd _ | EOr _ | EImpl _ _ | EEquiv _ _ | EBeq _ _
  | EG _ _ _ | EF _ _ _ | EU _ _ _ _ => True
  | _ => False
  end.
Definition quantified_op (e : expr) : Prop :=
  match e with
  | EAnd es | EOr es => 2 <= length es
  | ER _ _ _ _ => True
  | _ => function_op e
  end.
(** Conjunctions and disjunctions of two, comparisons of temporal-free formulas. *)
Definition temporal_free_op (e : expr) : Prop :=
  match e with
  | EF _ _ _ | EG _ _ _ | EU _ _ _ _ | ER _ _ _ _
  | EO _ _ _ | EH _ _ _ | ES _ _ _ _ | ET _ _ _ _ => False
  | _ => True
  end.
Definition measured_op (e : expr) : Prop :=
  match e with
  | EAnd es | EOr es => length es = 2
  | EBeq p q => all_nodes temporal_free_op p /\ all_nodes temporal_free_op q
  | _ => True
  end.
(** No "eventually" over [0,0] or [1,1]. *)
Definition plain_future_op (e : expr) : Prop :=
  match e with EF lb ub _ => ~ (lb = ub /\ ub <= 1) | _ => True end.
