(** * MLTL and ptMLTL: syntax and satisfaction (specification layer)

    Source: docs/Preliminaries/mltl.md ("MLTL Formal Semantics").  This file is
    the yardstick for every property about formulas; it does not mention the
    compiler or the monitor.

    Traces are infinite: the monitor is an on-line algorithm and never sees the
    end of the trace, so the clauses "|pi| <= i+lb" of the document never apply.
    For past-time operators the interval [i-ub, i-lb] is intersected with the
    existing (non-negative) times, as in the document where pi(j) exists only
    for j >= 0. *)
From Coq Require Import List Arith Bool Lia.
Import ListNotations.

(** [tr i a] = atomic proposition [a] holds at time [i]. *)
Definition trace := nat -> nat -> bool.

(** Expressions.  [EAnd]/[EOr] are n-ary because C2PO's [&&] and [||] are
    (compiler/c2po/cpt.py 956-962, multi-arity operators); [EBeq] is the
    Boolean use of [==] (cpt.py 937-1033). *)
Inductive expr : Type :=
| EConst (b : bool)
| EAtom (a : nat)
| ENot (e : expr)
| EAnd (es : list expr)
| EOr (es : list expr)
| EXor (e1 e2 : expr)
| EImpl (e1 e2 : expr)
| EEquiv (e1 e2 : expr)
| EBeq (e1 e2 : expr)
| EF (lb ub : nat) (e : expr)
| EG (lb ub : nat) (e : expr)
| EU (lb ub : nat) (e1 e2 : expr)
| ER (lb ub : nat) (e1 e2 : expr)
| EO (lb ub : nat) (e : expr)
| EH (lb ub : nat) (e : expr)
| ES (lb ub : nat) (e1 e2 : expr)
| ET (lb ub : nat) (e1 e2 : expr).

(** Satisfaction [tr, i |= e]. *)
Fixpoint sat (tr : trace) (e : expr) (i : nat) {struct e} : Prop :=
  match e with
  | EConst b => b = true
  | EAtom a => tr i a = true
  | ENot e => ~ sat tr e i
  | EAnd es => fold_right (fun e P => sat tr e i /\ P) True es
  | EOr es => fold_right (fun e P => sat tr e i \/ P) False es
  | EXor p q => ~ (sat tr p i <-> sat tr q i)
  | EImpl p q => sat tr p i -> sat tr q i
  | EEquiv p q => sat tr p i <-> sat tr q i
  | EBeq p q => sat tr p i <-> sat tr q i
  | EF lb ub p => exists j, i + lb <= j <= i + ub /\ sat tr p j
  | EG lb ub p => forall j, i + lb <= j <= i + ub -> sat tr p j
  | EU lb ub p q =>
      exists j, i + lb <= j <= i + ub /\ sat tr q j /\
                forall k, i + lb <= k < j -> sat tr p k
  | ER lb ub p q =>
      forall j, i + lb <= j <= i + ub -> ~ sat tr q j ->
                exists k, i + lb <= k < j /\ sat tr p k
  | EO lb ub p => exists j, (i <= j + ub /\ j + lb <= i) /\ sat tr p j
  | EH lb ub p => forall j, i <= j + ub /\ j + lb <= i -> sat tr p j
  | ES lb ub p q =>
      exists j, (i <= j + ub /\ j + lb <= i) /\ sat tr q j /\
                forall k, j < k /\ k + lb <= i -> sat tr p k
  | ET lb ub p q =>
      forall j, (i <= j + ub /\ j + lb <= i) -> ~ sat tr q j ->
                exists k, (j < k /\ k + lb <= i) /\ sat tr p k
  end.

(** Semantic equivalence (mltl.md: "psi == xi iff pi |= psi <=> pi |= xi for all
    traces"), here at every time of every trace. *)
Definition equivalent (e1 e2 : expr) : Prop :=
  forall tr i, sat tr e1 i <-> sat tr e2 i.

(** Legal intervals: mltl.md, "lb <= ub". *)
Fixpoint legal (e : expr) : Prop :=
  match e with
  | EConst _ | EAtom _ => True
  | ENot e => legal e
  | EAnd es | EOr es => fold_right (fun e P => legal e /\ P) True es
  | EXor p q | EImpl p q | EEquiv p q | EBeq p q => legal p /\ legal q
  | EF lb ub p | EG lb ub p | EO lb ub p | EH lb ub p => lb <= ub /\ legal p
  | EU lb ub p q | ER lb ub p q | ES lb ub p q | ET lb ub p q =>
      lb <= ub /\ legal p /\ legal q
  end.

(** ** Induction principle covering the operand lists *)
Section ExprInd.
  Variable P : expr -> Prop.
  Hypothesis HConst : forall b, P (EConst b).
  Hypothesis HAtom : forall a, P (EAtom a).
  Hypothesis HNot : forall e, P e -> P (ENot e).
  Hypothesis HAnd : forall es, Forall P es -> P (EAnd es).
  Hypothesis HOr : forall es, Forall P es -> P (EOr es).
  Hypothesis HXor : forall p q, P p -> P q -> P (EXor p q).
  Hypothesis HImpl : forall p q, P p -> P q -> P (EImpl p q).
  Hypothesis HEquiv : forall p q, P p -> P q -> P (EEquiv p q).
  Hypothesis HBeq : forall p q, P p -> P q -> P (EBeq p q).
  Hypothesis HF : forall lb ub p, P p -> P (EF lb ub p).
  Hypothesis HG : forall lb ub p, P p -> P (EG lb ub p).
  Hypothesis HU : forall lb ub p q, P p -> P q -> P (EU lb ub p q).
  Hypothesis HR : forall lb ub p q, P p -> P q -> P (ER lb ub p q).
  Hypothesis HO : forall lb ub p, P p -> P (EO lb ub p).
  Hypothesis HH : forall lb ub p, P p -> P (EH lb ub p).
  Hypothesis HS : forall lb ub p q, P p -> P q -> P (ES lb ub p q).
  Hypothesis HT : forall lb ub p q, P p -> P q -> P (ET lb ub p q).

  Fixpoint expr_ind' (e : expr) : P e :=
    let fix all (es : list expr) : Forall P es :=
      match es with
      | [] => Forall_nil P
      | e :: es => Forall_cons e (expr_ind' e) (all es)
      end in
    match e with
    | EConst b => HConst b
    | EAtom a => HAtom a
    | ENot e => HNot e (expr_ind' e)
    | EAnd es => HAnd es (all es)
    | EOr es => HOr es (all es)
    | EXor p q => HXor p q (expr_ind' p) (expr_ind' q)
    | EImpl p q => HImpl p q (expr_ind' p) (expr_ind' q)
    | EEquiv p q => HEquiv p q (expr_ind' p) (expr_ind' q)
    | EBeq p q => HBeq p q (expr_ind' p) (expr_ind' q)
    | EF lb ub p => HF lb ub p (expr_ind' p)
    | EG lb ub p => HG lb ub p (expr_ind' p)
    | EU lb ub p q => HU lb ub p q (expr_ind' p) (expr_ind' q)
    | ER lb ub p q => HR lb ub p q (expr_ind' p) (expr_ind' q)
    | EO lb ub p => HO lb ub p (expr_ind' p)
    | EH lb ub p => HH lb ub p (expr_ind' p)
    | ES lb ub p q => HS lb ub p q (expr_ind' p) (expr_ind' q)
    | ET lb ub p q => HT lb ub p q (expr_ind' p) (expr_ind' q)
    end.
End ExprInd.
