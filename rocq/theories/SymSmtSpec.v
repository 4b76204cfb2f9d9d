(** * What an equivalence check over symbolic bounds should decide (specification)
    compiler/docs/user/equiv.md: a formula whose interval bounds are written with
    b0, b1, ... stands for all the formulas got by giving the bounds values. *)
From Coq Require Import List Arith ZArith Bool.
From Verif Require Import Mltl SmtSpec SymSmt.
Import ListNotations.
Local Open Scope Z_scope.

Section Values.
(** The mission time and the values of the bounds: natural numbers. *)
Variables (M : nat) (v : nat -> nat).

Fixpoint value (b : bexpr) : Z :=
  match b with
  | BVar n => Z.of_nat (v n)
  | BNum w => Z.of_N w
  | BMission => Z.of_nat M
  | BAdd a b => value a + value b
  | BSub a b => value a - value b
  | BMul a b => value a * value b
  | BMin a b => Z.min (value a) (value b)
  | BMax a b => Z.max (value a) (value b)
  end.
Definition meets (c : constr) : Prop :=
  match rel c with
  | Req => value (left_side c) = value (right_side c)
  | Rne => value (left_side c) <> value (right_side c)
  | Rge => value (right_side c) <= value (left_side c)
  | Rle => value (left_side c) <= value (right_side c)
  | Rgt => value (right_side c) < value (left_side c)
  | Rlt => value (left_side c) < value (right_side c)
  end.

(** The intervals of a formula. *)
Fixpoint intervals (p : sform) : list (bexpr * bexpr) :=
  match p with
  | SConst _ | SAtom _ => []
  | SNot p => intervals p
  | SImpl p q | SIff p q | SOr p q | SAnd p q => intervals p ++ intervals q
  | SG lb ub p | SF lb ub p => (lb, ub) :: intervals p
  | SU lb ub p q | SR lb ub p q => (lb, ub) :: intervals p ++ intervals q
  end.
(** An interval of times: it starts now or later, and does not end before it
    starts. *)
Definition proper (p : sform) : Prop :=
  forall lb ub, In (lb, ub) (intervals p) -> 0 <= value lb <= value ub.

(** The formula for these values. *)
Fixpoint instance (p : sform) : expr :=
  match p with
  | SConst b => EConst b
  | SAtom a => EAtom a
  | SNot p => ENot (instance p)
  | SImpl p q => EImpl (instance p) (instance q)
  | SIff p q => EEquiv (instance p) (instance q)
  | SOr p q => EOr [instance p; instance q]
  | SAnd p q => EAnd [instance p; instance q]
  | SG lb ub p => EG (Z.to_nat (value lb)) (Z.to_nat (value ub)) (instance p)
  | SF lb ub p => EF (Z.to_nat (value lb)) (Z.to_nat (value ub)) (instance p)
  | SU lb ub p q => EU (Z.to_nat (value lb)) (Z.to_nat (value ub)) (instance p) (instance q)
  | SR lb ub p q => ER (Z.to_nat (value lb)) (Z.to_nat (value ub)) (instance p) (instance q)
  end.
End Values.

(** The values a file admits for two of its formulas. *)
Definition admits (fl : equiv_file) (p q : sform) (M : nat) (v : nat -> nat) : Prop :=
  (forall c, In c (constraints fl) -> meets M v c) /\ proper M v p /\ proper M v q.
(** Equivalent whatever the bounds are. *)
Definition always_equivalent (fl : equiv_file) (p q : sform) : Prop :=
  forall M v, admits fl p q M v -> equivalent (instance M v p) (instance M v q).

(** No mission time anywhere in what the query sees. *)
Fixpoint untimed (b : bexpr) : Prop :=
  match b with
  | BMission => False
  | BVar _ | BNum _ => True
  | BAdd a b | BSub a b | BMul a b | BMin a b | BMax a b => untimed a /\ untimed b
  end.
Definition no_mission (fl : equiv_file) (p : sform) : Prop :=
  (forall c, In c (constraints fl) -> untimed (left_side c) /\ untimed (right_side c)) /\
  (forall lb ub, In (lb, ub) (intervals p) -> untimed lb /\ untimed ub).
(** The constraints leave no lower bound negative. *)
Definition starts_later (fl : equiv_file) (p : sform) : Prop :=
  forall M v lb ub, (forall c, In c (constraints fl) -> meets M v c) -> In (lb, ub) (intervals p) -> 0 <= value M v lb.
(** No "eventually" is written with [0,0] or [1,1]. *)
Fixpoint plain_eventually (p : sform) : Prop :=
  match p with
  | SConst _ | SAtom _ => True
  | SNot p | SG _ _ p => plain_eventually p
  | SImpl p q | SIff p q | SOr p q | SAnd p q | SU _ _ p q | SR _ _ p q => plain_eventually p /\ plain_eventually q
  | SF lb ub p => ~ (lb = ub /\ (lb = BNum 0 \/ lb = BNum 1)) /\ plain_eventually p
  end.

(** Both formulas judged on a finite trace of a given length
    (docs/Preliminaries/mltl.md 18-26). *)
Definition differ_on (len : nat) (M : nat) (v : nat -> nat) (p q : sform) : Prop :=
  exists tr, ~ (fsat len tr (instance M v p) 0 <-> fsat len tr (instance M v q) 0).

(** ** The whole file *)
(** Values that meet the constraints and give every formula proper intervals. *)
Definition admits_all (fl : equiv_file) (M : nat) (v : nat -> nat) : Prop :=
  (forall c, In c (constraints fl) -> meets M v c) /\ (forall p, In p (formulas fl) -> proper M v p).
Definition all_equivalent (fl : equiv_file) : Prop :=
  forall M v, admits_all fl M v ->
  forall p q, In p (formulas fl) -> In q (formulas fl) -> equivalent (instance M v p) (instance M v q).
(** A solver that is right whenever it answers "sat" or "unsat". *)
Definition right (query : Prop) (s : solver) : Prop :=
  match s with Sat => query | Unsat => ~ query | _ => True end.
