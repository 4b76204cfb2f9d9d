(** * Satisfiability queries about integer inputs (model)
    compiler/c2po/sat.py to_uflia_smtlib2, expr_to_smt lines 703-760 (constants,
    signals, arithmetic, comparisons) on top of the temporal operators modelled in
    [Smt.v].  Numeric expressions are those of [BooleanizerSpec.v].

    Simplification: sums and products have two operands, as the parser builds them;
    lines 719 and 728 would drop the third. *)
From Coq Require Import List Arith ZArith Bool.
From Verif Require Import Mltl Binary Booleanizer BooleanizerSpec Smt.
Import ListNotations.
Local Open Scope Z_scope.

(** SMT-LIB's div and mod: the remainder is not negative; for divisor 0 the solver
    chooses functions, [d0] and [m0]. *)
Definition smt_div (d0 : Z -> Z) (a b : Z) : Z :=
  if b =? 0 then d0 a else if 0 <? b then a / b else - (a / - b).
Definition smt_mod (m0 : Z -> Z) (a b : Z) : Z :=
  if b =? 0 then m0 a else a mod Z.abs b.

Section Terms.
Variables (x : Z -> Z -> Z) (d0 m0 : Z -> Z).

(** Lines 707-739, 849-852; [x s] interprets the function of integer signal [s],
    [None] is "unsupported expression". *)
Fixpoint aterm (e : nexpr) (k : Z) : option Z :=
  match e with
  | NSignal s => Some (x s k)
  | NValue (VInt z) => Some z
  | NUnary Neg e => option_map Z.opp (aterm e k)
  | NBinary o e1 e2 =>
      match aterm e1 k, aterm e2 k with
      | Some a, Some b =>
          match o with
          | Add => Some (a + b) | Sub => Some (a - b) | Mul => Some (a * b)
          | Div => Some (smt_div d0 a b) | Mod => Some (smt_mod m0 a b)
          | _ => None
          end
      | _, _ => None
      end
  | _ => None
  end.

(** What an atomic formula is: a Boolean signal, or a comparison of numbers. *)
Inductive natom := ABool (s : nat) | ACompare (o : arith2) (e1 e2 : nexpr).
(** Lines 709-710, 740-751 *)
Definition atom_term (f : nat -> Z -> bool) (len : Z) (a : natom) (k : Z) : Prop :=
  match a with
  | ABool s => len > k /\ f s k = true
  | ACompare o e1 e2 =>
      match aterm e1 k, aterm e2 k with
      | Some a, Some b =>
          match o with
          | Eq => a = b | Neq => ~ a = b | Gt => a > b | Ge => a >= b | Lt => a < b | Le => a <= b
          | _ => False
          end
      | _, _ => False
      end
  end.

(** The temporal operators: lines 752-852, as [Smt.uf_term]. *)
Variable table : nat -> natom.
Fixpoint num_term (f : nat -> Z -> bool) (len : Z) (e : expr) (k : Z) : Prop :=
  match e with
  | EConst b => b = true
  | EAtom a => atom_term f len (table a) k
  | ENot p => ~ num_term f len p k
  | EAnd es => fold_right (fun p P => num_term f len p k /\ P) True es
  | EOr es => fold_right (fun p P => num_term f len p k \/ P) False es
  | EImpl p q => num_term f len p k -> num_term f len q k
  | EEquiv p q | EBeq p q => num_term f len p k <-> num_term f len q k
  | EG lb ub p =>
      if ((lb =? 0) && (ub =? 0))%nat then len <= k \/ num_term f len p k
      else if ((lb =? 1) && (ub =? 1))%nat then len <= 1 + k \/ num_term f len p (1 + k)
      else len <= Z.of_nat lb + k \/ forall i, Z.of_nat lb + k <= i <= Z.of_nat ub + k -> num_term f len p i
  | EF lb ub p =>
      if ((lb =? 0) && (ub =? 0))%nat then len <= k \/ num_term f len p k
      else if ((lb =? 1) && (ub =? 1))%nat then len <= 1 + k \/ num_term f len p (1 + k)
      else len > Z.of_nat lb + k /\ exists i, Z.of_nat lb + k <= i <= Z.of_nat ub + k /\ num_term f len p i
  | EU lb ub p q =>
      len > Z.of_nat lb + k /\
      exists i, Z.of_nat lb + k <= i <= Z.of_nat ub + k /\ num_term f len q i /\
                forall j, Z.of_nat lb + k <= j < i -> num_term f len p j
  | ER lb ub p q =>
      len <= Z.of_nat lb + k \/
      forall i, Z.of_nat lb + k <= i <= Z.of_nat ub + k ->
        num_term f len q i \/ exists j, Z.of_nat lb + k <= j < i /\ num_term f len p j
  | _ => False
  end.
End Terms.

(** Lines 849-852: which numeric expressions have an encoding. *)
Fixpoint encodable (e : nexpr) : bool :=
  match e with
  | NSignal _ | NValue (VInt _) => true
  | NUnary Neg e => encodable e
  | NBinary (Add | Sub | Mul | Div | Mod) e1 e2 => encodable e1 && encodable e2
  | _ => false
  end.

(** The query (not strict) is satisfiable: some functions make the assertion true. *)
Definition num_query (table : nat -> natom) (e : expr) : Prop :=
  exists x f d0 m0, num_term x d0 m0 table f (cplen e) e 0.
