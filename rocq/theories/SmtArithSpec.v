(** * Formulas about integer inputs (specification) *)
From Coq Require Import List Arith ZArith Bool.
From Verif Require Import Mltl Binary Booleanizer BooleanizerSpec SmtArith.
Import ListNotations.
Local Open Scope Z_scope.

(** ** Exact integers
    [exactly x e v]: [e] has value [v] over the integers when signal [s] has value
    [x s]; division leaves a remainder that is not negative. *)
Inductive exactly (x : Z -> Z) : nexpr -> Z -> Prop :=
| x_signal s : exactly x (NSignal s) (x s)
| x_value z : exactly x (NValue (VInt z)) z
| x_neg e a : exactly x e a -> exactly x (NUnary Neg e) (- a)
| x_add e1 e2 a b : exactly x e1 a -> exactly x e2 b -> exactly x (NBinary Add e1 e2) (a + b)
| x_sub e1 e2 a b : exactly x e1 a -> exactly x e2 b -> exactly x (NBinary Sub e1 e2) (a - b)
| x_mul e1 e2 a b : exactly x e1 a -> exactly x e2 b -> exactly x (NBinary Mul e1 e2) (a * b)
| x_div e1 e2 a b q r : exactly x e1 a -> exactly x e2 b -> a = b * q + r -> 0 <= r < Z.abs b ->
    exactly x (NBinary Div e1 e2) q
| x_mod e1 e2 a b q r : exactly x e1 a -> exactly x e2 b -> a = b * q + r -> 0 <= r < Z.abs b ->
    exactly x (NBinary Mod e1 e2) r.
Definition compares (o : arith2) (a b : Z) : Prop :=
  match o with
  | Eq => a = b | Neq => a <> b | Lt => a < b | Le => a <= b | Gt => b < a | Ge => b <= a
  | _ => False
  end.

(** The truth of the atomic formulas over time, for Boolean signals [f] and
    integer signals [x]. *)
Definition shows (table : nat -> natom) (f : nat -> nat -> bool) (x : nat -> Z -> Z) (tr : trace) : Prop :=
  forall t a, tr t a = true <->
    match table a with
    | ABool s => f t s = true
    | ACompare o e1 e2 => exists v w, exactly (x t) e1 v /\ exactly (x t) e2 w /\ compares o v w
    end.

(** ** The monitor's integers
    The same with the values C28 proves the monitor to compute. *)
Definition observes (F : float_ops) (table : nat -> natom) (f : nat -> nat -> bool) (inp : nat -> Z -> value) (tr : trace) : Prop :=
  forall t a, tr t a = true <->
    match table a with
    | ABool s => f t s = true
    | ACompare o e1 e2 => yields F inp t (NBinary o e1 e2) (VInt 1)
    end.

(** Arithmetic in which nothing goes wrong: every value is a 32-bit integer, and
    only numbers that are not negative are divided. *)
Inductive calm (x : Z -> Z) : nexpr -> Prop :=
| c_signal s : int32 (x s) -> calm x (NSignal s)
| c_value z : int32 z -> calm x (NValue (VInt z))
| c_neg e v : calm x e -> exactly x (NUnary Neg e) v -> int32 v -> calm x (NUnary Neg e)
| c_sum o e1 e2 v : o = Add \/ o = Sub \/ o = Mul -> calm x e1 -> calm x e2 ->
    exactly x (NBinary o e1 e2) v -> int32 v -> calm x (NBinary o e1 e2)
| c_quotient o e1 e2 a b : o = Div \/ o = Mod -> calm x e1 -> calm x e2 ->
    exactly x e1 a -> exactly x e2 b -> 0 <= a -> b <> 0 -> calm x (NBinary o e1 e2).
Definition calm_atom (x : Z -> Z) (a : natom) : Prop :=
  match a with
  | ABool _ => True
  | ACompare o e1 e2 => relational o = true /\ calm x e1 /\ calm x e2
  end.

(** Divisors are numbers other than 0. *)
Fixpoint safe_divisors (e : nexpr) : Prop :=
  match e with
  | NUnary _ e => safe_divisors e
  | NBinary o e1 e2 =>
      safe_divisors e1 /\ safe_divisors e2 /\
      match o with Div | Mod => exists z, e2 = NValue (VInt z) /\ z <> 0 | _ => True end
  | _ => True
  end.
Definition safe_atom (a : natom) : Prop :=
  match a with
  | ABool _ => True
  | ACompare o e1 e2 => safe_divisors e1 /\ safe_divisors e2
  end.
