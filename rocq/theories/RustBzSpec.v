(** * Numeric expressions in the Rust monitor (specification) *)
From Coq Require Import List ZArith Bool.
Require Import Verif.Binary Verif.Booleanizer Verif.BooleanizerSpec.
Import ListNotations.
Local Open Scope Z_scope.

(** [c] is the 32-bit integer closest to [z]. *)
Definition nearest (c z : Z) : Prop := int32 c /\ forall c', int32 c' -> Z.abs (z - c) <= Z.abs (z - c').

(** Integer operators: the closest integer, 0 for the root of a negative number
    and for division by zero.  Powers that do not fit have no value here. *)
Definition unary_sat (o : arith1) (a c : Z) : Prop :=
  match o with
  | Neg => nearest c (- a)
  | BitNot => c = - a - 1
  | Sqrt => 0 <= a /\ 0 <= c /\ c * c <= a < (c + 1) * (c + 1) \/ a < 0 /\ c = 0
  | Abs => nearest c (Z.abs a)
  end.
Definition binary_sat (o : arith2) (a b c : Z) : Prop :=
  match o with
  | Add => nearest c (a + b)
  | Sub => nearest c (a - b)
  | Mul => nearest c (a * b)
  | Div => b <> 0 /\ (exists q r, a = b * q + r /\ Z.abs r < Z.abs b /\ 0 <= r * a /\ nearest c q) \/ b = 0 /\ c = 0
  | Mod => (exists q, int32 q /\ a = b * q + c /\ Z.abs c < Z.abs b /\ 0 <= c * a) \/ b = 0 /\ c = 0
  | Pow => int32 c /\ (0 <= b /\ c = a ^ b \/ b < 0 /\ (a = 1 /\ c = 1 \/ a = -1 /\ c = (-1) ^ (- b)))
  | BitAnd => bitwise andb a b c
  | BitOr => bitwise orb a b c
  | BitXor => bitwise xorb a b c
  | Eq => says c (a = b)
  | Neq => says c (a <> b)
  | Gt => says c (a > b)
  | Ge => says c (a >= b)
  | Lt => says c (a < b)
  | Le => says c (a <= b)
  end.
(** Floats: equal if at most epsilon apart; greater if also not equal. *)
Definition apart (F : float_ops) (a b : Z) : Z := f_abs F (f_sub F a b).
Definition binary_sat_float (F : float_ops) (le : Z -> Z -> bool) (o : arith2) (a b : Z) : option value :=
  let int (x : bool) := Some (VInt (if x then 1 else 0)) in
  match o with
  | Add => Some (VFloat (f_add F a b)) | Sub => Some (VFloat (f_sub F a b)) | Mul => Some (VFloat (f_mul F a b))
  | Div => Some (VFloat (f_div F a b)) | Pow => Some (VFloat (f_pow F a b))
  | Eq => int (le (apart F a b) (f_eps F)) | Neq => int (f_lt F (f_eps F) (apart F a b))
  | Gt => int (f_lt F b a && f_lt F (f_eps F) (apart F a b)) | Lt => int (f_lt F a b && f_lt F (f_eps F) (apart F a b))
  | Ge => int (f_lt F b a || le (apart F a b) (f_eps F)) | Le => int (f_lt F a b || le (apart F a b) (f_eps F))
  | Mod | BitAnd | BitOr | BitXor => None
  end.

Inductive saturated (F : float_ops) (le : Z -> Z -> bool) (inp : nat -> Z -> value) : nat -> nexpr -> value -> Prop :=
| s_signal t k : saturated F le inp t (NSignal k) (inp t k)
| s_value t v : saturated F le inp t (NValue v) v
| s_time t : saturated F le inp t NTime (VInt (Z.of_nat t))
| s_unary_int t o e a c : saturated F le inp t e (VInt a) -> unary_sat o a c -> saturated F le inp t (NUnary o e) (VInt c)
| s_unary_float t o e a c : saturated F le inp t e (VFloat a) -> unary_float F o a = Some c ->
    saturated F le inp t (NUnary o e) (VFloat c)
| s_binary_int t o e1 e2 a b c : saturated F le inp t e1 (VInt a) -> saturated F le inp t e2 (VInt b) -> binary_sat o a b c ->
    saturated F le inp t (NBinary o e1 e2) (VInt c)
| s_binary_float t o e1 e2 a b v : saturated F le inp t e1 (VFloat a) -> saturated F le inp t e2 (VFloat b) ->
    binary_sat_float F le o a b = Some v -> saturated F le inp t (NBinary o e1 e2) v
| s_prev_start init e : saturated F le inp 0 (NPrev init e) init
| s_prev_later t init e v : saturated F le inp t e v -> saturated F le inp (S t) (NPrev init e) v.

(** ** Overflow: the operation has no exact result of 32 bits *)
Definition overflow1 (o : arith1) (a : Z) : Prop :=
  match o with Neg => ~ int32 (- a) | Abs => ~ int32 (Z.abs a) | BitNot | Sqrt => False end.
Definition overflow2 (o : arith2) (a b : Z) : Prop :=
  match o with
  | Add => ~ int32 (a + b)
  | Sub => ~ int32 (a - b)
  | Mul => ~ int32 (a * b)
  | Div => b = 0 \/ a = - 2 ^ 31 /\ b = -1
  | Mod => b = 0
  | Pow => 0 <= b /\ ~ int32 (a ^ b) \/ b < 0 /\ 1 < Z.abs a
  | _ => False
  end.

(** The outermost operation of [e] overflows at step [t]. *)
Definition overflows (F : float_ops) (le : Z -> Z -> bool) (inp : nat -> Z -> value) (t : nat) (e : nexpr) : Prop :=
  match e with
  | NUnary o e1 => exists a, saturated F le inp t e1 (VInt a) /\ overflow1 o a
  | NBinary o e1 e2 => exists a b, saturated F le inp t e1 (VInt a) /\ saturated F le inp t e2 (VInt b) /\ overflow2 o a b
  | _ => False
  end.

(** ** Values on which both monitors agree
    Every integer operation has an exact result, every comparison of floats is
    the same whether differences below, or up to, epsilon count. *)
Inductive exact (F : float_ops) (le : Z -> Z -> bool) (inp : nat -> Z -> value) : nat -> nexpr -> value -> Prop :=
| x_signal t k : exact F le inp t (NSignal k) (inp t k)
| x_value t v : exact F le inp t (NValue v) v
| x_time t : exact F le inp t NTime (VInt (Z.of_nat t))
| x_unary_int t o e a c : exact F le inp t e (VInt a) -> unary_int o a c -> ~ overflow1 o a ->
    exact F le inp t (NUnary o e) (VInt c)
| x_unary_float t o e a c : exact F le inp t e (VFloat a) -> unary_float F o a = Some c -> exact F le inp t (NUnary o e) (VFloat c)
| x_binary_int t o e1 e2 a b c : exact F le inp t e1 (VInt a) -> exact F le inp t e2 (VInt b) -> binary_int o a b c ->
    ~ overflow2 o a b -> exact F le inp t (NBinary o e1 e2) (VInt c)
| x_binary_float t o e1 e2 a b v : exact F le inp t e1 (VFloat a) -> exact F le inp t e2 (VFloat b) ->
    binary_float F o a b = Some v -> binary_sat_float F le o a b = Some v -> exact F le inp t (NBinary o e1 e2) v
| x_prev_start init e : exact F le inp 0 (NPrev init e) init
| x_prev_later t init e v : exact F le inp t e v -> exact F le inp (S t) (NPrev init e) v.

(** ** Constants the Rust loader gets right, and references *)
Definition rust_readable (i : instruction) : Prop :=
  match i with
  | IBz b =>
      if bz_operator b =? op_iconst then exists z, bz_operand1 b = BzInt z /\ z < 2 ^ 31
      else if bz_operator b =? op_fconst then exists bits, bz_operand1 b = BzFloat bits
      else exists z, bz_operand1 b = BzInt z /\ 0 <= z
  | _ => True
  end.

(** The instructions that set the overflow flag: opcodes of negation, +, -, *,
    /, %, power and absolute value on integers. *)
Definition arithmetic (code : Z) : Prop := In code [22; 24; 26; 28; 30; 32; 33; 37].
