(** * Numeric expressions and their values over time (specification) *)
From Coq Require Import List ZArith Bool.
Require Import Verif.Graph Verif.Binary Verif.Assembly Verif.AssemblySpec Verif.Booleanizer.
Import ListNotations.
Local Open Scope Z_scope.

Inductive nexpr :=
| NSignal (k : Z)
| NValue (v : value)
| NTime
| NUnary (o : arith1) (e : nexpr)
| NBinary (o : arith2) (e1 e2 : nexpr)
| NPrev (init : value) (e : nexpr).

Definition int32 (z : Z) : Prop := - 2 ^ 31 <= z < 2 ^ 31.
(** [v] is the 32-bit two's complement representation of [z]. *)
Definition wraps (v z : Z) : Prop := int32 v /\ exists k, z = v + k * 2 ^ 32.
Definition says (v : Z) (P : Prop) : Prop := P /\ v = 1 \/ ~ P /\ v = 0.
Definition is_int (v : value) : bool := match v with VInt _ => true | VFloat _ => false end.

(** Integer operators. *)
Definition unary_int (o : arith1) (a c : Z) : Prop :=
  match o with
  | Neg => wraps c (- a)
  | BitNot => c = - a - 1
  | Sqrt => 0 <= a /\ 0 <= c /\ c * c <= a < (c + 1) * (c + 1)
  | Abs => wraps c (Z.abs a)
  end.
Definition bitwise (f : bool -> bool -> bool) (a b c : Z) : Prop :=
  forall i, 0 <= i -> Z.testbit c i = f (Z.testbit a i) (Z.testbit b i).
Definition binary_int (o : arith2) (a b c : Z) : Prop :=
  match o with
  | Add => wraps c (a + b)
  | Sub => wraps c (a - b)
  | Mul => wraps c (a * b)
  (** quotient rounded towards zero, and its remainder; it must not overflow *)
  | Div => int32 c /\ exists r, a = b * c + r /\ Z.abs r < Z.abs b /\ 0 <= r * a
  | Mod => exists q, int32 q /\ a = b * q + c /\ Z.abs c < Z.abs b /\ 0 <= c * a
  | Pow => int32 c /\
      (0 <= b /\ c = a ^ b \/
       b < 0 /\ (a = 1 /\ c = 1 \/ a = -1 /\ c = (-1) ^ (- b) \/ 1 < Z.abs a /\ c = 0))
  | BitAnd => bitwise andb a b c
  | BitOr => bitwise orb a b c
  | BitXor => bitwise xorb a b c
  | Eq => says c (a = b)
  | Neq => says c (a <> b)
  | Gt => says c (a > b)
  | Ge => says c (a >= b)
  | Lt => says c (a < b)
  | Le => says c (a <= b)
  end.
(** Operators on floats; equality is up to epsilon. *)
Definition unary_float (F : float_ops) (o : arith1) (a : Z) : option Z :=
  match o with
  | Neg => Some (f_neg F a) | Sqrt => Some (f_sqrt F a) | Abs => Some (f_abs F a) | BitNot => None
  end.
Definition close (F : float_ops) (a b : Z) : bool :=
  (f_lt F b a && f_lt F (f_sub F a b) (f_eps F)) || (negb (f_lt F b a) && f_lt F (f_sub F b a) (f_eps F)).
Definition binary_float (F : float_ops) (o : arith2) (a b : Z) : option value :=
  let int (x : bool) := Some (VInt (if x then 1 else 0)) in
  match o with
  | Add => Some (VFloat (f_add F a b)) | Sub => Some (VFloat (f_sub F a b)) | Mul => Some (VFloat (f_mul F a b))
  | Div => Some (VFloat (f_div F a b)) | Pow => Some (VFloat (f_pow F a b))
  | Eq => int (close F a b) | Neq => int (negb (close F a b))
  | Gt => int (f_lt F b a) | Lt => int (f_lt F a b)
  | Ge => int (f_lt F (f_sub F b (f_eps F)) a) | Le => int (f_lt F a (f_add F b (f_eps F)))
  | Mod | BitAnd | BitOr | BitXor => None
  end.

(** [yields F inp t e v]: at step [t], [e] has value [v] when signal [k] has
    value [inp t k]. *)
Inductive yields (F : float_ops) (inp : nat -> Z -> value) : nat -> nexpr -> value -> Prop :=
| y_signal t k : yields F inp t (NSignal k) (inp t k)
| y_value t v : yields F inp t (NValue v) v
| y_time t : yields F inp t NTime (VInt (Z.of_nat t))
| y_unary_int t o e a c : yields F inp t e (VInt a) -> unary_int o a c -> yields F inp t (NUnary o e) (VInt c)
| y_unary_float t o e a c : yields F inp t e (VFloat a) -> unary_float F o a = Some c -> yields F inp t (NUnary o e) (VFloat c)
| y_binary_int t o e1 e2 a b c : yields F inp t e1 (VInt a) -> yields F inp t e2 (VInt b) -> binary_int o a b c ->
    yields F inp t (NBinary o e1 e2) (VInt c)
| y_binary_float t o e1 e2 a b v : yields F inp t e1 (VFloat a) -> yields F inp t e2 (VFloat b) ->
    binary_float F o a b = Some v -> yields F inp t (NBinary o e1 e2) v
| y_prev_start init e : yields F inp 0 (NPrev init e) init
| y_prev_later t init e v : yields F inp t e v -> yields F inp (S t) (NPrev init e) v.

(** Node [n] of the program graph stands for [e]; [int] tells its type, and
    [types] those of the signals.  Constants are those the binary format and the
    loader get right (C17, C18). *)
Definition const_node (c : nclass) (v : value) : Prop :=
  match v with
  | VInt z => c = CBzConst op_iconst (BzInt z) /\ 0 <= z < 2 ^ 31
  | VFloat bits => c = CBzConst op_fconst (BzFloat bits) /\ 0 <= bits < 2 ^ 64 /\ bits mod 2 ^ 32 < 2 ^ 31
  end.
Inductive stands (h : heap) (cls : nat -> nclass) (types : Z -> bool) : nat -> nexpr -> bool -> Prop :=
| st_signal n k : cls n = Assembly.CBzLoad (load_code (types k)) k -> 0 <= k -> stands h cls types n (NSignal k) (types k)
| st_value n v : const_node (cls n) v -> stands h cls types n (NValue v) (is_int v)
| st_time n : cls n = CTimestamp -> stands h cls types n NTime true
| st_unary n o code x e int : cls n = Assembly.CBz code -> unary_code o int = Some code -> nchildren (h n) = [x] ->
    stands h cls types x e int -> stands h cls types n (NUnary o e) int
| st_binary n o code x1 x2 e1 e2 int : cls n = Assembly.CBz code -> binary_code o int = Some code ->
    nchildren (h n) = [x1; x2] -> stands h cls types x1 e1 int -> stands h cls types x2 e2 int ->
    stands h cls types n (NBinary o e1 e2) (if relational o then true else int)
| st_prev n x0 x v e : cls n = Assembly.CBz op_prev -> nchildren (h n) = [x0; x] -> const_node (cls x0) v ->
    stands h cls types x e (is_int v) -> stands h cls types n (NPrev v e) (is_int v).

(** The operand of a [prev] is not itself a [prev] (type_check.py 566-575 checks
    this only before definitions are expanded). *)
Definition prev_apart (h : heap) (cls : nat -> nclass) (n : nat) : Prop :=
  forall x0 x, cls n = Assembly.CBz op_prev -> nchildren (h n) = [x0; x] -> cls x <> Assembly.CBz op_prev.

(** Signals have values of their type, integers of 32 bits. *)
Definition typed (types : Z -> bool) (inp : nat -> Z -> value) : Prop :=
  forall t k, is_int (inp t k) = types k /\ match inp t k with VInt z => int32 z | VFloat _ => True end.

(** The numeric part of a program: every numeric node stands for an expression,
    atomics are numbered apart, no [prev] is directly below another. *)
Record numeric (h : heap) (cls : nat -> nclass) (types : Z -> bool) (program : nat -> Prop) : Prop := Numeric {
  num_nodes : forall n, program n -> bz_class (cls n) -> exists e int, stands h cls types n e int;
  num_apart : forall n m aid, program n -> program m -> cls n = CAtomic aid -> cls m = CAtomic aid -> n = m;
  num_prev : forall n, program n -> prev_apart h cls n
}.
