(** * The booleanizer of the C monitor (model)

    monitors/c/src/engines/booleanizer.c 5-344, its part of the loader
    (internals/process_binary.c 24-50), the host interface that stores signals
    (lib.c 31-66), and the operator table of the assembler (assemble.py
    84-122).

    Simplifications: memory is unbounded (C20 is about array bounds); the host is
    little endian; signed overflow of +, -, * and unary minus wraps (two's
    complement); what C leaves undefined otherwise ends the execution ([None]).
    Floating point operations are an arbitrary [float_ops] on the 64 bits of a
    double. *)
From Coq Require Import List ZArith Bool.
Require Import Verif.Binary Verif.Layout.
Import ListNotations.
Local Open Scope Z_scope.

Record float_ops := FloatOps {
  f_add : Z -> Z -> Z; f_sub : Z -> Z -> Z; f_mul : Z -> Z -> Z; f_div : Z -> Z -> Z; f_pow : Z -> Z -> Z;
  f_neg : Z -> Z; f_sqrt : Z -> Z; f_abs : Z -> Z;
  f_lt : Z -> Z -> bool;
  f_eps : Z                        (* R2U2_FLOAT_EPSILON *)
}.

(** ** Opcodes: instructions/booleanizer.h 6-54 *)
Inductive int_un := BWNEG | INEG | ISQRT | IABS.
Inductive int_bin := BWAND | BWOR | BWXOR | IEQ | INEQ | IGT | IGTE | ILT | ILTE | IADD | ISUB | IMUL | IDIV | MOD | IPOW.
Inductive flt_un := FNEG | FSQRT | FABS.
Inductive flt_bin := FADD | FSUB | FMUL | FDIV | FPOW.
Inductive flt_cmp := FEQ | FNEQ | FGT | FGTE | FLT | FLTE.
Inductive bz_op :=
| ILOAD | FLOAD | STORE | IntUn (o : int_un) | IntBin (o : int_bin) | FltUn (o : flt_un) | FltBin (o : flt_bin)
| FltCmp (o : flt_cmp) | PREV | TS.
Definition bz_opcodes : list (Z * bz_op) :=
  [ (1, ILOAD); (2, FLOAD); (5, STORE); (6, IntUn BWNEG); (7, IntBin BWAND); (8, IntBin BWOR); (9, IntBin BWXOR);
    (10, IntBin IEQ); (11, FltCmp FEQ); (12, IntBin INEQ); (13, FltCmp FNEQ); (14, IntBin IGT); (15, FltCmp FGT);
    (16, IntBin IGTE); (17, FltCmp FGTE); (18, IntBin ILT); (19, FltCmp FLT); (20, IntBin ILTE); (21, FltCmp FLTE);
    (22, IntUn INEG); (23, FltUn FNEG); (24, IntBin IADD); (25, FltBin FADD); (26, IntBin ISUB); (27, FltBin FSUB);
    (28, IntBin IMUL); (29, FltBin FMUL); (30, IntBin IDIV); (31, FltBin FDIV); (32, IntBin MOD); (33, IntBin IPOW);
    (34, FltBin FPOW); (35, IntUn ISQRT); (36, FltUn FSQRT); (37, IntUn IABS); (38, FltUn FABS); (39, PREV); (40, TS) ].
Definition bz_decode (c : Z) : option bz_op :=
  option_map snd (find (fun p => fst p =? c) bz_opcodes).

(** ** Values *)
(** r2u2_value_t (types.h 82-87): a union of int32_t and double, as the 64 bits
    of the double. *)
Definition as_int (cell : Z) : Z := wrap_int cell.
Definition set_int (cell z : Z) : Z := cell - cell mod 2 ^ 32 + z mod 2 ^ 32.

Definition truth (b : bool) : Z := if b then 1 else 0.
Definition in_int (z : Z) : option Z := if (- 2 ^ 31 <=? z) && (z <? 2 ^ 31) then Some z else None.

(** Lines 36-43, 179-187, 290-298, 306-314.  sqrt of a negative number is a NaN,
    whose conversion to int is undefined. *)
Definition int_unary (o : int_un) (a : Z) : option Z :=
  match o with
  | BWNEG => Some (Z.lnot a)
  | INEG => Some (wrap_int (- a))
  | ISQRT => if a <? 0 then None else Some (Z.sqrt a)
  | IABS => Some (if a <? 0 then wrap_int (-1 * a) else a)
  end.
(** pow of two ints, converted to int: exact (within the precision of double)
    and truncated for negative exponents. *)
Definition int_pow (a b : Z) : option Z :=
  if 0 <=? b then in_int (a ^ b)
  else if a =? 0 then None
  else if a =? 1 then Some 1
  else if a =? -1 then Some (if Z.even b then 1 else -1)
  else Some 0.
(** Lines 44-71, 73-81, 91-99, 110-166, 199-207, 217-225, 235-243, 253-289. *)
Definition int_binary (o : int_bin) (a b : Z) : option Z :=
  match o with
  | BWAND => Some (Z.land a b)
  | BWOR => Some (Z.lor a b)
  | BWXOR => Some (Z.lxor a b)
  | IEQ => Some (truth (a =? b))
  | INEQ => Some (truth (negb (a =? b)))
  | IGT => Some (truth (b <? a))
  | IGTE => Some (truth (b <=? a))
  | ILT => Some (truth (a <? b))
  | ILTE => Some (truth (a <=? b))
  | IADD => Some (wrap_int (a + b))
  | ISUB => Some (wrap_int (a - b))
  | IMUL => Some (wrap_int (a * b))
  | IDIV => if b =? 0 then None else in_int (Z.quot a b)
  | MOD => if (b =? 0) || ((a =? - 2 ^ 31) && (b =? -1)) then None else Some (Z.rem a b)
  | IPOW => int_pow a b
  end.
Definition flt_unary (F : float_ops) (o : flt_un) (a : Z) : Z :=
  match o with FNEG => f_neg F a | FSQRT => f_sqrt F a | FABS => f_abs F a end.
Definition flt_binary (F : float_ops) (o : flt_bin) (a b : Z) : Z :=
  match o with
  | FADD => f_add F a b | FSUB => f_sub F a b | FMUL => f_mul F a b | FDIV => f_div F a b | FPOW => f_pow F a b
  end.
Definition flt_compare (F : float_ops) (o : flt_cmp) (a b : Z) : bool :=
  let near := if f_lt F b a then f_lt F (f_sub F a b) (f_eps F) else f_lt F (f_sub F b a) (f_eps F) in
  match o with
  | FEQ => near
  | FNEQ => negb near
  | FGT => f_lt F b a
  | FGTE => f_lt F (f_sub F b (f_eps F)) a
  | FLT => f_lt F a b
  | FLTE => f_lt F a (f_add F b (f_eps F))
  end.

(** ** State *)
Record bz_state := BzState { value_buffer : Z -> Z; signal_vector : Z -> Z; atomic_buffer : Z -> bool }.
Definition set_value (s : bz_state) (ref v : Z) : bz_state :=
  BzState (update (value_buffer s) ref v) (signal_vector s) (atomic_buffer s).

(** r2u2_bz_update; [ts] is time_stamp. *)
Definition bz_update (F : float_ops) (ts : Z) (i : c_bz) (s : bz_state) : option bz_state :=
  let ref := c_bz_memref i in
  let vb := value_buffer s in
  let int r := as_int (vb r) in
  let put_int z := set_value s ref (set_int (vb ref) z) in
  match bz_decode (c_bz_opcode i) with
  | None => Some s
  | Some ILOAD => Some (put_int (as_int (signal_vector s (c_param1 i))))
  | Some FLOAD => Some (set_value s ref (signal_vector s (c_param1 i)))
  | Some STORE =>
      Some (BzState vb (signal_vector s) (update (atomic_buffer s) (c_param2 i) (negb (int (c_param1 i) =? 0))))
  | Some (IntUn o) => option_map put_int (int_unary o (int (c_param1 i)))
  | Some (IntBin o) => option_map put_int (int_binary o (int (c_param1 i)) (int (c_param2 i)))
  | Some (FltUn o) => Some (set_value s ref (flt_unary F o (vb (c_param1 i))))
  | Some (FltBin o) => Some (set_value s ref (flt_binary F o (vb (c_param1 i)) (vb (c_param2 i))))
  | Some (FltCmp o) => Some (put_int (truth (flt_compare F o (vb (c_param1 i)) (vb (c_param2 i)))))
  | Some PREV => Some (set_value s ref (vb (c_param2 i)))
  | Some TS => Some (put_int (if 2 ^ 31 - 1 <? ts then 2 ^ 31 - 1 else ts))
  end.

(** ** Loading: process_binary.c 24-50 *)
Definition bz_load_one (a : action) (p : list c_bz * (Z -> Z)) : list c_bz * (Z -> Z) :=
  let '(table, vb) := p in
  match a with
  | SetInt ref v => (table, update vb ref (set_int (vb ref) v))
  | SetFloat ref bits => (table, update vb ref bits)
  | StoreBz i =>
      (table ++ [i],
       if c_bz_opcode i =? 39 then update vb (c_bz_memref i) (vb (c_param1 i)) else vb)
  | Configure _ | StoreTl _ => p
  end.
(** The table is filled from its start (r2u2_monitor_soft_reset, monitor.c
    11-15); the value buffer keeps what it held. *)
Definition bz_load_into (vb : Z -> Z) (acts : list action) : list c_bz * (Z -> Z) :=
  fold_left (fun p a => bz_load_one a p) acts ([], vb).
(** Into a new monitor. *)
Definition bz_load (acts : list action) : list c_bz * (Z -> Z) := bz_load_into (fun _ => 0) acts.

(** ** One step *)
(** What the host passes for a signal: lib.c 31-52 (Booleans are passed as
    ints). *)
Inductive value := VInt (z : Z) | VFloat (bits : Z).
(** r2u2_load_int_signal and r2u2_load_float_signal in a monitor that has
    booleanizer instructions. *)
Definition load_signal (cell : Z) (v : value) : Z :=
  match v with VInt z => set_int cell z | VFloat bits => bits end.
Fixpoint bz_updates (F : float_ops) (ts : Z) (is : list c_bz) (s : bz_state) : option bz_state :=
  match is with
  | [] => Some s
  | i :: is => match bz_update F ts i s with Some s => bz_updates F ts is s | None => None end
  end.
(** The host stores all signals, then r2u2_engine_step runs the table once
    (engines.c 10-16). *)
Definition bz_step (F : float_ops) (ts : Z) (table : list c_bz) (inputs : Z -> value) (s : bz_state) : option bz_state :=
  bz_updates F ts table
    (BzState (value_buffer s) (fun k => load_signal (signal_vector s k) (inputs k)) (atomic_buffer s)).
(** [n] steps from the state after loading; time_stamp is a uint32_t that starts
    at 0. *)
Fixpoint bz_run_from (F : float_ops) (table : list c_bz) (s : bz_state) (inputs : nat -> Z -> value) (n : nat) : option bz_state :=
  match n with
  | O => Some s
  | S n =>
      match bz_run_from F table s inputs n with
      | None => None
      | Some s => bz_step F (Z.of_nat n mod 2 ^ 32) table (inputs n) s
      end
  end.
Definition bz_run (F : float_ops) (table : list c_bz) (vb : Z -> Z) (inputs : nat -> Z -> value) (n : nat) : option bz_state :=
  bz_run_from F table (BzState vb (fun _ => 0) (fun _ => false)) inputs n.
(** Loading into a monitor that has run: signals and atomics keep their values
    as well (lib.c 11-25). *)
Definition bz_reload (acts : list action) (s : bz_state) : list c_bz * bz_state :=
  let '(table, vb) := bz_load_into (value_buffer s) acts in
  (table, BzState vb (signal_vector s) (atomic_buffer s)).

(** The atomics of each of [n] steps, as the temporal engine reads them right
    after the booleanizer (engines.c 10-24, mltl.c 18-28). *)
Fixpoint bz_rows (F : float_ops) (table : list c_bz) (vb : Z -> Z) (inputs : nat -> Z -> value) (n : nat)
  : option (list (nat -> bool)) :=
  match n with
  | O => Some []
  | S n =>
      match bz_rows F table vb inputs n, bz_run F table vb inputs (S n) with
      | Some rs, Some s => Some (rs ++ [fun a => atomic_buffer s (Z.of_nat a)])
      | _, _ => None
      end
  end.

(** ** The assembler's operator table: assemble.py 84-122 and 433-460 *)
Inductive arith1 := Neg | BitNot | Sqrt | Abs.
Inductive arith2 :=
| Add | Sub | Mul | Div | Mod | Pow | BitAnd | BitOr | BitXor | Eq | Neq | Gt | Ge | Lt | Le.
(** cpt.is_relational_operator *)
Definition relational (o : arith2) : bool :=
  match o with Eq | Neq | Gt | Ge | Lt | Le => true | _ => false end.
(** [int] is is_int_operator; [None] is a KeyError. *)
Definition unary_code (o : arith1) (int : bool) : option Z :=
  match o, int with
  | Neg, true => Some 22 | Neg, false => Some 23
  | BitNot, true => Some 6 | BitNot, false => None
  | Sqrt, true => Some 35 | Sqrt, false => Some 36
  | Abs, true => Some 37 | Abs, false => Some 38
  end.
Definition binary_code (o : arith2) (int : bool) : option Z :=
  match o, int with
  | BitAnd, true => Some 7 | BitOr, true => Some 8 | BitXor, true => Some 9
  | BitAnd, false | BitOr, false | BitXor, false => None
  | Add, true => Some 24 | Add, false => Some 25
  | Sub, true => Some 26 | Sub, false => Some 27
  | Mul, true => Some 28 | Mul, false => Some 29
  | Div, true => Some 30 | Div, false => Some 31
  | Mod, true => Some 32 | Mod, false => None
  | Pow, true => Some 33 | Pow, false => Some 34
  | Eq, true => Some 10 | Eq, false => Some 11
  | Neq, true => Some 12 | Neq, false => Some 13
  | Gt, true => Some 14 | Gt, false => Some 15
  | Ge, true => Some 16 | Ge, false => Some 17
  | Lt, true => Some 18 | Lt, false => Some 19
  | Le, true => Some 20 | Le, false => Some 21
  end.
(** Lines 411-418. *)
Definition load_code (int : bool) : Z := if int then 1 else 2.
