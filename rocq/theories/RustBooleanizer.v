(** * The booleanizer of the Rust monitor and its part of the loader (model)

    monitors/rust/r2u2_core/src/engines/booleanizer.rs 23-760, its callers
    (engines/mod.rs 27-43 and 75, lib.rs 108-245 and 334-346), and loading
    (internals/process_binary.rs 17-62, instructions/booleanizer.rs and mltl.rs).

    Simplifications as in [Booleanizer]: memory is unbounded (C20 is about array
    bounds), floating point operations are an arbitrary [float_ops] on the 64
    bits of a double, here with [le], the operator <= on doubles, and
    libm's pow and sqrt are those of C.  A panic ends the execution ([None]). *)
From Coq Require Import List ZArith Bool.
Require Import Verif.Binary Verif.Layout Verif.Booleanizer.
Import ListNotations.
Local Open Scope Z_scope.

(** ** Loading *)
(** LittleEndian::read_u32, read_i32 and read_f64 of crate byteorder; the last
    is f64::from_bits of read_u64.  [None] is a slice index out of range. *)
Definition rust_u32 (spec : list Z) (k : nat) : option Z := low4 spec k.
Definition rust_i32 (spec : list Z) (k : nat) : option Z := option_map wrap_int (low4 spec k).
Definition rust_f64 (spec : list Z) (k : nat) : option Z :=
  match low4 spec k, low4 spec (k + 4) with
  | Some l, Some h => Some (l + h * 2 ^ 32)
  | _, _ => None
  end.
(** MLTLInstruction::set_from_binary, instructions/mltl.rs. *)
Definition rust_read_tl (spec : list Z) (k : nat) : option c_tl :=
  match rust_u32 spec k, rust_u32 spec (k + 4), rust_u32 spec (k + 8),
        byte spec (k + 12), byte spec (k + 13), byte spec (k + 14) with
  | Some v1, Some v2, Some r, Some t1, Some t2, Some o => Some (CTl v1 v2 r t1 t2 o)
  | _, _, _, _, _, _ => None
  end.
(** BooleanizerInstruction::set_from_binary, instructions/booleanizer.rs. *)
Definition rust_read_bz (spec : list Z) (k : nat) : option c_bz :=
  match rust_u32 spec k, rust_u32 spec (k + 8), rust_u32 spec (k + 12), byte spec (k + 16) with
  | Some p1, Some p2, Some r, Some o => Some (CBz p1 p2 r o)
  | _, _, _, _ => None
  end.
(** process_binary_file, process_binary.rs 20-62: one iteration.  Rust reads
    the second tag only if the first is that of a configuration; binaries with
    nothing after a tag are not distinguished here. *)
Definition rust_load_one (spec : list Z) (k : nat) : option (list action) :=
  match byte spec (k + 1), byte spec (k + 2) with
  | Some e1, Some e2 =>
      if (e1 =? tag_cg) && (e2 =? tag_tl) then option_map (fun i => [Configure i]) (rust_read_tl spec (k + 3))
      else if e1 =? tag_bz then
        match rust_read_bz spec (k + 2) with
        | None => None
        | Some i =>
            if c_bz_opcode i =? op_iconst then option_map (fun v => [SetInt (c_bz_memref i) v]) (rust_i32 spec (k + 2))
            else if c_bz_opcode i =? op_fconst then option_map (fun v => [SetFloat (c_bz_memref i) v]) (rust_f64 spec (k + 2))
            else Some [StoreBz i]
        end
      else if e1 =? tag_tl then option_map (fun i => [StoreTl i]) (rust_read_tl spec (k + 2))
      else Some []
  | _, _ => None
  end.
Fixpoint rust_load_loop (fuel : nat) (spec : list Z) (offset : nat) : option (list action) :=
  match fuel with
  | O => None
  | S fuel =>
      match byte spec offset with
      | None => None
      | Some 0 => Some []
      | Some len =>
          match rust_load_one spec offset, rust_load_loop fuel spec (offset + Z.to_nat len) with
          | Some a, Some l => Some (a ++ l)
          | _, _ => None
          end
      end
  end.
Definition rust_load (spec : list Z) : option (list action) :=
  match byte spec 0 with
  | None => None
  | Some h => rust_load_loop (List.length spec) spec (Z.to_nat h)
  end.

(** ** Values *)
(** r2u2_value (internals/types.rs 52-70): a struct, so the two fields do not
    share memory. *)
Record rvalue := RValue { r_i : Z; r_f : Z }.
Definition set_i (c : rvalue) (z : Z) : rvalue := RValue z (r_f c).
Definition set_f (c : rvalue) (bits : Z) : rvalue := RValue (r_i c) bits.
Definition int_max : Z := 2 ^ 31 - 1.
Definition int_min : Z := - 2 ^ 31.

(** i32::checked_mul and friends are [in_int] of the exact result.
    i32::checked_pow of the standard library: square and multiply, every product
    checked. *)
Fixpoint checked_pow_loop (acc base : Z) (e : positive) : option Z :=
  match e with
  | xH => in_int (acc * base)
  | xO e => match in_int (base * base) with Some b => checked_pow_loop acc b e | None => None end
  | xI e =>
      match in_int (acc * base) with
      | None => None
      | Some acc => match in_int (base * base) with Some b => checked_pow_loop acc b e | None => None end
      end
  end.
(** The exponent is a u32. *)
Definition checked_pow (a e : Z) : option Z :=
  match e with Zpos e => checked_pow_loop 1 a e | _ => Some 1 end.

(** Results of the operators: the value, and for those that return a pair the
    overflow flag.  Lines 360-366, 540-556, 720-729, 738-751. *)
Definition integer_negative (a : Z) : Z * bool := if a =? int_min then (int_max, true) else (- a, false).
Definition rust_unary (o : int_un) (a : Z) : Z * option bool :=
  match o with
  | BWNEG => (Z.lnot a, None)
  | INEG => let '(v, f) := integer_negative a in (v, Some f)
  | ISQRT => (if a <? 0 then 0 else Z.sqrt a, None)
  | IABS => let '(v, f) := if a <? 0 then integer_negative a else (a, false) in (v, Some f)
  end.
(** Lines 367-403, 415-528, 565-588, 596-619, 627-650, 659-675, 685-693, 696-710.
    i32::MIN % -1 panics. *)
Definition rust_binary (o : int_bin) (a b : Z) : option (Z * option bool) :=
  let plain z := Some (z, None) in
  let checked (r : option Z) (low : bool) :=
    match r with
    | Some n => Some (n, Some false)
    | None => Some (if low then int_min else int_max, Some true)
    end in
  let differ := ((a <? 0) && (0 <? b)) || ((0 <? a) && (b <? 0)) in
  match o with
  | BWAND => plain (Z.land a b)
  | BWOR => plain (Z.lor a b)
  | BWXOR => plain (Z.lxor a b)
  | IEQ => plain (if a =? b then 1 else 0)
  | INEQ => plain (if negb (a =? b) then 1 else 0)
  | IGT => plain (if b <? a then 1 else 0)
  | IGTE => plain (if b <=? a then 1 else 0)
  | ILT => plain (if a <? b then 1 else 0)
  | ILTE => plain (if a <=? b then 1 else 0)
  | IADD => checked (in_int (a + b)) ((a <? 0) && (b <? 0))
  | ISUB => checked (in_int (a - b)) ((a <? 0) && (0 <? b))
  | IMUL => checked (in_int (a * b)) differ
  | IDIV =>
      match (if b =? 0 then None else in_int (Z.quot a b)) with
      | Some n => Some (n, Some false)
      | None => Some (if b =? 0 then 0 else if differ then int_min else int_max, Some true)
      end
  | MOD =>
      if b =? 0 then Some (0, Some true)
      else if (a =? int_min) && (b =? -1) then None
      else Some (Z.rem a b, Some false)
  | IPOW => checked (checked_pow a (b mod 2 ^ 32)) ((a <? 0) && negb (Z.rem a 2 =? 0))
  end.
(** Lines 407-413, 431-437, 455-462, 480-487, 505-512, 530-537. *)
Definition rust_compare (F : float_ops) (le : Z -> Z -> bool) (o : flt_cmp) (a b : Z) : bool :=
  let d := f_abs F (f_sub F a b) in
  let equal := le d (f_eps F) in
  let unequal := f_lt F (f_eps F) d in
  match o with
  | FEQ => equal
  | FNEQ => unequal
  | FGT => f_lt F b a && unequal
  | FGTE => f_lt F b a || equal
  | FLT => f_lt F a b && unequal
  | FLTE => f_lt F a b || equal
  end.

(** ** State *)
Record rust_state := RustState {
  rust_values : Z -> rvalue;
  rust_signals : Z -> rvalue;
  rust_atomics : Z -> bool;
  rust_overflow : bool                 (* overflow_error *)
}.
Definition put (s : rust_state) (ref : Z) (v : rvalue) (flag : option bool) : rust_state :=
  RustState (update (rust_values s) ref v) (rust_signals s) (rust_atomics s)
            (match flag with Some f => f | None => rust_overflow s end).

(** bz_update, lines 23-355. *)
Definition rust_update (F : float_ops) (le : Z -> Z -> bool) (ts : Z) (i : c_bz) (s : rust_state) : option rust_state :=
  let ref := c_bz_memref i in
  let vb := rust_values s in
  let int r := r_i (vb r) in
  let flt r := r_f (vb r) in
  let put_i z flag := put s ref (set_i (vb ref) z) flag in
  let put_f b := put s ref (set_f (vb ref) b) None in
  match bz_decode (c_bz_opcode i) with
  | None => Some s
  | Some ILOAD => Some (put_i (r_i (rust_signals s (c_param1 i))) None)
  | Some FLOAD => Some (put_f (r_f (rust_signals s (c_param1 i))))
  | Some STORE =>
      Some (RustState vb (rust_signals s) (update (rust_atomics s) (c_param2 i) (negb (int (c_param1 i) =? 0)))
                      (rust_overflow s))
  | Some (IntUn o) => let '(z, flag) := rust_unary o (int (c_param1 i)) in Some (put_i z flag)
  | Some (IntBin o) =>
      match rust_binary o (int (c_param1 i)) (int (c_param2 i)) with
      | Some (z, flag) => Some (put_i z flag)
      | None => None
      end
  | Some (FltUn o) => Some (put_f (flt_unary F o (flt (c_param1 i))))
  | Some (FltBin o) => Some (put_f (flt_binary F o (flt (c_param1 i)) (flt (c_param2 i))))
  | Some (FltCmp o) => Some (put_i (if rust_compare F le o (flt (c_param1 i)) (flt (c_param2 i)) then 1 else 0) None)
  | Some PREV => Some (put s ref (vb (c_param2 i)) None)
  | Some TS => Some (put_i (if int_max <? ts then int_max else ts) None)
  end.

(** ** Loading: process_binary.rs 27-55 *)
Definition rust_bz_one (a : action) (p : list c_bz * (Z -> rvalue)) : list c_bz * (Z -> rvalue) :=
  let '(table, vb) := p in
  match a with
  | SetInt ref v => (table, update vb ref (set_i (vb ref) v))
  | SetFloat ref bits => (table, update vb ref (set_f (vb ref) bits))
  | StoreBz i =>
      (table ++ [i],
       if c_bz_opcode i =? 39 then update vb (c_bz_memref i) (vb (c_param1 i)) else vb)
  | Configure _ | StoreTl _ => p
  end.
(** Into a new monitor (lib.rs 66-70). *)
Definition rust_bz_load (acts : list action) : list c_bz * (Z -> rvalue) :=
  fold_left (fun p a => rust_bz_one a p) acts ([], fun _ => RValue 0 0).

(** ** One step *)
(** load_bool_signal, load_int_signal and load_float_signal, lib.rs 108-117,
    148-157 and 189-199, in a monitor that has booleanizer instructions. *)
Definition rust_signal (cell : rvalue) (v : value) : rvalue :=
  match v with VInt z => set_i cell z | VFloat bits => set_f cell bits end.
Fixpoint rust_updates (F : float_ops) (le : Z -> Z -> bool) (ts : Z) (is : list c_bz) (s : rust_state) : option rust_state :=
  match is with
  | [] => Some s
  | i :: is => match rust_update F le ts i s with Some s => rust_updates F le ts is s | None => None end
  end.
(** The host stores all signals, then r2u2_engine_step runs the table once
    (engines/mod.rs 38-43).  It returns [negb rust_overflow] (line 75);
    get_overflow_error returns [rust_overflow]. *)
Definition rust_step (F : float_ops) (le : Z -> Z -> bool) (ts : Z) (table : list c_bz) (inputs : Z -> value) (s : rust_state)
  : option rust_state :=
  rust_updates F le ts table
    (RustState (rust_values s) (fun k => rust_signal (rust_signals s k) (inputs k)) (rust_atomics s) (rust_overflow s)).
Fixpoint rust_run_from (F : float_ops) (le : Z -> Z -> bool) (table : list c_bz) (s : rust_state) (inputs : nat -> Z -> value)
  (n : nat) : option rust_state :=
  match n with
  | O => Some s
  | S n =>
      match rust_run_from F le table s inputs n with
      | None => None
      | Some s => rust_step F le (Z.of_nat n mod 2 ^ 32) table (inputs n) s
      end
  end.
Definition rust_run (F : float_ops) (le : Z -> Z -> bool) (acts : list action) (inputs : nat -> Z -> value) (n : nat)
  : option rust_state :=
  let '(table, vb) := rust_bz_load acts in
  rust_run_from F le table (RustState vb (fun _ => RValue 0 0) (fun _ => false) false) inputs n.

(** The atomics of each of [n] steps, as the temporal engine reads them right
    after the booleanizer (engines/mod.rs 38-75); it runs whether or not the
    overflow flag is set. *)
Fixpoint rust_bz_rows (F : float_ops) (le : Z -> Z -> bool) (acts : list action) (inputs : nat -> Z -> value) (n : nat)
  : option (list (nat -> bool)) :=
  match n with
  | O => Some []
  | S n =>
      match rust_bz_rows F le acts inputs n, rust_run F le acts inputs (S n) with
      | Some rs, Some s => Some (rs ++ [fun a => rust_atomics s (Z.of_nat a)])
      | _, _ => None
      end
  end.
