(** * What loading a binary has to give (specification) *)
From Coq Require Import List ZArith.
Require Import Verif.Binary.
Import ListNotations.
Open Scope Z_scope.

(** Fields that fit their place in the binary. *)
Definition word (v : Z) : Prop := 0 <= v < 2 ^ 32.
Definition small (v : Z) : Prop := 0 <= v < 256.
Definition tl_fits (i : tl_instruction) : Prop :=
  word (tl_value1 i) /\ word (tl_value2 i) /\ word (tl_id i) /\
  small (tl_type1 i) /\ small (tl_type2 i) /\ small (tl_operator i).
Definition bz_fits (i : bz_instruction) : Prop :=
  match bz_operand1 i with
  | BzInt z => if bz_operator i =? op_iconst then word z else - 2 ^ 31 <= z < 2 ^ 31
  | BzFloat bits => 0 <= bits < 2 ^ 64
  end /\ word (bz_operand2 i) /\ word (bz_id i) /\ small (bz_operator i).
Definition fits (i : instruction) : Prop :=
  match i with IBz b => bz_fits b | ITl t | ICg t => tl_fits t end.

(** The loaded instruction has the fields of the assembled one. *)
Definition same_tl (i : tl_instruction) (c : c_tl) : Prop :=
  c_opcode c = tl_operator i /\ c_op1_type c = tl_type1 i /\ c_op1_value c = tl_value1 i /\
  c_op2_type c = tl_type2 i /\ c_op2_value c = tl_value2 i /\ c_memref c = tl_id i.
Definition faithful (i : instruction) (a : action) : Prop :=
  match i, a with
  | ITl t, StoreTl c => same_tl t c
  | ICg t, Configure c => same_tl t c
  | IBz b, SetInt r v => bz_operator b = op_iconst /\ r = bz_id b /\ bz_operand1 b = BzInt v
  | IBz b, SetFloat r v => bz_operator b = op_fconst /\ r = bz_id b /\ bz_operand1 b = BzFloat v
  | IBz b, StoreBz c =>
      bz_operator b <> op_iconst /\ bz_operator b <> op_fconst /\
      c_bz_opcode c = bz_operator b /\ c_bz_memref c = bz_id b /\ c_param2 c = bz_operand2 b /\
      bz_operand1 b = BzInt (c_param1 c)
  | _, _ => False
  end.
(** The two kinds of constant the loader gets right (see the refutations), and
    non-negative references elsewhere. *)
Definition readable (i : instruction) : Prop :=
  match i with
  | IBz b =>
      if bz_operator b =? op_iconst then exists z, bz_operand1 b = BzInt z /\ z < 2 ^ 31
      else if bz_operator b =? op_fconst then exists bits, bz_operand1 b = BzFloat bits /\ bits mod 2 ^ 32 < 2 ^ 31
      else exists z, bz_operand1 b = BzInt z /\ 0 <= z
  | _ => True
  end.
