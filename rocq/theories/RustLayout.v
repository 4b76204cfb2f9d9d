(** * Queue configuration of the Rust monitor after loading (model)

    monitors/rust/r2u2_core/src/instructions/mltl.rs 71-95,
    internals/process_binary.rs 17-94, memory/scq.rs 18-76.

    The control blocks are unbounded (their array has R2U2_MAX_TL_INSTRUCTIONS
    elements).  next_time, set last (process_binary.rs 79-94), is part of
    [RustEngine.rust_init_queue]. *)
From Coq Require Import List Arith ZArith Bool.
Require Import Verif.Binary Verif.Layout Verif.Engine Verif.RustBooleanizer.
Import ListNotations.
Local Open Scope Z_scope.

(** Fields of SCQCtrlBlock set while loading: length, queue_ref and the bounds
    of its temporal block. *)
Record rust_block := RustBlock { rb_length : Z; rb_queue : Z; rb_lb : Z; rb_ub : Z }.
(** SCQCtrlBlock::default, SCQTemporalBlock::default. *)
Definition default_block : rust_block := RustBlock 0 0 infinity_word infinity_word.

(** mltl_configure_instruction_dispatch.  [None]: the sum of u32 overflows, a
    panic in a debug build. *)
Definition rust_configure (b : Z -> rust_block) (i : c_tl) : option (Z -> rust_block) :=
  let id := c_memref i in
  let q := b id in
  if c_op1_type i =? 0 then                                            (* MLTL_OP_TYPE_ATOMIC *)
    let prev := b (id - 1) in
    let ref := if 0 <? id then rb_queue prev + rb_length prev else 0 in
    if ref <? 2 ^ 32 then Some (Layout.update b id (RustBlock (c_op1_value i) ref (rb_lb q) (rb_ub q))) else None
  else if c_op1_type i =? 2 then                                       (* MLTL_OP_TYPE_SUBFORMULA *)
    Some (Layout.update b id (RustBlock (rb_length q) (rb_queue q) (c_op1_value i) (c_op2_value i)))
  else Some b.
Fixpoint rust_configures (l : list c_tl) (b : Z -> rust_block) : option (Z -> rust_block) :=
  match l with
  | [] => Some b
  | i :: l => match rust_configure b i with Some b => rust_configures l b | None => None end
  end.
Definition rust_blocks (acts : list action) : option (Z -> rust_block) := rust_configures (configs acts) (fun _ => default_block).

(** The loaded monitor as a program of Engine.v, as in [Layout]; the opcodes and
    operand types are those of C (instructions/mltl.rs 8-40). *)
Definition rust_decode_conf (b : Z -> rust_block) (k : nat) (ins : instr) : qconf :=
  let q := b (Z.of_nat k) in
  if temporal_opcode (i_op ins)
  then QConf (Z.to_nat (rb_length q)) (Z.to_nat (rb_lb q)) (Z.to_nat (rb_ub q))
  else QConf (Z.to_nat (rb_length q)) 0 0.
Fixpoint rust_decode_confs (b : Z -> rust_block) (k : nat) (p : list instr) : list qconf :=
  match p with
  | [] => []
  | ins :: p => rust_decode_conf b k ins :: rust_decode_confs b (S k) p
  end.
Definition rust_boot (bytes : list Z) : option (list instr * list qconf) :=
  match rust_load bytes with
  | None => None
  | Some acts =>
      match rust_blocks acts, decode_table 0 (table acts) with
      | Some b, Some prog => Some (prog, rust_decode_confs b 0 prog)
      | _, _ => None
      end
  end.
