(** * Queue memory of the C monitor after loading (model)

    monitors/c/src/engines/mltl.c 600-656 (configuration commands),
    memory/shared_connection_queue.h 10-53, memory/monitor.h 58-90. *)
From Coq Require Import List Arith ZArith Bool.
Require Import Verif.Binary Verif.Scq Verif.Engine.
Import ListNotations.
Local Open Scope Z_scope.

(** The fields of a control block set while loading; [b_queue] is the index in
    queue_mem that the pointer refers to. *)
Record block := Block { b_length : Z; b_queue : Z }.
Record arena := Arena { a_blocks : Z -> block; a_mem : Z -> Z }.
(** R2U2_DEFAULT_MONITOR: everything zero (a null queue pointer is read as
    index 0; it is set before it is used). *)
Definition empty_arena : arena := Arena (fun _ => Block 0 0) (fun _ => 0).

Definition infinity_word : Z := 2 ^ 32 - 1.
(** sizeof(r2u2_scq_temporal_block_t) / sizeof(r2u2_verdict), monitor.h 58. *)
Definition metadata_size : Z := 4.

Definition update {A} (f : Z -> A) (k : Z) (v : A) : Z -> A := fun x => if x =? k then v else f x.

(** r2u2_mltl_configure_instruction_dispatch, mltl.c 600-656; lengths are
    uint32_t. *)
Definition configure (a : arena) (i : c_tl) : arena :=
  let id := c_memref i in
  let ctrl := a_blocks a id in
  if c_op1_type i =? 0 then                                            (* R2U2_FT_OP_ATOMIC *)
    let prev := a_blocks a (id - 1) in
    let queue := if id =? 0 then 0 else b_queue prev + b_length prev in
    let length := if c_op2_type i =? 0 then (c_op1_value i + metadata_size) mod 2 ^ 32 else c_op1_value i in
    Arena (update (a_blocks a) id (Block length queue)) (update (a_mem a) queue infinity_word)
  else if c_op1_type i =? 2 then                                       (* R2U2_FT_OP_SUBFORMULA *)
    let length := (b_length ctrl - metadata_size) mod 2 ^ 32 in
    let temp := b_queue ctrl + length in
    Arena (update (a_blocks a) id (Block length (b_queue ctrl)))
          (update (update (a_mem a) (temp + 2) (c_op1_value i)) (temp + 3) (c_op2_value i))
  else a.

(** Configuration commands and temporal instructions among the loaded
    actions, in order. *)
Definition configs (acts : list action) : list c_tl :=
  flat_map (fun a => match a with Configure i => [i] | _ => [] end) acts.
Definition table (acts : list action) : list c_tl :=
  flat_map (fun a => match a with StoreTl i => [i] | _ => [] end) acts.
Definition load_arena (acts : list action) : arena := fold_left configure (configs acts) empty_arena.

(** ** Reading the loaded monitor as a program of Engine.v *)
Definition decode_opcode (c : Z) : option opcode :=
  if c =? 29 then Some LOAD else if c =? 28 then Some RETURN
  else if c =? 25 then Some UNTIL else if c =? 24 then Some RELEASE
  else if c =? 9 then Some SINCE else if c =? 8 then Some TRIGGER
  else if c =? 23 then Some NOT else if c =? 22 then Some AND
  else if c =? 21 then Some OR else if c =? 16 then Some EQUIV else None.
(** mltl.c 18-67: any non-zero direct value is true. *)
Definition decode_operand (t v : Z) : option operand :=
  if t =? 0 then Some (Atomic (Z.to_nat v)) else if t =? 1 then Some (Direct (negb (v =? 0)))
  else if t =? 2 then Some (Sub (Z.to_nat v)) else if t =? 3 then Some NotSet else None.
(** Engine.v leaves memory_reference implicit: instruction [k] must own queue
    [k].  RETURN does not read its second operand but uses its value. *)
Definition decode_instr (k : nat) (c : c_tl) : option instr :=
  if c_memref c =? Z.of_nat k then
    match decode_opcode (c_opcode c), decode_operand (c_op1_type c) (c_op1_value c),
          decode_operand (c_op2_type c) (c_op2_value c) with
    | Some RETURN, Some o1, Some _ => Some (Instr RETURN o1 NotSet (Z.to_nat (c_op2_value c)))
    | Some o, Some o1, Some o2 => Some (Instr o o1 o2 0)
    | _, _, _ => None
    end
  else None.
Fixpoint decode_table (k : nat) (t : list c_tl) : option (list instr) :=
  match t with
  | [] => Some []
  | c :: t =>
      match decode_instr k c, decode_table (S k) t with
      | Some i, Some l => Some (i :: l)
      | _, _ => None
      end
  end.
Definition temporal_opcode (o : opcode) : bool :=
  match o with UNTIL | RELEASE | SINCE | TRIGGER => true | _ => false end.
(** Length and bounds of queue [k]; the temporal block (r2u2_scq_temporal_get)
    is only used by temporal instructions. *)
Definition decode_conf (a : arena) (k : nat) (ins : instr) : qconf :=
  let b := a_blocks a (Z.of_nat k) in
  let temp := b_queue b + b_length b in
  if temporal_opcode (i_op ins)
  then QConf (Z.to_nat (b_length b)) (Z.to_nat (a_mem a (temp + 2))) (Z.to_nat (a_mem a (temp + 3)))
  else QConf (Z.to_nat (b_length b)) 0 0.
Fixpoint decode_confs (a : arena) (k : nat) (p : list instr) : list qconf :=
  match p with
  | [] => []
  | ins :: p => decode_conf a k ins :: decode_confs a (S k) p
  end.
(** r2u2_process_binary, process_binary.c 10-66. *)
Definition boot (bytes : list Z) : option (list instr * list qconf) :=
  match load bytes with
  | None => None
  | Some acts =>
      match decode_table 0 (table acts) with
      | None => None
      | Some prog => Some (prog, decode_confs (load_arena acts) 0 prog)
      end
  end.
