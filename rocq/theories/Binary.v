(** * The binary format: packing (assembler) and loading (C monitor) (model)

    Packing: compiler/c2po/assemble.py 834-973 and 1017-1076.  Loading:
    monitors/c/src/internals/process_binary.c 10-57 and instructions/*.c.
    Bytes are [Z] in 0..255. *)
From Coq Require Import List ZArith Bool String Ascii.
Import ListNotations.
Open Scope Z_scope.

(** ** Instructions in the assembler: assemble.py 316-400 *)
(** [operand1] of a booleanizer instruction: an int, or a float given by the 64
    bits of its IEEE double. *)
Inductive bz_operand := BzInt (z : Z) | BzFloat (bits : Z).
Record bz_instruction := BzInstruction { bz_operator : Z; bz_operand1 : bz_operand; bz_operand2 : Z; bz_id : Z }.
Record tl_instruction := TlInstruction {
  tl_operator : Z; tl_type1 : Z; tl_value1 : Z; tl_type2 : Z; tl_value2 : Z; tl_id : Z
}.
Inductive instruction := IBz (i : bz_instruction) | ITl (i : tl_instruction) | ICg (i : tl_instruction).

(** int.bit_length of Python. *)
Definition bit_length (z : Z) : Z := if z =? 0 then 0 else Z.log2 (Z.abs z) + 1.
(** Integer constants the type checker lets through, type_check.py 39-48; by
    default the type is 32 bits wide and signed (types.py 57-62). *)
Definition constant_accepted (width : Z) (signed : bool) (z : Z) : bool :=
  bit_length z <=? width - (if signed then 1 else 0).

(** Engine tags (assemble.py 21-28) and the opcodes the loader looks at
    (assemble.py 30-71). *)
Definition tag_cg : Z := 2.
Definition tag_tl : Z := 4.
Definition tag_bz : Z := 5.
Definition op_iconst : Z := 3.
Definition op_fconst : Z := 4.

(** gen_bz_instruction for an integer constant, assemble.py 419-422. *)
Definition int_constant (id z : Z) : instruction := IBz (BzInstruction op_iconst (BzInt z) 0 id).
(** and for a float constant, lines 423-426. *)
Definition float_constant (id bits : Z) : instruction := IBz (BzInstruction op_fconst (BzFloat bits) 0 id).

(** ** Python's struct.pack, little endian *)
Fixpoint little (n : nat) (v : Z) : list Z :=
  match n with O => [] | S n => v mod 256 :: little n (v / 256) end.
(** Formats "B", "I", "i", "d"; [None] is struct.error. *)
Definition pack_B (v : Z) : option (list Z) := if (0 <=? v) && (v <? 256) then Some [v] else None.
Definition pack_I (v : Z) : option (list Z) := if (0 <=? v) && (v <? 2 ^ 32) then Some (little 4 v) else None.
Definition pack_i (v : Z) : option (list Z) :=
  if (- 2 ^ 31 <=? v) && (v <? 2 ^ 31) then Some (little 4 (v mod 2 ^ 32)) else None.
Definition pack_d (bits : Z) : option (list Z) := Some (little 8 bits).
Fixpoint concat_all (l : list (option (list Z))) : option (list Z) :=
  match l with
  | [] => Some []
  | x :: l => match x, concat_all l with Some a, Some b => Some (a ++ b) | _, _ => None end
  end.
(** "xxxx" *)
Definition pad4 : list Z := [0; 0; 0; 0].

(** ** Packing *)
(** pack_bz_instruction, lines 834-881: the format of operand 1 is "d" for a
    float, "Ixxxx" for the integer constant instruction and "ixxxx" otherwise. *)
Definition pack_bz (i : bz_instruction) : option (list Z) :=
  concat_all [ pack_B tag_bz;
    match bz_operand1 i with
    | BzFloat bits => pack_d bits
    | BzInt z => option_map (fun b => b ++ pad4) (if bz_operator i =? op_iconst then pack_I z else pack_i z)
    end;
    pack_I (bz_operand2 i); pack_I (bz_id i); pack_B (bz_operator i) ].
(** pack_tl_instruction, lines 884-931. *)
Definition pack_tl (i : tl_instruction) : option (list Z) :=
  concat_all [ pack_B tag_tl; pack_I (tl_value1 i); pack_I (tl_value2 i); pack_I (tl_id i);
               pack_B (tl_type1 i); pack_B (tl_type2 i); pack_B (tl_operator i) ].
(** pack_cg_instruction, lines 934-955. *)
Definition pack_cg (i : tl_instruction) : option (list Z) := concat_all [ pack_B tag_cg; pack_tl i ].
(** pack_instruction, lines 958-973: the length byte counts itself. *)
Definition pack_instruction (i : instruction) : option (list Z) :=
  match (match i with IBz b => pack_bz b | ITl t => pack_tl t | ICg t => pack_cg t end) with
  | None => None
  | Some body =>
      match pack_B (Z.of_nat (List.length body) + 1) with
      | None => None
      | Some l => Some (l ++ body)
      end
  end.

Definition text (s : string) : list Z := map (fun c => Z.of_N (N_of_ascii c)) (list_ascii_of_string s).
(** Lines 1044-1050. *)
Definition header : list Z := text "C2PO Version 4.2.0 for R2U2 V4.2.0 - BOM: <" ++ [0].
(** Lines 1043-1063; [aux] is the text of the aliases (lines 976-1015), or one
    zero byte when they are left out. *)
Definition assemble_binary (is : list instruction) (aux : list Z) : option (list Z) :=
  match concat_all (map pack_instruction is) with
  | None => None
  | Some body => Some ((Z.of_nat (List.length header) + 1) :: header ++ body ++ [0] ++ aux ++ [0])
  end.

(** ** Loading *)
(** r2u2_mltl_instruction_t and r2u2_bz_instruction_t (instructions/*.h). *)
Record c_tl := CTl { c_op1_value : Z; c_op2_value : Z; c_memref : Z; c_op1_type : Z; c_op2_type : Z; c_opcode : Z }.
Record c_bz := CBz { c_param1 : Z; c_param2 : Z; c_bz_memref : Z; c_bz_opcode : Z }.
(** What the loader does with each instruction, in order. *)
Inductive action :=
| Configure (i : c_tl)               (* r2u2_mltl_configure_instruction_dispatch *)
| SetInt (ref : Z) (v : Z)           (* value_buffer[ref].i = v *)
| SetFloat (ref : Z) (bits : Z)      (* value_buffer[ref].f = v *)
| StoreBz (i : c_bz)                 (* appended to the booleanizer table *)
| StoreTl (i : c_tl).                (* appended to the temporal table *)

Definition byte (spec : list Z) (k : nat) : option Z := nth_error spec k.
Definition low4 (spec : list Z) (k : nat) : option Z :=
  match byte spec k, byte spec (k + 1), byte spec (k + 2), byte spec (k + 3) with
  | Some a, Some b, Some c, Some d => Some (a + Z.shiftl b 8 + Z.shiftl c 16 + Z.shiftl d 24)
  | _, _, _, _ => None
  end.
(** (uint32_t)(spec[k] + (spec[k+1] << 8) + ...); bytes promote to int, so the
    sum is a 32-bit signed value before the conversion. *)
Definition wrap_int (z : Z) : Z := (z + 2 ^ 31) mod 2 ^ 32 - 2 ^ 31.
Definition read_u32 (spec : list Z) (k : nat) : option Z := option_map (fun z => wrap_int z mod 2 ^ 32) (low4 spec k).
Definition read_i32 (spec : list Z) (k : nat) : option Z := option_map wrap_int (low4 spec k).
(** r2u2_bz_get_param1_float_from_binary, instructions/booleanizer.c 8-14: the
    four low bytes are summed as int and the sum is converted to uint64_t, the
    high bytes are shifted as uint64_t. *)
Definition read_f64 (spec : list Z) (k : nat) : option Z :=
  match low4 spec k, byte spec (k + 4), byte spec (k + 5), byte spec (k + 6), byte spec (k + 7) with
  | Some l, Some a, Some b, Some c, Some d =>
      Some ((wrap_int l + Z.shiftl a 32 + Z.shiftl b 40 + Z.shiftl c 48 + Z.shiftl d 56) mod 2 ^ 64)
  | _, _, _, _, _ => None
  end.
(** r2u2_mltl_set_from_binary, instructions/mltl.c 3-12. *)
Definition read_tl (spec : list Z) (k : nat) : option c_tl :=
  match read_u32 spec k, read_u32 spec (k + 4), read_u32 spec (k + 8),
        byte spec (k + 12), byte spec (k + 13), byte spec (k + 14) with
  | Some v1, Some v2, Some r, Some t1, Some t2, Some o => Some (CTl v1 v2 r t1 t2 o)
  | _, _, _, _, _, _ => None
  end.
(** r2u2_bz_set_from_binary, instructions/booleanizer.c 16-23. *)
Definition read_bz (spec : list Z) (k : nat) : option c_bz :=
  match read_u32 spec k, read_u32 spec (k + 8), read_u32 spec (k + 12), byte spec (k + 16) with
  | Some p1, Some p2, Some r, Some o => Some (CBz p1 p2 r o)
  | _, _, _, _ => None
  end.

(** One iteration of the loop, process_binary.c 17-56; an unknown tag is
    skipped. *)
Definition load_one (spec : list Z) (k : nat) : option (list action) :=
  match byte spec (k + 1), byte spec (k + 2) with
  | Some e1, Some e2 =>
      if (e1 =? tag_cg) && (e2 =? tag_tl) then option_map (fun i => [Configure i]) (read_tl spec (k + 3))
      else if e1 =? tag_bz then
        match read_bz spec (k + 2) with
        | None => None
        | Some i =>
            if c_bz_opcode i =? op_iconst then option_map (fun v => [SetInt (c_bz_memref i) v]) (read_i32 spec (k + 2))
            else if c_bz_opcode i =? op_fconst then option_map (fun v => [SetFloat (c_bz_memref i) v]) (read_f64 spec (k + 2))
            else Some [StoreBz i]
        end
      else if e1 =? tag_tl then option_map (fun i => [StoreTl i]) (read_tl spec (k + 2))
      else Some []
  | _, _ => None
  end.
(** The loop; fuel bounds the number of instructions, [None] also stands for
    reading outside the binary. *)
Fixpoint load_loop (fuel : nat) (spec : list Z) (offset : nat) : option (list action) :=
  match fuel with
  | O => None
  | S fuel =>
      match byte spec offset with
      | None => None
      | Some 0 => Some []
      | Some len =>
          match load_one spec offset, load_loop fuel spec (offset + Z.to_nat len) with
          | Some a, Some l => Some (a ++ l)
          | _, _ => None
          end
      end
  end.
Definition load (spec : list Z) : option (list action) :=
  match byte spec 0 with
  | None => None
  | Some h => load_loop (List.length spec) spec (Z.to_nat h)
  end.
