(** * Well-formed assembly (specification) *)
From Coq Require Import List Arith ZArith Bool.
Require Import Verif.Graph Verif.Binary Verif.Assembly.
Import ListNotations.
Local Open Scope Z_scope.

Definition temporal_part (asm : list instruction) : list tl_instruction :=
  flat_map (fun i => match i with ITl t => [t] | _ => [] end) asm.
Definition config_part (asm : list instruction) : list tl_instruction :=
  flat_map (fun i => match i with ICg t => [t] | _ => [] end) asm.

(** Nodes with a truth value the temporal engine can use. *)
Definition value_class (c : nclass) : Prop :=
  match c with CSignal _ | CBool _ | COp _ | CTemporal _ _ _ | CAtomic _ => True | _ => False end.
(** Nodes computed by an instruction of their own. *)
Definition owns (c : nclass) : bool :=
  match c with CSignal _ | COp _ | CTemporal _ _ _ | CFormula _ | CAtomic _ => true | _ => false end.

(** The operands of temporal operators and formulas are such values; a formula
    has one. *)
Definition tl_shaped (h : heap) (cls : nat -> nclass) : Prop :=
  forall n, match cls n with
  | COp _ | CTemporal _ _ _ => Forall (fun c => value_class (cls c)) (nchildren (h n))
  | CFormula _ => exists c, nchildren (h n) = [c] /\ value_class (cls c)
  | _ => True
  end.

(** [owners] lists the node computed by each instruction.  An operand slot
    holds child [c]: directly if it is a constant, otherwise as a reference to
    the earlier instruction that computes it. *)
Definition slot_holds (cls : nat -> nclass) (owners : list nat) (k : nat) (child : option nat) (t v : Z) : Prop :=
  match child with
  | None => t = type_none
  | Some c =>
      match cls c with
      | CBool b => t = type_direct /\ v = bool_value b
      | _ => t = type_sub /\ exists j, v = Z.of_nat j /\ (j < k)%nat /\ nth_error owners j = Some c
      end
  end.
(** Instruction [i] computes node [n]. *)
Definition computes (h : heap) (cls : nat -> nclass) (code : opkind -> option Z) (owners : list nat) (k n : nat)
    (i : tl_instruction) : Prop :=
  match cls n with
  | CSignal a | CAtomic a =>
      tl_operator i = op_load /\ tl_type1 i = type_atomic /\ tl_value1 i = a /\ tl_type2 i = type_none
  | CFormula number =>
      tl_operator i = op_return /\ slot_holds cls owners k (nth_error (nchildren (h n)) 0) (tl_type1 i) (tl_value1 i) /\
      tl_type2 i = type_direct /\ tl_value2 i = number
  | COp o | CTemporal o _ _ =>
      code o = Some (tl_operator i) /\ (length (nchildren (h n)) <= 2)%nat /\
      slot_holds cls owners k (nth_error (nchildren (h n)) 0) (tl_type1 i) (tl_value1 i) /\
      slot_holds cls owners k (nth_error (nchildren (h n)) 1) (tl_type2 i) (tl_value2 i)
  | _ => False
  end.

(** The command that gives queue [k] to node [n], and the one that sets its
    bounds. *)
Definition size_command (cls : nat -> nclass) (size : nat -> Z) (k n : nat) : tl_instruction :=
  TlInstruction op_config type_atomic (size n)
    (match cls n with CTemporal _ _ _ => type_atomic | _ => type_none end) 0 (Z.of_nat k).
Definition bounds_command (cls : nat -> nclass) (k n : nat) : list tl_instruction :=
  match cls n with CTemporal _ lb ub => [TlInstruction op_config type_sub lb type_sub ub (Z.of_nat k)] | _ => [] end.

(** [nft] is the number of future-time instructions. *)
Definition well_formed (h : heap) (cls : nat -> nclass) (size : nat -> Z) (nft : nat) (owners : list nat)
    (asm : list instruction) : Prop :=
  NoDup owners /\ length (temporal_part asm) = length owners /\
  (forall k n i, nth_error owners k = Some n -> nth_error (temporal_part asm) k = Some i ->
     tl_id i = Z.of_nat k /\
     computes h cls (if (k <? nft)%nat then ft_code else pt_code) owners k n i) /\
  (** every queue is configured once, in order, then the bounds *)
  config_part asm =
    map (fun p => size_command cls size (fst p) (snd p)) (combine (seq 0 (length owners)) owners) ++
    flat_map (fun p => bounds_command cls (fst p) (snd p)) (combine (seq 0 (length owners)) owners).

(** Nodes the assembler has an encoding for: operators of the engine with at
    most two operands, formulas that are not constant, and numeric expressions
    below atomics; [code] is the operator table. *)
Definition bz_class (c : nclass) : Prop :=
  match c with CBzLoad _ _ | CBzConst _ _ | CTimestamp | CBz _ => True | _ => False end.
Definition assemblable (h : heap) (cls : nat -> nclass) (code : opkind -> option Z) (n : nat) : Prop :=
  match cls n with
  | COp o | CTemporal o _ _ => code o <> None /\ (length (nchildren (h n)) <= 2)%nat
  | CFormula _ => exists c, nchildren (h n) = [c] /\ forall b, cls c <> CBool b
  | CSet => True
  | CAtomic _ => exists c, nchildren (h n) = [c] /\ bz_class (cls c)
  | CBz _ => Forall (fun c => bz_class (cls c)) (nchildren (h n))
  | CSignal _ | CBool _ | CBzLoad _ _ | CBzConst _ _ | CTimestamp => nchildren (h n) = []
  end.
