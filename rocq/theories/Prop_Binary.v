(** * C17, C18: the binary format *)
From Coq Require Import List ZArith Bool Lia.
Require Import Verif.Binary Verif.BinarySpec Verif.BinaryProofs.
Import ListNotations.
Local Open Scope Z_scope.

(** ** C17: what the assembler writes, the monitor reads *)
(** The assembler never truncates a field: it writes a binary exactly when
    every field fits its place. *)
Theorem C17_packs_iff_fits (is : list instruction) (aux : list Z) : Forall float_valid is ->
  (exists bytes, assemble_binary is aux = Some bytes) <-> Forall fits is.
Proof. exact (binary_iff_fits is aux). Qed.
Print Assumptions C17_packs_iff_fits.

(** Full claim: [Forall fits is -> assemble_binary is aux = Some bytes ->
    exists acts, load bytes = Some acts /\ Forall2 faithful is acts].  Missing:
    the constants excluded by [readable], for which it is false (below). *)
Theorem C17_round_trip_partial (is : list instruction) (aux bytes : list Z) :
  Forall fits is -> Forall readable is -> assemble_binary is aux = Some bytes ->
  exists acts, load bytes = Some acts /\ Forall2 faithful is acts.
Proof. exact (load_faithful is aux bytes). Qed.
Print Assumptions C17_round_trip_partial.

(** Without the restriction on constants the loader still recovers the list of
    instructions: their number, kind, order and every other field. *)
Theorem C17_temporal_round_trip (is : list instruction) (aux bytes : list Z) :
  Forall fits is -> assemble_binary is aux = Some bytes ->
  exists acts, load bytes = Some acts /\
    Forall2 (fun i a => match i with IBz _ => True | _ => faithful i a end) is acts.
Proof. exact (load_temporal is aux bytes). Qed.
Print Assumptions C17_temporal_round_trip.

(** Exactly which value a float constant gets: the right one if bit 31 of the
    double is clear, otherwise one with the upper word too small by one. *)
Theorem C17_float_constant_value (is : list instruction) (aux bytes : list Z) (id bits : Z) :
  Forall fits is -> assemble_binary is aux = Some bytes -> In (float_constant id bits) is ->
  exists acts, load bytes = Some acts /\
    In (SetFloat id (if bits mod 2 ^ 32 <? 2 ^ 31 then bits else (bits - 2 ^ 32) mod 2 ^ 64)) acts.
Proof. exact (float_constant_loaded is aux bytes id bits). Qed.
Print Assumptions C17_float_constant_value.

(** The constant 0.1: its double is 0x3FB999999999999A, and it is loaded as
    0x3FB999989999999A, which is 0.09999990463256836. *)
Theorem C17_round_trip_refuted : exists is bytes acts,
  Forall fits is /\ assemble_binary is [0] = Some bytes /\ load bytes = Some acts /\ ~ Forall2 faithful is acts.
Proof.
  exists [float_constant 0 0x3FB999999999999A]. eexists. exists [SetFloat 0 0x3FB999989999999A].
  split; [|split; [vm_compute; reflexivity|split; [vm_compute; reflexivity|]]].
  - constructor; [|constructor]. repeat split; vm_compute; first [reflexivity|intros; discriminate].
  - intros H. inversion H as [|? ? ? ? H1 _]; subst. destruct H1 as (_ & _ & H1). discriminate.
Qed.
Print Assumptions C17_round_trip_refuted.

(** A program for [G[0,3] (x > 5)] with the booleanizer, one float constant
    whose bit 31 is clear (2.5), and two configuration commands. *)
Definition ex_program : list instruction :=
  [ IBz (BzInstruction 1 (BzInt 0) 0 0); int_constant 1 5; IBz (BzInstruction 14 (BzInt 0) 1 2);
    IBz (BzInstruction 5 (BzInt 2) 0 3); float_constant 4 0x4004000000000000;
    ITl (TlInstruction 29 0 0 3 0 0); ITl (TlInstruction 26 2 0 3 0 1); ITl (TlInstruction 28 2 1 1 0 2);
    ICg (TlInstruction 30 0 1 3 0 0); ICg (TlInstruction 30 0 1 0 0 1); ICg (TlInstruction 30 2 0 2 3 1) ].
Example C17_ex : Forall fits ex_program /\ Forall readable ex_program /\
  option_map (@List.length Z) (assemble_binary ex_program [0]) = Some 248%nat.
Proof.
  split; [|split]; [| |vm_compute; reflexivity].
  - repeat apply Forall_cons; try apply Forall_nil; repeat split; vm_compute; first [reflexivity|intros; discriminate].
  - repeat apply Forall_cons; try apply Forall_nil; try exact I; eexists; (split; [reflexivity|]);
      vm_compute; first [reflexivity|intros; discriminate].
Qed.

(** ** C18: integer constants *)
(** The type checker accepts exactly these for the default type. *)
Theorem C18_accepted (z : Z) : constant_accepted 32 true z = true <-> - 2 ^ 31 < z < 2 ^ 31.
Proof. exact (accepted_range z). Qed.
Print Assumptions C18_accepted.

(** Full claim: the same for every accepted [z].  It fails for all negative
    ones, see below. *)
Theorem C18_constant_loaded_partial (is : list instruction) (aux : list Z) (id z : Z) :
  (forall i, In i is -> i <> int_constant id z -> fits i) -> word id -> In (int_constant id z) is ->
  constant_accepted 32 true z = true -> 0 <= z ->
  exists bytes acts, assemble_binary is aux = Some bytes /\ load bytes = Some acts /\ In (SetInt id z) acts.
Proof. exact (accepted_loaded is aux id z). Qed.
Print Assumptions C18_constant_loaded_partial.

(** No program with a negative integer constant can be assembled. *)
Theorem C18_negative_refuted (is : list instruction) (aux : list Z) (id z : Z) :
  In (int_constant id z) is -> z < 0 -> assemble_binary is aux = None.
Proof. exact (binary_negative is aux 0 id z). Qed.
Print Assumptions C18_negative_refuted.

(** Unsigned 32-bit configuration: constants with the top bit set are accepted
    and assembled but reach the monitor as negative numbers. *)
Theorem C18_unsigned_refuted (is : list instruction) (aux bytes : list Z) (id z : Z) :
  Forall fits is -> assemble_binary is aux = Some bytes -> In (int_constant id z) is -> 2 ^ 31 <= z < 2 ^ 32 ->
  constant_accepted 32 false z = true /\ exists acts, load bytes = Some acts /\ In (SetInt id (z - 2 ^ 32)) acts.
Proof. exact (unsigned_loaded is aux bytes id z). Qed.
Print Assumptions C18_unsigned_refuted.

Example C18_ex : constant_accepted 32 true (-5) = true /\ assemble_binary [int_constant 0 (-5)] [0] = None /\
  constant_accepted 32 true 2147483647 = true /\
  option_map load (assemble_binary [int_constant 0 2147483647] [0]) = Some (Some [SetInt 0 2147483647]).
Proof. vm_compute. auto. Qed.
