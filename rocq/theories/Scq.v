(** * Shared connection queues of the C and Rust monitors (model)

    monitors/c/src/memory/shared_connection_queue.{h,c} and
    monitors/rust/r2u2_core/src/memory/scq.rs.  The two differ in when a write
    is merged into the previous slot and in the initial contents of a queue.

    Simplification: a verdict word is a pair (truth, time) and the word
    r2u2_infinity a separate value; Prop_Queue.v shows that the 32-bit words
    of internals/types.h represent exactly such pairs for times below 2^31 - 1.
    Times are natural numbers: the model does not wrap around at 2^31 (C) and
    does not saturate at 2^32 - 1 (Rust, where a verdict is a struct and
    r2u2_infinity the largest time, types.rs 32-50). *)
From Coq Require Import List Arith Bool.
Import ListNotations.

(** Which monitor; found by instance resolution where it is left implicit. *)
Inductive impl := C_monitor | Rust_monitor.
Existing Class impl.

Definition verdict := (bool * nat)%type.
(** A queue slot; [None] is r2u2_infinity (types.h 36-40). *)
Definition slot := option verdict.
(** Truth of a slot.  C: get_verdict_truth of the word, and r2u2_infinity has
    its top bit set; Rust: an empty slot is r2u2_verdict::default(), types.rs 43-50. *)
Definition slot_truth {I : impl} (s : slot) : bool :=
  match s with
  | None => match I with C_monitor => true | Rust_monitor => false end
  | Some v => fst v
  end.
Definition verdict_eqb (v w : verdict) : bool := Bool.eqb (fst v) (fst w) && (snd v =? snd w).
Definition slot_eqb (s t : slot) : bool :=
  match s, t with
  | None, None => true
  | Some v, Some w => verdict_eqb v w
  | _, _ => false
  end.

(** r2u2_scq_control_block_t and the temporal block that follows its slots
    (shared_connection_queue.h 10-24); [length] is the length of [q_slots]. *)
Record queue := Queue {
  q_slots : list slot; q_write : nat; q_read1 : nat; q_read2 : nat; q_next : nat;
  q_edge : verdict; q_prev : verdict; q_lb : nat; q_ub : nat
}.

Definition get_slot (slots : list slot) (i : nat) : slot := nth i slots (Some (false, 0)).
Fixpoint set_slot (slots : list slot) (i : nat) (s : slot) : list slot :=
  match slots, i with
  | [], _ => []
  | _ :: slots, 0 => s :: slots
  | x :: slots, S i => x :: set_slot slots i s
  end.

Definition step_back (len i : nat) : nat := if i =? 0 then len - 1 else i - 1.

(** r2u2_scq_write, shared_connection_queue.c 3-33, and scq_write, scq.rs
    81-119: new slots and write index. *)
Definition scq_write {I : impl} (slots : list slot) (write : nat) (v : verdict) : list slot * nat :=
  let len := length slots in
  let prev := step_back len write in
  let compact :=
    Bool.eqb (slot_truth (get_slot slots prev)) (fst v) &&
    match I with
    | C_monitor =>
        negb (slot_eqb (get_slot slots prev) (get_slot slots write)) &&
        negb (slot_eqb (get_slot slots write) None)
    | Rust_monitor => negb (slot_eqb (get_slot slots write) None && (write =? 0))
    end in
  let w := if compact then prev else write in
  (set_slot slots w (Some v), (w + 1) mod len).

(** r2u2_scq_read, shared_connection_queue.c 50-65, and scq_read, scq.rs
    137-159: the loop.  Fuel bounds the iterations;
    [length slots] is enough.  The slot under the read index is never empty
    inside the loop: it lies before the write index. *)
Fixpoint read_loop (fuel : nat) (slots : list slot) (write next read : nat) : nat * option verdict :=
  match fuel with
  | O => (read, None)
  | S fuel =>
      match get_slot slots read with
      | None => (read, None)
      | Some v =>
          if next <=? snd v then (read, Some v)
          else
            let read := (read + 1) mod length slots in
            if read =? write then (step_back (length slots) read, None)
            else read_loop fuel slots write next read
      end
  end.
(** shared_connection_queue.c 35-71, scq.rs 121-166 (whose test for an empty
    queue also asks for read index 0): [next] is the next_time of the reading instruction; returns
    the new read index and the verdict, if there is one. *)
Definition scq_read (slots : list slot) (write next read : nat) : nat * option verdict :=
  match get_slot slots read with
  | None => (read, None)
  | Some _ => read_loop (length slots) slots write next read
  end.
