(** * Verdict words of the C monitor (model)

    monitors/c/src/internals/types.h 29-83: a truth value and a timestamp in one
    unsigned 32-bit word.  Words are [N]; the C operators & and | are [N.land]
    and [N.lor]. *)
From Coq Require Import List Arith NArith Bool.
Import ListNotations.
Local Open Scope N_scope.

Definition word_size : N := 2 ^ 32.
(** Line 40: r2u2_infinity = (r2u2_time)-1. *)
Definition infinity : N := word_size - 1.
(** Line 53: R2U2_TNT_TIME = ((r2u2_verdict)-1) >> 1. *)
Definition tnt_time : N := N.shiftr (word_size - 1) 1.
(** Line 54: R2U2_TNT_TRUE = ~R2U2_TNT_TIME, in 32 bits. *)
Definition tnt_true : N := N.lxor tnt_time (word_size - 1).

(** Lines 59-61; conversion of the masked word to bool: is it nonzero. *)
Definition get_verdict_truth (w : N) : bool := negb (N.land w tnt_true =? 0).
(** Lines 66-68. *)
Definition get_verdict_time (w : N) : N := N.land w tnt_time.
(** Lines 73-75. *)
Definition set_verdict_true (w : N) : N := N.lor w tnt_true.
(** Lines 80-82. *)
Definition set_verdict_false (w : N) : N := N.land w tnt_time.

(** ** Queues of words: memory/shared_connection_queue.c

    The functions of Scq.v once more, on words as the C code has them. *)
Definition get_word (slots : list N) (i : nat) : N := nth i slots 0.
Fixpoint set_word (slots : list N) (i : nat) (w : N) : list N :=
  match slots, i with
  | [], _ => []
  | _ :: slots, O => w :: slots
  | x :: slots, S i => x :: set_word slots i w
  end.
Definition word_back (len i : nat) : nat := (if i =? 0 then len - 1 else i - 1)%nat.
(** r2u2_scq_write, lines 3-33. *)
Definition word_write (slots : list N) (write : nat) (v : N) : list N * nat :=
  let len := length slots in
  let prev := word_back len write in
  let w :=
    if Bool.eqb (get_verdict_truth (get_word slots prev)) (get_verdict_truth v) &&
       negb (get_word slots prev =? get_word slots write) &&
       negb (get_word slots write =? infinity)
    then prev else write in
  (set_word slots w v, ((w + 1) mod len)%nat).
(** r2u2_scq_read, lines 50-65; fuel as in Scq.v. *)
Fixpoint word_read_loop (fuel : nat) (slots : list N) (write : nat) (next : N) (read : nat) : nat * option N :=
  match fuel with
  | O => (read, None)
  | S fuel =>
      if next <=? get_verdict_time (get_word slots read) then (read, Some (get_word slots read))
      else
        let read := ((read + 1) mod length slots)%nat in
        if (read =? write)%nat then (word_back (length slots) read, None)
        else word_read_loop fuel slots write next read
  end.
(** Lines 35-71. *)
Definition word_read (slots : list N) (write : nat) (next : N) (read : nat) : nat * option N :=
  if get_word slots read =? infinity then (read, None)
  else word_read_loop (length slots) slots write next read.
