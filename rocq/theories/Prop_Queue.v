(** * C21, C22: verdict words and connection queues *)
From Coq Require Import List Arith NArith Bool Lia.
Require Import Verif.Scq Verif.Verdict Verif.VerdictProofs Verif.Queueing Verif.QueueProofs.
Import ListNotations.

(** ** C21: packing a verdict into a word loses nothing *)
(** [word_of] is how the engines build a word; see Queueing.v. *)
Theorem C21_truth_and_time_recovered (b : bool) (t : N) : (t < 2 ^ 31)%N ->
  let w := if b then set_verdict_true t else set_verdict_false t in
  (w < 2 ^ 32)%N /\ get_verdict_truth w = b /\ get_verdict_time w = t.
Proof. exact (fun H => conj (pack_lt b t H) (conj (pack_truth b t H) (pack_time b t H))). Qed.
Print Assumptions C21_truth_and_time_recovered.

Theorem C21_word_is_its_parts (w : N) : (w < 2 ^ 32)%N ->
  w = (if get_verdict_truth w then set_verdict_true (get_verdict_time w) else set_verdict_false (get_verdict_time w)).
Proof. exact (fun H => eq_sym (unpack w H)). Qed.
Print Assumptions C21_word_is_its_parts.

(** Changing the truth value of any word keeps its time. *)
Theorem C21_set_keeps_time (w : N) : (w < 2 ^ 32)%N ->
  get_verdict_time (set_verdict_true w) = get_verdict_time w /\
  get_verdict_truth (set_verdict_true w) = true /\
  get_verdict_time (set_verdict_false w) = get_verdict_time w /\
  get_verdict_truth (set_verdict_false w) = false.
Proof. exact (set_keeps w). Qed.
Print Assumptions C21_set_keeps_time.

(** The reserved word: it is the true verdict at the largest time, and no
    other verdict. *)
Theorem C21_infinity (b : bool) (t : N) : (t < 2 ^ 31)%N ->
  (if b then set_verdict_true t else set_verdict_false t) = infinity <-> b = true /\ t = (2 ^ 31 - 1)%N.
Proof. exact (pack_infinity b t). Qed.
Print Assumptions C21_infinity.

Example C21_ex : get_verdict_time (set_verdict_true 41) = 41%N /\ get_verdict_truth (set_verdict_true 41) = true.
Proof. vm_compute. auto. Qed.
(** One time point further and the true verdict at time 0 comes back. *)
Example C21_ex_overflow : get_verdict_time (set_verdict_true (2 ^ 31)) = 0%N.
Proof. reflexivity. Qed.

(** ** C22: a queue delivers what was written *)
Theorem C22_queue_delivers (len readers : nat) (ops : list qop) :
  1 <= len -> admissible len readers [] (fun _ => 0) (fun _ => 0) ops ->
  answers [] ops (exec (qmem_init len) ops).
Proof. exact (fun H => exec_answers len readers H ops [] _ _ _ (qinv_init len readers H)). Qed.
Print Assumptions C22_queue_delivers.

(** Two consumers of a three-slot queue; writes wrap around, and the third
    merges with the second. *)
Definition C22_ops : list qop :=
  [QWrite (true, 0); QRead 0 0; QRead 1 0; QWrite (false, 1); QWrite (false, 2); QRead 0 2; QRead 1 2;
   QWrite (true, 3); QWrite (false, 4); QRead 0 3; QRead 1 3; QRead 0 4; QRead 0 5; QWrite (true, 5);
   QRead 1 4; QRead 1 5; QRead 0 5].
Example C22_ex_admissible : admissible 3 2 [] (fun _ => 0) (fun _ => 0) C22_ops.
Proof. repeat (split; try reflexivity; try (vm_compute; lia)); intros [|[|i]] H; vm_compute in H |- *; lia. Qed.
Example C22_ex_answers : exec (qmem_init 3) C22_ops =
  [Some (2 ^ 31); Some (2 ^ 31); Some 2; Some 2; Some (2 ^ 31 + 3); Some (2 ^ 31 + 3); Some 4; None; Some 4;
   Some (2 ^ 31 + 5); Some (2 ^ 31 + 5)]%N.
Proof. reflexivity. Qed.

(** The distance bound is needed: with the writer [len] time points ahead the
    consumer misses a value. *)
Definition C22_far : list qop :=
  [QRead 0 0; QWrite (true, 0); QWrite (false, 1); QWrite (true, 2); QRead 0 0].
Example C22_ex_capacity : ~ answers [] C22_far (exec (qmem_init 2) C22_far).
Proof.
  vm_compute. intros (_ & (_ & H) & _). destruct (H 1 ltac:(lia)) as (bf & u & af & E & Hu & Hb).
  destruct bf as [|v0 [|v1 [|v2 bf]]]; cbn in E; inversion E; subst.
  - lia.
  - specialize (Hb (false, 1) ltac:(cbn; auto)). cbn in Hb. lia.
  - destruct bf; discriminate.
Qed.
