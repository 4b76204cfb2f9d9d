(** * Using a connection queue: operations and their intended answers

    One producer writes verdicts, any number of consumers read; each consumer
    keeps a read index and asks for non-decreasing times. *)
From Coq Require Import List Arith NArith Bool.
Require Import Verif.Scq Verif.Verdict.
Import ListNotations.

(** ** Execution on words, as in the C code (Verdict.v) *)
Inductive qop :=
| QWrite (v : bool * nat)
| QRead (consumer next : nat).
Record qmem := QMem { w_slots : list N; w_write : nat; w_read : nat -> nat }.
(** A queue of [len] slots after loading: zeroed memory, slot 0 infinity
    (mltl.c 637); all read indices 0. *)
Definition qmem_init (len : nat) : qmem := QMem (infinity :: repeat 0%N (len - 1)) 0 (fun _ => 0).
Definition set_at {A} (f : nat -> A) (i : nat) (x : A) : nat -> A := fun j => if j =? i then x else f j.
Definition word_of (v : bool * nat) : N :=
  if fst v then set_verdict_true (N.of_nat (snd v)) else set_verdict_false (N.of_nat (snd v)).
(** Results of the reads, in order. *)
Fixpoint exec (q : qmem) (ops : list qop) : list (option N) :=
  match ops with
  | [] => []
  | QWrite v :: ops =>
      let '(s, w) := word_write (w_slots q) (w_write q) (word_of v) in
      exec (QMem s w (w_read q)) ops
  | QRead i n :: ops =>
      let '(r, x) := word_read (w_slots q) (w_write q) (N.of_nat n) (w_read q i) in
      x :: exec (QMem (w_slots q) (w_write q) (set_at (w_read q) i r)) ops
  end.

(** ** Specification *)
(** What a list of verdicts says about time [t]: the first one ending at or
    after [t]. *)
Definition says (ws : list (bool * nat)) (t : nat) (b : bool) : Prop :=
  exists before u after, ws = before ++ (b, u) :: after /\ t <= u /\ forall v, In v before -> snd v < t.
(** Number of decided time points. *)
Definition decided (ws : list (bool * nat)) : nat := fold_right (fun v k => Nat.max (S (snd v)) k) 0 ws.

(** [admissible len readers ws pos req ops]: the producer writes in increasing
    time, below the largest representable one; consumers ask in non-decreasing
    time; and each write is less than [len] time points ahead of every
    consumer, a consumer standing at the time it last asked for, or at the last
    decided time if that is earlier. *)
Fixpoint admissible (len readers : nat) (ws : list (bool * nat)) (pos req : nat -> nat) (ops : list qop) : Prop :=
  match ops with
  | [] => True
  | QWrite v :: ops =>
      decided ws <= snd v /\ (N.of_nat (snd v) < 2 ^ 31 - 1)%N /\
      (forall i, i < readers -> snd v < pos i + len) /\
      admissible len readers (ws ++ [v]) pos req ops
  | QRead i n :: ops =>
      i < readers /\ req i <= n /\
      admissible len readers ws (set_at pos i (Nat.min n (decided ws - 1))) (set_at req i n) ops
  end.

(** The answers wanted. *)
Definition answer (ws : list (bool * nat)) (n : nat) (x : option N) : Prop :=
  match x with
  | Some w => let b := get_verdict_truth w in
              let u := N.to_nat (get_verdict_time w) in
              n <= u < decided ws /\ forall s, n <= s <= u -> says ws s b
  | None => decided ws <= n
  end.
Fixpoint answers (ws : list (bool * nat)) (ops : list qop) (rs : list (option N)) : Prop :=
  match ops, rs with
  | [], [] => True
  | QWrite v :: ops, rs => answers (ws ++ [v]) ops rs
  | QRead i n :: ops, x :: rs => answer ws n x /\ answers ws ops rs
  | _, _ => False
  end.
