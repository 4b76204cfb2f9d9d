(** * Queues of the Rust monitor (specification) *)
From Coq Require Import List Arith ZArith Bool.
Require Import Verif.Assembly Verif.RustLayout.
Import ListNotations.
Local Open Scope Z_scope.

(** The queue of node [n] with index [k] has its [size n] slots inside
    [0 .. slots), below the queue with the next index, and the bounds of a
    temporal operator. *)
Definition rust_queue_at (cls : nat -> nclass) (size : nat -> Z) (slots : Z) (owners : list nat) (b : Z -> rust_block) (k n : nat) : Prop :=
  let q := b (Z.of_nat k) in
  rb_length q = size n /\
  0 <= rb_queue q /\ rb_queue q + size n <= slots /\
  (forall j n', (k < j)%nat -> nth_error owners j = Some n' -> rb_queue q + size n <= rb_queue (b (Z.of_nat j))) /\
  match cls n with CTemporal _ lb ub => rb_lb q = lb /\ rb_ub q = ub | _ => True end.
(** The operators the temporal engine implements; temporal ones carry their
    bounds. *)
Definition engine_node (cls : nat -> nclass) (n : nat) : Prop :=
  match cls n with
  | COp (OpNot | OpAnd | OpOr | OpEquiv) => True
  | CTemporal (OpUntil | OpRelease | OpSince | OpTrigger) _ _ => True
  | COp _ | CTemporal _ _ _ => False
  | _ => True
  end.
