(** * The queue arena (specification)

    Sizes come from the generated bounds file (assemble.py 1142-1224) and
    memory/monitor.h 58-101. *)
From Coq Require Import List Arith ZArith Bool.
Require Import Verif.Graph Verif.Binary Verif.Assembly Verif.AssemblySpec Verif.Layout.
Import ListNotations.
Local Open Scope Z_scope.

(** R2U2_MAX_QUEUE_SLOTS: total_scq_size, assemble.py 1155-1157; a size
    command has its first operand of type ATOMIC. *)
Definition max_queue_slots (asm : list instruction) : Z :=
  fold_right (fun i n => (if tl_type1 i =? type_atomic then tl_value1 i else 0) + n) 0 (config_part asm).
(** R2U2_MAX_TEMPORAL_OPERATORS: assemble.py 1150. *)
Definition max_temporal (asm : list instruction) : Z :=
  Z.of_nat (length (filter (fun i => tl_type1 i =? type_sub) (config_part asm))).
(** R2U2_MAX_TL_INSTRUCTIONS: assemble.py 1149. *)
Definition max_tl (asm : list instruction) : Z := Z.of_nat (length (temporal_part asm)).
(** Slots of queue_mem, monitor.h 82 and 100. *)
Definition arena_slots (asm : list instruction) : Z := max_queue_slots asm + max_temporal asm * metadata_size.

(** Slots used for the temporal block of a node. *)
Definition block_slots (c : nclass) : Z := match c with CTemporal _ _ _ => 4 | _ => 0 end.
(** In the loaded arena the queue of node [n] with index [k] has its [size n]
    slots, the first marked empty and the others zero, followed for a temporal
    operator by its parameter block [edge; previous; lb; ub]; it lies inside
    [0 .. slots), below the queue with the next index. *)
Definition queue_at (cls : nat -> nclass) (size : nat -> Z) (slots : Z) (owners : list nat) (a : arena) (k n : nat) : Prop :=
  let b := a_blocks a (Z.of_nat k) in
  let q := b_queue b in
  let temp := q + size n in
  b_length b = size n /\
  0 <= q /\ temp + block_slots (cls n) <= slots /\
  (forall j n', (k < j)%nat -> nth_error owners j = Some n' ->
     temp + block_slots (cls n) <= b_queue (a_blocks a (Z.of_nat j))) /\
  a_mem a q = infinity_word /\ (forall x, q < x < temp -> a_mem a x = 0) /\
  match cls n with
  | CTemporal _ lb ub =>
      a_mem a temp = 0 /\ a_mem a (temp + 1) = 0 /\ a_mem a (temp + 2) = lb /\ a_mem a (temp + 3) = ub
  | _ => True
  end.
