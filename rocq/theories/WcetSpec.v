(** * Execution time (specification) *)
From Coq Require Import List ZArith.
Require Import Verif.Graph Verif.GraphSpec Verif.Binary Verif.Assembly Verif.AssemblySpec Verif.Wcet.
Import ListNotations.
Local Open Scope Z_scope.

Definition sum (l : list Z) : Z := fold_right Z.add 0 l.

Definition booleanizer_part (asm : list instruction) : list bz_instruction :=
  flat_map (fun i => match i with IBz b => [b] | _ => [] end) asm.
(** The operators a monitor step executes: those of every booleanizer, every
    future-time and every past-time instruction. *)
Definition executed (nft : nat) (asm : list instruction) : list wop :=
  map (fun i => BzOp (bz_operator i)) (booleanizer_part asm) ++
  map (fun i => FtOp (tl_operator i)) (firstn nft (temporal_part asm)) ++
  map (fun i => PtOp (tl_operator i)) (skipn nft (temporal_part asm)).

(** [lat] is the latency table on the operators of the program. *)
Definition covers (table : wop -> option Z) (lat : wop -> Z) (ops : list wop) : Prop :=
  forall o, In o ops -> table o = Some (lat o).

(** A program with the set [ft] of future-time formulas has [k] future-time
    instructions: one for each node that is computed. *)
Definition future_count (h : heap) (cls : nat -> nclass) (ft k : nat) : Prop :=
  exists l, NoDup l /\ (forall n, In n l <-> reachable h [ft] n /\ owns (cls n) = true) /\ length l = k.

(** The assembler has an encoding for everything in the program, and its two
    parts share no computed node. *)
Definition legal_program (h : heap) (cls : nat -> nclass) (ft pt : nat) : Prop :=
  (forall n, reachable h [ft] n -> assemblable h cls ft_code n) /\
  (forall n, reachable h [pt] n -> assemblable h cls pt_code n) /\
  (forall n, reachable h [ft] n -> reachable h [pt] n -> owns (cls n) = false /\ engine_of (cls n) <> EngBz).
