(** * Worst-case execution time on a CPU (model)

    wcet.py 13-43. *)
From Coq Require Import List ZArith.
Require Import Verif.Binary.
Import ListNotations.
Local Open Scope Z_scope.

(** assemble.Operator: the members of the three enums are different keys even
    when their opcodes agree (assemble.py 30-71, 168-205, 209-249). *)
Inductive wop := BzOp (code : Z) | FtOp (code : Z) | PtOp (code : Z).

(** The operators of the instructions that are not skipped (lines 26-29): CG
    and alias instructions are.  The instructions of the model carry opcodes
    only; the first [nft] temporal ones are the future-time ones (assemble.py
    819-832 emits them first).  The enums have no falsy member, so line 30 never
    fires. *)
Fixpoint listing (nft : nat) (asm : list instruction) : list wop :=
  match asm with
  | [] => []
  | IBz i :: r => BzOp (bz_operator i) :: listing nft r
  | ITl i :: r =>
      match nft with
      | O => PtOp (tl_operator i) :: listing O r
      | S k => FtOp (tl_operator i) :: listing k r
      end
  | ICg _ :: r => listing nft r
  end.

(** Lines 24-42.  [int(latency / clk)] is a float division followed by a
    truncation; it is [Z.quot] for latencies below 2^53.  A missing operator
    logs an error and returns 0 (lines 33-35). *)
Fixpoint wcet_loop (table : wop -> option Z) (clk total : Z) (ops : list wop) : Z :=
  match ops with
  | [] => total
  | o :: ops =>
      match table o with
      | None => 0
      | Some l => wcet_loop table clk (total + Z.quot l clk) ops
      end
  end.
Definition cpu_wcet (table : wop -> option Z) (clk : Z) (nft : nat) (asm : list instruction) : Z :=
  wcet_loop table clk 0 (listing nft asm).
