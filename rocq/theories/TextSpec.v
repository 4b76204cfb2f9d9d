(** * What the reports on a specification file must be *)
From Coq Require Import List Arith ZArith Bool.
Require Import Verif.Mltl Verif.Transform Verif.Pipeline Verif.Scq Verif.Engine Verif.Monitoring Verif.PastMonitor Verif.EndToEnd Verif.Elaborate.
Import ListNotations.
Local Open Scope nat_scope.

(** The slots a specification needs: its worst-case delay, or how far a past-time one
    can be ahead. *)
Definition need (s : bool * item) : Z :=
  if fst s then wpd (compile_expr (snd (snd s))) else Z.of_nat (lead (compile_expr (snd (snd s)))).

(** The reports of one specification, of kind and formula [s], with number and meaning
    [P], after [n] rows: in order, true, and there when due, a future-time one after
    its worst-case delay, a past-time one at once. *)
Definition answers (R : nat -> list verdict) (n : nat) (s : bool * item) (P : nat * (nat -> Prop)) : Prop :=
  snd (fst (snd s)) = fst P /\ increasing (R (fst P)) /\
  (forall t b, reported (R (fst P)) t b -> (b = true <-> snd P t) /\ t < n + (if fst s then 0 else lead (compile_expr (snd (snd s))))) /\
  (forall t, (if fst s then (Z.of_nat t + wpd (compile_expr (snd (snd s))) < Z.of_nat n)%Z else t < n) -> exists b, reported (R (fst P)) t b).
