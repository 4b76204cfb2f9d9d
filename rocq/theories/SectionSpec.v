(** * What the two sections of a program must report *)
From Coq Require Import List Arith ZArith Bool.
Require Import Verif.Mltl Verif.MltlShape Verif.Transform Verif.Pipeline Verif.Scq Verif.Engine Verif.Monitoring Verif.PastMonitor Verif.EndToEnd.
Import ListNotations.
Local Open Scope Z_scope.

(** Numbered formulas fit for the future-time section, and for the past-time
    section, with queues [const] slots longer than needed for one verdict. *)
Definition ft_ready (const : Z) (specs : list (Z * expr)) : Prop :=
  Forall (fun s => legal (snd s) /\ all_nodes rewrite_source_op (snd s) /\
                   monitorable (compile_expr (snd s)) /\ wpd (compile_expr (snd s)) < const) specs.
Definition pt_ready (const : Z) (specs : list (Z * expr)) : Prop :=
  Forall (fun s => legal (snd s) /\ all_nodes rewrite_source_op (snd s) /\
                   pt_monitorable (compile_expr (snd s)) /\ Z.of_nat (lead (compile_expr (snd s))) < const) specs.

(** After [n] rows: reports in order, true of the source formula; within the
    worst-case delay for the future-time section, without delay for the past-time
    section (which may be ahead by the formula's lead). *)
Definition ft_answers (tr : trace) (n : nat) (specs : list (Z * expr)) (m : monitor) : Prop :=
  forall num e, In (num, e) specs ->
    increasing (reports (Z.to_nat num) m) /\
    (forall t b, reported (reports (Z.to_nat num) m) t b -> (b = true <-> sat tr e t) /\ (t < n)%nat) /\
    (forall t, Z.of_nat t + wpd (compile_expr e) < Z.of_nat n -> exists b, reported (reports (Z.to_nat num) m) t b).
Definition pt_answers (tr : trace) (n : nat) (specs : list (Z * expr)) (m : monitor) : Prop :=
  forall num e, In (num, e) specs ->
    increasing (reports (Z.to_nat num) m) /\
    (forall t b, reported (reports (Z.to_nat num) m) t b -> (b = true <-> sat tr e t) /\ (t < n + lead (compile_expr e))%nat) /\
    (forall t, (t < n)%nat -> exists b, reported (reports (Z.to_nat num) m) t b).
