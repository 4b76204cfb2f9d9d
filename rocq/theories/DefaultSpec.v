(** * Formulas for which the compiler's own queue sizes are enough (specification)

    The counterpart for formulas of [paces] and [modest] in TightSize.v. *)
From Coq Require Import List Arith ZArith Bool.
Require Import Verif.Mltl Verif.MltlShape Verif.Transform Verif.Pipeline Verif.Monitoring Verif.TightSize Verif.PastSize Verif.EndToEnd.
Import ListNotations.

(** How verdicts for [e] arrive: one per step, for the present time; at most one
    per step; or several at once. *)
Fixpoint tempo (e : expr) : pace :=
  match e with
  | EConst _ | EAtom _ => Instant
  | ENot p => tempo p
  | EAnd [p; q] | EOr [p; q] | EEquiv p q => match tempo p, tempo q with Instant, Instant => Instant | _, _ => Many end
  | EU _ _ (EConst _) q | ER _ _ (EConst _) q => match tempo q with Instant | Once => Once | Many => Many end
  | _ => Many
  end.
(** [p] beside [q] under a connective: if verdicts for [p] can come several at
    once, [p] needs no longer than [q] (or always the same time). *)
Definition keeps_up (p q : expr) : Prop :=
  (tempo p = Many -> reach p <= Nat.max (reach q) (soonest p)) /\ (p = q -> reach p <= soonest p).
(** Until and release only as F and G; operands of connectives keep up with each
    other. *)
Fixpoint modest_formula (e : expr) : Prop :=
  match e with
  | EConst _ | EAtom _ => True
  | ENot p => modest_formula p
  | EAnd [p; q] | EOr [p; q] | EEquiv p q => modest_formula p /\ modest_formula q /\ keeps_up p q /\ keeps_up q p
  | EU _ _ p q | ER _ _ p q => (exists b, p = EConst b) /\ modest_formula q
  | _ => False
  end.
(** No past-time operator has another below it; the counterpart of [pt_flat] in
    PastSize.v. *)
Definition flat_op (e : expr) : Prop :=
  match e with
  | EO _ _ p | EH _ _ p | ES _ _ _ p | ET _ _ _ p => timeless p = true
  | _ => True
  end.
Definition flat_formula (e : expr) : Prop := all_nodes flat_op e.

(** Numbered formulas fit for the future-time section, and for the past-time
    section, with the compiler's own queue sizes. *)
Definition ft_default (specs : list (Z * expr)) : Prop :=
  Forall (fun s => legal (snd s) /\ all_nodes rewrite_source_op (snd s) /\
                   monitorable (compile_expr (snd s)) /\ modest_formula (compile_expr (snd s))) specs.
Definition pt_default (specs : list (Z * expr)) : Prop :=
  Forall (fun s => legal (snd s) /\ all_nodes rewrite_source_op (snd s) /\
                   pt_monitorable (compile_expr (snd s)) /\ flat_formula (compile_expr (snd s))) specs.
