(** * Queue sizes for past-time programs (specification layer) *)
From Coq Require Import List Arith Bool.
Require Import Verif.Mltl Verif.Scq Verif.Engine Verif.Monitoring Verif.PastMonitor.
Import ListNotations.

(** Steps by which the value of a past-time formula precedes the trace: what was
    seen up to now decides O[a,b] p up to a steps from now. *)
Fixpoint ahead (e : expr) : nat :=
  match e with
  | EConst _ | EAtom _ => 0
  | ENot p => ahead p
  | EAnd es | EOr es => fold_right (fun e n => Nat.max (ahead e) n) 0 es
  | EXor p q | EImpl p q | EEquiv p q | EBeq p q => Nat.max (ahead p) (ahead q)
  | EO lb _ p | EH lb _ p | ES lb _ _ p | ET lb _ _ p => ahead p + lb
  | EF _ _ p | EG _ _ p => ahead p
  | EU _ _ p q | ER _ _ p q => Nat.max (ahead p) (ahead q)
  end.

(** Formulas without temporal operators. *)
Fixpoint timeless (e : expr) : bool :=
  match e with
  | EConst _ | EAtom _ => true
  | ENot p => timeless p
  | EAnd es | EOr es => forallb timeless es
  | EXor p q | EImpl p q | EEquiv p q | EBeq p q => timeless p && timeless q
  | _ => false
  end.

(** No temporal operator inside another. *)
Definition pt_flat (prog : list instr) (confs : list qconf) : Prop :=
  forall k ins j, nth_error prog k = Some ins -> i_op ins = SINCE \/ i_op ins = TRIGGER ->
    i_op2 ins = Sub j -> timeless (node_expr prog confs j) = true.

(** One slot for every step ahead, and one more. *)
Definition pt_queues_enough (prog : list instr) (confs : list qconf) : Prop :=
  forall k ins c conf,
    nth_error prog k = Some ins -> reads ins c -> nth_error confs c = Some conf ->
    ahead (node_expr prog confs c) < c_len conf.
(** The same for a part of a program (Monitoring.v). *)
Definition pt_part_enough (part : nat -> bool) (prog : list instr) (confs : list qconf) : Prop :=
  forall k ins c conf,
    part k = true -> nth_error prog k = Some ins -> reads ins c -> nth_error confs c = Some conf ->
    ahead (node_expr prog confs c) < c_len conf.

(** With the queues of [confs'], the program with the bounds of [confs] reports
    on every trace: each report of a formula is its truth at the time it names,
    times not seen are reported no further ahead than the formula looks, times
    are reported in order, and every time seen has been. *)
Definition pt_monitored {I : impl} (prog : list instr) (confs confs' : list qconf) (tr : trace) (n : nat) : Prop :=
  exists m, run (pt_max_passes prog confs) (rows tr n) prog (init prog confs') = Some m /\
    forall k ins, nth_error prog k = Some ins -> i_op ins = RETURN ->
      increasing (reports (i_num ins) m) /\
      forall t,
        (forall b, reported (reports (i_num ins) m) t b ->
           (b = true <-> sat tr (node_expr prog confs k) t) /\ t < n + lead (node_expr prog confs k)) /\
        (t < n -> exists b, reported (reports (i_num ins) m) t b).
