(** * Queue sizes for programs with a future-time and a past-time part
      (specification layer) *)
From Coq Require Import List Arith Bool.
Require Import Verif.Mltl Verif.Scq Verif.Engine Verif.Monitoring Verif.PastMonitor.
Import ListNotations.

(** With the queues of [confs'], the program with the bounds of [confs] reports
    on every trace; [ft] picks the instructions of the future-time part.  Each
    report of a formula is its truth at the time it names, times not seen are
    reported no further ahead than a past-time formula looks, times are reported
    in order, and a time is reported once it is as far back as a future-time
    formula reaches. *)
Definition both_monitored {I : impl} (ft : nat -> bool) (prog : list instr) (confs confs' : list qconf) (tr : trace) (n : nat) : Prop :=
  exists m, run (max_passes prog confs + pt_max_passes prog confs) (rows tr n) prog (init prog confs') = Some m /\
    forall k ins, nth_error prog k = Some ins -> i_op ins = RETURN ->
      let e := node_expr prog confs k in
      increasing (reports (i_num ins) m) /\
      forall t,
        (forall b, reported (reports (i_num ins) m) t b -> (b = true <-> sat tr e t) /\ t < n + (if ft k then 0 else lead e)) /\
        (t + (if ft k then reach e else 0) < n -> exists b, reported (reports (i_num ins) m) t b).
