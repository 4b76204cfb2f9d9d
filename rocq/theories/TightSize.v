(** * How long queues have to be (specification layer)

    A verdict must stay in the queue of its producer until every reader is done
    with it.  How long that takes depends on the reader and on how many verdicts
    the producer can write in one time step. *)
From Coq Require Import List Arith Bool.
Require Import Verif.Mltl Verif.Scq Verif.Engine Verif.Monitoring.
Import ListNotations.

(** The fewest steps after [i] that decide the truth at [i]. *)
Fixpoint soon (e : expr) : nat :=
  match e with
  | ENot p => soon p
  | EAnd (e :: es) | EOr (e :: es) => fold_right (fun e n => Nat.min (soon e) n) (soon e) es
  | EXor p q | EImpl p q | EEquiv p q | EBeq p q => Nat.min (soon p) (soon q)
  | EF lb _ p | EG lb _ p => soon p + lb
  | EU lb _ p q | ER lb _ p q => Nat.min (soon p) (soon q) + lb
  | _ => 0
  end.

(** The same when an until or release waits for its right operand, as the monitor's
    do. *)
Fixpoint soonest (e : expr) : nat :=
  match e with
  | ENot p => soonest p
  | EAnd (e :: es) | EOr (e :: es) => fold_right (fun e n => Nat.min (soonest e) n) (soonest e) es
  | EXor p q | EImpl p q | EEquiv p q | EBeq p q => Nat.min (soonest p) (soonest q)
  | EF lb _ p | EG lb _ p => soonest p + lb
  | EU lb _ p q | ER lb _ p q => soonest q + lb
  | _ => 0
  end.

(** How an instruction writes its verdicts: the one for the present time in the
    first pass of every step; at most one per step, in the first pass; or
    possibly several per step. *)
Inductive pace := Instant | Once | Many.
Definition operand_pace (ps : list pace) (o : operand) : pace :=
  match o with
  | Sub c => nth c ps Many
  | Direct _ | Atomic _ => Instant
  | NotSet => Many
  end.
Definition instr_pace (ps : list pace) (ins : instr) : pace :=
  match i_op ins with
  | LOAD => Instant
  | NOT => operand_pace ps (i_op1 ins)
  | AND | OR | EQUIV =>
      match operand_pace ps (i_op1 ins), operand_pace ps (i_op2 ins) with
      | Instant, Instant => Instant
      | _, _ => Many
      end
  | UNTIL | RELEASE =>
      match i_op1 ins, operand_pace ps (i_op2 ins) with
      | Direct _, Instant | Direct _, Once => Once
      | _, _ => Many
      end
  | RETURN | SINCE | TRIGGER => Many
  end.
Fixpoint paces_from (ps : list pace) (prog : list instr) : list pace :=
  match prog with
  | [] => ps
  | ins :: prog => paces_from (ps ++ [instr_pace ps ins]) prog
  end.
Definition paces (prog : list instr) : list pace := paces_from [] prog.

(** How far behind the present time the instruction [ins] (with formula [e])
    may still be interested in its operand [own], whose sibling is [other]. *)
Definition wait (prog : list instr) (confs : list qconf) (ins : instr) (conf : qconf) (e : expr)
           (own other : operand) : nat :=
  match i_op ins with
  | AND | OR | EQUIV =>
      match operand_pace (paces prog) own with
      | Many => reach e
      | _ => reach (operand_expr (exprs prog confs) other)
      end
  | UNTIL | RELEASE => match i_op1 ins with Direct _ => 0 | _ => reach e - c_lb conf end
  | _ => 0
  end.
(** Each queue holds what its readers wait for. *)
Definition queues_enough (prog : list instr) (confs : list qconf) : Prop :=
  forall k ins conf c conf_c,
    nth_error prog k = Some ins -> nth_error confs k = Some conf -> nth_error confs c = Some conf_c ->
    let e := node_expr prog confs k in
    (i_op1 ins = Sub c ->
     wait prog confs ins conf e (i_op1 ins) (i_op2 ins) - soonest (node_expr prog confs c) + 1 <= c_len conf_c) /\
    (i_op2 ins = Sub c ->
     wait prog confs ins conf e (i_op2 ins) (i_op1 ins) - soonest (node_expr prog confs c) + 1 <= c_len conf_c).

(** The same for a part of a program (Monitoring.v). *)
Definition part_enough (part : nat -> bool) (prog : list instr) (confs : list qconf) : Prop :=
  forall k ins conf c conf_c, part k = true ->
    nth_error prog k = Some ins -> nth_error confs k = Some conf -> nth_error confs c = Some conf_c ->
    let e := node_expr prog confs k in
    (i_op1 ins = Sub c ->
     wait prog confs ins conf e (i_op1 ins) (i_op2 ins) - soonest (node_expr prog confs c) + 1 <= c_len conf_c) /\
    (i_op2 ins = Sub c ->
     wait prog confs ins conf e (i_op2 ins) (i_op1 ins) - soonest (node_expr prog confs c) + 1 <= c_len conf_c).

(** Programs for which the sizes computed by default are enough: until and
    release only as F and G, and an operand of a binary connective that may
    write several verdicts in one step does not lag behind its sibling (or is
    never early). *)
Definition modest (prog : list instr) (confs : list qconf) : Prop :=
  forall k ins, nth_error prog k = Some ins ->
    let es := exprs prog confs in
    let fits own other :=
      forall c, own = Sub c ->
        (operand_pace (paces prog) own = Many -> reach (operand_expr es own) <= Nat.max (reach (operand_expr es other)) (soon (operand_expr es own))) /\
        (own = other -> reach (operand_expr es own) <= soon (operand_expr es own)) in
    match i_op ins with
    | AND | OR | EQUIV => fits (i_op1 ins) (i_op2 ins) /\ fits (i_op2 ins) (i_op1 ins)
    | UNTIL | RELEASE => is_direct (i_op1 ins)
    | _ => True
    end.

(** The same for a part of a program. *)
Definition part_modest (part : nat -> bool) (prog : list instr) (confs : list qconf) : Prop :=
  forall k ins, part k = true -> nth_error prog k = Some ins ->
    let es := exprs prog confs in
    let fits own other :=
      forall c, own = Sub c ->
        (operand_pace (paces prog) own = Many -> reach (operand_expr es own) <= Nat.max (reach (operand_expr es other)) (soon (operand_expr es own))) /\
        (own = other -> reach (operand_expr es own) <= soon (operand_expr es own)) in
    match i_op ins with
    | AND | OR | EQUIV => fits (i_op1 ins) (i_op2 ins) /\ fits (i_op2 ins) (i_op1 ins)
    | UNTIL | RELEASE => is_direct (i_op1 ins)
    | _ => True
    end.

(** Some instruction reads [k] together with another operand [o]. *)
Definition sibling (prog : list instr) (k : nat) (o : operand) : Prop :=
  exists p, In p prog /\ o <> Sub k /\
    ((i_op1 p = Sub k /\ i_op2 p = o) \/ (i_op2 p = Sub k /\ i_op1 p = o)).

(** [n] rows of [tr] monitored with the queues [confs'] (whose bounds are those
    of [confs]): every step ends, and every report list is in order, right, and
    up to date. *)
Definition monitored {I : impl} (prog : list instr) (confs confs' : list qconf) (tr : trace) (n : nat) : Prop :=
  exists m, run (max_passes prog confs) (rows tr n) prog (init prog confs') = Some m /\
    forall k ins, nth_error prog k = Some ins -> i_op ins = RETURN ->
      increasing (reports (i_num ins) m) /\
      forall t,
        (forall b, reported (reports (i_num ins) m) t b -> (b = true <-> sat tr (node_expr prog confs k) t) /\ t < n) /\
        (t + reach (node_expr prog confs k) < n -> exists b, reported (reports (i_num ins) m) t b).
