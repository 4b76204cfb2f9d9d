(** * Past-time programs (specification layer)

    Once and historically as the compiler emits them: O[a,b] p is true S[a,b] p
    and H[a,b] p is false T[a,b] p (Transform.v), so the left operand is a
    constant. *)
From Coq Require Import List Arith Bool.
Require Import Verif.Mltl Verif.Scq Verif.Engine Verif.Monitoring.
Import ListNotations.

Definition pt_instr (prog : list instr) (k : nat) (ins : instr) (c : qconf) : Prop :=
  1 <= c_len c /\
  match i_op ins with
  | LOAD => (exists a, i_op1 ins = Atomic a) /\ i_op2 ins = NotSet
  | RETURN | NOT => earlier prog k (i_op1 ins) /\ i_op2 ins = NotSet
  | AND | OR | EQUIV => earlier prog k (i_op1 ins) /\ earlier prog k (i_op2 ins)
  | SINCE => i_op1 ins = Direct true /\ earlier prog k (i_op2 ins) /\ c_lb c <= c_ub c
  | TRIGGER => i_op1 ins = Direct false /\ earlier prog k (i_op2 ins) /\ c_lb c <= c_ub c
  | UNTIL | RELEASE => False
  end.
Definition pt_program (prog : list instr) (confs : list qconf) : Prop :=
  length prog = length confs /\
  forall k ins c, nth_error prog k = Some ins -> nth_error confs k = Some c -> pt_instr prog k ins c.

(** How many steps ahead of the trace a past-time formula can be decided: once p
    has been seen, O[a,b] p is known for the next b steps. *)
Fixpoint lead (e : expr) : nat :=
  match e with
  | EConst _ | EAtom _ => 0
  | ENot p => lead p
  | EAnd es | EOr es => fold_right (fun e n => Nat.max (lead e) n) 0 es
  | EXor p q | EImpl p q | EEquiv p q | EBeq p q => Nat.max (lead p) (lead q)
  | EO _ ub p | EH _ ub p | ES _ ub _ p | ET _ ub _ p => lead p + ub
  | EF _ _ p | EG _ _ p => lead p
  | EU _ _ p q | ER _ _ p q => Nat.max (lead p) (lead q)
  end.

(** Queues long enough: two slots more than the lead of what they hold. *)
Definition pt_queues_ample (prog : list instr) (confs : list qconf) : Prop :=
  forall k ins c conf,
    nth_error prog k = Some ins -> reads ins c -> nth_error confs c = Some conf ->
    lead (node_expr prog confs c) + 2 <= c_len conf.

(** The same for a part of a program (Monitoring.v). *)
Definition pt_part (part : nat -> bool) (prog : list instr) (confs : list qconf) : Prop :=
  length prog = length confs /\ closed prog part /\
  forall k ins c, part k = true -> nth_error prog k = Some ins -> nth_error confs k = Some c -> pt_instr prog k ins c.
Definition pt_part_ample (part : nat -> bool) (prog : list instr) (confs : list qconf) : Prop :=
  forall k ins c conf,
    part k = true -> nth_error prog k = Some ins -> reads ins c -> nth_error confs c = Some conf ->
    lead (node_expr prog confs c) + 2 <= c_len conf.

(** Passes that always suffice for one time step. *)
Definition pt_max_passes (prog : list instr) (confs : list qconf) : nat :=
  2 + list_sum (map (fun e => S (lead e)) (exprs prog confs)).
