(** * What a monitor program computes (specification layer)

    A monitor program is read back as a list of MLTL formulas, one per
    instruction, and the reports of a run are compared with satisfaction. *)
From Coq Require Import List Arith Bool.
Require Import Verif.Mltl Verif.Scq Verif.Engine.
Import ListNotations.

(** ** Formula of each instruction *)
Definition operand_expr (es : list expr) (o : operand) : expr :=
  match o with
  | Direct b => EConst b
  | Atomic a => EAtom a
  | Sub c => nth c es (EConst false)
  | NotSet => EConst false
  end.
Definition instr_expr (es : list expr) (ins : instr) (c : qconf) : expr :=
  let o1 := operand_expr es (i_op1 ins) in
  let o2 := operand_expr es (i_op2 ins) in
  match i_op ins with
  | LOAD | RETURN => o1
  | NOT => ENot o1
  | AND => EAnd [o1; o2]
  | OR => EOr [o1; o2]
  | EQUIV => EEquiv o1 o2
  | UNTIL => EU (c_lb c) (c_ub c) o1 o2
  | RELEASE => ER (c_lb c) (c_ub c) o1 o2
  | SINCE => ES (c_lb c) (c_ub c) o1 o2
  | TRIGGER => ET (c_lb c) (c_ub c) o1 o2
  end.
Fixpoint exprs_from (es : list expr) (prog : list instr) (confs : list qconf) : list expr :=
  match prog, confs with
  | ins :: prog, c :: confs => exprs_from (es ++ [instr_expr es ins c]) prog confs
  | _, _ => es
  end.
Definition exprs (prog : list instr) (confs : list qconf) : list expr := exprs_from [] prog confs.
Definition node_expr (prog : list instr) (confs : list qconf) (k : nat) : expr :=
  nth k (exprs prog confs) (EConst false).

(** ** Future reach: how many steps after [i] the truth at [i] can depend on *)
Fixpoint reach (e : expr) : nat :=
  match e with
  | EConst _ | EAtom _ => 0
  | ENot p => reach p
  | EAnd es | EOr es => fold_right (fun e n => Nat.max (reach e) n) 0 es
  | EXor p q | EImpl p q | EEquiv p q | EBeq p q => Nat.max (reach p) (reach q)
  | EF _ ub p | EG _ ub p => reach p + ub
  | EU _ ub p q | ER _ ub p q => Nat.max (reach p) (reach q) + ub
  | EO lb _ p | EH lb _ p => reach p - lb
  | ES lb _ p q | ET lb _ p q => Nat.max (reach p) (reach q) - lb
  end.

(** ** Future-time programs
    Operands are computed by earlier instructions.  Constants are allowed where
    they leave the other operand in charge: any left operand of until/release,
    the neutral operand of and/or, either side of an equivalence. *)
Definition earlier (prog : list instr) (k : nat) (o : operand) : Prop :=
  exists c, o = Sub c /\ c < k /\
            exists ins, nth_error prog c = Some ins /\ i_op ins <> RETURN.
Definition is_direct (o : operand) : Prop := exists b, o = Direct b.
Definition ft_instr (prog : list instr) (k : nat) (ins : instr) (c : qconf) : Prop :=
  1 <= c_len c /\
  match i_op ins with
  | LOAD => (exists a, i_op1 ins = Atomic a) /\ i_op2 ins = NotSet
  | RETURN | NOT => earlier prog k (i_op1 ins) /\ i_op2 ins = NotSet
  | AND | OR =>
      let neutral := Direct (match i_op ins with AND => true | _ => false end) in
      (earlier prog k (i_op1 ins) /\ (earlier prog k (i_op2 ins) \/ i_op2 ins = neutral)) \/
      (i_op1 ins = neutral /\ earlier prog k (i_op2 ins))
  | EQUIV =>
      (earlier prog k (i_op1 ins) /\ (earlier prog k (i_op2 ins) \/ is_direct (i_op2 ins))) \/
      (is_direct (i_op1 ins) /\ earlier prog k (i_op2 ins))
  | UNTIL | RELEASE =>
      (earlier prog k (i_op1 ins) \/ is_direct (i_op1 ins)) /\ earlier prog k (i_op2 ins) /\
      c_lb c <= c_ub c
  | SINCE | TRIGGER => False
  end.
Definition ft_program (prog : list instr) (confs : list qconf) : Prop :=
  length prog = length confs /\
  forall k ins c, nth_error prog k = Some ins -> nth_error confs k = Some c -> ft_instr prog k ins c.

(** Each RETURN reports under its own number. *)
Definition distinct_reports (prog : list instr) : Prop :=
  forall k1 k2 ins1 ins2,
    nth_error prog k1 = Some ins1 -> nth_error prog k2 = Some ins2 ->
    i_op ins1 = RETURN -> i_op ins2 = RETURN -> i_num ins1 = i_num ins2 -> k1 = k2.

(** Queues long enough: at least two slots more than the reach of any reader. *)
Definition reads (ins : instr) (c : nat) : Prop := i_op1 ins = Sub c \/ i_op2 ins = Sub c.
Definition queues_ample (prog : list instr) (confs : list qconf) : Prop :=
  forall k ins c conf,
    nth_error prog k = Some ins -> reads ins c -> nth_error confs c = Some conf ->
    reach (node_expr prog confs k) + 2 <= c_len conf.

(** ** Parts of a program
    A section of a specification occupies some of the instructions: those it
    needs, closed under operands.  Other instructions may be anything. *)
Definition closed (prog : list instr) (part : nat -> bool) : Prop :=
  forall k ins j, part k = true -> nth_error prog k = Some ins -> reads ins j -> part j = true.
Definition ft_part (part : nat -> bool) (prog : list instr) (confs : list qconf) : Prop :=
  length prog = length confs /\ closed prog part /\
  forall k ins c, part k = true -> nth_error prog k = Some ins -> nth_error confs k = Some c -> ft_instr prog k ins c.
Definition part_ample (part : nat -> bool) (prog : list instr) (confs : list qconf) : Prop :=
  forall k ins c conf,
    part k = true -> nth_error prog k = Some ins -> reads ins c -> nth_error confs c = Some conf ->
    reach (node_expr prog confs k) + 2 <= c_len conf.

(** ** Reports
    A report (b, t) gives the verdict b for every time since the last report up
    to t. *)
Definition reports (f : nat) (m : monitor) : list verdict :=
  map snd (filter (fun r => fst r =? f) (m_out m)).
(** [rs] gives verdict [b] for time [t]. *)
Definition reported (rs : list verdict) (t : nat) (b : bool) : Prop :=
  exists before u after,
    rs = before ++ (b, u) :: after /\ t <= u /\ forall v, In v before -> snd v < t.
Fixpoint increasing (rs : list verdict) : Prop :=
  match rs with
  | v :: (w :: _) as rs' => snd v < snd w /\ increasing rs'
  | _ => True
  end.

(** The first [n] rows of a trace. *)
Definition rows (tr : trace) (n : nat) : list (nat -> bool) := map tr (seq 0 n).

(** Passes over the program that always suffice for one time step: this does
    not depend on the time or the trace. *)
Definition max_passes (prog : list instr) (confs : list qconf) : nat :=
  2 + list_sum (map (fun e => S (reach e)) (exprs prog confs)).

(** An instruction with a constant operand that decides it: [false && p],
    [true || p], [!c], [p U true], [p R false] (so also F true and G false). *)
Definition absorbing (ins : instr) : Prop :=
  match i_op ins with
  | AND => i_op1 ins = Direct false \/ i_op2 ins = Direct false
  | OR => i_op1 ins = Direct true \/ i_op2 ins = Direct true
  | NOT => is_direct (i_op1 ins)
  | UNTIL => i_op2 ins = Direct true
  | RELEASE => i_op2 ins = Direct false
  | _ => False
  end.
