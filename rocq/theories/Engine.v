(** * The temporal-logic engine of the C and Rust monitors (model)

    monitors/c/src/engines/mltl.c and engines/engines.c, cited below.  The Rust
    engine (monitors/rust/r2u2_core/src/engines) differs where [I] is inspected;
    RustEngine.v transcribes it separately and RustProofs.v shows that this file
    at [Rust_monitor] is the same function. *)
From Coq Require Import List Arith Bool.
Require Import Verif.Scq.
Import ListNotations.

(** Operand kinds: instructions/mltl.h, mltl.c 18-67. *)
Inductive operand :=
| Direct (b : bool)          (* R2U2_FT_OP_DIRECT *)
| Atomic (a : nat)           (* R2U2_FT_OP_ATOMIC *)
| Sub (q : nat)              (* R2U2_FT_OP_SUBFORMULA *)
| NotSet.                    (* R2U2_FT_OP_NOT_SET *)

(** The opcodes the compiler emits after removing extended operators. *)
Inductive opcode := LOAD | RETURN | UNTIL | RELEASE | SINCE | TRIGGER | NOT | AND | OR | EQUIV.

(** The k-th instruction has memory_reference k (property C16), which is left
    implicit; [i_num] is op2_value of a RETURN, the formula number. *)
Record instr := Instr { i_op : opcode; i_op1 : operand; i_op2 : operand; i_num : nat }.

(** memory/monitor.h: R2U2_MONITOR_PROGRESS_* *)
Inductive progress := FirstLoop | NoProgress | WithProgress.

(** The part of r2u2_monitor_t the engine uses; [m_out] collects what RETURN
    reports, oldest first. *)
Record monitor := Monitor {
  m_queues : list queue; m_time : nat; m_progress : progress; m_out : list (nat * verdict)
}.

Definition empty_queue : queue := Queue [] 0 0 0 0 (false, 0) (false, 0) 0 0.
Definition get_queue (m : monitor) (k : nat) : queue := nth k (m_queues m) empty_queue.
Fixpoint set_nth {A} (l : list A) (k : nat) (x : A) : list A :=
  match l, k with
  | [], _ => []
  | _ :: l, 0 => x :: l
  | y :: l, S k => y :: set_nth l k x
  end.
Definition set_queue (m : monitor) (k : nat) (q : queue) : monitor :=
  Monitor (set_nth (m_queues m) k q) (m_time m) (m_progress m) (m_out m).

Definition with_next (q : queue) (n : nat) : queue :=
  Queue (q_slots q) (q_write q) (q_read1 q) (q_read2 q) n (q_edge q) (q_prev q) (q_lb q) (q_ub q).
Definition with_prev (q : queue) (v : verdict) : queue :=
  Queue (q_slots q) (q_write q) (q_read1 q) (q_read2 q) (q_next q) (q_edge q) v (q_lb q) (q_ub q).
Definition with_edge (q : queue) (v : verdict) : queue :=
  Queue (q_slots q) (q_write q) (q_read1 q) (q_read2 q) (q_next q) v (q_prev q) (q_lb q) (q_ub q).
Definition with_read (q : queue) (second : bool) (r : nat) : queue :=
  if second
  then Queue (q_slots q) (q_write q) (q_read1 q) r (q_next q) (q_edge q) (q_prev q) (q_lb q) (q_ub q)
  else Queue (q_slots q) (q_write q) r (q_read2 q) (q_next q) (q_edge q) (q_prev q) (q_lb q) (q_ub q).
Definition with_slots (q : queue) (s : list slot) (w : nat) : queue :=
  Queue s w (q_read1 q) (q_read2 q) (q_next q) (q_edge q) (q_prev q) (q_lb q) (q_ub q).

Definition set_next m k n := set_queue m k (with_next (get_queue m k) n).
Definition set_prev m k v := set_queue m k (with_prev (get_queue m k) v).
Definition set_edge m k v := set_queue m k (with_edge (get_queue m k) v).

(** check_operand_data, mltl.c 18-67: operand 1 ([second = false]) or 2 of
    instruction [k]; the read index is advanced as a side effect. *)
Definition check_operand (atoms : nat -> bool) (k : nat) (ins : instr) (second : bool) (m : monitor)
  : monitor * option verdict :=
  match (if second then i_op2 ins else i_op1 ins) with
  | Direct b =>
      match i_op ins with
      | SINCE | TRIGGER => (m, Some (b, m_time m + q_ub (get_queue m k)))
      | _ => (m, Some (b, m_time m))
      end
  | Atomic a =>
      match m_progress m with
      | FirstLoop => (m, Some (atoms a, m_time m))
      | _ => (m, None)
      end
  | Sub c =>
      let child := get_queue m c in
      let parent := get_queue m k in
      let '(r, v) := scq_read (q_slots child) (q_write child) (q_next parent)
                              (if second then q_read2 parent else q_read1 parent) in
      (set_queue m k (with_read parent second r), v)
  | NotSet => (m, None)
  end.

Definition flag_progress (m : monitor) : monitor :=
  match m_progress m with
  | NoProgress => Monitor (m_queues m) (m_time m) WithProgress (m_out m)
  | _ => m
  end.

(** Configuration of a queue: length and temporal bounds. *)
Record qconf := QConf { c_len : nat; c_lb : nat; c_ub : nat }.

Section Implementation.
Context {I : impl}.

(** push_result, mltl.c 74-85. *)
Definition push_result (k : nat) (v : verdict) (m : monitor) : monitor :=
  let m := flag_progress m in
  let q := get_queue m k in
  let '(s, w) := scq_write (q_slots q) (q_write q) v in
  set_queue m k (with_slots q s w).

Definition set_true (v : verdict) : verdict := (true, snd v).
Definition set_false (v : verdict) : verdict := (false, snd v).

(** Lines 106-116. *)
Definition do_load atoms k ins m :=
  match check_operand atoms k ins false m with
  | (m, Some op0) => set_next (push_result k op0 m) k (snd op0 + 1)
  | (m, None) => m
  end.

(** Lines 117-146; the Rust engine does not flag progress (mltl.rs 86-133). *)
Definition do_return atoms k ins m :=
  match check_operand atoms k ins false m with
  | (m, Some op0) =>
      let m := set_next m k (snd op0 + 1) in
      let m := Monitor (m_queues m) (m_time m) (m_progress m) (m_out m ++ [(i_num ins, op0)]) in
      match I with C_monitor => flag_progress m | Rust_monitor => m end
  | (m, None) => m
  end.

(** Lines 460-475. *)
Definition do_not atoms k ins m :=
  match check_operand atoms k ins false m with
  | (m, Some op0) => set_next (push_result k (negb (fst op0), snd op0) m) k (snd op0 + 1)
  | (m, None) => m
  end.

(** push, then next_time = time of the result + 1. *)
Definition emit k (v : verdict) m := set_next (push_result k v m) k (snd v + 1).

(** Lines 476-514. *)
Definition do_and atoms k ins m :=
  let '(m, r0) := check_operand atoms k ins false m in
  let '(m, r1) := check_operand atoms k ins true m in
  let one_sided m :=
    match r0, r1 with
    | Some (false, t0), _ => emit k (false, t0) m
    | _, Some (false, t1) => emit k (false, t1) m
    | _, _ => m
    end in
  match r0, r1 with
  | Some (true, t0), Some (true, t1) => emit k (true, Nat.min t0 t1) m
  | Some (false, t0), Some (false, t1) => emit k (false, Nat.max t0 t1) m
  | _, _ => one_sided m
  end.

(** Lines 515-552. *)
Definition do_or atoms k ins m :=
  let '(m, r0) := check_operand atoms k ins false m in
  let '(m, r1) := check_operand atoms k ins true m in
  let one_sided m :=
    match r0, r1 with
    | Some (true, t0), _ => emit k (true, t0) m
    | _, Some (true, t1) => emit k (true, t1) m
    | _, _ => m
    end in
  match r0, r1 with
  | Some (true, t0), Some (true, t1) => emit k (true, Nat.max t0 t1) m
  | Some (false, t0), Some (false, t1) => emit k (false, Nat.min t0 t1) m
  | _, _ => one_sided m
  end.

(** Lines 563-588. *)
Definition do_equiv atoms k ins m :=
  let '(m, r0) := check_operand atoms k ins false m in
  let '(m, r1) := check_operand atoms k ins true m in
  match r0, r1 with
  | Some (b0, t0), Some (b1, t1) => emit k (Bool.eqb b0 b1, Nat.min t0 t1) m
  | _, _ => m
  end.

(** The startup guard used by all temporal operators: an output at [t] is new
    iff it is after the previous one, or at 0 with nothing produced yet. *)
Definition fresh (t : nat) (prev : verdict) : bool :=
  (snd prev <? t) || ((t =? 0) && negb (fst prev)).

(** UNTIL, lines 159-212, and RELEASE, lines 213-266, which is the same code
    with the truth values exchanged; [u] is true for UNTIL. *)
Definition do_until (u : bool) atoms k ins m :=
  let lb := q_lb (get_queue m k) in
  let ub := q_ub (get_queue m k) in
  let m := match I with
           | C_monitor => if q_next (get_queue m k) <? lb then set_next m k lb else m (* 162-164 *)
           | Rust_monitor => m
           end in
  let '(m, r0) := check_operand atoms k ins false m in
  let '(m, r1) := check_operand atoms k ins true m in
  match r1 with
  | None => m
  | Some (b1, t1) =>
      if Bool.eqb b1 u then                                                        (* 169-177 *)
        let m := push_result k (u, t1 - lb) m in
        let m := set_next m k (t1 + 1) in
        set_prev m k (true, t1 - lb)
      else
        (* 192-208 *)
        let elapsed m :=
          let prev := q_prev (get_queue m k) in
          if snd prev + ub <=? t1 then
            if fresh (t1 - ub) prev then
              let next := Nat.max (q_next (get_queue m k)) (t1 - ub + lb + 1) in
              let m := push_result k (negb u, t1 - ub) m in
              let m := set_next m k next in
              set_prev m k (true, t1 - ub)
            else m
          else m in
        match r0 with
        | Some (b0, t0) =>
            let tau := Nat.min t0 t1 in                                            (* 178-191 *)
            let m := set_next m k (tau + 1) in
            if Bool.eqb b0 u then elapsed m
            else
              let m := push_result k (negb u, tau - lb) m in
              let m := set_next m k (tau + 1) in
              set_prev m k (true, tau - lb)
        | None => elapsed m
        end
  end.

(** SINCE, lines 278-367, and TRIGGER, lines 368-458; [s] is true for SINCE.
    Natural-number subtraction is sub_min_zero. *)
Definition do_since (s : bool) atoms k ins m :=
  let lb := q_lb (get_queue m k) in
  let ub := q_ub (get_queue m k) in
  let prev := q_prev (get_queue m k) in
  if negb (fst prev) && (snd prev <? lb) then                                      (* 281-289 *)
    let m := match I with
             | C_monitor => m
             | Rust_monitor => (* mltl.rs 152-153: operands are looked up first *)
                 fst (check_operand atoms k ins true (fst (check_operand atoms k ins false m)))
             end in
    let m := push_result k (negb s, lb - 1) m in
    let m := match I with C_monitor => set_next m k 0 | Rust_monitor => m end in
    set_prev m k (true, lb - 1)
  else
    let '(m, r0) := check_operand atoms k ins false m in
    let '(m, r1) := check_operand atoms k ins true m in
    (* push [v] and stop, if it is new; otherwise go on with [rest] *)
    let output v next m (rest : monitor -> monitor) :=
      if fresh (snd v) prev then
        let m := push_result k v m in
        let m := set_next m k next in
        set_prev m k (true, snd v)
      else rest m in
    (* 348-364 *)
    let held m :=
      match r0 with
      | Some (b0, t0) =>
          let edge := q_edge (get_queue m k) in
          if Bool.eqb b0 s && (snd prev - lb <=? t0) && fst edge &&
             ((snd prev - ub <? snd edge) || (snd prev <? ub)) then
            let t := Nat.min (t0 + lb) (snd edge + ub) in
            output (s, t) (Nat.max (q_next (get_queue m k)) (t - ub + 1)) m (fun m => m)
          else m
      | None => m
      end in
    match r1 with
    | None => held m
    | Some (b1, t1) =>
        if Bool.eqb b1 s then                                                      (* 295-315 *)
          let m := set_edge m k (true, t1) in
          let m := set_next m k (t1 + 1) in
          if snd prev - lb <=? t1 then output (s, t1 + lb) (t1 + 1) m held else held m
        else
          (* 331-345 *)
          let both_false m :=
            match r0 with
            | Some (b0, t0) =>
                if negb (Bool.eqb b0 s) then
                  let m := set_next m k (t1 + 1) in
                  if snd prev - lb <=? t1 then output (negb s, t1 + lb) (t1 + 1) m held else held m
                else held m
            | None => held m
            end in
          let edge := q_edge (get_queue m k) in
          if negb (fst edge) || ((snd edge <=? snd prev - ub) && (ub <=? snd prev)) then (* 317-330 *)
            let m := set_next m k (t1 + 1) in
            if snd prev - lb <=? t1 then output (negb s, t1 + lb) (t1 + 1) m both_false else both_false m
          else both_false m
    end.

(** r2u2_mltl_update, mltl.c 87-598, for the instruction at index [k]. *)
Definition update (atoms : nat -> bool) (k : nat) (ins : instr) (m : monitor) : monitor :=
  match i_op ins with
  | LOAD => do_load atoms k ins m
  | RETURN => do_return atoms k ins m
  | NOT => do_not atoms k ins m
  | AND => do_and atoms k ins m
  | OR => do_or atoms k ins m
  | EQUIV => do_equiv atoms k ins m
  | UNTIL => do_until true atoms k ins m
  | RELEASE => do_until false atoms k ins m
  | SINCE => do_since true atoms k ins m
  | TRIGGER => do_since false atoms k ins m
  end.

(** engines.c 22-26: one pass over the instruction table. *)
Fixpoint run_pass (atoms : nat -> bool) (k : nat) (prog : list instr) (m : monitor) : monitor :=
  match prog with
  | [] => m
  | ins :: prog => run_pass atoms (S k) prog (update atoms k ins m)
  end.

(** engines.c 20-58: passes until one makes no progress, then advance the
    clock.  Fuel counts passes; [None] means not finished. *)
Fixpoint step (fuel : nat) (atoms : nat -> bool) (prog : list instr) (m : monitor) : option monitor :=
  match fuel with
  | O => None
  | S fuel =>
      let m := run_pass atoms 0 prog m in
      match m_progress m with
      | FirstLoop | WithProgress =>
          step fuel atoms prog (Monitor (m_queues m) (m_time m) NoProgress (m_out m))
      | NoProgress => Some (Monitor (m_queues m) (m_time m + 1) FirstLoop (m_out m))
      end
  end.

(** One step per trace row. *)
Fixpoint run (fuel : nat) (rows : list (nat -> bool)) (prog : list instr) (m : monitor) : option monitor :=
  match rows with
  | [] => Some m
  | atoms :: rows =>
      match step fuel atoms prog m with
      | None => None
      | Some m => run fuel rows prog m
      end
  end.

(** Freshly loaded C monitor: queue memory and control blocks zeroed
    (R2U2_DEFAULT_MONITOR, memory/monitor.h), then configured: slot 0 of each
    queue is r2u2_infinity (mltl.c 637), bounds set (mltl.c 650-651), next_time
    of UNTIL/RELEASE set to the lower bound (process_binary.c 59-66).  In Rust
    all slots are r2u2_verdict::default() (scq.rs 69-76), the rest is the same
    (process_binary.rs 79-94). *)
Definition init_queue (ins : instr) (c : qconf) : queue :=
  Queue (match I with
         | C_monitor => None :: repeat (Some (false, 0)) (c_len c - 1)
         | Rust_monitor => repeat None (c_len c)
         end) 0 0 0
        (match i_op ins with UNTIL | RELEASE => c_lb c | _ => 0 end)
        (false, 0) (false, 0) (c_lb c) (c_ub c).
Definition init (prog : list instr) (confs : list qconf) : monitor :=
  Monitor (map (fun p => init_queue (fst p) (snd p)) (combine prog confs)) 0 FirstLoop [].
End Implementation.
