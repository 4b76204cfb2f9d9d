(** * The temporal-logic engine of the Rust monitor (model)

    Transcription of monitors/rust/r2u2_core/src/engines/mltl.rs,
    engines/mod.rs and memory/scq.rs; line numbers below are in mltl.rs unless
    another file is named.  The C code works on the queue in place; here every
    operator is a function from the operands' verdicts and the control block to
    an optional result, which is then pushed.  RustProofs.v relates this file
    to Engine.v.

    Outcomes the C model does not have: a [u32] subtraction below zero, which
    panics (or wraps in a release build), and handing r2u2_verdict::default()
    of an empty slot to an operator.  Both are [None] here.  Not modelled: the
    saturation of times at [u32::MAX], the size of the output buffer, and the
    contract statuses (Contracts.v). *)
From Coq Require Import List Arith Bool.
Require Import Verif.Scq Verif.Engine.
Import ListNotations.

(** ** memory/scq.rs *)
(** Fields of an entry; an empty one is the default verdict, types.rs 43-50. *)
Definition entry_truth (s : slot) : bool := match s with Some v => fst v | None => false end.
Definition entry_infinite (s : slot) : bool := match s with Some _ => false | None => true end.

(** scq.rs 81-119. *)
Definition rust_scq_write (slots : list slot) (write : nat) (v : verdict) : list slot * nat :=
  let prev := if write =? 0 then length slots - 1 else write - 1 in
  let write :=
    if Bool.eqb (entry_truth (get_slot slots prev)) (fst v) &&
       negb (entry_infinite (get_slot slots write) && (write =? 0))
    then prev else write in
  (set_slot slots write (Some v), (write + 1) mod length slots).

(** scq.rs 137-159; fuel as in Scq.v. *)
Fixpoint rust_read_loop (fuel : nat) (slots : list slot) (write next read : nat) : option (nat * option verdict) :=
  match fuel with
  | O => None
  | S fuel =>
      match get_slot slots read with
      | None => None (* infinite time: not smaller than next_time *)
      | Some v =>
          if next <=? snd v then Some (read, Some v)
          else
            let read := (read + 1) mod length slots in
            if read =? write then Some (if read =? 0 then length slots - 1 else read - 1, None)
            else rust_read_loop fuel slots write next read
      end
  end.
(** scq.rs 121-166. *)
Definition rust_scq_read (slots : list slot) (write next read : nat) : option (nat * option verdict) :=
  if entry_infinite (get_slot slots read) && (read =? 0) then Some (read, None)
  else rust_read_loop (length slots) slots write next read.

(** ** Operators *)
Definition usub (a b : nat) : option nat := if b <=? a then Some (a - b) else None.
(** Result of an operator: new control block and verdict. *)
Definition result := option (queue * option verdict).

(** Lines 253-415. *)
Definition until_operator (op0 op1 : option verdict) (q : queue) : result :=
  let lb := q_lb q in
  let ub := q_ub q in
  match op1 with
  | None => Some (q, None)
  | Some (true, t1) =>                                                          (* 366-375 *)
      match usub t1 lb with
      | None => None
      | Some t => Some (with_prev (with_next q (t1 + 1)) (true, t), Some (true, t))
      end
  | Some (false, t1) =>
      let entire q :=                                                           (* 391-410 *)
        if snd (q_prev q) + ub <=? t1 then
          match usub t1 ub with
          | None => None
          | Some t =>
              if (snd (q_prev q) <? t) || ((t =? 0) && negb (fst (q_prev q))) then
                Some (with_prev (with_next q (Nat.max (q_next q) (t + lb + 1))) (true, t), Some (false, t))
              else Some (q, None)
          end
        else Some (q, None) in
      match op0 with
      | Some (b0, t0) =>                                                        (* 376-390 *)
          let tau := Nat.min t0 t1 in
          let q := with_next q (tau + 1) in
          if negb b0 then
            match usub tau lb with
            | None => None
            | Some t => Some (with_prev q (true, t), Some (false, t))
            end
          else entire q
      | None => entire q
      end
  end.

(** Lines 417-581. *)
Definition release_operator (op0 op1 : option verdict) (q : queue) : result :=
  let lb := q_lb q in
  let ub := q_ub q in
  match op1 with
  | None => Some (q, None)
  | Some (false, t1) =>                                                         (* 532-541 *)
      match usub t1 lb with
      | None => None
      | Some t => Some (with_prev (with_next q (t1 + 1)) (true, t), Some (false, t))
      end
  | Some (true, t1) =>
      let entire q :=                                                           (* 557-576 *)
        if snd (q_prev q) + ub <=? t1 then
          match usub t1 ub with
          | None => None
          | Some t =>
              if (snd (q_prev q) <? t) || ((t =? 0) && negb (fst (q_prev q))) then
                Some (with_prev (with_next q (Nat.max (q_next q) (t + lb + 1))) (true, t), Some (true, t))
              else Some (q, None)
          end
        else Some (q, None) in
      match op0 with
      | Some (b0, t0) =>                                                        (* 542-556 *)
          let tau := Nat.min t0 t1 in
          let q := with_next q (tau + 1) in
          if b0 then
            match usub tau lb with
            | None => None
            | Some t => Some (with_prev q (true, t), Some (true, t))
            end
          else entire q
      | None => entire q
      end
  end.

(** "verdict.time > previous.time || (verdict.time == 0 && !previous.truth)",
    736, 751, 766, 783 and 950, 965, 980, 997. *)
Definition is_new (t : nat) (q : queue) : bool :=
  (snd (q_prev q) <? t) || ((t =? 0) && negb (fst (q_prev q))).

(** Lines 583-795.  [checked_sub] gives [None] where [usub] does. *)
Definition since_operator (op0 op1 : option verdict) (q : queue) : result :=
  let lb := q_lb q in
  let ub := q_ub q in
  if negb (fst (q_prev q)) && (snd (q_prev q) <? lb) then                       (* 711-716 *)
    Some (with_prev q (true, lb - 1), Some (false, lb - 1))
  else
    let last q :=                                                               (* 777-794 *)
      let start := usub (snd (q_prev q)) ub in
      match op0 with
      | Some (true, t0) =>
          if (snd (q_prev q) - lb <=? t0) &&
             (fst (q_edge q) && match start with None => true | Some s => s <? snd (q_edge q) end) then
            let t := Nat.min (t0 + lb) (snd (q_edge q) + ub) in
            if is_new t q then
              Some (with_prev (with_next q (Nat.max (q_next q) (t - ub + 1))) (true, t), Some (true, t))
            else Some (q, None)
          else Some (q, None)
      | _ => Some (q, None)
      end in
    match op1 with
    | None => last q
    | Some (true, t1) =>                                                        (* 719-743 *)
        let q := with_next (with_edge q (true, t1)) (t1 + 1) in
        if snd (q_prev q) - lb <=? t1 then
          if is_new (t1 + lb) q then Some (with_prev q (true, t1 + lb), Some (true, t1 + lb)) else last q
        else last q
    | Some (false, t1) =>
        let left_false q :=                                                     (* 760-774 *)
          match op0 with
          | Some (false, _) =>
              let q := with_next q (t1 + 1) in
              if snd (q_prev q) - lb <=? t1 then
                if is_new (t1 + lb) q then Some (with_prev q (true, t1 + lb), Some (false, t1 + lb)) else last q
              else last q
          | _ => last q
          end in
        let start := usub (snd (q_prev q)) ub in                                (* 745-759 *)
        if negb (fst (q_edge q)) || match start with None => false | Some s => snd (q_edge q) <=? s end then
          let q := with_next q (t1 + 1) in
          if snd (q_prev q) - lb <=? t1 then
            if is_new (t1 + lb) q then Some (with_prev q (true, t1 + lb), Some (false, t1 + lb)) else left_false q
          else left_false q
        else left_false q
    end.

(** Lines 797-1009. *)
Definition trigger_operator (op0 op1 : option verdict) (q : queue) : result :=
  let lb := q_lb q in
  let ub := q_ub q in
  if negb (fst (q_prev q)) && (snd (q_prev q) <? lb) then                       (* 925-930 *)
    Some (with_prev q (true, lb - 1), Some (true, lb - 1))
  else
    let last q :=                                                               (* 991-1008 *)
      let start := usub (snd (q_prev q)) ub in
      match op0 with
      | Some (false, t0) =>
          if (snd (q_prev q) - lb <=? t0) &&
             (fst (q_edge q) && match start with None => true | Some s => s <? snd (q_edge q) end) then
            let t := Nat.min (t0 + lb) (snd (q_edge q) + ub) in
            if is_new t q then
              Some (with_prev (with_next q (Nat.max (q_next q) (t - ub + 1))) (true, t), Some (false, t))
            else Some (q, None)
          else Some (q, None)
      | _ => Some (q, None)
      end in
    match op1 with
    | None => last q
    | Some (false, t1) =>                                                       (* 933-957 *)
        let q := with_next (with_edge q (true, t1)) (t1 + 1) in
        if snd (q_prev q) - lb <=? t1 then
          if is_new (t1 + lb) q then Some (with_prev q (true, t1 + lb), Some (false, t1 + lb)) else last q
        else last q
    | Some (true, t1) =>
        let left_true q :=                                                      (* 974-988 *)
          match op0 with
          | Some (true, _) =>
              let q := with_next q (t1 + 1) in
              if snd (q_prev q) - lb <=? t1 then
                if is_new (t1 + lb) q then Some (with_prev q (true, t1 + lb), Some (true, t1 + lb)) else last q
              else last q
          | _ => last q
          end in
        let start := usub (snd (q_prev q)) ub in                                (* 959-973 *)
        if negb (fst (q_edge q)) || match start with None => false | Some s => snd (q_edge q) <=? s end then
          let q := with_next q (t1 + 1) in
          if snd (q_prev q) - lb <=? t1 then
            if is_new (t1 + lb) q then Some (with_prev q (true, t1 + lb), Some (true, t1 + lb)) else left_true q
          else left_true q
        else left_true q
    end.

(** Lines 1011-1025. *)
Definition not_operator (op : option verdict) (q : queue) : result :=
  match op with
  | Some (b, t) => Some (with_next q (t + 1), Some (negb b, t))
  | None => Some (q, None)
  end.
(** A verdict at [t], next_time just after it. *)
Definition give (v : verdict) (q : queue) : result := Some (with_next q (snd v + 1), Some v).
(** Lines 1027-1094. *)
Definition and_operator (op0 op1 : option verdict) (q : queue) : result :=
  let one_side :=
    match op0, op1 with
    | Some (false, t0), _ => give (false, t0) q
    | _, Some (false, t1) => give (false, t1) q
    | _, _ => Some (q, None)
    end in
  match op0, op1 with
  | Some (b0, t0), Some (b1, t1) =>
      if b0 && b1 then give (true, Nat.min t0 t1) q
      else if negb b0 && negb b1 then give (false, Nat.max t0 t1) q
      else one_side
  | _, _ => one_side
  end.
(** Lines 1096-1163. *)
Definition or_operator (op0 op1 : option verdict) (q : queue) : result :=
  let one_side :=
    match op0, op1 with
    | Some (true, t0), _ => give (true, t0) q
    | _, Some (true, t1) => give (true, t1) q
    | _, _ => Some (q, None)
    end in
  match op0, op1 with
  | Some (b0, t0), Some (b1, t1) =>
      if b0 && b1 then give (true, Nat.max t0 t1) q
      else if negb b0 && negb b1 then give (false, Nat.min t0 t1) q
      else one_side
  | _, _ => one_side
  end.
(** Lines 1165-1221. *)
Definition equivalent_operator (op0 op1 : option verdict) (q : queue) : result :=
  match op0, op1 with
  | Some (b0, t0), Some (b1, t1) => give ((b0 && b1) || (negb b0 && negb b1), Nat.min t0 t1) q
  | _, _ => Some (q, None)
  end.

(** ** The engine *)
(** Lines 21-51. *)
Definition rust_check_operand (atoms : nat -> bool) (k : nat) (ins : instr) (second : bool) (m : monitor)
  : option (monitor * option verdict) :=
  match (if second then i_op2 ins else i_op1 ins) with
  | Atomic a =>
      match m_progress m with
      | FirstLoop => Some (m, Some (atoms a, m_time m))
      | _ => Some (m, None)
      end
  | Direct b =>
      match i_op ins with
      | SINCE | TRIGGER => Some (m, Some (b, m_time m + q_ub (get_queue m k)))
      | _ => Some (m, Some (b, m_time m))
      end
  | Sub c =>
      let child := get_queue m c in
      let parent := get_queue m k in
      match rust_scq_read (q_slots child) (q_write child) (q_next parent)
                          (if second then q_read2 parent else q_read1 parent) with
      | None => None
      | Some (r, v) => Some (set_queue m k (with_read parent second r), v)
      end
  | NotSet => Some (m, None)
  end.

(** Lines 53-61. *)
Definition rust_push_result (k : nat) (v : verdict) (m : monitor) : monitor :=
  let m := match m_progress m with
           | NoProgress => Monitor (m_queues m) (m_time m) WithProgress (m_out m)
           | _ => m
           end in
  let q := get_queue m k in
  let '(s, w) := rust_scq_write (q_slots q) (q_write q) v in
  set_queue m k (with_slots q s w).

Definition rust_unary (op : option verdict -> queue -> result) atoms k ins m : option monitor :=
  match rust_check_operand atoms k ins false m with
  | None => None
  | Some (m, op0) =>
      match op op0 (get_queue m k) with
      | None => None
      | Some (q, r) =>
          let m := set_queue m k q in
          Some (match r with Some v => rust_push_result k v m | None => m end)
      end
  end.
Definition rust_binary (op : option verdict -> option verdict -> queue -> result) atoms k ins m : option monitor :=
  match rust_check_operand atoms k ins false m with
  | None => None
  | Some (m, op0) =>
      match rust_check_operand atoms k ins true m with
      | None => None
      | Some (m, op1) =>
          match op op0 op1 (get_queue m k) with
          | None => None
          | Some (q, r) =>
              let m := set_queue m k q in
              Some (match r with Some v => rust_push_result k v m | None => m end)
          end
      end
  end.

(** Lines 63-203, for the instruction at index [k]. *)
Definition rust_update (atoms : nat -> bool) (k : nat) (ins : instr) (m : monitor) : option monitor :=
  match i_op ins with
  | LOAD =>                                                                     (* 67-76 *)
      match rust_check_operand atoms k ins false m with
      | None => None
      | Some (m, Some v) => Some (rust_push_result k v (set_next m k (snd v + 1)))
      | Some (m, None) => Some m
      end
  | RETURN =>                                                                   (* 77-122 *)
      match rust_check_operand atoms k ins false m with
      | None => None
      | Some (m, Some v) =>
          let m := set_next m k (snd v + 1) in
          Some (Monitor (m_queues m) (m_time m) (m_progress m) (m_out m ++ [(i_num ins, v)]))
      | Some (m, None) => Some m
      end
  | UNTIL => rust_binary until_operator atoms k ins m                           (* 129-135 *)
  | RELEASE => rust_binary release_operator atoms k ins m                       (* 136-142 *)
  | SINCE => rust_binary since_operator atoms k ins m                           (* 149-155 *)
  | TRIGGER => rust_binary trigger_operator atoms k ins m                       (* 156-162 *)
  | NOT => rust_unary not_operator atoms k ins m                                (* 163-168 *)
  | AND => rust_binary and_operator atoms k ins m                               (* 169-175 *)
  | OR => rust_binary or_operator atoms k ins m                                 (* 176-182 *)
  | EQUIV => rust_binary equivalent_operator atoms k ins m                      (* 192-198 *)
  end.

(** engines/mod.rs 42-45: one pass. *)
Fixpoint rust_pass (atoms : nat -> bool) (k : nat) (prog : list instr) (m : monitor) : option monitor :=
  match prog with
  | [] => Some m
  | ins :: prog =>
      match rust_update atoms k ins m with
      | None => None
      | Some m => rust_pass atoms (S k) prog m
      end
  end.

Inductive outcome := Finished (m : monitor) | Panicked | Unfinished.

(** engines/mod.rs 40-73; the clock is below its maximum.  Fuel counts passes. *)
Fixpoint rust_step (fuel : nat) (atoms : nat -> bool) (prog : list instr) (m : monitor) : outcome :=
  match fuel with
  | O => Unfinished
  | S fuel =>
      match rust_pass atoms 0 prog m with
      | None => Panicked
      | Some m =>
          match m_progress m with
          | FirstLoop | WithProgress =>
              rust_step fuel atoms prog (Monitor (m_queues m) (m_time m) NoProgress (m_out m))
          | NoProgress => Finished (Monitor (m_queues m) (m_time m + 1) FirstLoop (m_out m))
          end
      end
  end.
Fixpoint rust_run (fuel : nat) (rows : list (nat -> bool)) (prog : list instr) (m : monitor) : outcome :=
  match rows with
  | [] => Finished m
  | atoms :: rows =>
      match rust_step fuel atoms prog m with
      | Finished m => rust_run fuel rows prog m
      | o => o
      end
  end.

(** A freshly loaded monitor: Monitor::default (memory/monitor.rs) with
    SCQMemoryArena::initialize (scq.rs 69-76), then process_binary_file:
    lengths and bounds (instructions/mltl.rs 70-100), next_time of
    UNTIL/RELEASE set to the lower bound (process_binary.rs 79-94). *)
Definition rust_init_queue (ins : instr) (c : qconf) : queue :=
  Queue (repeat None (c_len c)) 0 0 0
        (match i_op ins with UNTIL | RELEASE => c_lb c | _ => 0 end)
        (false, 0) (false, 0) (c_lb c) (c_ub c).
Definition rust_init (prog : list instr) (confs : list qconf) : monitor :=
  Monitor (map (fun p => rust_init_queue (fst p) (snd p)) (combine prog confs)) 0 FirstLoop [].
