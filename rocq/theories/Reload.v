(** * Loading a specification into a monitor that has already run (model)

    C: r2u2_load_specification, monitors/c/src/lib.c 12-26, calls
    r2u2_monitor_soft_reset (memory/monitor.c 4-15) and r2u2_process_binary
    (internals/process_binary.c 10-66).  Rust: update_binary_file (lib.rs 84-87),
    Monitor::clock_reset and Monitor::reset (memory/monitor.rs 78-95), then
    process_binary_file (internals/process_binary.rs 17-94). *)
From Coq Require Import List Arith Bool.
Require Import Verif.Scq Verif.Engine Verif.RustEngine.
Import ListNotations.

(** ** C
    The specification has as many queues of the same lengths as the one the
    monitor ran before, for instance because it is the same: then every queue
    occupies the memory it occupied before. *)

(** memory/monitor.c 4-15; the report log is started afresh. *)
Definition soft_reset (m : monitor) : monitor := Monitor (m_queues m) 0 FirstLoop [].
(** memory/monitor.c 17-21: also zeroes queue_mem, which holds slots, edge,
    previous and bounds, but not the control blocks.  A zero word is the verdict
    (false, 0). *)
Definition hard_reset (m : monitor) : monitor :=
  Monitor (map (fun q => Queue (repeat (Some (false, 0)) (length (q_slots q))) (q_write q) (q_read1 q) (q_read2 q)
                               (q_next q) (false, 0) (false, 0) 0 0) (m_queues m)) 0 FirstLoop [].
(** mltl.c 600-655 and process_binary.c 59-66 on one queue: slot 0 becomes
    infinite, bounds are written, next_time of UNTIL/RELEASE is set; write,
    read1, read2, the other slots, edge, previous, and next_time of the others
    are left. *)
Definition c_configure (ins : instr) (c : qconf) (q : queue) : queue :=
  Queue (set_slot (q_slots q) 0 None) (q_write q) (q_read1 q) (q_read2 q)
        (match i_op ins with UNTIL | RELEASE => c_lb c | _ => q_next q end)
        (q_edge q) (q_prev q) (c_lb c) (c_ub c).
Fixpoint c_configure_all (prog : list instr) (confs : list qconf) (qs : list queue) : list queue :=
  match prog, confs, qs with
  | ins :: prog, c :: confs, q :: qs => c_configure ins c q :: c_configure_all prog confs qs
  | _, _, _ => []
  end.
Definition c_load (prog : list instr) (confs : list qconf) (m : monitor) : monitor :=
  Monitor (c_configure_all prog confs (m_queues m)) (m_time m) (m_progress m) (m_out m).
(** R2U2_DEFAULT_MONITOR (memory/monitor.h 66-105), laid out for [confs]. *)
Definition c_default (confs : list qconf) : monitor :=
  Monitor (map (fun c => Queue (repeat (Some (false, 0)) (c_len c)) 0 0 0 0 (false, 0) (false, 0) 0 0) confs) 0 FirstLoop [].
(** What the reset functions leave out: the pointers and times of the control
    blocks. *)
Definition zero_blocks (m : monitor) : monitor :=
  Monitor (map (fun q => Queue (q_slots q) 0 0 0 0 (q_edge q) (q_prev q) (q_lb q) (q_ub q)) (m_queues m))
          (m_time m) (m_progress m) (m_out m).

(** ** Rust
    The table of temporal instructions with their memory references, and the
    rest of the monitor. *)
Record rust_monitor := RustMonitor { r_table : list (nat * instr); r_state : monitor }.
(** Monitor::default (memory/monitor.rs 49-76): no queue is configured. *)
Definition rust_default : rust_monitor := RustMonitor [] (Monitor [] 0 FirstLoop []).
(** Monitor::reset: all control blocks and all queue memory are set to their
    defaults; bz_program_count.max_program_count is zeroed twice and
    mltl_program_count.max_program_count not at all, so the table stays. *)
Definition rust_reset (r : rust_monitor) : rust_monitor := RustMonitor (r_table r) (Monitor [] 0 FirstLoop []).
(** process_binary_file: new instructions are stored at
    mltl_program_count.max_program_count, that is behind those in the table. *)
Definition numbered (prog : list instr) : list (nat * instr) := combine (seq 0 (length prog)) prog.
Definition rust_load (prog : list instr) (confs : list qconf) (r : rust_monitor) : rust_monitor :=
  let m := r_state r in
  RustMonitor (r_table r ++ numbered prog)
    (Monitor (map (fun p => rust_init_queue (fst p) (snd p)) (combine prog confs)) (m_time m) (m_progress m) (m_out m)).
(** get_monitor and update_binary_file, lib.rs 71-87. *)
Definition get_monitor (prog : list instr) (confs : list qconf) : rust_monitor := rust_load prog confs rust_default.
Definition update_binary_file (prog : list instr) (confs : list qconf) (r : rust_monitor) : rust_monitor :=
  rust_load prog confs (rust_reset r).

(** engines/mod.rs 26-74 over the table.  A reference to an unconfigured queue,
    whose length is 0, is taken as a panic (writing to it computes 0 - 1 at
    scq.rs 88). *)
Fixpoint table_pass (atoms : nat -> bool) (table : list (nat * instr)) (m : monitor) : option monitor :=
  match table with
  | [] => Some m
  | (k, ins) :: table =>
      if k <? length (m_queues m) then
        match rust_update atoms k ins m with
        | None => None
        | Some m => table_pass atoms table m
        end
      else None
  end.
Fixpoint table_step (fuel : nat) (atoms : nat -> bool) (table : list (nat * instr)) (m : monitor) : outcome :=
  match fuel with
  | O => Unfinished
  | S fuel =>
      match table_pass atoms table m with
      | None => Panicked
      | Some m =>
          match m_progress m with
          | FirstLoop | WithProgress =>
              table_step fuel atoms table (Monitor (m_queues m) (m_time m) NoProgress (m_out m))
          | NoProgress => Finished (Monitor (m_queues m) (m_time m + 1) FirstLoop (m_out m))
          end
      end
  end.
Fixpoint table_run (fuel : nat) (rows : list (nat -> bool)) (table : list (nat * instr)) (m : monitor) : outcome :=
  match rows with
  | [] => Finished m
  | atoms :: rows =>
      match table_step fuel atoms table m with
      | Finished m => table_run fuel rows table m
      | o => o
      end
  end.
(** Steps of a loaded monitor. *)
Definition monitor_steps (fuel : nat) (rows : list (nat -> bool)) (r : rust_monitor) : outcome :=
  table_run fuel rows (r_table r) (r_state r).
