(** * The console's "push" and "pop", and reading another file
    compiler/c2po/main.py 139-148, 196-202; cpt.py 1433-1530, 1564-1607; stats.py *)
From Coq Require Import List Arith Bool String.
Import ListNotations.
Local Open Scope string_scope.

(** The attributes of Context but [assembly] and [stats]: cpt.py 1434-1480. *)
Definition context_fields : list string := [
  "definitions"; "structs"; "enums"; "signals"; "variables"; "specifications"; "contracts";
  "atomic_id_map"; "atomic_expr_map"; "bound_vars"; "signal_mapping"; "trace"; "binary";
  "r2u2_output"; "bounds"; "constraints"; "is_ft"; "has_future_time"; "has_past_time";
  "status"; "trace_length"; "mission_time"; "enable_booleanizer"; "script_filename";
  "spec_filename"; "trace_filename"; "map_filename"; "egglog_path"; "smt_solver_path";
  "r2u2_c_path"; "r2u2_bin_path"].
(** Those Context.deepcopy copies: cpt.py 1572-1605. *)
Definition copied_fields : list string := [
  "definitions"; "structs"; "signals"; "variables"; "specifications"; "contracts";
  "atomic_id_map"; "atomic_expr_map"; "bound_vars"; "signal_mapping"; "trace"; "binary";
  "bounds"; "constraints"; "trace_length"; "is_ft"; "has_future_time"; "has_past_time";
  "status"; "spec_filename"; "trace_filename"; "map_filename"; "egglog_path";
  "smt_solver_path"; "mission_time"; "enable_booleanizer"; "script_filename"].
(** Those Context.clear resets: cpt.py 1494-1518. *)
Definition cleared_fields : list string := [
  "definitions"; "structs"; "signals"; "variables"; "specifications"; "contracts";
  "atomic_id_map"; "atomic_expr_map"; "bound_vars"; "binary"; "bounds"; "constraints";
  "trace_length"; "is_ft"; "has_future_time"; "has_past_time"; "status"; "spec_filename"].
(** The attributes of Stats: stats.py 46-88. *)
Definition stats_fields : list string := [
  "spec_filename"; "first_formula_string"; "total_scq_size"; "total_dag_size";
  "num_temporal_operators"; "asm_num_instructions"; "asm_num_bz_instructions";
  "asm_num_tl_instructions"; "asm_num_tl_temporal_instructions"; "asm_num_cg_instructions";
  "asm_num_scq_instructions"; "asm_num_aliases"; "asm_num_signals"; "asm_num_atomics";
  "smt_encoding_time"; "smt_solver_time"; "smt_solver_result"; "smt_num_calls";
  "eqsat_encoding_time"; "eqsat_solver_time"; "eqsat_solver_status"; "eqsat_num_eclasses";
  "eqsat_num_enodes"; "eqsat_gurobi_encoding_time"; "eqsat_gurobi_solver_time";
  "eqsat_gurobi_solver_status"; "eqsat_equiv_result"; "eqsat_equiv_encoding_time";
  "eqsat_equiv_solver_time"; "r2u2_median_runtime"; "r2u2_average_runtime"; "r2u2_min_runtime";
  "r2u2_max_runtime"; "r2u2_status"; "sabre_total_bytes"].
(** Those Stats.deepcopy copies: stats.py 121-155. *)
Definition copied_stats : list string := [
  "spec_filename"; "first_formula_string"; "total_scq_size"; "total_dag_size";
  "num_temporal_operators"; "asm_num_instructions"; "asm_num_bz_instructions";
  "asm_num_tl_instructions"; "asm_num_cg_instructions"; "asm_num_scq_instructions";
  "asm_num_aliases"; "asm_num_signals"; "asm_num_atomics"; "smt_encoding_time";
  "smt_solver_time"; "smt_solver_result"; "smt_num_calls"; "eqsat_encoding_time";
  "eqsat_solver_time"; "eqsat_equiv_result"; "eqsat_equiv_encoding_time";
  "eqsat_equiv_solver_time"; "eqsat_num_eclasses"; "eqsat_num_enodes";
  "eqsat_gurobi_encoding_time"; "eqsat_gurobi_solver_time"; "eqsat_gurobi_solver_status";
  "r2u2_median_runtime"; "r2u2_average_runtime"; "r2u2_min_runtime"; "r2u2_max_runtime";
  "r2u2_status"].
Definition among (l : list string) (f : string) : bool := existsb (String.eqb f) l.

(** Those the copy of a program's sections writes to in the context it is given:
    cpt.py 1203-1291, 1681-1697. *)
Definition declared_fields : list string := [
  "structs"; "enums"; "signals"; "definitions"; "specifications"; "contracts"; "atomic_id_map"; "atomic_expr_map"].

Section Console.
(** Declarations, specifications, and the values of attributes.  Dictionaries and lists
    are copied (the list of instructions is not), expressions are taken as values: that a
    copied dictionary shares its expressions, and that copied specifications no longer
    share theirs, is not modelled. *)
Variables decl spec value : Type.
(** Sections: cpt.py 1192-1308. *)
Inductive section := Declarations (d : decl) | FutureTime (l : list spec) | PastTime (l : list spec).
(** Program: cpt.py 1310-1338.  [flags] is for total_scq_size, is_dummy and is_well_typed. *)
Record program := Program { sections : list section; ft_specs : list spec; pt_specs : list spec; flags : value }.
(** Program.__init__: lines 1317-1325. *)
Definition future_of (s : section) : list spec := match s with FutureTime l => l | _ => [] end.
Definition past_of (s : section) : list spec := match s with PastTime l => l | _ => [] end.
(** Program.deepcopy: lines 1425-1431. *)
Definition copy_program (p : program) : program :=
  Program (sections p) (flat_map future_of (sections p)) (flat_map past_of (sections p)) (flags p).
(** The tables after the sections' entries were added to them. *)
Variable declare : list section -> (string -> value) -> string -> value.
(** Context() and Stats() *)
Variables (fresh_field fresh_stat : string -> value).
(** The empty list of instructions. *)
Variable no_assembly : value.

(** [cell] is the list object that holds the instructions. *)
Record context := Context { field : string -> value; stat : string -> value; cell : nat }.
Record console := Console {
  prog : program; ctx : context; saved : list (program * context);
  heap : nat -> value; next : nat (* the next list object *)
}.

(** Context.deepcopy, Stats.deepcopy; "new.assembly = self.assembly": line 1586. *)
Definition copy (c : context) : context := Context
  (fun f => if among copied_fields f then field c f else fresh_field f)
  (fun f => if among copied_stats f then stat c f else fresh_stat f)
  (cell c).

(** The live context after Program.deepcopy was called with it. *)
Definition declared (p : program) (c : context) : context := Context
  (fun f => if among declared_fields f then declare (sections p) (field c) f else field c f) (stat c) (cell c).

Definition store (h : nat -> value) (a : nat) (v : value) : nat -> value := fun b => if (b =? a)%nat then v else h b.
(** Context.clear; "self.assembly.clear()": line 1508, "self.stats = Stats()": line 1512. *)
Definition clear (k : console) : console := Console (prog k)
  (Context (fun f => if among cleared_fields f then fresh_field f else field (ctx k) f) fresh_stat (cell (ctx k)))
  (saved k) (store (heap k) (cell (ctx k)) no_assembly) (next k).

(** What a command does to the live state: a new program (the same or not), new
    values of attributes, perhaps a new list of instructions (assemble.py 1073). *)
Record effect := Effect {
  new_prog : program; new_field : string -> value; new_stat : string -> value; new_assembly : option value
}.
Inductive action :=
| Push
| Pop
| Read (f : program -> (string -> value) -> (string -> value) -> effect) (* clears the context first: parse_c2po.py 699, parse_mltl.py 274 *)
| Command (f : program -> (string -> value) -> (string -> value) -> value -> effect).

Definition apply (k : console) (e : effect) : console :=
  match new_assembly e with
  | None => Console (new_prog e) (Context (new_field e) (new_stat e) (cell (ctx k))) (saved k) (heap k) (next k)
  | Some v =>
      Console (new_prog e) (Context (new_field e) (new_stat e) (next k)) (saved k) (store (heap k) (next k) v) (S (next k))
  end.
(** push_state, pop_state: main.py 196-202; deepcopy_program_with_context (the program
    first, with the live context): cpt.py 1773-1776; "pop" without a state is an error and
    changes nothing: lines 142-146. *)
Definition step (k : console) (a : action) : console :=
  match a with
  | Push =>
      let c := declared (prog k) (ctx k) in
      Console (prog k) c (saved k ++ [(copy_program (prog k), copy c)])%list (heap k) (next k)
  | Pop =>
      match rev (saved k) with
      | [] => k
      | (p, c) :: rest => Console p c (rev rest) (heap k) (next k)
      end
  | Read f => let k := clear k in apply k (f (prog k) (field (ctx k)) (stat (ctx k)))
  | Command f => apply k (f (prog k) (field (ctx k)) (stat (ctx k)) (heap k (cell (ctx k))))
  end.
Definition run (k : console) (l : list action) : console := fold_left step l k.
End Console.
Arguments Declarations {decl spec} d.
Arguments FutureTime {decl spec} l.
Arguments PastTime {decl spec} l.
Arguments Program {decl spec value} sections ft_specs pt_specs flags.
Arguments sections {decl spec value} p.
Arguments ft_specs {decl spec value} p.
Arguments pt_specs {decl spec value} p.
Arguments flags {decl spec value} p.
Arguments field {value} c.
Arguments stat {value} c.
Arguments cell {value} c.
Arguments Context {value} field stat cell.
Arguments prog {decl spec value} c.
Arguments ctx {decl spec value} c.
Arguments saved {decl spec value} c.
Arguments heap {decl spec value} c.
Arguments next {decl spec value} c.
Arguments Console {decl spec value} prog ctx saved heap next.
Arguments Effect {decl spec value} new_prog new_field new_stat new_assembly.
Arguments Push {decl spec value}.
Arguments Pop {decl spec value}.
Arguments Read {decl spec value} f.
Arguments Command {decl spec value} f.
