(** * The text of the "print_stats" command
    compiler/c2po/stats.py, command.py 650-662 *)
From Coq Require Import List Arith Bool Ascii String.
Import ListNotations.
Local Open Scope nat_scope.
Local Open Scope char_scope.

Definition str := list ascii.
Definition s_ (s : string) : str := list_ascii_of_string s.

(** Python's str.replace for a text that is not empty: occurrences from the left,
    not overlapping; [skip] characters are still to be passed over. *)
Fixpoint starts (old s : str) : bool :=
  match old, s with
  | [], _ => true
  | c :: old, d :: s => Ascii.eqb c d && starts old s
  | _, [] => false
  end.
Fixpoint replace (old new s : str) (skip : nat) : str :=
  match s with
  | [] => []
  | c :: r =>
      match skip with
      | S skip => replace old new r skip
      | O => if starts old s then new ++ replace old new r (List.length old - 1) else c :: replace old new r 0
      end
  end.

(** STATS_FORMAT_MAP: lines 3-39; the values are looked up by the attribute. *)
Definition stats_format_map : list (string * string) := [
  ("F", "spec_filename");
  ("f0", "first_formula_string");
  ("scq", "total_scq_size");
  ("dagsize", "total_dag_size");
  ("numtlo", "num_temporal_operators");
  ("asmnum", "asm_num_instructions");
  ("asmbz", "asm_num_bz_instructions");
  ("asmtltemp", "asm_num_tl_temporal_instructions");
  ("asmtl", "asm_num_tl_instructions");
  ("asmcg", "asm_num_cg_instructions");
  ("asmscq", "asm_num_scq_instructions");
  ("asmaliases", "asm_num_aliases");
  ("asmsignals", "asm_num_signals");
  ("asmatomics", "asm_num_atomics");
  ("satres", "smt_solver_result");
  ("satenc", "smt_encoding_time");
  ("sattime", "smt_solver_time");
  ("satnc", "smt_num_calls");
  ("eqsatenc", "eqsat_encoding_time");
  ("eqsattime", "eqsat_solver_time");
  ("eqsatstatus", "eqsat_solver_status");
  ("eqsateclasses", "eqsat_num_eclasses");
  ("eqsatenodes", "eqsat_num_enodes");
  ("eqsatgurenc", "eqsat_gurobi_encoding_time");
  ("eqsatgurtime", "eqsat_gurobi_solver_time");
  ("eqsatgurstatus", "eqsat_gurobi_solver_status");
  ("eqsateqres", "eqsat_equiv_result");
  ("eqsateqtime", "eqsat_equiv_solver_time");
  ("eqsateqenc", "eqsat_equiv_encoding_time");
  ("r2u2median", "r2u2_median_runtime");
  ("r2u2average", "r2u2_average_runtime");
  ("r2u2min", "r2u2_min_runtime");
  ("r2u2max", "r2u2_max_runtime");
  ("r2u2status", "r2u2_status");
  ("sabrebytes", "sabre_total_bytes")]%string.

(** Stats.format: lines 103-110.  [values] is str(getattr(self, value)). *)
Definition format (values : string -> str) (text : str) : str :=
  let text := fold_left (fun text kv => replace ("%" :: s_ (fst kv)) (values (snd kv)) text 0) stats_format_map text in
  let text := replace ["\"; "n"] ["010"] text 0 in
  let text := replace ["\"; """"] [""""] text 0 in
  replace ["\"; "t"] ["009"] text 0.
