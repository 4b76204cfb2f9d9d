(** * Commands, guards and scripts (model)

    command.py 11-24, 45-104, 182-290; main.py 75-250; cpt.py 2243-2353. *)
From Coq Require Import List Arith ZArith Bool.
Import ListNotations.

(** ** What the guards look at *)
(** A node of [program.postorder(context)]. *)
Record pnode := Pnode {
  p_signal : option (Z * option Z);  (* a Signal: signal_id, context.signal_mapping.get(symbol) *)
  p_atomic : bool;                   (* an Atomic *)
  p_aid : option Z;                  (* context.atomic_id_map.get(node) *)
  p_sugar : bool;                    (* Struct, FunctionCall, ArrayExpression, StructAccess, ... *)
  p_temporal : bool;                 (* engine TEMPORAL_LOGIC *)
  p_scq : Z;                         (* scq_size *)
  p_arity : nat; p_set : bool;       (* len(children), SpecificationSet *)
  p_extended : bool;                 (* xor, ->, F, G, O, H *)
  p_pure : bool                      (* the disjunction of is_pure_mltl *)
}.
Record program := Program { is_dummy : bool; is_well_typed : bool; pnodes : list pnode }.
Record context := Context { booleanizer : bool; assembly : nat (* len(context.assembly) *) }.

(** command.py 45-76. *)
Inductive guard :=
| VALID_PROGRAM | VALID_SIGNAL_MAPPING | WELL_TYPED | DESUGARED | VALID_SCQ_SIZES | COMPUTED_ATOMICS
| ONLY_BINARY_OPERATORS | NO_EXTENDED_OPERATORS | PURE_MLTL | ATOMIC_CONSISTENT_SIGNAL_MAPPING | ASSEMBLED.

Definition is_some {A} (o : option A) : bool := match o with Some _ => true | None => false end.
(** The predicates, cpt.py 2243-2353. *)
Definition holds (p : program) (c : context) (g : guard) : bool :=
  match g with
  | VALID_PROGRAM => negb (is_dummy p)
  | VALID_SIGNAL_MAPPING =>
      forallb (fun n => match p_signal n with
                        | Some (id, Some m) => (id =? m)%Z
                        | Some (_, None) => false
                        | None => true
                        end) (pnodes p)
  | WELL_TYPED => negb (is_dummy p) && is_well_typed p
  | DESUGARED => forallb (fun n => negb (p_sugar n)) (pnodes p)
  | VALID_SCQ_SIZES => forallb (fun n => if p_temporal n || is_some (p_aid n) then (0 <=? p_scq n)%Z else true) (pnodes p)
  | COMPUTED_ATOMICS =>
      forallb (fun n => if p_atomic n || (negb (booleanizer c) && is_some (p_signal n)) then is_some (p_aid n) else true)
              (pnodes p)
  | ONLY_BINARY_OPERATORS => forallb (fun n => if p_set n then true else p_arity n <=? 2) (pnodes p)
  | NO_EXTENDED_OPERATORS => forallb (fun n => negb (p_extended n)) (pnodes p)
  | PURE_MLTL => forallb p_pure (pnodes p)
  | ATOMIC_CONSISTENT_SIGNAL_MAPPING =>
      booleanizer c ||
      forallb (fun n => match p_signal n, p_aid n with
                        | Some (id, _), Some a => (a =? id)%Z
                        | Some _, None => false
                        | None, _ => true
                        end) (pnodes p)
  | ASSEMBLED => 0 <? assembly c
  end.
(** GUARD_DEPENDENCIES, command.py 79-104. *)
Definition dependencies (g : guard) : list guard :=
  match g with
  | VALID_PROGRAM | VALID_SIGNAL_MAPPING => []
  | WELL_TYPED => [VALID_PROGRAM]
  | DESUGARED => [WELL_TYPED]
  | VALID_SCQ_SIZES | COMPUTED_ATOMICS | ONLY_BINARY_OPERATORS | NO_EXTENDED_OPERATORS | PURE_MLTL => [DESUGARED]
  | ATOMIC_CONSISTENT_SIGNAL_MAPPING => [VALID_SIGNAL_MAPPING; COMPUTED_ATOMICS]
  | ASSEMBLED => [VALID_PROGRAM; VALID_SIGNAL_MAPPING; DESUGARED; VALID_SCQ_SIZES; COMPUTED_ATOMICS;
                  ONLY_BINARY_OPERATORS; NO_EXTENDED_OPERATORS; ATOMIC_CONSISTENT_SIGNAL_MAPPING]
  end.

(** ** Commands *)
(** command.py 11-24. *)
Inductive code :=
| SUCCESS | ERROR | BAD_ARGS | FILE_NOT_FOUND | PARSE_ERROR | GUARD_CONDITION_NOT_MET | SHLEX_ERROR
| NO_STATE_TO_POP | UNKNOWN_COMMAND | UNKNOWN_RESULT_TYPE | ARGPARSE_EXIT | ASSEMBLY_ERROR.
Definition code_value (c : code) : nat :=
  match c with
  | SUCCESS => 0 | ERROR => 1 | BAD_ARGS => 2 | FILE_NOT_FOUND => 3 | PARSE_ERROR => 4
  | GUARD_CONDITION_NOT_MET => 5 | SHLEX_ERROR => 6 | NO_STATE_TO_POP => 7 | UNKNOWN_COMMAND => 8
  | UNKNOWN_RESULT_TYPE => 9 | ARGPARSE_EXIT => 10 | ASSEMBLY_ERROR => 11
  end.
Definition is_error (c : code) : bool := 1 <=? code_value c.

(** What a command returns (lines 113-116); the pair of a composite command is
    [RGuard]. *)
Inductive cresult := RCode (c : code) | RProgram (p : program) | RNone | RGuard (name : nat) (g : guard).
(** A function changes the program and the context in place and returns or
    raises.  The options are part of the function. *)
Definition state := (program * context)%type.
Definition func := state -> state * option cresult.
(** A composite command has a first part: check_guards (line 289) indexes it,
    and no registered composite is empty. *)
Inductive command :=
| Simple (name : nat) (guards : list guard) (f : func)
| Composite (name : nat) (first : command) (rest : list command).
Definition command_name (c : command) : nat := match c with Simple n _ _ | Composite n _ _ => n end.

(** Lines 182-201: the first guard or direct dependency that fails. *)
Fixpoint check_list (s : state) (gs : list guard) : option guard :=
  match gs with
  | [] => None
  | g :: gs => if negb (holds (fst s) (snd s) g) then Some g
               else match find (fun d => negb (holds (fst s) (snd s) d)) (dependencies g) with
                    | Some d => Some d
                    | None => check_list s gs
                    end
  end.
(** Line 289 for composites. *)
Fixpoint check_guards (s : state) (c : command) : option guard :=
  match c with
  | Simple _ gs _ => check_list s gs
  | Composite _ first _ => check_guards s first
  end.

(** A call of a command's function, in the state it started in; execute logs it
    (line 218). *)
Record call := Call { called : nat; call_guards : list guard; call_state : state }.
(** Lines 215-230 and, for composites, 269-285. *)
Fixpoint execute (c : command) (s : state) : state * cresult * list call :=
  match c with
  | Simple name gs f =>
      let '(s', r) := f s in
      (s', match r with Some r => r | None => RCode ERROR end, [Call name gs s])
  | Composite _ first rest =>
      (fix parts (cs : list command) (s : state) : state * cresult * list call :=
         match cs with
         | [] => (s, RCode SUCCESS, [])
         | c :: cs =>
             match check_guards s c with
             | Some g => (s, RGuard (command_name c) g, [])
             | None =>
                 let '(s', r, l) := execute c s in
                 match r with
                 | RCode SUCCESS => let '(s'', r', l') := parts cs s' in (s'', r', l ++ l')
                 | r => (s', r, l)
                 end
             end
         end) (first :: rest) s
  end.

(** ** The console *)
Inductive line :=
| LBlank                    (* empty or comment, main.py 125-126 *)
| LBadQuotes                (* shlex error, 132-135 *)
| LExit | LPush | LPop      (* 137-148 *)
| LUnknown                  (* 149-152 *)
| LBadArgs                  (* argparse exit, 184-187; also --help *)
| LCommand (c : command).
Record console := Console { cstate : state; stack : list state; return_code : code }.
(** 191-194. *)
Definition set_code (k : console) (c : code) : console :=
  if is_error c then Console (cstate k) (stack k) c else k.
(** Lines 160-182 on the result. *)
Definition result_code (r : cresult) : code :=
  match r with
  | RProgram _ => SUCCESS
  | RNone => PARSE_ERROR
  | RGuard _ _ => GUARD_CONDITION_NOT_MET
  | RCode c => c
  end.

Section Console.
(** deepcopy_program_with_context, cpt.py 1773-1776. *)
Variable copy : state -> state.

(** runsource, 112-189: the new console, the code of the line and the calls; no
    console when the process exits. *)
Definition run_line (k : console) (l : line) : option console * code * list call :=
  match l with
  | LBlank => (Some k, SUCCESS, [])
  | LBadQuotes => (Some (set_code k SHLEX_ERROR), SHLEX_ERROR, [])
  | LExit => (None, SUCCESS, [])
  | LPush => (Some (Console (cstate k) (copy (cstate k) :: stack k) (return_code k)), SUCCESS, [])
  | LPop =>
      match stack k with
      | [] => (Some (set_code k NO_STATE_TO_POP), NO_STATE_TO_POP, [])
      | s :: st => (Some (Console s st (return_code k)), SUCCESS, [])
      end
  | LUnknown => (Some (set_code k UNKNOWN_COMMAND), UNKNOWN_COMMAND, [])
  | LBadArgs => (Some (set_code k ARGPARSE_EXIT), ARGPARSE_EXIT, [])
  | LCommand c =>
      match check_guards (cstate k) c with
      | Some _ => (Some (set_code k GUARD_CONDITION_NOT_MET), GUARD_CONDITION_NOT_MET, [])
      | None =>
          let '(s, r, calls) := execute c (cstate k) in
          let s := match r with RProgram p => (p, snd s) | _ => s end in
          let r := result_code r in
          (Some (set_code (Console s (stack k) (return_code k)) r), r, calls)
      end
  end.
(** script, 225-249, and the exit status of the process (c2po.py 240-241, main.py
    138): the final code, the codes of the lines and all calls. *)
Fixpoint script (k : console) (ls : list line) : code * list code * list call :=
  match ls with
  | [] => (return_code k, [], [])
  | l :: ls =>
      let '(k', c, calls) := run_line k l in
      match k' with
      | None => (return_code k, [c], calls)
      | Some k' => let '(final, cs, calls') := script k' ls in (final, c :: cs, calls ++ calls')
      end
  end.
End Console.

(** The console of a new process: Program.dummy() (cpt.py 1339-1344) has no
    nodes but the two empty specification sets. *)
Definition empty_set : pnode := Pnode None false None false false (-1) 0 true false true.
Definition new_console : console :=
  Console (Program true false [empty_set; empty_set], Context false 0) [] SUCCESS.
