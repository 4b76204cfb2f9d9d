(** * The "check_sat" command: what is printed, and whether it succeeds
    compiler/c2po/sat.py *)
From Coq Require Import List Arith ZArith NArith Bool String.
From Verif Require Import Mltl Transform Decompose Smt.
Import ListNotations.
Local Open Scope nat_scope.

(** SatResult: sat.py 14-20; [Other] is "timeout", "memout" and "fail". *)
Inductive result := Sat | Unsat | Unknown | Other.
(** check_sat_result: lines 22-24 *)
Definition usable (r : result) : bool := match r with Other => false | _ => true end.

(** What becomes of the solver's process: not found or not started (lines 48-51,
    78-80), killed when the time is up (lines 82-87), or ended with an exit code
    and an output (lines 89-91). *)
Inductive process := NotStarted | TimedOut | Ended (code : Z) (stdout : string).
(** Lines 92-155.  Every exit code but 0 is "memout" or "fail". *)
Definition found (needle hay : string) : bool :=
  match index 0 needle hay with Some _ => true | None => false end.
Definition read_result (p : process) : result :=
  match p with
  | NotStarted | TimedOut => Other
  | Ended code out =>
      if negb (code =? 0)%Z then Other
      else if found "unsat" out then Unsat
      else if found "sat" out then Sat
      else Unknown
  end.

(** SMTTheory: lines 26-29; to_smt: lines 1003-1027.  The query is given by what
    it asks: whether some interpretation satisfies it. *)
Inductive theory := Uflia | QfUflia | QfBv.
Definition to_smt (th : theory) (strict : bool) (e : expr) : option Prop :=
  match th with
  | Uflia => option_map (fun q => exists f, q f) (uf_query strict e)
  | QfUflia => option_map (fun q => exists f, q f) (qf_query strict e)
  | QfBv => option_map (fun q => bv_satisfiable q e) (bv_query strict e)
  end.

(** A specification by its printed reference (cpt.get_spec_str_reference, cpt.py
    1102-1106: a number here) and its formula; none for a contract. *)
Definition spec : Type := nat * option expr.
(** Messages: on the standard output ([Shown]), as a warning, as an error.  The
    subject [None] is the whole program. *)
Inductive message :=
| SkippedContract (n : nat)
| Shown (who : option nat) (r : result)
| Warned (who : option nat) (r : result)
| NotEncoded (who : option nat)
| Unexpected (who : option nat) (r : result).

(** Lines 1171-1181 and 1206-1214. *)
Definition tell (print : bool) (who : option nat) (r : result) : list message :=
  if negb (usable r) then [Unexpected who r]
  else if negb print && match r with Unsat | Unknown => true | _ => false end then [Warned who r]
  else if print then [Shown who r]
  else [].

Section Command.
Variables (th : theory) (strict print : bool) (solve : expr -> process).
(** The loop of lines 1152-1181; [None]: returned ReturnCode.ERROR (a bad result
    leaves the loop at once, so [status] is True after it). *)
Fixpoint each (specs : list spec) : list message * option (list expr) :=
  match specs with
  | [] => ([], Some [])
  | (n, None) :: rest =>
      let (ms, r) := each rest in (SkippedContract n :: ms, r)
  | (n, Some e) :: rest =>
      match to_smt th strict e with
      | None => ([NotEncoded (Some n)], None)
      | Some _ =>
          let r := read_result (solve e) in
          if usable r then
            let (ms, es) := each rest in
            (tell print (Some n) r ++ ms, option_map (cons e) es)
          else (tell print (Some n) r, None)
      end
  end.
(** check_sat: lines 1134-1216; the Boolean is ReturnCode.SUCCESS. *)
Definition check_sat (specs : list spec) : list message * bool :=
  match each specs with
  | (ms, None) => (ms, false)
  | (ms, Some es) =>
      if List.length es <=? 1 then (ms, true)
      else
        match to_smt th strict (EAnd es) with
        | None => (ms ++ [NotEncoded None], false)
        | Some _ =>
            let r := read_result (solve (EAnd es)) in
            (ms ++ tell print None r, usable r)
        end
  end.
End Command.
