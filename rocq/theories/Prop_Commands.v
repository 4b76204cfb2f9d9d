(** * C38: guards, composite commands and scripts *)
From Coq Require Import List Arith ZArith Bool.
Require Import Verif.Commands Verif.CommandSpec Verif.CommandProofs.
Import ListNotations.

(** A composite command runs its parts in order; it ends successfully after all
    of them or stops at the first one whose guard fails or that does not
    succeed, with that part's result, in the state it left. *)
Theorem C38_composite_in_order n c cs s s' r calls : execute (Composite n c cs) s = (s', r, calls) <->
  (r = RCode SUCCESS /\ parts_succeed (c :: cs) s s' calls) \/
  (exists done x rest s1 l1 l2, c :: cs = done ++ x :: rest /\ parts_succeed done s s1 l1 /\
     part_fails x s1 s' r l2 /\ calls = l1 ++ l2).
Proof. exact (parts_order (c :: cs) s s' r calls). Qed.
Print Assumptions C38_composite_in_order.

(** In every script, a command is only called when its guards, and what they
    directly depend on, hold; a command whose guard fails changes nothing. *)
Theorem C38_guards_hold copy k ls final codes calls : script copy k ls = (final, codes, calls) -> Forall allowed calls.
Proof. exact (script_allowed copy ls k final codes calls). Qed.
Print Assumptions C38_guards_hold.
Theorem C38_guard_blocks copy k c g : check_guards (cstate k) c = Some g ->
  exists k', run_line copy k (LCommand c) = (Some k', GUARD_CONDITION_NOT_MET, []) /\
    cstate k' = cstate k /\ stack k' = stack k /\ return_code k' = GUARD_CONDITION_NOT_MET.
Proof. exact (guard_blocks copy k c g). Qed.
Print Assumptions C38_guard_blocks.

(** Everything a guard requires transitively: full statement [Forall
    fully_allowed calls].  It holds for calls with the guards of the assembler
    (assemble.py 1116-1127), whatever else they ask for. *)
Theorem C38_assembler_guards copy k ls final codes calls : script copy k ls = (final, codes, calls) ->
  forall c, In c calls -> In WELL_TYPED (call_guards c) -> In DESUGARED (call_guards c) ->
    In VALID_SIGNAL_MAPPING (call_guards c) -> In COMPUTED_ATOMICS (call_guards c) -> fully_allowed c.
Proof.
  intros E c Hc W De V A g d Hg R. apply script_allowed in E. rewrite Forall_forall in E.
  apply (assemble_requirements (call_state c) (call_guards c)) with g; auto. apply check_list_none. exact (E c Hc).
Qed.
Print Assumptions C38_assembler_guards.

(** Whatever is assembled is a real, well-typed program without sugar, all of
    whose signals are mapped, whose temporal and atomic nodes have queue sizes,
    whose atomics have ids, and whose operators have at most two operands. *)
Theorem C38_assembler_input copy k ls final codes calls : script copy k ls = (final, codes, calls) ->
  forall c, In c calls -> call_guards c = assemble_guards -> assemblable (fst (call_state c)) (snd (call_state c)).
Proof. exact (assembler_input copy k ls final codes calls). Qed.
Print Assumptions C38_assembler_input.

(** One command succeeds exactly when its guards hold and it returns success or
    a program; the console then holds what it left, or the program it returned.
    An exception, a parse error, or any other code is a failure. *)
Theorem C38_command_outcome copy k n gs f :
  let s := cstate k in
  let r := snd (f s) in
  exists k' c calls, run_line copy k (LCommand (Simple n gs f)) = (Some k', c, calls) /\
    (c = SUCCESS <->
     allowed (Call n gs s) /\ (r = Some (RCode SUCCESS) \/ exists p, r = Some (RProgram p))) /\
    (allowed (Call n gs s) -> calls = [Call n gs s] /\ stack k' = stack k /\ snd (cstate k') = snd (fst (f s)) /\
       fst (cstate k') = match r with Some (RProgram p) => p | _ => fst (fst (f s)) end) /\
    (~ allowed (Call n gs s) -> calls = [] /\ cstate k' = s /\ stack k' = stack k).
Proof. exact (simple_line copy k n gs f). Qed.
Print Assumptions C38_command_outcome.

(** A push and its pop, whatever happens in between, bring back a copy of the
    state and leave the stack as it was. *)
Theorem C38_push_pop copy ls k k' : balanced ls -> runs copy k (LPush :: ls ++ [LPop]) k' ->
  cstate k' = copy (cstate k) /\ stack k' = stack k.
Proof. exact (push_pop copy ls k k'). Qed.
Print Assumptions C38_push_pop.

(** It fails for print_program_mltl (command.py 622-630), whose only guard is
    COMPUTED_ATOMICS: in a new console it runs on the dummy program, although
    COMPUTED_ATOMICS requires DESUGARED, WELL_TYPED and VALID_PROGRAM. *)
Definition print_program_mltl : command := Simple 0 [COMPUTED_ATOMICS] (fun s => (s, Some (RCode SUCCESS))).
Theorem C38_transitive_guards_refuted :
  exists ls final codes calls c, script (fun s => s) new_console ls = (final, codes, calls) /\ final = SUCCESS /\
    In c calls /\ ~ fully_allowed c.
Proof.
  exists [LCommand print_program_mltl]. do 3 eexists. exists (Call 0 [COMPUTED_ATOMICS] (cstate new_console)).
  split; [vm_compute; reflexivity|]. split; [reflexivity|]. split; [left; reflexivity|].
  intros F. specialize (F COMPUTED_ATOMICS VALID_PROGRAM (or_introl eq_refl)). cbn in F.
  enough (false = true) by discriminate. apply F.
  apply (req_dep _ DESUGARED); [cbn; auto|]. apply (req_dep _ WELL_TYPED); [cbn; auto|].
  apply (req_dep _ VALID_PROGRAM); [cbn; auto|constructor].
Qed.
Print Assumptions C38_transitive_guards_refuted.

(** The exit status of a script is a failure exactly when some line failed, and
    there is one code for every line up to an [exit]. *)
Theorem C38_return_code copy ls final codes calls :
  script copy new_console ls = (final, codes, calls) ->
  (code_value final <> 0 <-> Exists (fun c => code_value c <> 0) codes) /\
  (length codes = length ls \/ exists l1 l2, ls = l1 ++ LExit :: l2 /\ length codes = S (length l1)).
Proof.
  intros E. split; [|exact (script_lines copy ls new_console final codes calls E)].
  assert (D : forall c, code_value c <> 0 <-> c <> SUCCESS) by (intros []; cbn; split; intros; congruence).
  rewrite D, (script_reports copy new_console ls final codes calls eq_refl E).
  split; intros H; eapply Exists_impl; try exact H; intros c Hc; apply D, Hc.
Qed.
Print Assumptions C38_return_code.

(** ** Examples *)
(** parse; type_check; a composite whose second part fails; an unknown command. *)
Definition parse : command := Simple 1 [] (fun s => (s, Some (RProgram (Program false false [])))).
Definition type_check : command :=
  Simple 2 [VALID_PROGRAM] (fun s => ((Program false true (pnodes (fst s)), snd s), Some (RCode SUCCESS))).
Definition crash : command := Simple 3 [WELL_TYPED] (fun s => (s, None)).
Definition optimize : command := Simple 4 [DESUGARED] (fun s => (s, Some (RCode SUCCESS))).
Example C38_case :
  let '(final, codes, calls) :=
    script (fun s => s) new_console
      [LCommand type_check; LCommand parse; LCommand optimize; LCommand (Composite 5 type_check [optimize; crash; optimize]);
       LBlank; LUnknown; LPush; LPop; LCommand optimize; LExit; LBadQuotes] in
  final = UNKNOWN_COMMAND /\
  codes = [GUARD_CONDITION_NOT_MET; SUCCESS; GUARD_CONDITION_NOT_MET; ERROR; SUCCESS; UNKNOWN_COMMAND; SUCCESS; SUCCESS; SUCCESS; SUCCESS] /\
  map called calls = [1; 2; 4; 3; 4].
Proof. vm_compute. auto. Qed.
Example C38_composite_case :
  snd (fst (execute (Composite 5 type_check [optimize; crash; optimize]) (Program false false [], Context false 0))) = RCode ERROR.
Proof. vm_compute. reflexivity. Qed.

(** A push, another push and pop, a command that changes the state, the pop. *)
Example C38_push_pop_case :
  balanced [LCommand parse; LPush; LUnknown; LPop; LCommand type_check] /\
  exists k', runs (fun s => s) new_console (LPush :: [LCommand parse; LPush; LUnknown; LPop; LCommand type_check] ++ [LPop]) k' /\
    cstate k' = cstate new_console /\ return_code k' = UNKNOWN_COMMAND.
Proof.
  split.
  - apply bal_line; [discriminate|discriminate|]. apply (bal_nest [LUnknown] [LCommand type_check]).
    + apply bal_line; [discriminate|discriminate|constructor].
    + apply bal_line; [discriminate|discriminate|constructor].
  - eexists. split; [|split].
    + do 7 (eapply runs_cons; [vm_compute; reflexivity|]). apply runs_nil.
    + reflexivity.
    + reflexivity.
Qed.
(** A program that may be assembled: one signal used as an atomic. *)
Example C38_assemble_case :
  let p := Program false true [Pnode (Some (0, Some 0)) false (Some 0) false false 1 0 false false true;
                               Pnode None false None false true 3 2 false true true; empty_set]%Z in
  let '(_, codes, calls) := script (fun s => s) (Console (p, Context false 0) [] SUCCESS)
    [LCommand (Simple 7 assemble_guards (fun s => (s, Some (RCode SUCCESS))))] in
  codes = [SUCCESS] /\ map call_guards calls = [assemble_guards].
Proof. vm_compute. auto. Qed.
