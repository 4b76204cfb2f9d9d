(** * C64: "pop" brings back the state of the matching "push" *)
From Coq Require Import List Arith Bool String.
From Verif Require Import Snapshot SnapshotSpec SnapshotProofs.
Import ListNotations.
Local Open Scope string_scope.
Local Open Scope list_scope.

(** Whatever is done between them, "push" and "pop" bring back the program if its
    specifications are those of its sections, the states pushed before, every statistic
    but three, and every attribute but four, those that hold the program's declarations
    provided they already held them.
    Missing, because false: what is excepted (below). *)
Theorem C64_restored_partial : forall (decl spec value : Type) declare fresh_field fresh_stat (no_assembly : value)
  (k : console decl spec value) l, balanced l ->
  let k' := run decl spec value declare fresh_field fresh_stat no_assembly k (Push :: l ++ [Pop]) in
  sections (prog k') = sections (prog k) /\ flags (prog k') = flags (prog k) /\
  (as_written (prog k) -> prog k' = prog k) /\ saved k' = saved k /\
  (forall f, In f context_fields -> ~ In f lost_fields ->
     In f program_tables -> declare (sections (prog k)) (field (ctx k)) f = field (ctx k) f ->
     field (ctx k') f = field (ctx k) f) /\
  (forall f, In f context_fields -> ~ In f lost_fields -> ~ In f program_tables -> field (ctx k') f = field (ctx k) f) /\
  (forall f, In f stats_fields -> ~ In f lost_stats -> stat (ctx k') f = stat (ctx k) f).
Proof. exact restored. Qed.
(** "push" itself changes nothing else of the live state than the tables of the program.
    Missing, because false: those tables (below). *)
Theorem C64_push_partial : forall (decl spec value : Type) declare fresh_field fresh_stat (no_assembly : value)
  (k : console decl spec value),
  let k' := run decl spec value declare fresh_field fresh_stat no_assembly k [Push] in
  prog k' = prog k /\ assembly k' = assembly k /\ (forall f, stat (ctx k') f = stat (ctx k) f) /\
  (forall f, ~ In f program_tables -> field (ctx k') f = field (ctx k) f).
Proof. exact push_keeps. Qed.
(** The instructions come back too, if no file is read in between.
    Missing, because false: that condition dropped (below). *)
Theorem C64_assembly_partial : forall (decl spec value : Type) declare fresh_field fresh_stat (no_assembly : value)
  (k : console decl spec value) l, valid k -> balanced l -> Forall (fun a => ~ reads a) l ->
  assembly (run decl spec value declare fresh_field fresh_stat no_assembly k (Push :: l ++ [Pop])) = assembly k.
Proof. exact assembly_kept. Qed.
(** The condition on the numbering of list objects holds in every session that starts with it. *)
Theorem C64_valid : forall (decl spec value : Type) declare fresh_field fresh_stat (no_assembly : value) l
  (k : console decl spec value), valid k -> Forall (fun pc => cell (snd pc) < next k) (saved k) ->
  let k' := run decl spec value declare fresh_field fresh_stat no_assembly k l in
  valid k' /\ Forall (fun pc => cell (snd pc) < next k') (saved k').
Proof. exact run_valid. Qed.

(** "push" and "pop" at once lose attributes and statistics: they are as in a new context. *)
Theorem C64_fields_lost_refuted : forall (decl spec value : Type) declare fresh_field fresh_stat (no_assembly : value)
  (k : console decl spec value) f, In f lost_fields -> In f context_fields /\
  field (ctx (run decl spec value declare fresh_field fresh_stat no_assembly k [Push; Pop])) f = fresh_field f.
Proof. exact fields_lost. Qed.
Theorem C64_stats_lost_refuted : forall (decl spec value : Type) declare fresh_field fresh_stat (no_assembly : value)
  (k : console decl spec value) f, In f lost_stats -> In f stats_fields /\
  stat (ctx (run decl spec value declare fresh_field fresh_stat no_assembly k [Push; Pop])) f = fresh_stat f.
Proof. exact stats_lost. Qed.
(** A program whose specifications were replaced (contracts are, when desugared) is not brought back. *)
Theorem C64_specs_lost_refuted : forall (decl spec value : Type) declare fresh_field fresh_stat (no_assembly : value)
  (k : console decl spec value), ~ as_written (prog k) ->
  prog (run decl spec value declare fresh_field fresh_stat no_assembly k [Push; Pop]) <> prog k.
Proof. exact specs_lost. Qed.
(** "push" by itself enters the program's declarations in the tables, type checked or not. *)
Theorem C64_push_declares_refuted : forall (decl spec value : Type) declare fresh_field fresh_stat (no_assembly : value)
  (k : console decl spec value) f, In f program_tables ->
  field (ctx (run decl spec value declare fresh_field fresh_stat no_assembly k [Push])) f =
  declare (sections (prog k)) (field (ctx k)) f.
Proof. exact push_declares. Qed.
(** Reading any file after a "push" empties the instructions the "pop" brings back. *)
Theorem C64_assembly_lost_refuted : forall (decl spec value : Type) declare fresh_field fresh_stat (no_assembly : value)
  (k : console decl spec value) f, valid k ->
  assembly (run decl spec value declare fresh_field fresh_stat no_assembly k [Push; Read f; Pop]) = no_assembly.
Proof. exact assembly_lost. Qed.

(** A file is read with every table of names empty but the enumerations'.
    Missing, because false: the enumerations, which stay as they were. *)
Theorem C64_tables_cleared_partial : forall (decl spec value : Type) declare fresh_field fresh_stat (no_assembly : value)
  (k : console decl spec value) f, In f symbol_tables -> f <> "enums" ->
  field (ctx (run decl spec value declare fresh_field fresh_stat no_assembly k [look])) f = fresh_field f.
Proof. exact tables_cleared. Qed.
(** Its statistics start anew. *)
Theorem C64_stats_cleared : forall (decl spec value : Type) declare fresh_field fresh_stat (no_assembly : value)
  (k : console decl spec value) f,
  stat (ctx (run decl spec value declare fresh_field fresh_stat no_assembly k [look])) f = fresh_stat f.
Proof. exact stats_cleared. Qed.
Theorem C64_enums_stay_refuted : forall (decl spec value : Type) declare fresh_field fresh_stat (no_assembly : value)
  (k : console decl spec value),
  field (ctx (run decl spec value declare fresh_field fresh_stat no_assembly k [look])) "enums" = field (ctx k) "enums".
Proof. exact enums_stay. Qed.

Print Assumptions C64_restored_partial.
Print Assumptions C64_push_partial.
Print Assumptions C64_assembly_partial.
Print Assumptions C64_valid.
Print Assumptions C64_fields_lost_refuted.
Print Assumptions C64_stats_lost_refuted.
Print Assumptions C64_specs_lost_refuted.
Print Assumptions C64_push_declares_refuted.
Print Assumptions C64_assembly_lost_refuted.
Print Assumptions C64_tables_cleared_partial.
Print Assumptions C64_stats_cleared.
Print Assumptions C64_enums_stay_refuted.

(** ** Examples: values are numbers, 0 in a new context; a declaration is a number
    that entering it makes the tables' value (so twice is as good as once) *)
Definition ex_declare (l : list (section nat string)) (fields : string -> nat) (f : string) : nat :=
  fold_left (fun v s => match s with Declarations d => Nat.max v d | _ => v end) l (fields f).
Definition ex_run := run nat string nat ex_declare (fun _ => 0) (fun _ => 0) 0.
Definition ex_program : program nat string nat :=
  Program [Declarations 4; FutureTime ["f"; "contract"]; PastTime ["p"]; FutureTime ["g"]] ["f"; "contract"; "g"] ["p"] 1.
Definition ex_console : console nat string nat := Console ex_program (Context (fun _ => 5) (fun _ => 6) 0) [] (fun _ => 7) 1.
Definition ex_command : action nat string nat :=
  Command (fun p f s a => Effect (Program (sections p) (ft_specs p) (pt_specs p) (flags p + 1))
    (fun x => f x + 10) (fun x => s x + 10) (Some (a + 10))).
(** desugaring replaces the contract by three formulas *)
Definition ex_desugar : action nat string nat :=
  Command (fun p f s a => Effect (Program (sections p)
    (flat_map (fun x => if String.eqb x "contract" then ["active"; "valid"; "verified"] else [x]) (ft_specs p)) (pt_specs p) (flags p)) f s None).
Definition ex_read : action nat string nat :=
  Read (fun _ f s => Effect (Program [Declarations 30] [] [] 9) (fun x => f x + 1) (fun x => s x + 2) (Some 8)).
Definition ex_between : list (action nat string nat) := [ex_command; Push; ex_desugar; ex_command; Pop; ex_command].
Example ex_hypotheses : valid ex_console /\ balanced ex_between /\ Forall (fun a => ~ reads a) ex_between /\
  as_written ex_program /\ ex_declare (sections ex_program) (field (ctx ex_console)) "signals" = field (ctx ex_console) "signals".
Proof.
  split; [unfold valid; cbn; auto|]. split; [|split; [|split]].
  - apply balanced_command. apply (balanced_push [ex_desugar; ex_command] [ex_command]); repeat apply balanced_command; apply balanced_nil.
  - repeat constructor; intros [].
  - split; reflexivity.
  - reflexivity.
Qed.
(** without "pop" all is changed *)
Example ex_changed : let k := ex_run ex_console (Push :: ex_between) in
  (flags (prog k), field (ctx k) "definitions", stat (ctx k) "asm_num_atomics", assembly k) = (3, 25, 26, 27).
Proof. vm_compute. reflexivity. Qed.
Example ex_restored : let k := ex_run ex_console (Push :: ex_between ++ [Pop]) in
  (prog k, field (ctx k) "definitions", stat (ctx k) "asm_num_atomics", assembly k) = (ex_program, 5, 6, 7).
Proof. vm_compute. reflexivity. Qed.
Example ex_lost : let k := ex_run ex_console [Push; Pop] in
  (field (ctx k) "enums", field (ctx k) "r2u2_output", stat (ctx k) "sabre_total_bytes") = (0, 0, 0).
Proof. vm_compute. reflexivity. Qed.
Example ex_push : let k := ex_run ex_console [ex_command; Push] in
  (flags (prog k), field (ctx k) "r2u2_output", stat (ctx k) "sabre_total_bytes", assembly k) = (2, 15, 16, 17).
Proof. vm_compute. reflexivity. Qed.
(** the contract is back after "push" and "pop" *)
Example ex_contract_back :
  ft_specs (prog (ex_run ex_console [ex_desugar])) = ["f"; "active"; "valid"; "verified"; "g"] /\
  ~ as_written (prog (ex_run ex_console [ex_desugar])) /\
  ft_specs (prog (ex_run ex_console [ex_desugar; Push; Pop])) = ["f"; "contract"; "g"].
Proof. split; [reflexivity|]. split; [intros [H _]; discriminate H|reflexivity]. Qed.
(** a file is read, its enumeration not yet in the table; "push" puts it there *)
Example ex_push_declares : let k := ex_run ex_console [ex_read] in
  (field (ctx k) "enums", field (ctx (ex_run k [Push])) "enums") = (6, 30).
Proof. vm_compute. reflexivity. Qed.
Example ex_assembly_lost : let k := ex_run ex_console [Push; ex_read; Pop] in (prog k, assembly k) = (ex_program, 0).
Proof. vm_compute. reflexivity. Qed.
Example ex_read_twice : let k := ex_run ex_console [ex_read; ex_read] in
  (flags (prog k), field (ctx k) "structs", field (ctx k) "enums", stat (ctx k) "asm_num_atomics", assembly k) = (9, 1, 7, 2, 8).
Proof. vm_compute. reflexivity. Qed.
(** "pop" without a state changes nothing *)
Example ex_no_state : let k := ex_run ex_console [Pop] in (prog k, assembly k, field (ctx k) "enums") = (ex_program, 7, 5).
Proof. vm_compute. reflexivity. Qed.
