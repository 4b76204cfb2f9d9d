(** * What "push", "pop" and reading a file are relied on for *)
From Coq Require Import List Arith Bool String.
From Verif Require Import Snapshot.
Import ListNotations.
Local Open Scope string_scope.
Local Open Scope list_scope.

(** Every "push" has its "pop". *)
Inductive balanced {decl spec value} : list (action decl spec value) -> Prop :=
| balanced_nil : balanced []
| balanced_read f l : balanced l -> balanced (Read f :: l)
| balanced_command f l : balanced l -> balanced (Command f :: l)
| balanced_push l l' : balanced l -> balanced l' -> balanced (Push :: l ++ Pop :: l').
Definition reads {decl spec value} (a : action decl spec value) : Prop := match a with Read _ => True | _ => False end.

(** What a user sees of the instructions. *)
Definition assembly {decl spec value} (k : console decl spec value) : value := heap k (cell (ctx k)).
(** List objects are numbered in the order in which they are made. *)
Definition valid {decl spec value} (k : console decl spec value) : Prop := cell (ctx k) < next k.

(** The specifications are those written in the sections. *)
Definition as_written {decl spec value} (p : program decl spec value) : Prop :=
  ft_specs p = flat_map (fun s => match s with FutureTime l => l | _ => [] end) (sections p) /\
  pt_specs p = flat_map (fun s => match s with PastTime l => l | _ => [] end) (sections p).

(** Attributes that get lost. *)
Definition lost_fields : list string := ["enums"; "r2u2_output"; "r2u2_c_path"; "r2u2_bin_path"].
Definition lost_stats : list string := ["asm_num_tl_temporal_instructions"; "eqsat_solver_status"; "sabre_total_bytes"].
(** The tables a program's declarations and specifications are entered in, and those of its atomics. *)
Definition program_tables : list string :=
  ["definitions"; "structs"; "enums"; "signals"; "specifications"; "contracts"; "atomic_id_map"; "atomic_expr_map"].
(** The tables of names in use: cpt.py 1520-1530 (get_symbols). *)
Definition symbol_tables : list string :=
  ["definitions"; "structs"; "enums"; "signals"; "variables"; "specifications"; "contracts"; "bound_vars"].
(** Reading a file without any content of its own. *)
Definition look {decl spec value} : action decl spec value :=
  Read (fun p fields stats => Effect p fields stats None).
