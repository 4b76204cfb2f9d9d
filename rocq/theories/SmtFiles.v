(** * The "write_smt_encoding" command: which query goes to which file
    compiler/c2po/sat.py 1029-1096 *)
From Coq Require Import List Arith Bool.
Import ListNotations.

(** What is at a path of the file system.  Files in a directory have the name of a
    formula with ".smt2" added (line 1054); a name is a number here. *)
Section Files.
Variables (expr text : Type).
Inductive place := Absent | File (t : text) | Directory (files : list (nat * text)).

(** open(path, "w") of a file in a directory: it is replaced or made. *)
Fixpoint put (n : nat) (t : text) (files : list (nat * text)) : list (nat * text) :=
  match files with
  | [] => [(n, t)]
  | (m, u) :: rest => if n =? m then (n, t) :: rest else (m, u) :: put n t rest
  end.

(** A specification: its symbol, and its formula if it is not a contract. *)
Definition spec : Type := nat * option expr.
Variable to_smt : expr -> option text.

(** write_smt: lines 1042-1057.  [location] is what is there now, the result what
    is there after it; [None] for open() of a directory or of a file in none,
    which cannot happen. *)
Definition write_smt (n : nat) (e : expr) (output_is_dir : bool) (location : place) : option (place * bool) :=
  match to_smt e with
  | None => Some (location, false)
  | Some t =>
      match output_is_dir, location with
      | true, Directory files => Some (Directory (put n t files), true)
      | true, _ => None
      | false, Directory _ => None
      | false, _ => Some (File t, true)
      end
  end.

(** Lines 1063-1068: a file is removed. *)
Definition setup (location : place) : place * bool :=
  match location with
  | File _ => (Absent, false)
  | Directory files => (Directory files, true)
  | Absent => (Absent, false)
  end.
(** Program.get_spec: cpt.py 1378-1386 *)
Definition get_spec (ft pt : list spec) (n : nat) : option spec :=
  match find (fun s => fst s =? n) ft with
  | Some s => Some s
  | None => find (fun s => fst s =? n) pt
  end.
(** Lines 1087-1096. *)
Fixpoint write_all (specs : list spec) (output_is_dir : bool) (location : place) : option (place * bool) :=
  match specs with
  | [] => Some (location, true)
  | (_, None) :: rest => write_all rest output_is_dir location
  | (n, Some e) :: rest =>
      match write_smt n e output_is_dir location with
      | Some (location, true) => write_all rest output_is_dir location
      | r => r
      end
  end.
(** write_smt_encoding: what is at the location afterwards, and
    ReturnCode.SUCCESS. *)
Definition write_smt_encoding (ft pt : list spec) (formula : option nat) (location : place) : option (place * bool) :=
  let (location, output_is_dir) := setup location in
  match formula with
  | Some n =>
      match get_spec ft pt n with
      | None => Some (location, false)
      | Some (_, None) => Some (location, false)
      | Some (n, Some e) => write_smt n e output_is_dir location
      end
  | None =>
      let output_is_dir := output_is_dir || (1 <? length ft) in
      let location :=
        if output_is_dir then match location with Directory files => Directory files | _ => Directory [] end
        else location in
      write_all ft output_is_dir location
  end.
End Files.
Arguments Absent {text}.
Arguments File {text} t.
Arguments Directory {text} files.
Arguments put {text} n t files.
Arguments write_smt {expr text} to_smt n e output_is_dir location.
Arguments setup {text} location.
Arguments get_spec {expr} ft pt n.
Arguments write_all {expr text} to_smt specs output_is_dir location.
Arguments write_smt_encoding {expr text} to_smt ft pt formula location.
