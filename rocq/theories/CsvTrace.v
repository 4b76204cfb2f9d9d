(** * Trace files (model)

    monitors/c/src/cli/csv_trace.c 8-39 with r2u2_load_string_signal (lib.c
    55-66) and the loop of the command-line monitor (cli/main.c 118-126);
    compiler/c2po/trace.py 5-68 and 88-146; the Rust command-line monitor
    (r2u2_cli/src/main.rs 219-241) with load_string_signal (lib.rs 244-275).

    Files are ASCII.  Parsing of doubles is a parameter.  The Rust program uses
    the crate csv; [rust_records] is its documented behaviour on files without
    quotation marks (a trusted assumption, the crate is not in the
    repository). *)
From Coq Require Import List NArith ZArith Bool Ascii.
Require Import Verif.MapFile Verif.Booleanizer Verif.RustBooleanizer.
Import ListNotations.
Local Open Scope char_scope.

(** ** The C library *)
(** fgets(buf, size, file) with [k] = size - 1: up to [k] characters, up to and
    including a newline. *)
Fixpoint fgets_chars (k : nat) (s : str) : str * str :=
  match k, s with
  | O, _ => ([], s)
  | _, [] => ([], [])
  | S k, c :: r => if c =? "010" then ([c], r) else let '(l, rest) := fgets_chars k r in (c :: l, rest)
  end.
Definition fgets (size : nat) (s : str) : option (str * str) :=
  match s with [] => None | _ => Some (fgets_chars (pred size) s) end.
(** The string in the buffer ends at the first NUL. *)
Definition c_string (s : str) : str := take_while (fun c => negb (c =? "000")) s.
(** The tokens strtok returns one after the other: maximal non-empty runs
    without delimiters. *)
Fixpoint tokens (delim : ascii -> bool) (s : str) (current : str) : list str :=
  match s with
  | [] => match current with [] => [] | _ => [rev current] end
  | c :: r =>
      if delim c then match current with [] => tokens delim r [] | _ => rev current :: tokens delim r [] end
      else tokens delim r (c :: current)
  end.
Definition is_comma_or_newline (c : ascii) : bool := (c =? ",") || (c =? "010").
Definition is_space (c : ascii) : bool := c =? " ".

(** sscanf %d and %u: blanks, a sign, at least one digit. *)
Definition number (s : str) : Z := fold_left (fun z c => 10 * z + (Z.of_N (N_of_ascii c) - 48))%Z s 0%Z.
Definition scan_number (s : str) : option Z :=
  let s := drop_while is_blank s in
  let '(sign, s) := match s with "-" :: r => (-1, r) | "+" :: r => (1, r) | _ => (1, s) end%Z in
  match take_while is_digit s with [] => None | d => Some (sign * number d)%Z end.

(** ** The C reader *)
Inductive outcome := Row (time_stamp : Z) (cells : list str) (rest : str) | EndOfTrace | Crash.
(** r2u2_csv_load_next_signals, csv_trace.c 8-39: the cells handed to
    r2u2_load_string_signal, from signal 0 on.  [size] is BUFSIZ.  A null pointer
    passed to sscanf or strcmp is a crash. *)
Definition load_cells (ts : Z) (line rest : str) : outcome :=
  match tokens is_comma_or_newline (c_string line) [] with
  | ("@" :: s) :: cells =>
      match tokens is_space s [] with
      | [] => Crash
      | time :: more =>
          match scan_number time with
          | None => EndOfTrace
          | Some n => match more with [] => Crash | v :: _ => Row (n mod 2 ^ 32) (v :: cells) rest end
          end
      end
  | cells => Row ts cells rest
  end.
Definition load_next (size : nat) (ts : Z) (s : str) : outcome :=
  match fgets size s with
  | None => EndOfTrace
  | Some (line, rest) =>
      match line with
      | "#" :: _ =>
          if (ts =? 0)%Z then
            match fgets size rest with
            | None => EndOfTrace
            | Some (line, rest) => load_cells ts line rest
            end
          else load_cells ts line rest
      | _ => load_cells ts line rest
      end
  end.
(** The loop: the time stamp and cells of each step (r2u2_step increments the
    time stamp, engines.c 56-58).  [None]: crash.  [fuel] bounds the number of
    rows; each takes at least one character. *)
Fixpoint c_rows (size fuel : nat) (ts : Z) (s : str) : option (list (Z * list str)) :=
  match fuel with
  | O => Some []
  | S fuel =>
      match load_next size ts s with
      | EndOfTrace => Some []
      | Crash => None
      | Row ts cells rest => option_map (cons (ts, cells)) (c_rows size fuel ((ts + 1) mod 2 ^ 32)%Z rest)
      end
  end.
Definition c_read (size : nat) (s : str) : option (list (Z * list str)) := c_rows size (S (length s)) 0 s.

(** ** Storing cells: lib.c 55-66 *)
(** Without the booleanizer. *)
Definition c_atom (cell : str) : bool := negb (str_eqb cell ["0"]).
(** With it; [None]: sscanf fails and the signal keeps its value.  (A number that
    does not fit an int is undefined; glibc reduces it.) *)
Definition c_value (scan_float : str -> option Z) (cell : str) : option value :=
  if existsb (fun c => c =? ".") cell then option_map VFloat (scan_float cell)
  else option_map (fun z => VInt (Binary.wrap_int z)) (scan_number cell).
(** Cell [j] goes to signal [j]; signals without a cell keep their value. *)
Definition store {A} (parse : str -> option A) (old : nat -> A) (cells : list str) (j : nat) : A :=
  match nth_error cells j with
  | Some c => match parse c with Some v => v | None => old j end
  | None => old j
  end.
(** The signals at each step. *)
Fixpoint stored {A} (parse : str -> option A) (old : nat -> A) (rows : list (list str)) : list (nat -> A) :=
  match rows with
  | [] => []
  | cells :: rows => let new := store parse old cells in new :: stored parse new rows
  end.
(** The rows of atomics the temporal engine sees, without the booleanizer. *)
Definition c_atoms (size : nat) (s : str) : option (list (nat -> bool)) :=
  option_map (fun rows => stored (fun c => Some (c_atom c)) (fun _ => false) (map snd rows)) (c_read size s).

(** ** Python: trace.py *)
(** str.strip for ASCII. *)
Definition py_space (c : ascii) : bool := let n := N_of_ascii c in (((9 <=? n) && (n <=? 13)) || ((28 <=? n) && (n <=? 32)))%N.
Definition strip (s : str) : str := rev (drop_while py_space (rev (drop_while py_space s))).
(** str.split(","). *)
Fixpoint split_commas (s : str) : list str :=
  match s with
  | [] => [[]]
  | c :: r =>
      if c =? "," then [] :: split_commas r
      else match split_commas r with h :: t => (c :: h) :: t | [] => [[c]] end
  end.
(** [NoHeader]: only the length is set.  [TraceError]: ReturnCode.ERROR, also for
    exceptions (command.py): lines[0][0] of an empty line, and the missing key
    options['trace_filename'] when a name is repeated (line 53) or a signal has
    no column (line 63). *)
Inductive trace_result := NoHeader (length : nat) | Mapped (m : list (str * N)) (length : nat) | TraceError.
Fixpoint header_mapping (m : list (str * N)) (cnt : N) (names : list str) : option (list (str * N)) :=
  match names with
  | [] => Some m
  | id :: names =>
      match map_get m id with
      | Some _ => None
      | None => header_mapping (map_set m id cnt) (cnt + 1) names
      end
  end.
Definition parse_trace (signals : list str) (content : str) : trace_result :=
  match split_lines content [] with
  | [] => TraceError
  | [] :: _ => TraceError
  | (c :: header) :: lines =>
      if c =? "#" then
        match header_mapping [] 0 (map strip (split_commas header)) with
        | None => TraceError
        | Some m => match assign_ids m signals with Some _ => Mapped m (length lines) | None => TraceError end
        end
      else NoHeader (S (length lines))
  end.

(** generate_trace, lines 117-144.  [cell t s] is the random value of signal [s]
    in row [t], as text; sorted() is stable. *)
Fixpoint insert_by (key : str -> N) (x : str) (l : list str) : list str :=
  match l with
  | [] => [x]
  | y :: l' => if (key x <=? key y)%N then x :: l else y :: insert_by key x l'
  end.
Definition sort_by (key : str -> N) (l : list str) : list str := fold_right (insert_by key) [] l.
Fixpoint join (sep : ascii) (l : list str) : str :=
  match l with [] => [] | [x] => x | x :: l => x ++ sep :: join sep l end.
(** [None]: KeyError, a declared signal is not in the mapping. *)
Definition generate_trace (m : list (str * N)) (signals : list str) (cell : nat -> str -> str) (n : nat) : option str :=
  match assign_ids m signals with
  | None => None
  | Some _ =>
      let variables := sort_by (fun s => match map_get m s with Some i => i | None => 0%N end) signals in
      Some (join "010" (("#" :: join "," variables) :: map (fun t => join "," (map (cell t) variables)) (seq 0 n)))
  end.

(** ** Rust *)
(** The crate csv with Trim::All, no headers, comment '#': lines end with CR, LF
    or both; empty lines and lines that start with '#' are skipped; fields are
    trimmed; a record with another number of fields than the first is an error
    ([None]: the program panics). *)
Fixpoint rust_lines (s : str) (current : str) : list str :=
  match s with
  | [] => match current with [] => [] | _ => [rev current] end
  | c :: r =>
      if (c =? "010") || (c =? "013")
      then match current with [] => rust_lines r [] | _ => rev current :: rust_lines r [] end
      else rust_lines r (c :: current)
  end.
Definition rust_blank (c : ascii) : bool := let n := N_of_ascii c in ((n =? 9) || (n =? 10) || (n =? 12) || (n =? 13) || (n =? 32))%N.
Definition trim (s : str) : str := rev (drop_while rust_blank (rev (drop_while rust_blank s))).
Definition is_comment (s : str) : bool := match s with "#" :: _ => true | _ => false end.
Definition rust_records (s : str) : option (list (list str)) :=
  let records := map (fun l => map trim (split_commas l)) (filter (fun l => negb (is_comment l)) (rust_lines s [])) in
  match records with
  | [] => Some []
  | r :: rs => if forallb (fun x => Nat.eqb (length x) (length r)) rs then Some records else None
  end.
(** str::parse::<i32>. *)
Definition rust_int (s : str) : option Z :=
  let '(sign, d) := match s with "-" :: r => (-1, r) | "+" :: r => (1, r) | _ => (1, s) end%Z in
  match d with
  | [] => None
  | _ => if forallb is_digit d then
           let z := (sign * number d)%Z in
           if (- 2 ^ 31 <=? z)%Z && (z <? 2 ^ 31)%Z then Some z else None
         else None
  end.
(** The text of signal 0, main.rs 228-238: in a first field with a time stamp,
    what follows the first blank, or the first two characters if there is none
    ([None]: slice out of range).  The time stamp is not followed further. *)
Definition rust_first (field : str) : option str :=
  match field with
  | "@" :: s => if existsb is_space s then Some (after " " s) else match s with _ :: r => Some r | [] => None end
  | _ => Some field
  end.
(** load_string_signal, lib.rs 244-275; [None]: panic. *)
Definition rust_atom (field : str) : option bool := option_map (fun z => negb (z =? 0)%Z) (rust_int field).
Definition rust_value (parse_float : str -> option Z) (old : rvalue) (field : str) : option rvalue :=
  match rust_int field with
  | Some z => let v := set_i old z in
              match parse_float field with Some f => Some (set_f v f) | None => Some v end
  | None => option_map (set_f old) (parse_float field)
  end.
(** The atomics of each step without the booleanizer; every record has as many
    fields as the first. *)
Fixpoint all_some {A} (l : list (option A)) : option (list A) :=
  match l with
  | [] => Some []
  | Some x :: l => option_map (cons x) (all_some l)
  | None :: _ => None
  end.
Definition rust_atoms (s : str) : option (list (list bool)) :=
  match rust_records s with
  | None => None
  | Some records =>
      all_some (map (fun r => match r with
                              | [] => None
                              | f :: fs => match rust_first f with
                                           | Some f => all_some (map rust_atom (f :: fs))
                                           | None => None
                                           end
                              end) records)
  end.
(** The signals of each step, with the booleanizer; [start] is the signal vector
    at the start (zeros). *)
Definition c_inputs (scan_float : str -> option Z) (start : nat -> value) (size : nat) (s : str) : option (nat -> Z -> value) :=
  option_map (fun rows t k => nth t (stored (c_value scan_float) start (map snd rows)) start (Z.to_nat k)) (c_read size s).
