(** * Trace files (specification)

    A trace file is a table: an optional header line that starts with # and
    lists a name per column, then a line per time step with a cell per column. *)
From Coq Require Import List NArith ZArith Bool Ascii.
Require Import Verif.Booleanizer.
Import ListNotations.
Local Open Scope char_scope.
Notation text := (list ascii).

(** The cells of a line, with commas between them. *)
Inductive line_text : list text -> text -> Prop :=
| line_one : forall c, line_text [c] c
| line_more : forall c cs s, line_text cs s -> line_text (c :: cs) (c ++ "," :: s).
(** The lines of a file; the last may lack its newline. *)
Inductive file_text : list text -> text -> Prop :=
| file_end : file_text [] []
| file_last : forall l, l <> [] -> file_text [l] l
| file_line : forall l ls s, file_text ls s -> file_text (l :: ls) (l ++ "010" :: s).

(** Characters that neither end a cell nor a line (to Python, besides CR and LF,
    also VT, FF and the separators 28 to 30) nor a string. *)
Definition ordinary (c : ascii) : Prop :=
  c <> "," /\ c <> "000" /\ ~ In (N_of_ascii c) [10; 11; 12; 13; 28; 29; 30]%N.
Definition plain (cell : text) : Prop := cell <> [] /\ Forall ordinary cell.
(** Rows have at least one cell; the first starts neither a comment nor a time
    stamp. *)
Definition plain_row (row : list text) : Prop :=
  Forall plain row /\ exists c s cells, row = (c :: s) :: cells /\ c <> "#" /\ c <> "@".
(** Lines and their newline fit in a buffer of [size] characters with a NUL. *)
Definition fits_in (size : nat) (line : text) : Prop := length line + 2 <= size.

(** [s] is the text of a trace with this header and these rows. *)
Definition trace_text (size : nat) (header : option (list text)) (rows : list (list text)) (s : text) : Prop :=
  exists lines, Forall2 line_text rows lines /\ Forall (fits_in size) lines /\
  match header with
  | None => file_text lines s
  | Some cells => exists h, line_text cells h /\ fits_in size ("#" :: h) /\ file_text (("#" :: h) :: lines) s
  end.

(** A header cell is a name with blanks around it. *)
Definition blank (c : ascii) : Prop := c = " " \/ c = "009".
Definition name_char (c : ascii) : Prop := ordinary c /\ ~ blank c /\ N_of_ascii c <> 31%N.
Definition header_cell (name cell : text) : Prop :=
  name <> [] /\ Forall name_char name /\
  exists l r, Forall blank l /\ Forall blank r /\ cell = l ++ name ++ r.

(** Decimal integers, as Python prints them. *)
Definition digit_value (c : ascii) (d : Z) : Prop := (0 <= d <= 9)%Z /\ N_of_ascii c = (48 + Z.to_N d)%N.
Inductive digits : text -> Z -> Prop :=
| digits_one : forall c d, digit_value c d -> digits [c] d
| digits_more : forall s z c d, digits s z -> z <> 0%Z -> digit_value c d -> digits (s ++ [c]) (10 * z + d).
Inductive integer : text -> Z -> Prop :=
| integer_plus : forall s z, digits s z -> integer s z
| integer_minus : forall s z, digits s z -> (0 < z)%Z -> integer ("-" :: s) (- z).

(** The ids of the signals are their places 0, 1, ... in some order. *)
Definition dense {A} (id : A -> option N) (signals : list A) : Prop :=
  NoDup signals /\
  (forall s, In s signals -> exists i, id s = Some i /\ (i < N.of_nat (length signals))%N) /\
  (forall s s', In s signals -> In s' signals -> id s = id s' -> s = s').

(** Columns of integers hold integers of 32 bits; the cells of the others have a
    decimal point and [scan_float] reads them. *)
Definition typed_cells (scan_float : text -> option Z) (types : Z -> bool) (rows : list (list text)) : Prop :=
  forall t row j cell, nth_error rows t = Some row -> nth_error row j = Some cell ->
    if types (Z.of_nat j) then exists z, integer cell z /\ (- 2 ^ 31 <= z < 2 ^ 31)%Z
    else In "." cell /\ scan_float cell <> None.

(** Any header without line breaks. *)
Definition header_ok (header : option (list text)) : Prop :=
  match header with Some cells => Forall (Forall ordinary) cells | None => True end.

(** Row [t] belongs to time [t], as a number of 32 bits. *)
Definition stamped (t : nat) (rows : list (list text)) : list (Z * list text) :=
  combine (map (fun k => Z.of_nat k mod 2 ^ 32)%Z (seq t (length rows))) rows.

(** All-zero signals. *)
Definition zeros (types : Z -> bool) (j : nat) : value := if types (Z.of_nat j) then VInt 0 else VFloat 0.
Definition nonzero (z : Z) : bool := negb (z =? 0)%Z.

(** A line of a trace with time stamps: either an ordinary row, or @, a time,
    blanks and the first value, then the other cells. *)
Inductive timed_line : option Z -> list text -> text -> Prop :=
| timed_next : forall row l, plain_row row -> line_text row l -> timed_line None row l
| timed_at : forall n d k v cells l, digits d n -> (n < 2 ^ 32)%Z -> plain v -> ~ In " " v -> Forall plain cells ->
    line_text (("@" :: d ++ repeat " " (S k) ++ v) :: cells) l -> timed_line (Some n) (v :: cells) l.
(** The times of the rows: the stamp, or one more than the row before. *)
Fixpoint clock (now : Z) (stamps : list (option Z)) : list Z :=
  match stamps with
  | [] => []
  | stamp :: stamps => let t := match stamp with Some n => n | None => now end in t :: clock ((t + 1) mod 2 ^ 32) stamps
  end.
