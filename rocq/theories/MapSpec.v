(** * Signal map files (specification) *)
From Coq Require Import List NArith Bool Ascii.
Require Import Verif.MapFile.
Import ListNotations.
Local Open Scope char_scope.

(** Signals are symbols or elements of arrays (parse_c2po.py 62, type_check.py
    590-625). *)
Inductive signal := Plain (w : str) | Element (w : str) (i : N).
Definition spelled (s : signal) : str :=
  match s with Plain w => w | Element w i => w ++ "[" :: dec i ++ ["]"] end.
Definition symbol (w : str) : Prop := match w with c :: r => is_head c = true /\ forallb is_word r = true | [] => False end.
Definition symbol_of (s : signal) : str := match s with Plain w | Element w _ => w end.

(** What a line lists: one signal, or the elements lo to hi of an array. *)
Inductive entry := One (s : signal) (column : N) | Range (w : str) (lo hi column : N).
Definition written (e : entry) : str :=
  match e with
  | One s col => spelled s ++ ":" :: dec col
  | Range w lo hi col => w ++ "[" :: dec lo ++ "." :: "." :: dec hi ++ "]" :: ":" :: dec col
  end.
Definition file (es : list entry) : str := flat_map (fun e => written e ++ ["010"]) es.
Definition entry_symbol (e : entry) : str := match e with One s _ => symbol_of s | Range w _ _ _ => w end.
(** The columns the entry gives to a signal. *)
Definition gives (e : entry) (s : signal) (col : N) : Prop :=
  match e with
  | One s' c => s = s' /\ col = c
  | Range w lo hi c => exists i, s = Element w i /\ (lo <= i <= hi)%N /\ col = (c + (i - lo))%N
  end.
(** A file lists [s] in column [col]: the last entry for [s] counts. *)
Definition lists (es : list entry) (s : signal) (col : N) : Prop :=
  exists before e after, es = before ++ e :: after /\ gives e s col /\
    forall e' c, In e' after -> ~ gives e' s c.
(** The reader assigns every listed signal its column, and nothing else. *)
Definition reads (es : list entry) : Prop :=
  exists m, read_map (file es) = Some m /\
    (forall s col, symbol (symbol_of s) -> (map_get m (spelled s) = Some col <-> lists es s col)) /\
    (forall k col, map_get m k = Some col -> exists s, symbol (symbol_of s) /\ k = spelled s).

(** The entries for which this is true: elements up to 99, ranges from 0 to 9. *)
Definition readable (e : entry) : Prop :=
  symbol (entry_symbol e) /\
  match e with
  | One (Plain _) _ => True
  | One (Element _ i) _ => (i < 100)%N
  | Range _ lo _ _ => (lo < 10)%N
  end.

(** Integers as Python spells them: digits, with single underscores between. *)
Inductive numeral : str -> Prop :=
| num_digit c : is_digit c = true -> numeral [c]
| num_more c s : is_digit c = true -> numeral s -> numeral (c :: s)
| num_underscore c s : is_digit c = true -> numeral s -> numeral (c :: "_" :: s).
(** A name, a colon, a number, blanks, and nothing or another colon with
    whatever follows it. *)
Definition map_entry_line (line : str) : Prop :=
  exists c name num blanks rest, line = c :: name ++ ":" :: num ++ blanks ++ rest /\
    is_head c = true /\ forallb is_name name = true /\ numeral num /\ forallb is_blank blanks = true /\
    (rest = [] \/ exists r, rest = ":" :: r).
