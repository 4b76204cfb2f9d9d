(** * Signal map files (model)

    map.py 5-67 and 88-117, for ASCII files. *)
From Coq Require Import Decimal DecimalN List NArith Bool Ascii.
Import ListNotations.
Local Open Scope char_scope.

Notation str := (list ascii).

(** ** Python on strings *)
Definition is_digit (c : ascii) : bool := let n := N_of_ascii c in ((48 <=? n) && (n <=? 57))%N.
Definition is_letter (c : ascii) : bool :=
  let n := N_of_ascii c in (((65 <=? n) && (n <=? 90)) || ((97 <=? n) && (n <=? 122)))%N.
Definition is_head (c : ascii) : bool := is_letter c || (c =? "_").           (* [a-zA-Z_] *)
Definition is_word (c : ascii) : bool := is_head c || is_digit c.             (* [a-zA-Z0-9_] *)
Definition is_name (c : ascii) : bool := is_word c || (c =? "[") || (c =? "]") || (c =? "."). (* [a-zA-Z0-9_\[\]\.] *)
(** Line boundaries of str.splitlines and the blanks int() strips. *)
Definition is_break (c : ascii) : bool :=
  let n := N_of_ascii c in (((10 <=? n) && (n <=? 13)) || ((28 <=? n) && (n <=? 30)))%N.
Definition is_blank (c : ascii) : bool := let n := N_of_ascii c in (((9 <=? n) && (n <=? 13)) || (n =? 32))%N.

Fixpoint drop_while (p : ascii -> bool) (s : str) : str :=
  match s with c :: r => if p c then drop_while p r else s | [] => [] end.
Fixpoint take_while (p : ascii -> bool) (s : str) : str :=
  match s with c :: r => if p c then c :: take_while p r else [] | [] => [] end.
(** Text before the first [c], and after it. *)
Definition before (c : ascii) (s : str) : str := take_while (fun x => negb (x =? c)) s.
Definition after (c : ascii) (s : str) : str := tl (drop_while (fun x => negb (x =? c)) s).

(** splitlines; "\r\n" is one boundary (text mode has turned it into "\n"
    already). *)
Fixpoint split_lines (s : str) (current : str) : list str :=
  match s with
  | [] => match current with [] => [] | _ => [rev current] end
  | c :: r =>
      if is_break c then
        rev current :: match c, r with
                       | "013", "010" :: r' => split_lines r' []
                       | _, _ => split_lines r []
                       end
      else split_lines r (c :: current)
  end.

(** str(n) for n >= 0. *)
Fixpoint chars (d : uint) : str :=
  match d with
  | Nil => []
  | D0 d => "0" :: chars d | D1 d => "1" :: chars d | D2 d => "2" :: chars d | D3 d => "3" :: chars d
  | D4 d => "4" :: chars d | D5 d => "5" :: chars d | D6 d => "6" :: chars d | D7 d => "7" :: chars d
  | D8 d => "8" :: chars d | D9 d => "9" :: chars d
  end.
Definition dec (n : N) : str := chars (N.to_uint n).

Fixpoint uint_of (s : str) : uint :=
  match s with
  | [] => Nil
  | c :: s =>
      let d := uint_of s in
      match c with
      | "0" => D0 d | "1" => D1 d | "2" => D2 d | "3" => D3 d | "4" => D4 d
      | "5" => D5 d | "6" => D6 d | "7" => D7 d | "8" => D8 d | _ => D9 d
      end
  end.
(** int(s); [None] is a ValueError.  Digits, single underscores between them and
    blanks at the end; the strings here never start with a blank or a sign.
    (Python also refuses more than 4300 digits.) *)
Fixpoint int_digits (s : str) (after_digit : bool) : option str :=
  match s with
  | [] => if after_digit then Some [] else None
  | c :: r =>
      if is_digit c then option_map (cons c) (int_digits r true)
      else if c =? "_" then (if after_digit then int_digits r false else None)
      else if after_digit && forallb is_blank s then Some [] else None
  end.
Definition int_of (s : str) : option N := option_map (fun l => N.of_uint (uint_of l)) (int_digits s false).

(** str.split(".."). *)
Fixpoint split_dots (s : str) : list str :=
  match s with
  | [] => [[]]
  | c :: r =>
      match c, r with
      | ".", "." :: r' => [] :: split_dots r'
      | _, _ => match split_dots r with h :: t => (c :: h) :: t | [] => [[c]] end
      end
  end.

(** ** The regular expressions *)
(** Line 25: [re.match] of a first letter, name characters, a colon and a digit;
    a colon is not a name character, so the greedy match is the only one. *)
Definition map_line (s : str) : bool :=
  match s with
  | c :: r => is_head c && match drop_while is_name r with ":" :: d :: _ => is_digit d | _ => false end
  | [] => false
  end.
(** Line 31: word characters, then [\[\d..\d*\]]: the two dots match any
    character. *)
Definition range_like (s : str) : bool :=
  match s with
  | c :: r =>
      is_head c &&
      match drop_while is_word r with
      | "[" :: d :: _ :: _ :: r => is_digit d && match drop_while is_digit r with "]" :: _ => true | _ => false end
      | _ => false
      end
  | [] => false
  end.

(** ** Reading *)
Notation mapping := (list (str * N)).
Fixpoint str_eqb (a b : str) : bool :=
  match a, b with
  | [], [] => true
  | x :: a, y :: b => (x =? y) && str_eqb a b
  | _, _ => false
  end.
Fixpoint map_set (m : mapping) (k : str) (v : N) : mapping :=
  match m with
  | [] => [(k, v)]
  | (k', v') :: m => if str_eqb k' k then (k', v) :: m else (k', v') :: map_set m k v
  end.
Fixpoint map_get (m : mapping) (k : str) : option N :=
  match m with
  | [] => None
  | (k', v) :: m => if str_eqb k' k then Some v else map_get m k
  end.

(** Lines 24-58 on one line; [None]: a line that does not match, or an exception
    (int(), indices[1]), which Command.execute turns into ReturnCode.ERROR. *)
Definition read_line (m : mapping) (line : str) : option mapping :=
  if map_line line then
    let id := before ":" line in
    match int_of (before ":" (after ":" line)) with
    | None => None
    | Some sid =>
        if range_like id then
          match split_dots (before "]" (after "[" id)) with
          | lo :: hi :: _ =>
              match int_of lo, int_of hi with
              | Some lo, Some hi =>
                  Some (fold_left (fun m k => map_set m (before "[" id ++ "[" :: dec (lo + N.of_nat k) ++ ["]"]) (sid + N.of_nat k)%N)
                                  (seq 0 (N.to_nat (hi + 1 - lo))) m)
              | _, _ => None
              end
          | _ => None
          end
        else Some (map_set m id sid)
    end
  else None.
Fixpoint read_lines (m : mapping) (ls : list str) : option mapping :=
  match ls with
  | [] => Some m
  | l :: ls => match read_line m l with Some m => read_lines m ls | None => None end
  end.
Definition read_map (content : str) : option mapping := read_lines [] (split_lines content []).

(** Lines 60-67 with cpt.assign_signal_ids (cpt.py 1944-1959) on the signals of
    the program: their ids, if none is missing. *)
Fixpoint assign_ids (m : mapping) (signals : list str) : option (list N) :=
  match signals with
  | [] => Some []
  | s :: signals =>
      match map_get m s, assign_ids m signals with
      | Some i, Some l => Some (i :: l)
      | _, _ => None
      end
  end.

(** ** Writing: generate_map, lines 102-117 *)
Fixpoint number_signals (i : N) (signals : list str) : mapping :=
  match signals with [] => [] | s :: r => (s, i) :: number_signals (i + 1) r end.
Definition write_map (m : mapping) : str := flat_map (fun p => fst p ++ ":" :: dec (snd p) ++ ["010"]) m.
