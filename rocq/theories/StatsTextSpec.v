(** * Format strings as lists of pieces *)
From Coq Require Import List Bool Ascii String.
From Verif Require Import StatsText.
Import ListNotations.
Local Open Scope char_scope.

Inductive piece := Plain (s : str) | Stat (key : string) | Newline | Quote | Tab.
(** As it is written in the format string. *)
Definition spelled (p : piece) : str :=
  match p with
  | Plain s => s
  | Stat key => "%" :: s_ key
  | Newline => s_ "\n"
  | Quote => ["\"; """"]
  | Tab => s_ "\t"
  end.
(** As it is to be printed. *)
Definition attribute (key : string) : option string :=
  option_map snd (find (fun kv => String.eqb (fst kv) key) stats_format_map).
Definition printed (values : string -> str) (p : piece) : str :=
  match p with
  | Plain s => s
  | Stat key => match attribute key with Some a => values a | None => [] end
  | Newline => ["010"]
  | Quote => [""""]
  | Tab => ["009"]
  end.
Definition template (ps : list piece) : str := flat_map spelled ps.
Definition output (values : string -> str) (ps : list piece) : str := flat_map (printed values) ps.

(** No sign of a placeholder or an escape. *)
Definition plain (s : str) : Prop := ~ In "%" s /\ ~ In "\" s.
Definition proper (p : piece) : Prop :=
  match p with Plain s => plain s | Stat key => attribute key <> None | _ => True end.
Definition prefix (a b : str) : Prop := exists r, b = a ++ r.
(** No placeholder is continued to a longer one by what is printed after it. *)
Definition unambiguous (values : string -> str) (ps : list piece) : Prop :=
  forall before key rest, ps = before ++ Stat key :: rest ->
  forall longer more, attribute longer <> None -> s_ longer = s_ key ++ more -> more <> [] ->
  ~ prefix more (output values rest).
