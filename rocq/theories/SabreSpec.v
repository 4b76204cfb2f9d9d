(** * What the word-level monitor should print (specification) *)
From Coq Require Import List Arith NArith Bool.
From Verif Require Import Mltl Sabre.
Import ListNotations.

(** ** The formula a list of subformulas stands for *)
Definition node_formula (es : list expr) (o : sop) : expr :=
  let e c := nth c es (EConst false) in
  match o with
  | SAtom a => EAtom a
  | SConst b => EConst b
  | SNot c => ENot (e c)
  | SAnd cs => EAnd (map e cs)
  | SOr cs => EOr (map e cs)
  | SImpl c d => EImpl (e c) (e d)
  | SEquiv c d => EEquiv (e c) (e d)
  | SXor c d => EXor (e c) (e d)
  | SFuture lb ub c => EF lb ub (e c)
  | SGlobal lb ub c => EG lb ub (e c)
  | SUntil lb ub c d => EU lb ub (e c) (e d)
  end.
Fixpoint formulas_from (es : list expr) (prog : list sop) : list expr :=
  match prog with
  | [] => es
  | o :: prog => formulas_from (es ++ [node_formula es o]) prog
  end.
(** The last subformula is the formula itself. *)
Definition formula (prog : list sop) : expr := last (formulas_from [] prog) (EConst false).

(** Operands come first, there is a formula, and every subformula but the last
    occurs in a later one. *)
Definition subformula_list (prog : list sop) : Prop :=
  prog <> [] /\
  (forall k o, nth_error prog k = Some o -> forall c, In c (children o) -> c < k) /\
  (forall k, S k < length prog -> exists m o, k < m /\ nth_error prog m = Some o /\ In k (children o)).

(** ** Words as stretches of time
    Position [p] of a word of [w] bits, counted from the most significant. *)
Definition position (w : nat) (x : N) (p : nat) : bool := N.testbit x (N.of_nat (w - 1 - p)).
(** [words] are the successive words of [e], from time 0 on. *)
Definition words_of (w : nat) (tr : trace) (e : expr) (words : list N) : Prop :=
  forall i x, nth_error words i = Some x ->
  forall p, p < w -> (position w x p = true <-> sat tr e (i * w + p)).

(** ** The operators for which the generated code is right
    What remains of an interval of [n] steps beyond the largest power of two has
    to be less than a word or a whole number of words. *)
Definition rest_fits (w n : nat) : Prop := n - 2 ^ Nat.log2 n < w \/ (n - 2 ^ Nat.log2 n) mod w = 0.
Definition supported (w : nat) (o : sop) : Prop :=
  match o with
  | SAtom _ | SNot _ | SImpl _ _ | SXor _ _ => True
  | SAnd cs | SOr cs => cs <> []
  | SConst b => b = false
  | SEquiv _ _ => False
  | SFuture lb ub _ | SGlobal lb ub _ => lb <= ub /\ rest_fits w (ub - lb + 1)
  | SUntil lb ub _ _ => lb <= ub /\ rest_fits w (ub - lb + 1) /\ 2 ^ Nat.log2 (ub + 1) <= ub - lb + 1
  end.
Definition word_size (w : nat) : Prop := In w [8; 16; 32; 64].
(** What the memory behind a buffer holds are words, too. *)
Definition a_word (w : nat) (x : N) : Prop := (x < 2 ^ N.of_nat w)%N.

(** How many words beyond a word have to be known before its truth values are:
    on each path the upper bounds, rounded up to words. *)
Fixpoint words_ahead (w : nat) (e : expr) : nat :=
  match e with
  | EConst _ | EAtom _ => 0
  | ENot p => words_ahead w p
  | EAnd es | EOr es => fold_right (fun p m => Nat.max (words_ahead w p) m) 0 es
  | EXor p q | EImpl p q | EEquiv p q | EBeq p q => Nat.max (words_ahead w p) (words_ahead w q)
  | EF _ ub p | EG _ ub p | EO _ ub p | EH _ ub p => (ub + (w - 1)) / w + words_ahead w p
  | EU _ ub p q | ER _ ub p q | ES _ ub p q | ET _ ub p q =>
      (ub + (w - 1)) / w + Nat.max (words_ahead w p) (words_ahead w q)
  end.
