(** * MLTL standard files (specification)

    The grammar of parse_mltl.py with its precedence table written out as levels,
    the grammar of docs/References/mltl_grammar.md, and the formulas that have a
    standard form. *)
From Coq Require Import List Arith NArith Bool Ascii String.
Require Import Verif.Mltl Verif.MapFile Verif.MltlText.
Import ListNotations.
Local Open Scope list_scope.

(** [[ub]] and [[lb,ub]]; a bound is a number or the mission time. *)
Inductive bound (mission : option nat) : token -> nat -> Prop :=
| bound_num n : bound mission (TNum n) (N.to_nat n)
| bound_mission m : mission = Some m -> bound mission TMission m.
Inductive interval (mission : option nat) : list token -> nat -> nat -> Prop :=
| interval_short b ub : bound mission b ub -> interval mission [TLBrack; b; TRBrack] 0 ub
| interval_full a b lb ub : bound mission a lb -> bound mission b ub ->
    interval mission [TLBrack; a; TComma; b; TRBrack] lb ub.
(** Infix operators: level, spelling and meaning.  Higher levels bind tighter. *)
Inductive infix_op (mission : option nat) : nat -> list token -> (expr -> expr -> expr) -> Prop :=
| op_impl : infix_op mission 1 [TImpl] EImpl
| op_iff : infix_op mission 1 [TIff] EEquiv
| op_or : infix_op mission 2 [TOr] (fun l r => EOr [l; r])
| op_and : infix_op mission 3 [TAnd] (fun l r => EAnd [l; r])
| op_until iv lb ub : interval mission iv lb ub -> infix_op mission 4 (TBinary BU :: iv) (EU lb ub)
| op_release iv lb ub : interval mission iv lb ub -> infix_op mission 4 (TBinary BR :: iv) (ER lb ub)
| op_since iv lb ub : interval mission iv lb ub -> infix_op mission 4 (TBinary BS :: iv) (ES lb ub)
| op_trigger iv lb ub : interval mission iv lb ub -> infix_op mission 4 (TBinary BT :: iv) (ET lb ub).
Inductive prefix_op (mission : option nat) : list token -> (expr -> expr) -> Prop :=
| op_not : prefix_op mission [TNot] ENot
| op_global iv lb ub : interval mission iv lb ub -> prefix_op mission (TUnary UG :: iv) (EG lb ub)
| op_future iv lb ub : interval mission iv lb ub -> prefix_op mission (TUnary UF :: iv) (EF lb ub)
| op_hist iv lb ub : interval mission iv lb ub -> prefix_op mission (TUnary UH :: iv) (EH lb ub)
| op_once iv lb ub : interval mission iv lb ub -> prefix_op mission (TUnary UO :: iv) (EO lb ub).
(** Formulas: infix operators group to the left and by level; prefix operators
    bind tightest. *)
Inductive formula (mission : option nat) : nat -> list token -> expr -> Prop :=
| f_true : formula mission 5 [TTrue] (EConst true)
| f_false : formula mission 5 [TFalse] (EConst false)
| f_atom n : formula mission 5 [TAtom n] (EAtom (N.to_nat n))
| f_paren ts e : formula mission 1 ts e -> formula mission 5 (TLParen :: ts ++ [TRParen]) e
| f_prefix op f ts e : prefix_op mission op f -> formula mission 5 ts e -> formula mission 5 (op ++ ts) (f e)
| f_infix l op f ts1 e1 ts2 e2 : infix_op mission l op f ->
    formula mission l ts1 e1 -> formula mission (S l) ts2 e2 -> formula mission l (ts1 ++ op ++ ts2) (f e1 e2)
| f_higher l ts e : formula mission (S l) ts e -> formula mission l ts e.
(** Files: formulas, each ended by a line break. *)
Inductive formulas (mission : option nat) : list token -> list expr -> Prop :=
| fs_nil : formulas mission [] []
| fs_cons ts e rest es : formula mission 1 ts e -> formulas mission rest es ->
    formulas mission (ts ++ TNewline :: rest) (e :: es).

(** Tokens as they are spelled. *)
Definition spelling (t : token) : str :=
  match t with
  | TNot => quoted "!" | TAnd => quoted "&" | TOr => quoted "|" | TImpl => quoted "->" | TIff => quoted "<->"
  | TNewline => ["010"%char] | TNum n => dec n | TComma => quoted ","
  | TLBrack => quoted "[" | TRBrack => quoted "]" | TLParen => quoted "(" | TRParen => quoted ")"
  | TMission => quoted "M"
  | TUnary UG => quoted "G" | TUnary UF => quoted "F" | TUnary UH => quoted "H" | TUnary UO => quoted "O"
  | TBinary BU => quoted "U" | TBinary BR => quoted "R" | TBinary BS => quoted "S" | TBinary BT => quoted "T"
  | TTrue => quoted "true" | TFalse => quoted "false"
  | TAtom n => "a"%char :: dec n
  end.
(** A text that spells [ts], with blanks, tabs or comments between the tokens;
    between others than numbers and digits they may be missing.  A comment
    includes the end of its line. *)
Inductive spells : str -> list token -> Prop :=
| sp_nil : spells [] []
| sp_blank c s ts : c = " "%char \/ c = "009"%char -> spells s ts -> spells (c :: s) ts
| sp_comment body s ts : ~ In "010"%char body -> spells s ts -> spells ("#"%char :: body ++ "010"%char :: s) ts
| sp_token t s ts : spells s ts ->
    (match t with TNum _ | TAtom _ => match s with c :: _ => is_digit c = false | [] => True end | _ => True end) ->
    spells (spelling t ++ s) (t :: ts).

(** Formulas of the standard: no xor, no == between formulas, conjunctions and
    disjunctions of at least two. *)
Fixpoint standard (e : expr) : Prop :=
  match e with
  | EConst _ | EAtom _ => True
  | ENot e | EF _ _ e | EG _ _ e | EO _ _ e | EH _ _ e => standard e
  | EAnd es | EOr es => 2 <= List.length es /\ fold_right (fun e P => standard e /\ P) True es
  | EXor _ _ | EBeq _ _ => False
  | EImpl p q | EEquiv p q | EU _ _ p q | ER _ _ p q | ES _ _ p q | ET _ _ p q => standard p /\ standard q
  end.
(** Future or past operators somewhere in a formula. *)
Inductive has_future : expr -> Prop :=
| hf_F lb ub e : has_future (EF lb ub e)
| hf_G lb ub e : has_future (EG lb ub e)
| hf_U lb ub p q : has_future (EU lb ub p q)
| hf_R lb ub p q : has_future (ER lb ub p q)
| hf_in e e' : In e' (match e with
                      | ENot e | EF _ _ e | EG _ _ e | EO _ _ e | EH _ _ e => [e]
                      | EAnd es | EOr es => es
                      | EXor p q | EImpl p q | EEquiv p q | EBeq p q | EU _ _ p q | ER _ _ p q | ES _ _ p q | ET _ _ p q => [p; q]
                      | _ => []
                      end) -> has_future e' -> has_future e.
Inductive has_past : expr -> Prop :=
| hp_O lb ub e : has_past (EO lb ub e)
| hp_H lb ub e : has_past (EH lb ub e)
| hp_S lb ub p q : has_past (ES lb ub p q)
| hp_T lb ub p q : has_past (ET lb ub p q)
| hp_in e e' : In e' (match e with
                      | ENot e | EF _ _ e | EG _ _ e | EO _ _ e | EH _ _ e => [e]
                      | EAnd es | EOr es => es
                      | EXor p q | EImpl p q | EEquiv p q | EBeq p q | EU _ _ p q | ER _ _ p q | ES _ _ p q | ET _ _ p q => [p; q]
                      | _ => []
                      end) -> has_past e' -> has_past e.

(** docs/References/mltl_grammar.md: conjunction and disjunction share a level,
    until and the prefix operators the next, negation the next. *)
Inductive documented : nat -> list token -> expr -> Prop :=
| d_atom n : documented 4 [TAtom n] (EAtom (N.to_nat n))
| d_paren ts e : documented 1 ts e -> documented 4 (TLParen :: ts ++ [TRParen]) e
| d_not ts e : documented 3 ts e -> documented 3 (TNot :: ts) (ENot e)
| d_global iv lb ub ts e : interval None iv lb ub -> documented 3 ts e -> documented 2 (TUnary UG :: iv ++ ts) (EG lb ub e)
| d_future iv lb ub ts e : interval None iv lb ub -> documented 3 ts e -> documented 2 (TUnary UF :: iv ++ ts) (EF lb ub e)
| d_until iv lb ub ts1 e1 ts2 e2 : interval None iv lb ub -> documented 2 ts1 e1 -> documented 3 ts2 e2 ->
    documented 2 (ts1 ++ TBinary BU :: iv ++ ts2) (EU lb ub e1 e2)
| d_and ts1 e1 ts2 e2 : documented 1 ts1 e1 -> documented 2 ts2 e2 -> documented 1 (ts1 ++ TAnd :: ts2) (EAnd [e1; e2])
| d_or ts1 e1 ts2 e2 : documented 1 ts1 e1 -> documented 2 ts2 e2 -> documented 1 (ts1 ++ TOr :: ts2) (EOr [e1; e2])
| d_higher l ts e : documented (S l) ts e -> documented l ts e.
