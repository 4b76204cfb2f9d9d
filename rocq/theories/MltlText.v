(** * MLTL standard files (model)

    Reading: parse_mltl.py 7-287 with the lexer of sly (sly/lex.py 363-424) and
    its LALR parser (sly/yacc.py 1405-1500); writing: cpt.py 2187-2241.  ASCII
    files; source locations are left out. *)
From Coq Require Import List Arith NArith Bool Ascii String.
From Coq Require Decimal DecimalN.
Require Import Verif.Mltl Verif.MapFile.
Import ListNotations.
Local Open Scope list_scope.
Local Open Scope char_scope.

(** ** Tokens: parse_mltl.py 9-12 *)
Inductive unary := UG | UF | UH | UO.
Inductive binary := BU | BR | BS | BT.
Inductive token :=
| TNot | TAnd | TOr | TImpl | TIff
| TNewline | TNum (n : N) | TComma | TLBrack | TRBrack | TLParen | TRParen
| TMission | TUnary (u : unary) | TBinary (b : binary) | TTrue | TFalse | TAtom (n : N).

(** [1-9][0-9]*|0: the value and the number of characters. *)
Definition number_at (s : str) : option (N * nat) :=
  match s with
  | [] => None
  | c :: _ =>
      if c =? "0" then Some (0%N, 1)
      else if is_digit c then let d := take_while is_digit s in Some (N.of_uint (uint_of d), List.length d)
      else None
  end.
(** .*\n: the characters up to the end of the line. *)
Fixpoint line_length (s : str) : option nat :=
  match s with
  | [] => None
  | c :: r => if c =? "010" then Some 1 else option_map S (line_length r)
  end.
(** The master regular expression (lines 18-48 of parse_mltl.py; the first rule
    that matches wins): the token, [None] for a comment, and its length. *)
Definition token_at (s : str) : option (option token * nat) :=
  match s with
  | "#" :: r => option_map (fun n => (None, S n)) (line_length r)
  | "!" :: _ => Some (Some TNot, 1)
  | "&" :: _ => Some (Some TAnd, 1)
  | "|" :: _ => Some (Some TOr, 1)
  | "-" :: ">" :: _ => Some (Some TImpl, 2)
  | "<" :: "-" :: ">" :: _ => Some (Some TIff, 3)
  | "010" :: _ => Some (Some TNewline, 1)
  | "," :: _ => Some (Some TComma, 1)
  | "[" :: _ => Some (Some TLBrack, 1)
  | "]" :: _ => Some (Some TRBrack, 1)
  | "(" :: _ => Some (Some TLParen, 1)
  | ")" :: _ => Some (Some TRParen, 1)
  | "M" :: _ => Some (Some TMission, 1)
  | "G" :: _ => Some (Some (TUnary UG), 1)
  | "F" :: _ => Some (Some (TUnary UF), 1)
  | "H" :: _ => Some (Some (TUnary UH), 1)
  | "O" :: _ => Some (Some (TUnary UO), 1)
  | "U" :: _ => Some (Some (TBinary BU), 1)
  | "R" :: _ => Some (Some (TBinary BR), 1)
  | "S" :: _ => Some (Some (TBinary BS), 1)
  | "T" :: _ => Some (Some (TBinary BT), 1)
  | "t" :: "r" :: "u" :: "e" :: _ => Some (Some TTrue, 4)
  | "f" :: "a" :: "l" :: "s" :: "e" :: _ => Some (Some TFalse, 5)
  | "a" :: r => option_map (fun p => (Some (TAtom (fst p)), S (snd p))) (number_at r)
  | _ => option_map (fun p => (Some (TNum (fst p)), snd p)) (number_at s)
  end.
(** sly/lex.py 363-424 with parse_mltl.py 15 (ignored characters) and 59-61: a
    character that starts no token is reported and skipped.  [skip]: characters
    left of the present token. *)
Fixpoint lex (s : str) (skip : nat) : list token :=
  match s with
  | [] => []
  | c :: r =>
      match skip with
      | S k => lex r k
      | O =>
          if (c =? " ") || (c =? "009") then lex r 0
          else match token_at s with
               | Some (Some t, n) => t :: lex r (pred n)
               | Some (None, n) => lex r (pred n)
               | None => lex r 0
               end
      end
  end.

(** ** The parser *)
Inductive infix := IImpl | IIff | IOr | IAnd | ITemp (b : binary) (lb ub : nat).
(** The precedence table, lines 68-75; unary operators are on level 5. *)
Definition level (o : infix) : nat :=
  match o with IImpl | IIff => 1 | IOr => 2 | IAnd => 3 | ITemp _ _ _ => 4 end.
(** The actions of the rules, lines 132-232. *)
Definition apply_infix (o : infix) (l r : expr) : expr :=
  match o with
  | IImpl => EImpl l r
  | IIff => EEquiv l r
  | IOr => EOr [l; r]
  | IAnd => EAnd [l; r]
  | ITemp BU lb ub => EU lb ub l r
  | ITemp BR lb ub => ER lb ub l r
  | ITemp BS lb ub => ES lb ub l r
  | ITemp BT lb ub => ET lb ub l r
  end.
Definition apply_unary (u : unary) (lb ub : nat) (e : expr) : expr :=
  match u with UG => EG lb ub e | UF => EF lb ub e | UH => EH lb ub e | UO => EO lb ub e end.

(** What the parser's stack holds, innermost first: rules that wait for their
    last operand. *)
Inductive frame := FParen | FNot | FUnary (u : unary) (lb ub : nat) | FInfix (o : infix) (l : expr).
(** The rule's precedence (yacc.py 344: its rightmost terminal) and the result
    once its operand is complete; a parenthesis waits for its partner. *)
Definition complete (f : frame) (e : expr) : option (nat * expr) :=
  match f with
  | FParen => None
  | FNot => Some (5, ENot e)
  | FUnary u lb ub => Some (5, apply_unary u lb ub e)
  | FInfix o l => Some (level o, apply_infix o l e)
  end.
(** Shift or reduce, yacc.py 1431 and 1489, on a token of level [p] (0 for tokens
    that cannot be shifted after an expression): rules of the same or a higher
    level are reduced.  All levels that meet a token of their own level are left
    associative. *)
Fixpoint reduce (p : nat) (st : list frame) (e : expr) : list frame * expr :=
  match st with
  | [] => (st, e)
  | f :: st' =>
      match complete f e with
      | Some (q, e') => if Nat.leb p q then reduce p st' e' else (st, e)
      | None => (st, e)
      end
  end.

(** Lines 250-265; [mission] is the mission time, if set. *)
Definition bound_of (mission : option nat) (t : token) : option nat :=
  match t with TNum n => Some (N.to_nat n) | TMission => mission | _ => None end.

(** The parser on the tokens: with [None] it waits for an operand, with [Some e]
    it has one.  [None] as the result: a syntax error (lines 88-100, 283). *)
Fixpoint parse (mission : option nat) (st : list frame) (cur : option expr) (ts : list token) : option (list expr) :=
  match cur with
  | None =>
      match ts with
      | [] => match st with [] => Some [] | _ => None end
      | TNot :: ts => parse mission (FNot :: st) None ts
      | TLParen :: ts => parse mission (FParen :: st) None ts
      | TUnary u :: TLBrack :: b :: TRBrack :: ts =>
          match bound_of mission b with
          | Some ub => parse mission (FUnary u 0 ub :: st) None ts
          | None => None
          end
      | TUnary u :: TLBrack :: a :: TComma :: b :: TRBrack :: ts =>
          match bound_of mission a, bound_of mission b with
          | Some lb, Some ub => parse mission (FUnary u lb ub :: st) None ts
          | _, _ => None
          end
      | TTrue :: ts => parse mission st (Some (EConst true)) ts
      | TFalse :: ts => parse mission st (Some (EConst false)) ts
      | TAtom n :: ts => parse mission st (Some (EAtom (N.to_nat n))) ts
      | _ => None
      end
  | Some e =>
      match ts with
      | TImpl :: ts => let (st, e) := reduce (level IImpl) st e in parse mission (FInfix IImpl e :: st) None ts
      | TIff :: ts => let (st, e) := reduce (level IIff) st e in parse mission (FInfix IIff e :: st) None ts
      | TOr :: ts => let (st, e) := reduce (level IOr) st e in parse mission (FInfix IOr e :: st) None ts
      | TAnd :: ts => let (st, e) := reduce (level IAnd) st e in parse mission (FInfix IAnd e :: st) None ts
      | TBinary o :: TLBrack :: b :: TRBrack :: ts =>
          match bound_of mission b with
          | Some ub => let (st, e) := reduce (level (ITemp o 0 ub)) st e in parse mission (FInfix (ITemp o 0 ub) e :: st) None ts
          | None => None
          end
      | TBinary o :: TLBrack :: a :: TComma :: b :: TRBrack :: ts =>
          match bound_of mission a, bound_of mission b with
          | Some lb, Some ub =>
              let (st, e) := reduce (level (ITemp o lb ub)) st e in parse mission (FInfix (ITemp o lb ub) e :: st) None ts
          | _, _ => None
          end
      | TRParen :: ts =>
          match reduce 0 st e with
          | (FParen :: st, e) => parse mission st (Some e) ts
          | _ => None
          end
      | TNewline :: ts =>
          match reduce 0 st e with
          | ([], e) => option_map (cons e) (parse mission [] None ts)
          | _ => None
          end
      | _ => None
      end
  end.

(** The flags is_ft and is_pt, lines 153-231. *)
Fixpoint uses_future (e : expr) : bool :=
  match e with
  | EConst _ | EAtom _ => false
  | ENot e | EO _ _ e | EH _ _ e => uses_future e
  | EAnd es | EOr es => existsb uses_future es
  | EXor p q | EImpl p q | EEquiv p q | EBeq p q | ES _ _ p q | ET _ _ p q => uses_future p || uses_future q
  | EF _ _ _ | EG _ _ _ | EU _ _ _ _ | ER _ _ _ _ => true
  end.
Fixpoint uses_past (e : expr) : bool :=
  match e with
  | EConst _ | EAtom _ => false
  | ENot e | EF _ _ e | EG _ _ e => uses_past e
  | EAnd es | EOr es => existsb uses_past es
  | EXor p q | EImpl p q | EEquiv p q | EBeq p q | EU _ _ p q | ER _ _ p q => uses_past p || uses_past q
  | EO _ _ _ | EH _ _ _ | ES _ _ _ _ | ET _ _ _ _ => true
  end.
(** parse_mltl, lines 268-287: whether the section is past time (lines 107-120),
    and the formulas. *)
Definition parse_mltl (mission : option nat) (content : str) : option (bool * list expr) :=
  match parse mission [] None (lex content 0) with
  | Some es => if existsb uses_future es && existsb uses_past es then None else Some (existsb uses_past es, es)
  | None => None
  end.

(** ** Writing: to_mltl_std, cpt.py 2187-2241 *)
Definition quoted (s : string) : str := list_ascii_of_string s.
Definition bounds_text (lb ub : nat) : str := "[" :: dec (N.of_nat lb) ++ "," :: dec (N.of_nat ub) ++ ["]"].
(** Operands with the symbol between them, lines 2215-2235. *)
Fixpoint separated (sym : str) (es : list str) : str :=
  match es with
  | [] => []
  | [e] => e
  | e :: es => e ++ " " :: sym ++ " " :: separated sym es
  end.
Definition list_text (sym1 sym : str) (es : list str) : str :=
  match es with
  | [] => [")"]
  | [e] => "(" :: sym1 ++ " " :: e ++ [")"]
  | _ => "(" :: separated sym es ++ [")"]
  end.
Definition both (o1 o2 : option str) : option (list str) :=
  match o1, o2 with Some a, Some b => Some [a; b] | _, _ => None end.
(** [None]: the expression has no standard form (lines 2236-2240). *)
Fixpoint write_expr (e : expr) : option str :=
  let all := fix all (es : list expr) : option (list str) :=
    match es with
    | [] => Some []
    | e :: es => match write_expr e, all es with Some s, Some l => Some (s :: l) | _, _ => None end
    end in
  let unary sym lb ub e := option_map (fun s => list_text (sym ++ bounds_text lb ub) [] [s]) (write_expr e) in
  let binary sym p q := option_map (list_text sym sym) (both (write_expr p) (write_expr q)) in
  match e with
  | EConst b => Some (quoted (if b then "true " else "false "))
  | EAtom a => Some ("a" :: dec (N.of_nat a))
  | ENot e => option_map (fun s => list_text (quoted "!") [] [s]) (write_expr e)
  | EAnd es => option_map (list_text (quoted "&&") (quoted "&")) (all es)
  | EOr es => option_map (list_text (quoted "||") (quoted "|")) (all es)
  | EXor p q => binary (quoted "xor") p q
  | EImpl p q => binary (quoted "->") p q
  | EEquiv p q => binary (quoted "<->") p q
  | EBeq _ _ => None
  | EF lb ub e => unary (quoted "F") lb ub e
  | EG lb ub e => unary (quoted "G") lb ub e
  | EO lb ub e => unary (quoted "O") lb ub e
  | EH lb ub e => unary (quoted "H") lb ub e
  | EU lb ub p q => binary (quoted "U" ++ bounds_text lb ub) p q
  | ER lb ub p q => binary (quoted "R" ++ bounds_text lb ub) p q
  | ES lb ub p q => binary (quoted "S" ++ bounds_text lb ub) p q
  | ET lb ub p q => binary (quoted "T" ++ bounds_text lb ub) p q
  end.
Fixpoint write_formulas (es : list expr) : option str :=
  match es with
  | [] => Some []
  | e :: es => match write_expr e, write_formulas es with Some s, Some r => Some (s ++ "010" :: r) | _, _ => None end
  end.
(** serialize.py 58-74: an empty text is an error. *)
Definition write_mltl (es : list expr) : option str :=
  match write_formulas es with Some [] => None | r => r end.
