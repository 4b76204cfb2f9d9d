(** * Equivalence files (model)
    compiler/c2po/parse_equiv.py 7-340: the lexer (with sly/lex.py 363-424) and the
    parser (with sly/yacc.py 1405-1500).  ASCII files; source locations are left out. *)
From Coq Require Import List Arith NArith Bool Ascii String.
From Verif Require Import MapFile.
From Verif Require MltlText.
Import ListNotations.
Local Open Scope list_scope.
Local Open Scope char_scope.

(** ** Tokens: lines 9-15 *)
Inductive op := OImpl | OIff | OOr | OAnd | OEq | ONe | OGe | OLe | OGt | OLt | OAdd | OSub | OMul | ODiv.
Inductive unary := UG | UF.
Inductive binary := BU | BR.
Inductive call := CMin | CMax.
Inductive token :=
| TConstraint | TNot | TOp (o : op) | TUnary (u : unary) | TBinary (b : binary) | TCall (m : call)
| TNum (n : N) | TAtom (n : N) | TBound (n : N) | TProp (n : N) | TMission | TTrue | TFalse
| TNewline | TComma | TLBrack | TRBrack | TLParen | TRParen.

(** [a], [b] or [p] and a number: lines 70-72. *)
Definition indexed (mk : N -> token) (s : str) : option (option token * nat) :=
  option_map (fun p => (Some (mk (fst p)), S (snd p))) (MltlText.number_at s).
(** The master regular expression, lines 19-72; the first rule that matches wins.
    [None] as the token: a comment. *)
Definition token_at (s : str) : option (option token * nat) :=
  match s with
  | "#" :: r => option_map (fun n => (None, S n)) (MltlText.line_length r)
  | "c" :: ":" :: _ => Some (Some TConstraint, 2)
  | "!" :: "=" :: _ => Some (Some (TOp ONe), 2)
  | "!" :: _ => Some (Some TNot, 1)
  | "&" :: _ => Some (Some (TOp OAnd), 1)
  | "|" :: _ => Some (Some (TOp OOr), 1)
  | "-" :: ">" :: _ => Some (Some (TOp OImpl), 2)
  | "<" :: "-" :: ">" :: _ => Some (Some (TOp OIff), 3)
  | "=" :: _ => Some (Some (TOp OEq), 1)
  | ">" :: "=" :: _ => Some (Some (TOp OGe), 2)
  | "<" :: "=" :: _ => Some (Some (TOp OLe), 2)
  | ">" :: _ => Some (Some (TOp OGt), 1)
  | "<" :: _ => Some (Some (TOp OLt), 1)
  | "+" :: _ => Some (Some (TOp OAdd), 1)
  | "-" :: _ => Some (Some (TOp OSub), 1)
  | "*" :: _ => Some (Some (TOp OMul), 1)
  | "/" :: _ => Some (Some (TOp ODiv), 1)
  | "m" :: "i" :: "n" :: _ => Some (Some (TCall CMin), 3)
  | "m" :: "a" :: "x" :: _ => Some (Some (TCall CMax), 3)
  | "010" :: _ => Some (Some TNewline, 1)
  | "," :: _ => Some (Some TComma, 1)
  | "[" :: _ => Some (Some TLBrack, 1)
  | "]" :: _ => Some (Some TRBrack, 1)
  | "(" :: _ => Some (Some TLParen, 1)
  | ")" :: _ => Some (Some TRParen, 1)
  | "M" :: _ => Some (Some TMission, 1)
  | "G" :: _ => Some (Some (TUnary UG), 1)
  | "F" :: _ => Some (Some (TUnary UF), 1)
  | "U" :: _ => Some (Some (TBinary BU), 1)
  | "R" :: _ => Some (Some (TBinary BR), 1)
  | "t" :: "r" :: "u" :: "e" :: _ => Some (Some TTrue, 4)
  | "f" :: "a" :: "l" :: "s" :: "e" :: _ => Some (Some TFalse, 5)
  | "a" :: r => indexed TAtom r
  | "b" :: r => indexed TBound r
  | "p" :: r => indexed TProp r
  | _ => option_map (fun p => (Some (TNum (fst p)), snd p)) (MltlText.number_at s)
  end.
(** Line 18 (ignored characters) and 83-85: a character that starts no token is
    reported and skipped. *)
Fixpoint lex (s : str) (skip : nat) : list token :=
  match s with
  | [] => []
  | c :: r =>
      match skip with
      | S k => lex r k
      | O =>
          if (c =? " ") || (c =? "009") then lex r 0
          else match token_at s with
               | Some (Some t, n) => t :: lex r (pred n)
               | Some (None, n) => lex r (pred n)
               | None => lex r 0
               end
      end
  end.

(** ** What the rules build: lines 154-312 *)
Inductive tree :=
| Const (b : bool) | Atom (n : N) | Prop_ (n : N) | Bound (n : N) | Num (n : N) | Mission
| Not (p : tree) | Op (o : op) (a b : tree) | Call (m : call) (a b : tree)
| Un (u : unary) (lb ub p : tree) | Bin (b : binary) (lb ub p q : tree).

(** The nonterminals expr and constraint_expr. *)
Inductive sort := Formula | Term.
Definition sort_eqb (a b : sort) : bool :=
  match a, b with Formula, Formula | Term, Term => true | _, _ => false end.
Definition sort_of (o : op) : sort :=
  match o with OImpl | OIff | OOr | OAnd => Formula | _ => Term end.
(** The precedence table, lines 92-102; until and release are on level 4, prefix
    operators on level 8. *)
Definition level (o : op) : nat :=
  match o with
  | OImpl | OIff => 1 | OOr => 2 | OAnd => 3
  | OEq | ONe => 5 | OGe | OLe | OGt | OLt => 6
  | OAdd | OSub | OMul | ODiv => 7
  end.
(** Rules of one token, lines 210-223 and 291-307. *)
Definition leaf (s : sort) (t : token) : option tree :=
  match s, t with
  | Formula, TTrue => Some (Const true)
  | Formula, TFalse => Some (Const false)
  | Formula, TAtom n => Some (Atom n)
  | Formula, TProp n => Some (Prop_ n)
  | Term, TBound n => Some (Bound n)
  | Term, TNum n => Some (Num n)
  | Term, TMission => Some Mission
  | _, _ => None
  end.

(** The parser's stack, innermost first: rules that wait for their next operand.
    [FRule q f]: for the last one, the rule's precedence being [q]; [FLower q g],
    [FUpper q g]: for a bound of an interval; [FFirst], [FSecond]: of min and max. *)
Inductive frame :=
| FParen | FConstraint | FRule (q : nat) (f : tree -> tree)
| FLower (q : nat) (g : tree -> tree -> tree -> tree) | FUpper (q : nat) (g : tree -> tree -> tree)
| FFirst (g : tree -> tree -> tree) | FSecond (g : tree -> tree).
(** Shift or reduce (yacc.py 1431, 1489) on a token of level [p], 0 for tokens
    that cannot follow an operand within a rule. *)
Fixpoint reduce (p : nat) (st : list frame) (e : tree) : list frame * tree :=
  match st with
  | FRule q f :: st' => if Nat.leb p q then reduce p st' (f e) else (st, e)
  | _ => (st, e)
  end.

(** The parser: [first] while constraints may come, [s] the nonterminal to be read;
    with [None] it waits for an operand, with [Some e] it has one.  The result: the
    constraints and the formulas, or [None] for a syntax error (lines 116-128). *)
Fixpoint parse (first : bool) (st : list frame) (s : sort) (cur : option tree) (ts : list token)
  : option (list tree * list tree) :=
  match cur with
  | None =>
      match ts with
      | [] => match st with [] => Some ([], []) | _ => None end
      | t :: r =>
          match leaf s t with
          | Some e => parse first st s (Some e) r
          | None =>
              match t, s, st, r with
              | TLParen, _, _, _ => parse first (FParen :: st) s None r
              | TNot, Formula, _, _ => parse first (FRule 8 Not :: st) s None r
              | TUnary u, Formula, _, TLBrack :: r => parse first (FLower 8 (Un u) :: st) Term None r
              | TCall m, Term, _, TLParen :: r => parse first (FFirst (Call m) :: st) s None r
              | TConstraint, _, [], _ => if first then parse first [FConstraint] Term None r else None
              | _, _, _, _ => None
              end
          end
      end
  | Some e =>
      match ts with
      | [] => None
      | t :: r =>
          match t, s, r with
          | TOp o, _, _ =>
              if sort_eqb s (sort_of o) then
                let (st, e) := reduce (level o) st e in parse first (FRule (level o) (Op o e) :: st) s None r
              else None
          | TBinary b, Formula, TLBrack :: r =>
              let (st, e) := reduce 4 st e in
              parse first (FLower 4 (fun lb ub => Bin b lb ub e) :: st) Term None r
          | TComma, _, _ =>
              match reduce 0 st e with
              | (FLower q g :: st, e) => parse first (FUpper q (g e) :: st) Term None r
              | (FFirst g :: st, e) => parse first (FSecond (g e) :: st) Term None r
              | _ => None
              end
          | TRBrack, _, _ =>
              match reduce 0 st e with
              | (FUpper q g :: st, e) => parse first (FRule q (g e) :: st) Formula None r
              | _ => None
              end
          | TRParen, _, _ =>
              match reduce 0 st e with
              | (FParen :: st, e) => parse first st s (Some e) r
              | (FSecond g :: st, e) => parse first st Term (Some (g e)) r
              | _ => None
              end
          | TNewline, _, _ =>
              match reduce 0 st e with
              | ([], e) => option_map (fun p => (fst p, e :: snd p)) (parse false [] Formula None r)
              | (FConstraint :: _, e) => option_map (fun p => (e :: fst p, snd p)) (parse first [] Formula None r)
              | _ => None
              end
          | _, _, _ => None
          end
      end
  end.

(** parse_equiv: lines 315-340; an error of the lexer does not fail it. *)
Definition read_equiv (content : str) : option (list tree * list tree) :=
  parse true [] Formula None (lex content 0).
