(** * C2PO files (model)

    Reading: parse_c2po.py 7-706 with the lexer of sly (sly/lex.py 363-424) and its
    LALR parser (sly/yacc.py 1405-1500); writing: serialize.py 4-11 with cpt.py
    1115-1305, 1419-1421 and 1961-2087.  ASCII files: the spellings of operators
    by other characters (lines 24-57) are left out, and so are source locations.
    Names are the characters they are written with. *)
From Coq Require Import List Arith NArith ZArith Bool Ascii String.
Require Import Verif.MapFile.
Import ListNotations.
Local Open Scope list_scope.
Local Open Scope char_scope.

(** ** Expressions, cpt.py 148-532 and 770-855 as parse_c2po.py 396-652 builds them *)
Inductive quantifier := ForEach | ForSome.
Inductive counting := Exactly | AtLeast | AtMost.
Inductive unary := UG | UF | UH | UO.
Inductive binary := BU | BR | BS | BT.
Inductive prefix := PNot | PTilde | PMinus.
Inductive func := Sqrt | Abs.
Inductive infix :=
| Impl | Xor | Iff | Or | And | BitOr | BitXor | BitAnd | Eq | Ne | Gt | Lt | Ge | Le
| Shl | Shr | Add | Sub | Mul | Div | Mod | Pow.
(** [CFloat t]: the float that Python writes as [t].  [COp]: the operators that take
    their operands between them; other passes give some of them more than two. *)
Inductive cx :=
| CBool (b : bool) | CInt (z : Z) | CFloat (t : str) | CTime
| CSig (s : str) | CVar (s : str)
| CArr (es : list cx) | CIdx (e : cx) (i : Z) | CSlice (e : cx) (i j : Z)
| CAcc (e : cx) (m : str) | CCall (s : str) (es : list cx)
| CQuant (k : quantifier) (x : str) (set body : cx)
| CCount (k : counting) (x : str) (set num body : cx)
| CPre (u : prefix) (e : cx) | CFun (f : func) (e : cx) | CPrev (a b : cx)
| COp (o : infix) (es : list cx)
| CT1 (k : unary) (lb ub : nat) (e : cx)
| CT2 (k : binary) (lb ub : nat) (a b : cx).

(** ** Tokens: parse_c2po.py 9-17 *)
Inductive keyword := KStruct | KEnum | KInput | KDefine | KFtspec | KPtspec.
Inductive token :=
| TKw (k : keyword) | TQuant (k : quantifier) | TCount (k : counting) | TTime
| TUnary (k : unary) | TBinary (k : binary) | TMission | TTrue | TFalse
| TNot | TTilde | TOp (o : infix) | TFun (f : func) | TPrev
| TAssign | TContract | TSym (s : str) | TDec (t : str) | TNum (z : Z)
| TSemi | TColon | TDot | TDots | TComma
| TLBrack | TRBrack | TLBrace | TRBrace | TLParen | TRParen.

(** Lines 77-103 *)
Definition keywords : list (string * token) :=
  [("STRUCT", TKw KStruct); ("ENUM", TKw KEnum); ("INPUT", TKw KInput); ("DEFINE", TKw KDefine);
   ("FTSPEC", TKw KFtspec); ("PTSPEC", TKw KPtspec);
   ("foreach", TQuant ForEach); ("forsome", TQuant ForSome);
   ("forexactly", TCount Exactly); ("foratleast", TCount AtLeast); ("foratmost", TCount AtMost);
   ("TAU", TTime); ("pow", TOp Pow); ("sqrt", TFun Sqrt); ("abs", TFun Abs); ("xor", TOp Xor);
   ("G", TUnary UG); ("F", TUnary UF); ("H", TUnary UH); ("O", TUnary UO);
   ("U", TBinary BU); ("R", TBinary BR); ("S", TBinary BS); ("T", TBinary BT);
   ("M", TMission); ("true", TTrue); ("false", TFalse)]%string.
Definition word (w : str) : token :=
  match find (fun p => String.eqb (fst p) (string_of_list_ascii w)) keywords with
  | Some p => snd p
  | None => TSym w
  end.
(** DECIMAL, line 25: -?\d*\.\d+ *)
Definition decimal_at (s : str) : option str :=
  let (sign, r) := match s with "-" :: r => (["-"], r) | _ => ([], s) end in
  let d := take_while is_digit r in
  match skipn (List.length d) r with
  | "." :: r => match take_while is_digit r with [] => None | f => Some (sign ++ d ++ "." :: f) end
  | _ => None
  end.
(** NUMERAL, line 26: -?[1-9][0-9]*|0; the value and the number of characters.
    (Python refuses to convert more than 4300 digits.) *)
Definition positive_at (s : str) : option (Z * nat) :=
  match s with
  | c :: _ => if is_digit c && negb (c =? "0")
              then let d := take_while is_digit s in Some (Z.of_N (N.of_uint (uint_of d)), List.length d) else None
  | [] => None
  end.
Definition numeral_at (s : str) : option (Z * nat) :=
  match s with
  | "-" :: r => option_map (fun p => (Z.opp (fst p), S (snd p))) (positive_at r)
  | "0" :: _ => Some (0%Z, 1)
  | _ => positive_at s
  end.
(** Lines 24-74; of two rules that match, the one that stands first wins. *)
Definition symbol_at (s : str) : option (token * nat) :=
  match s with
  | "!" :: "=" :: _ => Some (TOp Ne, 2)
  | "!" :: _ => Some (TNot, 1)
  | "&" :: "&" :: _ => Some (TOp And, 2)
  | "&" :: _ => Some (TOp BitAnd, 1)
  | "|" :: "|" :: _ => Some (TOp Or, 2)
  | "|" :: _ => Some (TOp BitOr, 1)
  | "-" :: ">" :: _ => Some (TOp Impl, 2)
  | "-" :: _ => Some (TOp Sub, 1)
  | "<" :: "-" :: ">" :: _ => Some (TOp Iff, 3)
  | "<" :: "<" :: _ => Some (TOp Shl, 2)
  | "<" :: "=" :: _ => Some (TOp Le, 2)
  | "<" :: _ => Some (TOp Lt, 1)
  | ">" :: ">" :: _ => Some (TOp Shr, 2)
  | ">" :: "=" :: _ => Some (TOp Ge, 2)
  | ">" :: _ => Some (TOp Gt, 1)
  | "~" :: _ => Some (TTilde, 1)
  | "^" :: _ => Some (TOp BitXor, 1)
  | "=" :: "=" :: _ => Some (TOp Eq, 2)
  | "=" :: ">" :: _ => Some (TContract, 2)
  | "+" :: _ => Some (TOp Add, 1)
  | "*" :: _ => Some (TOp Mul, 1)
  | "/" :: _ => Some (TOp Div, 1)
  | "%" :: _ => Some (TOp Mod, 1)
  | "p" :: "r" :: "e" :: "v" :: _ => Some (TPrev, 4)
  | ":" :: "=" :: _ => Some (TAssign, 2)
  | ";" :: _ => Some (TSemi, 1)
  | ":" :: _ => Some (TColon, 1)
  | "." :: "." :: _ => Some (TDots, 2)
  | "." :: _ => Some (TDot, 1)
  | "," :: _ => Some (TComma, 1)
  | "[" :: _ => Some (TLBrack, 1)
  | "]" :: _ => Some (TRBrack, 1)
  | "{" :: _ => Some (TLBrace, 1)
  | "}" :: _ => Some (TRBrace, 1)
  | "(" :: _ => Some (TLParen, 1)
  | ")" :: _ => Some (TRParen, 1)
  | c :: _ => if is_head c then let w := take_while is_word s in Some (word w, List.length w) else None
  | [] => None
  end.
(** The token, [None] for a comment or a line break (lines 21-22), and its length. *)
Definition token_at (s : str) : option (option token * nat) :=
  match s with
  | "-" :: "-" :: r => Some (None, S (S (List.length (take_while (fun c => negb (c =? "010")) r))))
  | "010" :: _ => Some (None, 1)
  | _ =>
      match decimal_at s with
      | Some t => Some (Some (TDec t), List.length t)
      | None =>
          match numeral_at s with
          | Some (z, n) => Some (Some (TNum z), n)
          | None => option_map (fun p => (Some (fst p), snd p)) (symbol_at s)
          end
      end
  end.
(** sly/lex.py 363-424 with lines 20 and 109-115: a character that starts no token
    is reported and skipped.  [skip]: characters left of the present token. *)
Fixpoint lex (s : str) (skip : nat) : list token :=
  match s with
  | [] => []
  | c :: r =>
      match skip with
      | S k => lex r k
      | O =>
          if (c =? " ") || (c =? "009") then lex r 0
          else match token_at s with
               | Some (Some t, n) => t :: lex r (pred n)
               | Some (None, n) => lex r (pred n)
               | None => lex r 0
               end
      end
  end.

(** ** The parser: expressions *)
(** The precedence table, lines 121-138: the table's lines are levels 1 to 15. *)
Definition level (o : infix) : nat :=
  match o with
  | Impl | Xor | Iff => 1
  | Or => 2
  | And => 3
  | BitOr => 6
  | BitXor => 7
  | BitAnd => 8
  | Eq | Ne => 9
  | Gt | Lt | Ge | Le => 10
  | Shl | Shr => 11
  | Add | Sub => 12
  | Mul | Div | Mod | Pow => 13
  end.
(** What the parser's stack holds, innermost first: rules that wait for an operand.
    Operands read are kept newest first. *)
Inductive frame :=
| FParen | FPre (u : prefix) | FFun (f : func)
| FT1 (k : unary) (lb ub : nat) | FT2 (k : binary) (lb ub : nat) (a : cx) | FOp (o : infix) (a : cx)
| FArr (done : list cx) | FCall (s : str) (done : list cx)
| FPrev | FPrev2 (a : cx)
| FQuant (k : quantifier) (x : str) | FQuant2 (k : quantifier) (x : str) (set : cx)
| FCount (k : counting) (x : str) | FCount2 (k : counting) (x : str) (set : cx) | FCount3 (k : counting) (x : str) (set num : cx).
(** Rules that end with their operand: their precedence (yacc.py 344: of the
    rightmost terminal, or %prec) and their result.  Brackets wait for their partner. *)
Definition complete (f : frame) (e : cx) : option (nat * cx) :=
  match f with
  | FPre u => Some (14, CPre u e)
  | FT1 k lb ub => Some (5, CT1 k lb ub e)
  | FT2 k lb ub a => Some (4, CT2 k lb ub a e)
  | FOp o a => Some (level o, COp o [a; e])
  | _ => None
  end.
(** Shift or reduce, yacc.py 1431 and 1489, on a token of level [p] (0 for tokens
    that do not continue an expression): rules of the same or a higher level are
    reduced; every level with infix operators is left associative. *)
Fixpoint reduce (p : nat) (st : list frame) (e : cx) : list frame * cx :=
  match st with
  | [] => (st, e)
  | f :: st' =>
      match complete f e with
      | Some (q, e') => if Nat.leb p q then reduce p st' e' else (st, e)
      | None => (st, e)
      end
  end.
(** The rules with brackets (lines 396-452, 481-492 and 618-620): what a closing
    parenthesis, a comma and a closing brace do. *)
Inductive closing := Operand (e : cx) | Reopen (f : frame).
Definition on_rparen (f : frame) (e : cx) : option closing :=
  match f with
  | FParen => Some (Operand e)
  | FFun f => Some (Operand (CFun f e))
  | FCall s done => Some (Operand (CCall s (rev (e :: done))))
  | FPrev2 a => Some (Operand (CPrev a e))
  | FQuant k x => Some (Reopen (FQuant2 k x e))
  | FQuant2 k x set => Some (Operand (CQuant k x set e))
  | FCount2 k x set => Some (Reopen (FCount3 k x set e))
  | FCount3 k x set num => Some (Operand (CCount k x set num e))
  | _ => None
  end.
Definition on_comma (f : frame) (e : cx) : option frame :=
  match f with
  | FArr done => Some (FArr (e :: done))
  | FCall s done => Some (FCall s (e :: done))
  | FPrev => Some (FPrev2 e)
  | FCount k x => Some (FCount2 k x e)
  | _ => None
  end.
Definition on_rbrace (f : frame) (e : cx) : option cx :=
  match f with FArr done => Some (CArr (rev (e :: done))) | _ => None end.

Definition mem (s : str) (l : list str) : bool := if in_dec (list_eq_dec ascii_dec) s l then true else false.

Section Parser.
(** The mission time, if set; str(float(t)); and the names declared as inputs so
    far (lines 140-146 and 279-280). *)
Variable mission : option nat.
Variable py : str -> str.
Variable sigs : list str.

(** Lines 654-683 *)
Definition bound_of (t : token) : option nat :=
  match t with TNum z => if (z <? 0)%Z then None else Some (Z.to_nat z) | TMission => mission | _ => None end.
(** Lines 622-652 *)
Definition leaf (t : token) : option cx :=
  match t with
  | TTrue => Some (CBool true)
  | TFalse => Some (CBool false)
  | TSym s => Some (if mem s sigs then CSig s else CVar s)
  | TTime => Some CTime
  | TNum z => Some (CInt z)
  | TDec t => Some (CFloat (py t))
  | _ => None
  end.

(** The parser on the tokens of an expression: with [None] it waits for an operand,
    with [Some e] it has one.  The result is the expression and the tokens after
    it, the first of which does not continue it; [None] is a syntax error, or the
    exception of the rule for empty arrays (lines 412-414). *)
Fixpoint parse (st : list frame) (cur : option cx) (ts : list token) : option (cx * list token) :=
  match cur with
  | None =>
      match ts with
      | TNot :: ts => parse (FPre PNot :: st) None ts
      | TTilde :: ts => parse (FPre PTilde :: st) None ts
      | TOp Sub :: ts => parse (FPre PMinus :: st) None ts
      | TFun f :: TLParen :: ts => parse (FFun f :: st) None ts
      | TPrev :: TLParen :: ts => parse (FPrev :: st) None ts
      | TLParen :: ts => parse (FParen :: st) None ts
      | TLBrace :: TRBrace :: _ => None
      | TLBrace :: ts => parse (FArr [] :: st) None ts
      | TQuant k :: TLParen :: TSym x :: TColon :: ts => parse (FQuant k x :: st) None ts
      | TCount k :: TLParen :: TSym x :: TColon :: ts => parse (FCount k x :: st) None ts
      | TSym s :: TLParen :: TRParen :: ts => parse st (Some (CCall s [])) ts
      | TSym s :: TLParen :: ts => parse (FCall s [] :: st) None ts
      | TUnary u :: TLBrack :: b :: TRBrack :: ts =>
          match bound_of b with
          | Some ub => parse (FT1 u 0 ub :: st) None ts
          | None => None
          end
      | TUnary u :: TLBrack :: a :: TComma :: b :: TRBrack :: ts =>
          match bound_of a, bound_of b with
          | Some lb, Some ub => parse (FT1 u lb ub :: st) None ts
          | _, _ => None
          end
      | t :: ts =>
          match leaf t with
          | Some e => parse st (Some e) ts
          | None => None
          end
      | [] => None
      end
  | Some e =>
      match ts with
      | TDot :: TSym m :: ts => parse st (Some (CAcc e m)) ts
      | TLBrack :: TNum i :: TRBrack :: ts => parse st (Some (CIdx e i)) ts
      | TLBrack :: TNum i :: TDots :: TNum j :: TRBrack :: ts => parse st (Some (CSlice e i j)) ts
      | TOp o :: ts => let (st, e) := reduce (level o) st e in parse (FOp o e :: st) None ts
      | TBinary o :: TLBrack :: b :: TRBrack :: ts =>
          match bound_of b with
          | Some ub => let (st, e) := reduce 4 st e in parse (FT2 o 0 ub e :: st) None ts
          | None => None
          end
      | TBinary o :: TLBrack :: a :: TComma :: b :: TRBrack :: ts =>
          match bound_of a, bound_of b with
          | Some lb, Some ub => let (st, e) := reduce 4 st e in parse (FT2 o lb ub e :: st) None ts
          | _, _ => None
          end
      | TDot :: _ | TLBrack :: _ | TBinary _ :: _ | TLParen :: _ => None
      | TRParen :: ts' =>
          match reduce 0 st e with
          | ([], e) => Some (e, ts)
          | (f :: st, e) =>
              match on_rparen f e with
              | Some (Operand e) => parse st (Some e) ts'
              | Some (Reopen f) => match ts' with TLParen :: ts' => parse (f :: st) None ts' | _ => None end
              | None => None
              end
          end
      | TComma :: ts' =>
          match reduce 0 st e with
          | ([], e) => Some (e, ts)
          | (f :: st, e) => match on_comma f e with Some f => parse (f :: st) None ts' | None => None end
          end
      | TRBrace :: ts' =>
          match reduce 0 st e with
          | ([], e) => Some (e, ts)
          | (f :: st, e) => match on_rbrace f e with Some e => parse st (Some e) ts' | None => None end
          end
      | _ => match reduce 0 st e with ([], e) => Some (e, ts) | _ => None end
      end
  end.
Definition parse_expr (ts : list token) : option (cx * list token) := parse [] None ts.
End Parser.

(** ** The parser: files *)
(** types.py 30-122; [TyName] stands for the basic types and for the structs and
    enums by name (lines 306-315). *)
Inductive ty := TyName (s : str) | TyArr (t : ty) (size : option nat).
Definition decl : Type := list str * ty.                        (* cpt.VariableDeclaration *)
Inductive spec :=
| Formula (label : str) (num : nat) (e : cx)
| Contract (label : str) (num : nat) (a g : cx).                (* the numbers num, num+1, num+2 *)
Inductive section :=
| SStruct (l : list (str * list decl))
| SEnum (l : list (str * list (str * cx)))
| SInput (l : list decl)
| SDefine (l : list (str * cx))
| SSpec (future : bool) (l : list spec).

(** Lines 317-332 *)
Fixpoint parse_suffix (t : ty) (ts : list token) : option (ty * list token) :=
  match ts with
  | TLBrack :: TRBrack :: ts => parse_suffix (TyArr t None) ts
  | TLBrack :: TNum z :: TRBrack :: ts => if (z <? 0)%Z then None else parse_suffix (TyArr t (Some (Z.to_nat z))) ts
  | _ => Some (t, ts)
  end.
(** Lines 293-303 *)
Fixpoint parse_names (done : list str) (ts : list token) : option (list str * list token) :=
  match ts with
  | TComma :: TSym s :: ts => parse_names (s :: done) ts
  | TColon :: ts => Some (rev done, ts)
  | _ => None
  end.
Definition parse_decl (ts : list token) : option (decl * list token) :=
  match ts with
  | TSym s :: ts =>
      match parse_names [s] ts with
      | Some (names, TSym t :: ts) =>
          match parse_suffix (TyName t) ts with
          | Some (t, TSemi :: ts) => Some ((names, t), ts)
          | _ => None
          end
      | _ => None
      end
  | _ => None
  end.
(** The list rules (X_list: X_list X | empty): items as long as the next token can
    start one.  [fuel] is the number of tokens. *)
Fixpoint parse_many {A} (starts : token -> bool) (item : list token -> option (A * list token)) (fuel : nat) (ts : list token)
  : option (list A * list token) :=
  match ts with
  | [] => Some ([], [])
  | t :: _ =>
      if starts t then
        match fuel with
        | S n =>
            match item ts with
            | Some (a, ts) => option_map (fun p => (a :: fst p, snd p)) (parse_many starts item n ts)
            | None => None
            end
        | O => None
        end
      else Some ([], ts)
  end.
Definition is_symbol (t : token) : bool := match t with TSym _ => true | _ => false end.
(** Lines 192-215 *)
Definition parse_struct (ts : list token) : option ((str * list decl) * list token) :=
  match ts with
  | TSym s :: TColon :: TLBrace :: ts =>
      match parse_many is_symbol parse_decl (List.length ts) ts with
      | Some (ds, TRBrace :: TSemi :: ts) => Some ((s, ds), ts)
      | _ => None
      end
  | _ => None
  end.

Section Files.
Variable mission : option nat.
Variable py : str -> str.
Notation parse_expr := (parse_expr mission py).

(** Lines 217-265: the members of an enum; [next] is the value for the next member
    without one. *)
Fixpoint parse_members (sigs : list str) (fuel : nat) (next : nat) (ts : list token) : option (list (str * cx) * list token) :=
  match fuel with
  | O => None
  | S n =>
      match ts with
      | TSym m :: TComma :: ts =>
          option_map (fun p => ((m, CInt (Z.of_nat next)) :: fst p, snd p)) (parse_members sigs n (S next) ts)
      | TSym m :: TRBrace :: TSemi :: ts => Some ([(m, CInt (Z.of_nat next))], ts)
      | TSym m :: TColon :: ts =>
          match parse_expr sigs ts with
          | Some (e, TComma :: ts) => option_map (fun p => ((m, e) :: fst p, snd p)) (parse_members sigs n next ts)
          | Some (e, TRBrace :: TSemi :: ts) => Some ([(m, e)], ts)
          | _ => None
          end
      | _ => None
      end
  end.
Definition parse_enum (sigs : list str) (ts : list token) : option ((str * list (str * cx)) * list token) :=
  match ts with
  | TSym s :: TColon :: TLBrace :: ts => option_map (fun p => ((s, fst p), snd p)) (parse_members sigs (List.length ts) 0 ts)
  | _ => None
  end.
(** Lines 334-348 *)
Definition parse_definition (sigs : list str) (ts : list token) : option ((str * cx) * list token) :=
  match ts with
  | TSym s :: TAssign :: ts =>
      match parse_expr sigs ts with Some (e, TSemi :: ts) => Some ((s, e), ts) | _ => None end
  | _ => None
  end.
(** Lines 160-162: the label of a specification without one. *)
Definition quoted (s : string) : str := list_ascii_of_string s.
Definition fresh_label (n : nat) : str := quoted "__f" ++ dec (N.of_nat n) ++ quoted "__".
(** Lines 368-394; [n] is spec_num. *)
Definition parse_spec (sigs : list str) (n : nat) (ts : list token) : option (spec * nat * list token) :=
  match ts with
  | TSym l :: TColon :: ts =>
      match parse_expr sigs ts with
      | Some (e, TSemi :: ts) => Some (Formula l n e, S n, ts)
      | Some (a, TContract :: ts) =>
          match parse_expr sigs ts with
          | Some (g, TSemi :: ts) => Some (Contract l n a g, n + 3, ts)
          | _ => None
          end
      | _ => None
      end
  | _ =>
      match parse_expr sigs ts with
      | Some (e, TSemi :: ts) => Some (Formula (fresh_label n) n e, S n, ts)
      | _ => None
      end
  end.
Fixpoint parse_specs (sigs : list str) (fuel : nat) (n : nat) (ts : list token) : option (list spec * nat * list token) :=
  match ts with
  | [] | TKw _ :: _ => Some ([], n, ts)
  | _ =>
      match fuel with
      | S k =>
          match parse_spec sigs n ts with
          | Some (s, n, ts) => option_map (fun p => (s :: fst (fst p), snd (fst p), snd p)) (parse_specs sigs k n ts)
          | None => None
          end
      | O => None
      end
  end.
(** Lines 267-283: inputs of array type are not among the names. *)
Definition input_names (ds : list decl) : list str :=
  flat_map (fun d => match snd d with TyArr _ _ => [] | _ => fst d end) ds.
(** Lines 164-190 with the rules of the sections (192-202, 217-227, 267-291, 334-344, 350-366); every section has at least one entry. *)
Fixpoint parse_sections (fuel : nat) (sigs : list str) (n : nat) (ts : list token) : option (list section) :=
  match fuel with
  | O => None
  | S k =>
      match ts with
      | [] => Some []
      | TKw KStruct :: ts =>
          match parse_many is_symbol parse_struct (List.length ts) ts with
          | Some (s :: l, ts) => option_map (cons (SStruct (s :: l))) (parse_sections k sigs n ts)
          | _ => None
          end
      | TKw KEnum :: ts =>
          match parse_many is_symbol (parse_enum sigs) (List.length ts) ts with
          | Some (s :: l, ts) => option_map (cons (SEnum (s :: l))) (parse_sections k sigs n ts)
          | _ => None
          end
      | TKw KInput :: ts =>
          match parse_many is_symbol parse_decl (List.length ts) ts with
          | Some (d :: l, ts) => option_map (cons (SInput (d :: l))) (parse_sections k (sigs ++ input_names (d :: l)) n ts)
          | _ => None
          end
      | TKw KDefine :: ts =>
          match parse_many is_symbol (parse_definition sigs) (List.length ts) ts with
          | Some (d :: l, ts) => option_map (cons (SDefine (d :: l))) (parse_sections k sigs n ts)
          | _ => None
          end
      | TKw KFtspec :: ts =>
          match parse_specs sigs (List.length ts) n ts with
          | Some (s :: l, n, ts) => option_map (cons (SSpec true (s :: l))) (parse_sections k sigs n ts)
          | _ => None
          end
      | TKw KPtspec :: ts =>
          match parse_specs sigs (List.length ts) n ts with
          | Some (s :: l, n, ts) => option_map (cons (SSpec false (s :: l))) (parse_sections k sigs n ts)
          | _ => None
          end
      | _ => None
      end
  end.
(** parse_c2po, lines 686-708 *)
Definition parse_tokens (ts : list token) : option (list section) := parse_sections (S (List.length ts)) [] 0 ts.
Definition parse_c2po (content : str) : option (list section) := parse_tokens (lex content 0).
End Files.

(** ** Writing: to_infix_str, cpt.py 1961-2087 *)
Definition int_text (z : Z) : str :=
  if (z <? 0)%Z then "-" :: dec (Z.to_N (- z)) else dec (Z.to_N z).
(** Operator symbols, cpt.py 425-480 and 781 *)
Definition infix_text (o : infix) : str :=
  quoted (match o with
          | Impl => "->" | Xor => "xor" | Iff => "<->" | Or => "||" | And => "&&" | BitOr => "|" | BitXor => "^" | BitAnd => "&"
          | Eq => "==" | Ne => "!=" | Gt => ">" | Lt => "<" | Ge => ">=" | Le => "<=" | Shl => "<<" | Shr => ">>"
          | Add => "+" | Sub => "-" | Mul => "*" | Div => "/" | Mod => "%" | Pow => "pow"
          end).
Definition prefix_text (u : prefix) : str := quoted (match u with PNot => "!" | PTilde => "~" | PMinus => "-" end).
Definition func_text (f : func) : str := quoted (match f with Sqrt => "sqrt" | Abs => "abs" end).
Definition quant_text (k : quantifier) : str := quoted (match k with ForEach => "foreach" | ForSome => "forsome" end).
Definition count_text (k : counting) : str :=
  quoted (match k with Exactly => "forexactly" | AtLeast => "foratleast" | AtMost => "foratmost" end).
Definition bounds_text (lb ub : nat) : str := "[" :: dec (N.of_nat lb) ++ "," :: dec (N.of_nat ub) ++ ["]"].
Definition unary_text (k : unary) (lb ub : nat) : str :=
  quoted (match k with UG => "G" | UF => "F" | UH => "H" | UO => "O" end) ++ bounds_text lb ub.
Definition binary_text (k : binary) (lb ub : nat) : str :=
  quoted (match k with BU => "U" | BR => "R" | BS => "S" | BT => "T" end) ++ bounds_text lb ub.
(** Constants are written in lower case (line 1971). *)
Definition lower (c : ascii) : ascii :=
  let n := N_of_ascii c in if ((65 <=? n) && (n <=? 90))%N then ascii_of_N (n + 32) else c.
Fixpoint separated (sym : str) (es : list str) : str :=
  match es with
  | [] => []
  | [e] => e
  | e :: es => e ++ sym ++ separated sym es
  end.
(** Lines 1991-2001, 2006-2016 and 2025-2060: without an operand only the closing
    bracket is written. *)
Definition braces (open close : str) (es : list str) : str :=
  match es with [] => close | _ => open ++ separated (quoted ", ") es ++ close end.
Definition operands (sym : str) (es : list str) : str :=
  match es with
  | [] => [")"]
  | [e] => "(" :: sym ++ " " :: e ++ [")"]
  | _ => "(" :: separated (" " :: sym ++ [" "]) es ++ [")"]
  end.
Fixpoint show (e : cx) : str :=
  match e with
  | CBool b => quoted (if b then "true" else "false")
  | CInt z => int_text z
  | CFloat t => map lower t
  | CTime => quoted "TAU"
  | CSig s | CVar s => s
  | CArr es => braces ["{"] ["}"] (map show es)
  | CIdx e i => show e ++ "[" :: int_text i ++ ["]"]
  | CSlice e i j => show e ++ "[" :: int_text i ++ "." :: "." :: int_text j ++ ["]"]
  | CAcc e m => show e ++ "." :: m
  | CCall s es => braces (s ++ ["("]) [")"] (map show es)
  | CQuant k x set body => quant_text k ++ "(" :: x ++ quoted " : " ++ show set ++ quoted ")(" ++ show body ++ [")"]
  | CCount k x set num body => count_text k ++ "(" :: x ++ quoted " : " ++ show set ++ quoted ")(" ++ show body ++ [")"]
  | CPre u e => operands (prefix_text u) [show e]
  | CFun f e => operands (func_text f) [show e]
  | CPrev a b => quoted "prev(" ++ show a ++ "," :: show b ++ [")"]
  | COp o es => operands (infix_text o) (map show es)
  | CT1 k lb ub e => operands (unary_text k lb ub) [show e]
  | CT2 k lb ub a b => operands (binary_text k lb ub) [show a; show b]
  end.

(** cpt.py 1065-1071: '__.*__' (the characters of a name are not line breaks) *)
Definition is_internal (l : str) : bool :=
  match l with
  | "_" :: "_" :: r => match rev r with "_" :: "_" :: _ => true | _ => false end
  | _ => false
  end.
(** Lines 2063-2083 *)
Definition spec_text (s : spec) : str :=
  match s with
  | Formula l _ e => (if is_internal l then [] else l ++ quoted ": ") ++ show e ++ [";"]
  | Contract l _ a g => l ++ quoted ": " ++ show a ++ quoted " => " ++ show g ++ [";"]
  end.
(** types.py 42-43 and 117-120; cpt.py 1171-1174 *)
Fixpoint ty_text (t : ty) : str :=
  match t with
  | TyName s => s
  | TyArr t (Some n) => ty_text t ++ "[" :: dec (N.of_nat n) ++ ["]"]
  | TyArr t None => ty_text t ++ ["["; "]"]
  end.
Definition decl_text (d : decl) : str := separated [","] (fst d) ++ quoted ": " ++ ty_text (snd d).
(** cpt.py 1136-1138, 1156-1158, 1185-1186 *)
Definition struct_text (s : str * list decl) : str :=
  fst s ++ quoted ": {" ++ separated [" "] (map (fun d => decl_text d ++ [";"]) (snd s)) ++ ["}"].
Definition definition_text (d : str * cx) : str := fst d ++ quoted " := " ++ show (snd d).
Definition enum_text (s : str * list (str * cx)) : str :=
  fst s ++ quoted ": {" ++ separated [" "] (map (fun d => definition_text d ++ [","]) (snd s)) ++ ["}"].
(** cpt.py 1199-1201, 1220-1222, 1241-1243, 1261-1263, 1297-1305 *)
Definition lines (head : str) (l : list str) : str := head ++ "010" :: "009" :: separated ["010"; "009"] l.
Definition section_text (s : section) : str :=
  match s with
  | SStruct l => lines (quoted "STRUCT") (map (fun s => struct_text s ++ [";"]) l)
  | SEnum l => lines (quoted "ENUM") (map (fun s => enum_text s ++ [";"]) l)
  | SInput l => lines (quoted "INPUT") (map (fun d => decl_text d ++ [";"]) l)
  | SDefine l => lines (quoted "DEFINE") (map (fun d => definition_text d ++ [";"]) l)
  | SSpec true l => lines (quoted "FTSPEC") (map spec_text l)
  | SSpec false l => lines (quoted "PTSPEC") (map spec_text l)
  end.
(** serialize.py 4-11, cpt.py 1419-1421 *)
Definition write_c2po (p : list section) : str := separated ["010"] (map section_text p).
