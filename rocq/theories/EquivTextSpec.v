(** * Equivalence files (specification)
    The grammar with its precedences written out as levels; higher levels bind
    tighter, operators of one level group to the left. *)
From Coq Require Import List Arith NArith ZArith Bool Ascii String.
From Verif Require Import MapFile EquivText SymSmt.
Import ListNotations.
Local Open Scope list_scope.
Local Open Scope nat_scope.

Inductive operator : sort -> nat -> op -> Prop :=
| o_impl : operator Formula 1 OImpl
| o_iff : operator Formula 1 OIff
| o_or : operator Formula 2 OOr
| o_and : operator Formula 3 OAnd
| o_eq : operator Term 5 OEq
| o_ne : operator Term 5 ONe
| o_ge : operator Term 6 OGe
| o_le : operator Term 6 OLe
| o_gt : operator Term 6 OGt
| o_lt : operator Term 6 OLt
| o_add : operator Term 7 OAdd
| o_sub : operator Term 7 OSub
| o_mul : operator Term 7 OMul
| o_div : operator Term 7 ODiv.

Inductive derives : sort -> nat -> list token -> tree -> Prop :=
| d_true : derives Formula 8 [TTrue] (Const true)
| d_false : derives Formula 8 [TFalse] (Const false)
| d_atom n : derives Formula 8 [TAtom n] (Atom n)
| d_prop n : derives Formula 8 [TProp n] (Prop_ n)
| d_bound n : derives Term 8 [TBound n] (Bound n)
| d_num n : derives Term 8 [TNum n] (Num n)
| d_mission : derives Term 8 [TMission] Mission
| d_paren s ts e : derives s 1 ts e -> derives s 8 (TLParen :: ts ++ [TRParen]) e
| d_call m ta a tb b : derives Term 1 ta a -> derives Term 1 tb b ->
    derives Term 8 (TCall m :: TLParen :: ta ++ TComma :: tb ++ [TRParen]) (Call m a b)
| d_not ts p : derives Formula 8 ts p -> derives Formula 8 (TNot :: ts) (Not p)
| d_unary u tl lb tu ub ts p : derives Term 1 tl lb -> derives Term 1 tu ub -> derives Formula 8 ts p ->
    derives Formula 8 (TUnary u :: TLBrack :: tl ++ TComma :: tu ++ TRBrack :: ts) (Un u lb ub p)
| d_binary b tp p tl lb tu ub tq q : derives Formula 4 tp p -> derives Term 1 tl lb -> derives Term 1 tu ub ->
    derives Formula 5 tq q ->
    derives Formula 4 (tp ++ TBinary b :: TLBrack :: tl ++ TComma :: tu ++ TRBrack :: tq) (Bin b lb ub p q)
| d_operator s l o ta a tb b : operator s l o -> derives s l ta a -> derives s (S l) tb b ->
    derives s l (ta ++ TOp o :: tb) (Op o a b)
| d_higher s l ts e : derives s (S l) ts e -> derives s l ts e.

(** Lines: first the constraints, then the formulas. *)
Inductive formula_lines : list token -> list tree -> Prop :=
| fl_nil : formula_lines [] []
| fl_cons ts p rest fs : derives Formula 1 ts p -> formula_lines rest fs ->
    formula_lines (ts ++ TNewline :: rest) (p :: fs).
Inductive file_lines : list token -> list tree -> list tree -> Prop :=
| f_formulas ts fs : formula_lines ts fs -> file_lines ts [] fs
| f_constraint ts c rest cs fs : derives Term 1 ts c -> file_lines rest cs fs ->
    file_lines (TConstraint :: ts ++ TNewline :: rest) (c :: cs) fs.

(** ** Texts *)
Definition quoted (s : string) : str := list_ascii_of_string s.
Definition spelling (t : token) : str :=
  match t with
  | TConstraint => quoted "c:" | TNot => quoted "!"
  | TOp o => quoted match o with
                    | OImpl => "->" | OIff => "<->" | OOr => "|" | OAnd => "&"
                    | OEq => "=" | ONe => "!=" | OGe => ">=" | OLe => "<=" | OGt => ">" | OLt => "<"
                    | OAdd => "+" | OSub => "-" | OMul => "*" | ODiv => "/"
                    end
  | TUnary UG => quoted "G" | TUnary UF => quoted "F" | TBinary BU => quoted "U" | TBinary BR => quoted "R"
  | TCall CMin => quoted "min" | TCall CMax => quoted "max"
  | TNum n => dec n | TAtom n => "a"%char :: dec n | TBound n => "b"%char :: dec n | TProp n => "p"%char :: dec n
  | TMission => quoted "M" | TTrue => quoted "true" | TFalse => quoted "false"
  | TNewline => ["010"%char] | TComma => quoted ","
  | TLBrack => quoted "[" | TRBrack => quoted "]" | TLParen => quoted "(" | TRParen => quoted ")"
  end.
(** What may follow a token without a blank. *)
Definition apart (t : token) (s : str) : Prop :=
  match t, s with
  | (TNum _ | TAtom _ | TBound _ | TProp _), c :: _ => is_digit c = false
  | (TNot | TOp OGt), c :: _ => c <> "="%char
  | TOp OSub, c :: _ => c <> ">"%char
  | TOp OLt, c :: _ => c <> "="%char /\ c <> "-"%char
  | _, _ => True
  end.
(** A comment includes the end of its line. *)
Inductive spells : str -> list token -> Prop :=
| sp_nil : spells [] []
| sp_blank c s ts : c = " "%char \/ c = "009"%char -> spells s ts -> spells (c :: s) ts
| sp_comment body s ts : ~ In "010"%char body -> spells s ts -> spells ("#"%char :: body ++ "010"%char :: s) ts
| sp_token t s ts : spells s ts -> apart t s -> spells (spelling t ++ s) (t :: ts).

(** ** The files C58 speaks about *)
Fixpoint bound_tree (b : bexpr) : tree :=
  match b with
  | BVar n => Bound (N.of_nat n) | BNum v => Num v | BMission => Mission
  | BAdd a b => Op OAdd (bound_tree a) (bound_tree b)
  | BSub a b => Op OSub (bound_tree a) (bound_tree b)
  | BMul a b => Op OMul (bound_tree a) (bound_tree b)
  | BMin a b => Call CMin (bound_tree a) (bound_tree b)
  | BMax a b => Call CMax (bound_tree a) (bound_tree b)
  end.
Definition constraint_tree (c : constr) : tree :=
  Op match rel c with Req => OEq | Rne => ONe | Rge => OGe | Rle => OLe | Rgt => OGt | Rlt => OLt end
     (bound_tree (left_side c)) (bound_tree (right_side c)).
(** [name]: whether an atom is the signal or the proposition of a number. *)
Fixpoint formula_tree (name : nat -> bool * N) (p : sform) : tree :=
  match p with
  | SConst b => Const b
  | SAtom a => let (k, n) := name a in if k then Atom n else Prop_ n
  | SNot p => Not (formula_tree name p)
  | SImpl p q => Op OImpl (formula_tree name p) (formula_tree name q)
  | SIff p q => Op OIff (formula_tree name p) (formula_tree name q)
  | SOr p q => Op OOr (formula_tree name p) (formula_tree name q)
  | SAnd p q => Op OAnd (formula_tree name p) (formula_tree name q)
  | SG lb ub p => Un UG (bound_tree lb) (bound_tree ub) (formula_tree name p)
  | SF lb ub p => Un UF (bound_tree lb) (bound_tree ub) (formula_tree name p)
  | SU lb ub p q => Bin BU (bound_tree lb) (bound_tree ub) (formula_tree name p) (formula_tree name q)
  | SR lb ub p q => Bin BR (bound_tree lb) (bound_tree ub) (formula_tree name p) (formula_tree name q)
  end.
(** The text [s] is written for the file [fl]. *)
Definition written (name : nat -> bool * N) (s : str) (fl : equiv_file) : Prop :=
  exists ts, spells s ts /\ file_lines ts (map constraint_tree (constraints fl)) (map (formula_tree name) (formulas fl)).

(** ** The precedences of C, which parse_equiv.py 91 says it follows *)
Inductive c_term : nat -> list token -> tree -> Prop :=
| ct_bound n : c_term 9 [TBound n] (Bound n)
| ct_num n : c_term 9 [TNum n] (Num n)
| ct_paren ts e : c_term 5 ts e -> c_term 9 (TLParen :: ts ++ [TRParen]) e
| ct_product o ta a tb b : o = OMul \/ o = ODiv -> c_term 8 ta a -> c_term 9 tb b -> c_term 8 (ta ++ TOp o :: tb) (Op o a b)
| ct_sum o ta a tb b : o = OAdd \/ o = OSub -> c_term 7 ta a -> c_term 8 tb b -> c_term 7 (ta ++ TOp o :: tb) (Op o a b)
| ct_order o ta a tb b : operator Term 6 o -> c_term 6 ta a -> c_term 7 tb b -> c_term 6 (ta ++ TOp o :: tb) (Op o a b)
| ct_equal o ta a tb b : operator Term 5 o -> c_term 5 ta a -> c_term 6 tb b -> c_term 5 (ta ++ TOp o :: tb) (Op o a b)
| ct_higher l ts e : c_term (S l) ts e -> c_term l ts e.
