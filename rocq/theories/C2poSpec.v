(** * C2PO files (specification)

    The language of compiler/docs/user/language.md: how expressions group, how files
    are made of them, and how they are spelled. *)
From Coq Require Import List Arith NArith ZArith Bool Ascii String.
Require Import Verif.MapFile Verif.C2poText.
Import ListNotations.
Local Open Scope list_scope.

(** ** Expressions *)
Section Expressions.
Variable mission : option nat.
Variable py : str -> str.
Variable sigs : list str.

(** [[ub]] and [[lb,ub]]; a bound is a number or the mission time. *)
Inductive bound : token -> nat -> Prop :=
| bound_num n : bound (TNum (Z.of_nat n)) n
| bound_mission m : mission = Some m -> bound TMission m.
Inductive interval : list token -> nat -> nat -> Prop :=
| interval_short b ub : bound b ub -> interval [TLBrack; b; TRBrack] 0 ub
| interval_full a b lb ub : bound a lb -> bound b ub -> interval [TLBrack; a; TComma; b; TRBrack] lb ub.
Inductive leaf_of : token -> cx -> Prop :=
| leaf_true : leaf_of TTrue (CBool true)
| leaf_false : leaf_of TFalse (CBool false)
| leaf_time : leaf_of TTime CTime
| leaf_int z : leaf_of (TNum z) (CInt z)
| leaf_float t : leaf_of (TDec t) (CFloat (py t))
| leaf_signal s : In s sigs -> leaf_of (TSym s) (CSig s)
| leaf_variable s : ~ In s sigs -> leaf_of (TSym s) (CVar s).
(** Operators with how tightly they bind: the logical ones loosest, then the
    temporal ones, bitwise, relational and arithmetical as in C. *)
Inductive prefix_op : nat -> list token -> (cx -> cx) -> Prop :=
| op_not : prefix_op 14 [TNot] (CPre PNot)
| op_tilde : prefix_op 14 [TTilde] (CPre PTilde)
| op_minus : prefix_op 14 [TOp Sub] (CPre PMinus)
| op_unary k iv lb ub : interval iv lb ub -> prefix_op 5 (TUnary k :: iv) (CT1 k lb ub).
Inductive infix_level : infix -> nat -> Prop :=
| lv_impl : infix_level Impl 1 | lv_xor : infix_level Xor 1 | lv_iff : infix_level Iff 1
| lv_or : infix_level Or 2
| lv_and : infix_level And 3
| lv_bitor : infix_level BitOr 6
| lv_bitxor : infix_level BitXor 7
| lv_bitand : infix_level BitAnd 8
| lv_eq : infix_level Eq 9 | lv_ne : infix_level Ne 9
| lv_gt : infix_level Gt 10 | lv_lt : infix_level Lt 10 | lv_ge : infix_level Ge 10 | lv_le : infix_level Le 10
| lv_shl : infix_level Shl 11 | lv_shr : infix_level Shr 11
| lv_add : infix_level Add 12 | lv_sub : infix_level Sub 12
| lv_mul : infix_level Mul 13 | lv_div : infix_level Div 13 | lv_mod : infix_level Mod 13 | lv_pow : infix_level Pow 13.
Inductive infix_op : nat -> list token -> (cx -> cx -> cx) -> Prop :=
| op_infix o l : infix_level o l -> infix_op l [TOp o] (fun a b => COp o [a; b])
| op_binary k iv lb ub : interval iv lb ub -> infix_op 4 (TBinary k :: iv) (CT2 k lb ub).

(** [phrase ts e l r]: [ts] reads as [e]; of the operators not in brackets, [l] is
    the loosest infix one along the left edge of [ts] and [r] the loosest one along
    the right edge (16: there is none).
    An operator stands to the right of operators that bind at least as tightly, and
    to the left of infix operators that bind more tightly. *)
Inductive phrase : list token -> cx -> nat -> nat -> Prop :=
| p_leaf t e : leaf_of t e -> phrase [t] e 16 16
| p_paren ts e l r : phrase ts e l r -> phrase (TLParen :: ts ++ [TRParen]) e 16 16
| p_array ts es : args ts es -> phrase (TLBrace :: ts ++ [TRBrace]) (CArr es) 16 16
| p_call0 s : phrase [TSym s; TLParen; TRParen] (CCall s []) 16 16
| p_call s ts es : args ts es -> phrase (TSym s :: TLParen :: ts ++ [TRParen]) (CCall s es) 16 16
| p_index ts e i : phrase ts e 16 16 -> phrase (ts ++ [TLBrack; TNum i; TRBrack]) (CIdx e i) 16 16
| p_slice ts e i j : phrase ts e 16 16 -> phrase (ts ++ [TLBrack; TNum i; TDots; TNum j; TRBrack]) (CSlice e i j) 16 16
| p_access ts e m : phrase ts e 16 16 -> phrase (ts ++ [TDot; TSym m]) (CAcc e m) 16 16
| p_func f ts e l r : phrase ts e l r -> phrase (TFun f :: TLParen :: ts ++ [TRParen]) (CFun f e) 16 16
| p_prev ts1 e1 l1 r1 ts2 e2 l2 r2 : phrase ts1 e1 l1 r1 -> phrase ts2 e2 l2 r2 ->
    phrase (TPrev :: TLParen :: ts1 ++ TComma :: ts2 ++ [TRParen]) (CPrev e1 e2) 16 16
| p_quant k x ts1 e1 l1 r1 ts2 e2 l2 r2 : phrase ts1 e1 l1 r1 -> phrase ts2 e2 l2 r2 ->
    phrase (TQuant k :: TLParen :: TSym x :: TColon :: ts1 ++ TRParen :: TLParen :: ts2 ++ [TRParen]) (CQuant k x e1 e2) 16 16
| p_count k x ts1 e1 l1 r1 ts2 e2 l2 r2 ts3 e3 l3 r3 : phrase ts1 e1 l1 r1 -> phrase ts2 e2 l2 r2 -> phrase ts3 e3 l3 r3 ->
    phrase (TCount k :: TLParen :: TSym x :: TColon :: ts1 ++ TComma :: ts2 ++ TRParen :: TLParen :: ts3 ++ [TRParen])
           (CCount k x e1 e2 e3) 16 16
| p_prefix p op f ts e l r : prefix_op p op f -> phrase ts e l r -> p < l -> phrase (op ++ ts) (f e) 16 (Nat.min p r)
| p_infix q op f ts1 e1 l1 r1 ts2 e2 l2 r2 : infix_op q op f -> phrase ts1 e1 l1 r1 -> phrase ts2 e2 l2 r2 ->
    q <= r1 -> q < l2 -> phrase (ts1 ++ op ++ ts2) (f e1 e2) (Nat.min q l1) (Nat.min q r2)
with args : list token -> list cx -> Prop :=
| a_one ts e l r : phrase ts e l r -> args ts [e]
| a_more ts e l r rest es : phrase ts e l r -> args rest es -> args (ts ++ TComma :: rest) (e :: es).
Definition reads (ts : list token) (e : cx) : Prop := exists l r, phrase ts e l r.
(** Tokens that continue the expression before them. *)
Definition continues (t : token) : bool :=
  match t with TOp _ | TBinary _ | TDot | TLBrack | TLParen => true | _ => false end.
Definition stops (rest : list token) : Prop := match rest with t :: _ => continues t = false | [] => True end.
End Expressions.

(** ** Files *)
Inductive suffixes : list token -> ty -> ty -> Prop :=
| sf_none t : suffixes [] t t
| sf_open t ts u : suffixes ts (TyArr t None) u -> suffixes (TLBrack :: TRBrack :: ts) t u
| sf_size t n ts u : suffixes ts (TyArr t (Some n)) u -> suffixes (TLBrack :: TNum (Z.of_nat n) :: TRBrack :: ts) t u.
Inductive declaration : list token -> decl -> Prop :=
| decl_of s names t ts u : suffixes ts (TyName t) u ->
    declaration (TSym s :: flat_map (fun x => [TComma; TSym x]) names ++ TColon :: TSym t :: ts ++ [TSemi]) (s :: names, u).
(** Any number of items, one after the other. *)
Inductive items {A} (item : list token -> A -> Prop) : list token -> list A -> Prop :=
| it_nil : items item [] []
| it_cons ts a rest l : item ts a -> items item rest l -> items item (ts ++ rest) (a :: l).
Inductive structure : list token -> str * list decl -> Prop :=
| struct_of s ts ds : items declaration ts ds -> structure (TSym s :: TColon :: TLBrace :: ts ++ [TRBrace; TSemi]) (s, ds).

Section Files.
Variable mission : option nat.
Variable py : str -> str.
Variable sigs : list str.
Notation reads := (reads mission py sigs).
(** Members of an enum that have no value are numbered from 0. *)
Inductive members : nat -> list token -> list (str * cx) -> Prop :=
| mb_last n m : members n [TSym m] [(m, CInt (Z.of_nat n))]
| mb_last_value n m ts e : reads ts e -> members n (TSym m :: TColon :: ts) [(m, e)]
| mb_next n m ts l : members (S n) ts l -> members n (TSym m :: TComma :: ts) ((m, CInt (Z.of_nat n)) :: l)
| mb_next_value n m ts e rest l : reads ts e -> members n rest l -> members n (TSym m :: TColon :: ts ++ TComma :: rest) ((m, e) :: l).
Inductive enumeration : list token -> str * list (str * cx) -> Prop :=
| enum_of s ts l : members 0 ts l -> enumeration (TSym s :: TColon :: TLBrace :: ts ++ [TRBrace; TSemi]) (s, l).
Inductive definition : list token -> str * cx -> Prop :=
| define_of s ts e : reads ts e -> definition (TSym s :: TAssign :: ts ++ [TSemi]) (s, e).
(** Specifications are numbered from [n]; the result is the next number. *)
Inductive specification : nat -> list token -> spec -> nat -> Prop :=
| spec_plain n ts e : reads ts e -> specification n (ts ++ [TSemi]) (Formula (fresh_label n) n e) (S n)
| spec_label n l ts e : reads ts e -> specification n (TSym l :: TColon :: ts ++ [TSemi]) (Formula l n e) (S n)
| spec_contract n l ts1 a ts2 g : reads ts1 a -> reads ts2 g ->
    specification n (TSym l :: TColon :: ts1 ++ TContract :: ts2 ++ [TSemi]) (Contract l n a g) (n + 3).
Inductive specifications : nat -> list token -> list spec -> nat -> Prop :=
| specs_nil n : specifications n [] [] n
| specs_cons n ts s m rest l k : specification n ts s m -> specifications m rest l k -> specifications n (ts ++ rest) (s :: l) k.
End Files.

(** The signals that an input section declares: the inputs of other types than arrays. *)
Fixpoint signals_of (ds : list decl) : list str :=
  match ds with
  | [] => []
  | (names, TyName _) :: ds => names ++ signals_of ds
  | (_, TyArr _ _) :: ds => signals_of ds
  end.
(** A file: its sections in order.  What an input section declares holds from there on. *)
Inductive file (mission : option nat) (py : str -> str) : list str -> nat -> list token -> list section -> Prop :=
| file_end sigs n : file mission py sigs n [] []
| file_struct sigs n ts s l rest p : items structure ts (s :: l) -> file mission py sigs n rest p ->
    file mission py sigs n (TKw KStruct :: ts ++ rest) (SStruct (s :: l) :: p)
| file_enum sigs n ts s l rest p : items (enumeration mission py sigs) ts (s :: l) -> file mission py sigs n rest p ->
    file mission py sigs n (TKw KEnum :: ts ++ rest) (SEnum (s :: l) :: p)
| file_input sigs n ts d l rest p : items declaration ts (d :: l) -> file mission py (sigs ++ signals_of (d :: l)) n rest p ->
    file mission py sigs n (TKw KInput :: ts ++ rest) (SInput (d :: l) :: p)
| file_define sigs n ts d l rest p : items (definition mission py sigs) ts (d :: l) -> file mission py sigs n rest p ->
    file mission py sigs n (TKw KDefine :: ts ++ rest) (SDefine (d :: l) :: p)
| file_spec sigs n (future : bool) ts s l m rest p : specifications mission py sigs n ts (s :: l) m -> file mission py sigs m rest p ->
    file mission py sigs n (TKw (if future then KFtspec else KPtspec) :: ts ++ rest) (SSpec future (s :: l) :: p).

(** ** Spelling *)
(** language.md 40-52 *)
Definition documented_words : list str :=
  map quoted ["STRUCT"; "ENUM"; "INPUT"; "DEFINE"; "FTSPEC"; "PTSPEC";
              "foreach"; "forsome"; "forexactly"; "foratleast"; "foratmost";
              "pow"; "sqrt"; "abs"; "xor"; "prev"; "G"; "F"; "H"; "O"; "U"; "R"; "S"; "M"; "true"; "false"]%string.
Definition identifier (s : str) : Prop :=
  match s with c :: r => is_head c = true /\ forallb is_word r = true | [] => False end.
Definition documented_name (s : str) : Prop := identifier s /\ ~ In s documented_words.
(** Names the lexer takes for names. *)
Definition usable_name (s : str) : Prop :=
  documented_name s /\ s <> quoted "T" /\ s <> quoted "TAU" /\ firstn 4 s <> quoted "prev".
(** -?\d*\.\d+ *)
Definition decimal (t : str) : Prop :=
  exists sign d f, t = sign ++ d ++ "."%char :: f /\ (sign = [] \/ sign = ["-"%char]) /\
    forallb is_digit d = true /\ forallb is_digit f = true /\ f <> [].
Definition spelling (t : token) : str :=
  match t with
  | TSym s => s
  | TDec t => t
  | TNum z => int_text z
  | TOp o => infix_text o
  | TFun f => func_text f
  | TQuant k => quant_text k
  | TCount k => count_text k
  | t => quoted (match t with
                 | TKw KStruct => "STRUCT" | TKw KEnum => "ENUM" | TKw KInput => "INPUT" | TKw KDefine => "DEFINE"
                 | TKw KFtspec => "FTSPEC" | TKw KPtspec => "PTSPEC" | TTime => "TAU"
                 | TUnary UG => "G" | TUnary UF => "F" | TUnary UH => "H" | TUnary UO => "O"
                 | TBinary BU => "U" | TBinary BR => "R" | TBinary BS => "S" | TBinary BT => "T"
                 | TMission => "M" | TTrue => "true" | TFalse => "false" | TNot => "!" | TTilde => "~" | TPrev => "prev"
                 | TAssign => ":=" | TContract => "=>" | TSemi => ";" | TColon => ":" | TDot => "." | TDots => ".." | TComma => ","
                 | TLBrack => "[" | TRBrack => "]" | TLBrace => "{" | TRBrace => "}" | TLParen => "(" | _ => ")"
                 end)
  end.
Definition well_spelled (t : token) : Prop :=
  match t with TSym s => usable_name s | TDec t => decimal t | _ => True end.
(** What may follow a token without a blank between. *)
Definition begins (p : ascii -> bool) (s : str) : Prop := match s with c :: _ => p c = true | [] => False end.
Definition one_of (l : string) (c : ascii) : bool := existsb (Ascii.eqb c) (list_ascii_of_string l).
Definition separate (t : token) (s : str) : Prop :=
  match t with
  | TOp Sub => ~ begins (fun c => is_digit c || one_of "->." c) s
  | TOp Lt => ~ begins (one_of "-<=") s
  | TOp Gt => ~ begins (one_of ">=") s
  | TOp BitAnd => ~ begins (one_of "&") s
  | TOp BitOr => ~ begins (one_of "|") s
  | TOp Pow | TOp Xor | TFun _ | TQuant _ | TCount _ | TKw _ | TTime | TUnary _ | TBinary _ | TMission | TTrue | TFalse | TSym _ =>
      ~ begins is_word s
  | TNot => ~ begins (one_of "=") s
  | TColon => ~ begins (one_of "=") s
  | TDot => ~ begins (fun c => is_digit c || one_of "." c) s
  | TDec _ => ~ begins is_digit s
  | TNum _ => ~ begins is_digit s /\ ~ (begins (one_of ".") s /\ begins is_digit (tl s))
  | _ => True
  end.
(** A text that spells [ts]: blanks, tabs, line breaks and comments between the tokens. *)
Inductive spells : str -> list token -> Prop :=
| sp_nil : spells [] []
| sp_blank c s ts : one_of " " c = true \/ c = "009"%char \/ c = "010"%char -> spells s ts -> spells (c :: s) ts
| sp_comment body s ts : ~ In "010"%char body -> (s = [] \/ begins (Ascii.eqb "010"%char) s) -> spells s ts ->
    spells ("-"%char :: "-"%char :: body ++ s) ts
| sp_token t s ts : well_spelled t -> separate t s -> spells s ts -> spells (spelling t ++ s) (t :: ts).

(** ** Programs that have a text *)
(** Operators are written in parentheses. *)
Definition in_parens (e : cx) : bool :=
  match e with CPre _ _ | CFun _ _ | COp _ _ | CT1 _ _ _ _ | CT2 _ _ _ _ _ => true | _ => false end.
(** What [write_c2po] leaves out or writes in another language: floats with an
    exponent, counting aggregations, calls without arguments, the parentheses
    around the operands of sqrt and abs, enums, and labels like those for
    specifications without one. *)
Fixpoint writable (e : cx) : Prop :=
  match e with
  | CBool _ | CInt _ | CTime | CSig _ | CVar _ => True
  | CFloat t => decimal t
  | CArr es | CCall _ es => es <> [] /\ fold_right (fun e P => writable e /\ P) True es
  | COp _ es => 2 <= List.length es /\ fold_right (fun e P => writable e /\ P) True es
  | CIdx e _ | CSlice e _ _ | CAcc e _ | CPre _ e | CT1 _ _ _ e => writable e
  | CQuant _ _ a b | CPrev a b | CT2 _ _ _ a b => writable a /\ writable b
  | CCount _ _ _ _ _ => False
  | CFun _ e => in_parens e = true /\ writable e
  end.
Definition writable_spec (s : spec) : Prop :=
  match s with
  | Formula l n e => (is_internal l = true -> l = fresh_label n) /\ writable e
  | Contract _ _ a g => writable a /\ writable g
  end.
Definition writable_section (s : section) : Prop :=
  match s with
  | SStruct _ | SInput _ => True
  | SEnum _ => False
  | SDefine l => Forall (fun d => writable (snd d)) l
  | SSpec _ l => Forall writable_spec l
  end.
(** What the numbers of a program's specifications are. *)
Definition spec_numbers (s : spec) : list nat :=
  match s with Formula _ n _ => [n] | Contract _ n _ _ => [n; n + 1; n + 2] end.
Definition numbers (p : list section) : list nat :=
  flat_map (fun s => match s with SSpec _ l => flat_map spec_numbers l | _ => [] end) p.
(** Names are usable, and signals are what the input sections declare. *)
Section Named.
Variable py : str -> str.
Fixpoint named (sigs : list str) (e : cx) : Prop :=
  match e with
  | CBool _ | CInt _ | CTime => True
  | CFloat t => py t = t
  | CSig s => usable_name s /\ In s sigs
  | CVar s => usable_name s /\ ~ In s sigs
  | CArr es | COp _ es => fold_right (fun e P => named sigs e /\ P) True es
  | CCall s es => usable_name s /\ fold_right (fun e P => named sigs e /\ P) True es
  | CIdx e _ | CSlice e _ _ | CPre _ e | CFun _ e | CT1 _ _ _ e => named sigs e
  | CAcc e m => named sigs e /\ usable_name m
  | CQuant _ x a b => usable_name x /\ named sigs a /\ named sigs b
  | CPrev a b | CT2 _ _ _ a b => named sigs a /\ named sigs b
  | CCount _ x a b c => usable_name x /\ named sigs a /\ named sigs b /\ named sigs c
  end.
Fixpoint named_type (t : ty) : Prop := match t with TyName s => usable_name s | TyArr t _ => named_type t end.
Definition named_decl (d : decl) : Prop := fst d <> [] /\ Forall usable_name (fst d) /\ named_type (snd d).
Definition named_spec (sigs : list str) (s : spec) : Prop :=
  match s with
  | Formula l _ e => (is_internal l = false -> usable_name l) /\ named sigs e
  | Contract l _ a g => usable_name l /\ named sigs a /\ named sigs g
  end.
(** Sections have entries, and specifications are numbered from [n]. *)
Fixpoint proper (sigs : list str) (n : nat) (p : list section) : Prop :=
  match p with
  | [] => True
  | SStruct l :: p => l <> [] /\ Forall (fun s => usable_name (fst s) /\ Forall named_decl (snd s)) l /\ proper sigs n p
  | SEnum l :: p => l <> [] /\ proper sigs n p
  | SInput l :: p => l <> [] /\ Forall named_decl l /\ proper (sigs ++ signals_of l) n p
  | SDefine l :: p => l <> [] /\ Forall (fun d => usable_name (fst d) /\ named sigs (snd d)) l /\ proper sigs n p
  | SSpec _ l :: p =>
      l <> [] /\ Forall (named_spec sigs) l /\ flat_map spec_numbers l = seq n (List.length (flat_map spec_numbers l)) /\
      proper sigs (n + List.length (flat_map spec_numbers l)) p
  end.
End Named.
(** Python's floats: a float written and read back is written the same way. *)
Definition floats_settle (py : str -> str) : Prop := forall t, decimal t -> decimal (py t) -> py (py t) = py t.
(** Operators with more than two operands come back grouped to the left. *)
Fixpoint nested (e : cx) : cx :=
  match e with
  | CArr es => CArr (map nested es)
  | CCall s es => CCall s (map nested es)
  | COp o es => match map nested es with
                | a :: rest => fold_left (fun x y => COp o [x; y]) rest a
                | [] => COp o []
                end
  | CIdx e i => CIdx (nested e) i
  | CSlice e i j => CSlice (nested e) i j
  | CAcc e m => CAcc (nested e) m
  | CPre u e => CPre u (nested e)
  | CFun f e => CFun f (nested e)
  | CT1 k lb ub e => CT1 k lb ub (nested e)
  | CT2 k lb ub a b => CT2 k lb ub (nested a) (nested b)
  | CPrev a b => CPrev (nested a) (nested b)
  | CQuant k x a b => CQuant k x (nested a) (nested b)
  | CCount k x a b c => CCount k x (nested a) (nested b) (nested c)
  | e => e
  end.
Definition nested_spec (s : spec) : spec :=
  match s with Formula l n e => Formula l n (nested e) | Contract l n a g => Contract l n (nested a) (nested g) end.
Definition nested_section (s : section) : section :=
  match s with
  | SEnum l => SEnum (map (fun s => (fst s, map (fun d => (fst d, nested (snd d))) (snd s))) l)
  | SDefine l => SDefine (map (fun d => (fst d, nested (snd d))) l)
  | SSpec f l => SSpec f (map nested_spec l)
  | s => s
  end.
