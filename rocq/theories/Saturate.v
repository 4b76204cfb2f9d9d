(** * Equality saturation: what is sent to egglog and what is read back (model)

    eqsat.py 126-184 (the [let] commands written for a formula) and
    parse_egglog_output.py 7-205 (the reader of the extracted term), with the
    lexer of sly (sly/lex.py 363-424).  The e-graph itself is in Egglog.v. *)
From Coq Require Import List Arith NArith ZArith Bool Ascii String.
Require Import Verif.Mltl Verif.MapFile Verif.Egglog.
Import ListNotations.
Local Open Scope nat_scope.
Local Open Scope list_scope.
Local Open Scope char_scope.

(** ** The commands: eqsat.py 126-172

    The formula is given by the sequence its postorder walk yields: every node
    with the positions of its operands in the sequence (C15: operands come
    first, no node comes twice).  [NBool]: an expression of the Booleanizer
    that is not an Atomic; [NOther]: a node of the temporal engine none of the
    cases of lines 144-172 is for (xor, [==] on Booleans, ...). *)
Inductive nodeop :=
| NConst (b : bool) | NAtomic (id : nat) | NNot | NAnd | NOr | NImplies | NEquiv
| NGlobal (lb ub : nat) | NFuture (lb ub : nat) | NUntil (lb ub : nat) | NRelease (lb ub : nat)
| NBool | NOther.
Record gnode := GNode { gop : nodeop; gargs : list nat }.

(** Right-hand sides; [$e<k>] is written [k], And<arity> by its operands. *)
Inductive command :=
| LBool (b : bool) | LVar (id : nat) | LNot (k : nat) | LAnd (ks : list nat) | LOr (ks : list nat)
| LImplies (k j : nat) | LEquiv (k j : nat)
| LGlobal (lb ub k : nat) | LFuture (lb ub k : nat) | LUntil (lb ub k j : nat) | LRelease (lb ub k j : nat).

(** [expr_map] (line 130): numbers of the positions so far, [None] for skipped
    ones.  [number m p]: [expr_map[c]]; [None] is a KeyError. *)
Definition number (m : list (option nat)) (p : nat) : option nat :=
  match nth_error m p with Some (Some k) => Some k | _ => None end.
Fixpoint numbers (m : list (option nat)) (ps : list nat) : option (list nat) :=
  match ps with
  | [] => Some []
  | p :: ps => match number m p, numbers m ps with Some k, Some ks => Some (k :: ks) | _, _ => None end
  end.
(** Lines 146-172.  [Some None]: no command is written. *)
Definition command_of (m : list (option nat)) (n : gnode) : option (option command) :=
  let one f := match nth_error (gargs n) 0 with
               | Some p => option_map (fun k => Some (f k)) (number m p)
               | None => None
               end in
  let two f := match nth_error (gargs n) 0, nth_error (gargs n) 1 with
               | Some p, Some q =>
                   match number m p, number m q with Some k, Some j => Some (Some (f k j)) | _, _ => None end
               | _, _ => None
               end in
  match gop n with
  | NConst b => Some (Some (LBool b))
  | NAtomic id => Some (Some (LVar id))
  | NNot => one LNot
  | NAnd => option_map (fun ks => Some (LAnd ks)) (numbers m (gargs n))
  | NOr => option_map (fun ks => Some (LOr ks)) (numbers m (gargs n))
  | NImplies => two LImplies
  | NEquiv => two LEquiv
  | NGlobal l u => one (LGlobal l u)
  | NFuture l u => one (LFuture l u)
  | NUntil l u => two (LUntil l u)
  | NRelease l u => two (LRelease l u)
  | NBool | NOther => Some None
  end.
(** Lines 135-172: the loop.  [m] in order of positions, [cnt] is [expr_cnt]. *)
Fixpoint commands (m : list (option nat)) (cnt : nat) (g : list gnode) : option (list (nat * command) * list (option nat)) :=
  match g with
  | [] => Some ([], m)
  | n :: g =>
      match gop n with
      | NBool => commands (m ++ [None]) cnt g
      | _ =>
          match command_of m n with
          | None => None
          | Some c =>
              match commands (m ++ [Some cnt]) (S cnt) g with
              | None => None
              | Some (cs, m') => Some (match c with Some c => (cnt, c) :: cs | None => cs end, m')
              end
          end
      end
  end.
(** Lines 126-179: the commands and the number in [(extract $e<k>)]; the root is
    yielded last. *)
Definition to_egglog (g : list gnode) : option (list (nat * command) * nat) :=
  match commands [] 0 g with
  | Some (cs, m) => option_map (pair cs) (number m (pred (List.length g)))
  | None => None
  end.

(** ** Tokens of the output: parse_egglog_output.py 8-20 *)
Inductive head := HImplies | HNot | HEquiv | HAnd | HOr | HFuture | HGlobal | HUntil | HRelease.
Inductive token :=
| THead (h : head) | TKVar | TKInterval | TKBool | TStr (s : str) | TNum (n : N) | TTrue | TFalse | TL | TR.

Fixpoint starts (w s : str) : bool :=
  match w, s with
  | [], _ => true
  | a :: w, b :: s => (a =? b) && starts w s
  | _, [] => false
  end.
Definition word (w : string) : str := list_ascii_of_string w.
(** [And\d+], [Or\d+]. *)
Definition counted (w s : str) : option nat :=
  if starts w s then
    match take_while is_digit (skipn (List.length w) s) with
    | [] => None
    | d => Some (List.length w + List.length d)
    end
  else None.
(** Line 45, STRING: the characters between two quotes. *)
Definition string_at (s : str) : option str :=
  match s with
  | """" :: r =>
      let t := take_while (fun c => negb (c =? """")) r in
      match skipn (List.length t) r with _ :: _ => Some t | [] => None end
  | _ => None
  end.
Definition keywords : list (str * token) :=
  [(word "Implies", THead HImplies); (word "Not", THead HNot); (word "Equiv", THead HEquiv)].
Definition keywords2 : list (str * token) :=
  [(word "Future", THead HFuture); (word "Global", THead HGlobal); (word "Until", THead HUntil);
   (word "Release", THead HRelease); (word "Var", TKVar); (word "Interval", TKInterval); (word "Bool", TKBool)].
Definition keywords3 : list (str * token) :=
  [(word "true", TTrue); (word "false", TFalse); (word "(", TL); (word ")", TR)].
Fixpoint keyword_at (ws : list (str * token)) (s : str) : option (token * nat) :=
  match ws with
  | [] => None
  | (w, t) :: ws => if starts w s then Some (t, List.length w) else keyword_at ws s
  end.
(** Lines 26-50, in order: the first rule that matches wins. *)
Definition token_at (s : str) : option (token * nat) :=
  match keyword_at keywords s with
  | Some r => Some r
  | None =>
  match counted (word "And") s with
  | Some n => Some (THead HAnd, n)
  | None =>
  match counted (word "Or") s with
  | Some n => Some (THead HOr, n)
  | None =>
  match keyword_at keywords2 s with
  | Some r => Some r
  | None =>
  match string_at s with
  | Some t => Some (TStr t, 2 + List.length t)
  | None =>
  match take_while is_digit s with
  | (_ :: _) as d => Some (TNum (N.of_uint (uint_of d)), List.length d)
  | [] => keyword_at keywords3 s
  end end end end end end.
(** Lines 23 (ignored characters) and 56-58: a character that starts no token is
    reported and skipped.  [skip]: characters left of the present token.  The
    blanks [strip] takes away at both ends (line 170) are all skipped anyway. *)
Fixpoint lex (s : str) (skip : nat) : list token :=
  match s with
  | [] => []
  | c :: r =>
      match skip with
      | S k => lex r k
      | O =>
          if (c =? " ") || (c =? "009") || (c =? "010") then lex r 0
          else match token_at s with
               | Some (t, n) => t :: lex r (pred n)
               | None => lex r 0
               end
      end
  end.

(** ** The parser: lines 62-158

    Terms before atomics are put in; [RSignal] holds the name (lines 141-145). *)
Inductive rterm :=
| RBool (b : bool) | RSignal (name : str) | RNot (p : rterm) | RImplies (p q : rterm) | REquiv (p q : rterm)
| RAnd (ps : list rterm) | ROr (ps : list rterm)
| RGlobal (lb ub : N) (p : rterm) | RFuture (lb ub : N) (p : rterm)
| RUntil (lb ub : N) (p q : rterm) | RRelease (lb ub : N) (p q : rterm).
(** What has been read since a parenthesis was opened; operands last first. *)
Inductive frame :=
| FOpen
| FHead (h : head) (interval : option (N * N)) (args : list rterm)
| FInterval (bounds : list N)
| FBool (value : option bool)
| FVar (name : option str).
Inductive value := VTerm (t : rterm) | VInterval (lb ub : N).

(** The productions, applied at the closing parenthesis. *)
Definition close (f : frame) : option value :=
  match f with
  | FHead HImplies None [q; p] => Some (VTerm (RImplies p q))
  | FHead HEquiv None [q; p] => Some (VTerm (REquiv p q))
  | FHead HNot None [p] => Some (VTerm (RNot p))
  | FHead HAnd None ((_ :: _) as ps) => Some (VTerm (RAnd (rev ps)))
  | FHead HOr None ((_ :: _) as ps) => Some (VTerm (ROr (rev ps)))
  | FHead HFuture (Some (l, u)) [p] => Some (VTerm (RFuture l u p))
  | FHead HGlobal (Some (l, u)) [p] => Some (VTerm (RGlobal l u p))
  | FHead HUntil (Some (l, u)) [q; p] => Some (VTerm (RUntil l u p q))
  | FHead HRelease (Some (l, u)) [q; p] => Some (VTerm (RRelease l u p q))
  | FInterval [u; l] => Some (VInterval l u)
  | FBool (Some b) => Some (VTerm (RBool b))
  | FVar (Some s) => Some (VTerm (RSignal s))
  | _ => None
  end.
Definition temporal (h : head) : bool :=
  match h with HFuture | HGlobal | HUntil | HRelease => true | _ => false end.
(** A finished value becomes an operand of the frame around it: the interval
    comes first, and only temporal operators have one. *)
Definition give (v : value) (f : frame) : option frame :=
  match f, v with
  | FHead h None [], VInterval l u => if temporal h then Some (FHead h (Some (l, u)) []) else None
  | FHead h None ps, VTerm t => if temporal h then None else Some (FHead h None (t :: ps))
  | FHead h (Some iv) ps, VTerm t => Some (FHead h (Some iv) (t :: ps))
  | _, _ => None
  end.
Definition advance (t : token) (f : frame) : option frame :=
  match f, t with
  | FOpen, THead h => Some (FHead h None [])
  | FOpen, TKVar => Some (FVar None)
  | FOpen, TKInterval => Some (FInterval [])
  | FOpen, TKBool => Some (FBool None)
  | FInterval bs, TNum n => Some (FInterval (n :: bs))
  | FBool None, TTrue => Some (FBool (Some true))
  | FBool None, TFalse => Some (FBool (Some false))
  | FVar None, TStr s => Some (FVar (Some s))
  | _, _ => None
  end.
(** Innermost frame first.  [None]: a syntax error; [status] is then False
    whatever sly's recovery makes of the rest (lines 71-84, 177). *)
Fixpoint parse (ts : list token) (stack : list frame) : option rterm :=
  match ts with
  | [] => None
  | TL :: ts => parse ts (FOpen :: stack)
  | TR :: ts =>
      match stack with
      | [] => None
      | f :: stack =>
          match close f with
          | None => None
          | Some v =>
              match stack with
              | [] => match v, ts with VTerm t, [] => Some t | _, _ => None end
              | f' :: stack' =>
                  match give v f' with Some f' => parse ts (f' :: stack') | None => None end
              end
          end
      end
  | t :: ts =>
      match stack with
      | [] => None
      | f :: stack => match advance t f with Some f => parse ts (f :: stack) | None => None end
      end
  end.

(** ** Putting the atomics in: lines 177-205

    [known id]: [id] is a key of [context.atomic_expr_map]; the atomic itself is
    [EAtom id].  [None]: ValueError or KeyError (lines 187-188). *)
Definition atomic_of (known : nat -> bool) (name : str) : option nat :=
  match int_of (tl name) with
  | Some n => if known (N.to_nat n) then Some (N.to_nat n) else None
  | None => None
  end.
Fixpoint resolve (known : nat -> bool) (t : rterm) : option expr :=
  let all := fix all (ts : list rterm) : option (list expr) :=
    match ts with
    | [] => Some []
    | t :: ts => match resolve known t, all ts with Some e, Some es => Some (e :: es) | _, _ => None end
    end in
  let two (f : expr -> expr -> expr) p q :=
    match resolve known p, resolve known q with Some p, Some q => Some (f p q) | _, _ => None end in
  match t with
  | RBool b => Some (EConst b)
  | RSignal s => option_map EAtom (atomic_of known s)
  | RNot p => option_map ENot (resolve known p)
  | RImplies p q => two EImpl p q
  | REquiv p q => two EEquiv p q
  | RAnd ps => option_map EAnd (all ps)
  | ROr ps => option_map EOr (all ps)
  | RGlobal l u p => option_map (EG (N.to_nat l) (N.to_nat u)) (resolve known p)
  | RFuture l u p => option_map (EF (N.to_nat l) (N.to_nat u)) (resolve known p)
  | RUntil l u p q => two (EU (N.to_nat l) (N.to_nat u)) p q
  | RRelease l u p q => two (ER (N.to_nat l) (N.to_nat u)) p q
  end.
(** type_check.py 292-334, as far as the result can fail it: bounds in order, and
    no future-time operator while [context.is_ft] is unset (line 309). *)
Fixpoint checks (is_ft : bool) (t : rterm) : bool :=
  match t with
  | RBool _ | RSignal _ => true
  | RNot p => checks is_ft p
  | RImplies p q | REquiv p q => checks is_ft p && checks is_ft q
  | RAnd ps | ROr ps => forallb (checks is_ft) ps
  | RGlobal l u p | RFuture l u p => is_ft && (l <=? u)%N && checks is_ft p
  | RUntil l u p q | RRelease l u p q => is_ft && (l <=? u)%N && checks is_ft p && checks is_ft q
  end.

(** [context]: the atomics, the names of the inputs ([context.signals], here all
    Boolean), and [is_ft] as type_check left it: whether the section checked
    last was a future-time one (type_check.py 674-677, cpt.py 1531-1541). *)
Record context := Context { known_atomic : nat -> bool; inputs : list str; is_ft : bool }.
(** Of a program with these sections (true: FTSPEC). *)
Definition after_type_check (sections : list bool) : bool := List.last sections false.

(** [Formula e]: the new formula.  [Input s]: it is the input named [s].
    [Failed]: [parse] returns None, optimize_eqsat an error.  [Crashed]: an
    exception nothing catches. *)
Inductive outcome := Formula (e : expr) | Input (s : str) | Failed | Crashed.
Fixpoint str_eqb (s t : str) : bool :=
  match s, t with
  | [], [] => true
  | a :: s, b :: t => (a =? b) && str_eqb s t
  | _, _ => false
  end.
(** Lines 160-205.  A result that is one Signal has no parents, so
    [expr.replace] (line 189; cpt.py 87-104) changes nothing and [output] is
    still the Signal, named after the atomic. *)
Definition read_output (c : context) (text : str) : outcome :=
  match parse (lex text 0) [] with
  | None => Failed
  | Some t =>
      match resolve (known_atomic c) t with
      | None => Crashed
      | Some e =>
          match t with
          | RSignal s => if existsb (str_eqb s) (inputs c) then Input s else Crashed
          | _ => if checks (is_ft c) t then Formula e else Failed
          end
      end
  end.
