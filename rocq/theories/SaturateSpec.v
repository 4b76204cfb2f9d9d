(** * Equality saturation: what the commands and the printed terms mean (specification)

    egglog binds [$e<k>] to the value of a term; its constructors are those of
    egglog/greedy/mltl.egg 4-21.  It prints terms as nested lists. *)
From Coq Require Import List Arith NArith ZArith Bool Ascii String.
Require Import Verif.Mltl Verif.MapFile Verif.Egglog Verif.Saturate.
Import ListNotations.
Local Open Scope nat_scope.
Local Open Scope list_scope.
Local Open Scope char_scope.

(** ** The formula a sequence of nodes stands for *)
Definition applied (op : nodeop) (es : list expr) : option expr :=
  match op, es with
  | NConst b, [] => Some (EConst b)
  | NAtomic id, _ => Some (EAtom id)
  | NNot, [p] => Some (ENot p)
  | NAnd, ps => Some (EAnd ps)
  | NOr, ps => Some (EOr ps)
  | NImplies, [p; q] => Some (EImpl p q)
  | NEquiv, [p; q] => Some (EEquiv p q)
  | NGlobal l u, [p] => Some (EG l u p)
  | NFuture l u, [p] => Some (EF l u p)
  | NUntil l u, [p; q] => Some (EU l u p q)
  | NRelease l u, [p; q] => Some (ER l u p q)
  | _, _ => None
  end.
(** [stands g p e]: the node at position [p] is the formula [e]. *)
Inductive stands (g : list gnode) : nat -> expr -> Prop :=
| stands_node p n es e :
    nth_error g p = Some n -> all_stand g (match gop n with NAtomic _ => [] | _ => gargs n end) es ->
    applied (gop n) es = Some e -> stands g p e
with all_stand (g : list gnode) : list nat -> list expr -> Prop :=
| all_none : all_stand g [] []
| all_more p ps e es : stands g p e -> all_stand g ps es -> all_stand g (p :: ps) (e :: es).
(** Operands come before their operators. *)
Definition in_order (g : list gnode) : Prop :=
  forall p n q, nth_error g p = Some n -> In q (gargs n) -> q < p.

(** ** What egglog makes of the commands *)
Definition binding := list (nat * eterm).
Fixpoint bound (b : binding) (k : nat) : option eterm :=
  match b with
  | [] => None
  | (j, t) :: b => if j =? k then Some t else bound b k
  end%nat.
(** [None]: an unbound name, or a constructor that does not exist. *)
Definition evaluated (b : binding) (c : command) : option eterm :=
  match c with
  | LBool v => Some (TBool v)
  | LVar id => Some (TVar id)
  | LNot k => option_map TNot (bound b k)
  | LAnd ks =>
      match map (bound b) ks with
      | [Some p; Some q] => Some (TAnd2 p q)
      | [Some p; Some q; Some r] => Some (TAnd3 p q r)
      | [Some p; Some q; Some r; Some s] => Some (TAnd4 p q r s)
      | _ => None
      end
  | LOr ks =>
      match map (bound b) ks with
      | [Some p; Some q] => Some (TOr2 p q)
      | [Some p; Some q; Some r] => Some (TOr3 p q r)
      | [Some p; Some q; Some r; Some s] => Some (TOr4 p q r s)
      | _ => None
      end
  | LImplies k j => match bound b k, bound b j with Some p, Some q => Some (TImplies p q) | _, _ => None end
  | LEquiv k j => match bound b k, bound b j with Some p, Some q => Some (TEquiv p q) | _, _ => None end
  | LGlobal l u k => option_map (TGlobal (Z.of_nat l) (Z.of_nat u)) (bound b k)
  | LFuture l u k => option_map (TFuture (Z.of_nat l) (Z.of_nat u)) (bound b k)
  | LUntil l u k j =>
      match bound b k, bound b j with Some p, Some q => Some (TUntil (Z.of_nat l) (Z.of_nat u) p q) | _, _ => None end
  | LRelease l u k j =>
      match bound b k, bound b j with Some p, Some q => Some (TRelease (Z.of_nat l) (Z.of_nat u) p q) | _, _ => None end
  end.
(** A name may be bound once only.  [None]: egglog stops with an error. *)
Fixpoint run (b : binding) (cs : list (nat * command)) : option binding :=
  match cs with
  | [] => Some b
  | (k, c) :: cs =>
      match bound b k, evaluated b c with
      | None, Some t => run ((k, t) :: b) cs
      | _, _ => None
      end
  end.
(** The term whose class is extracted from. *)
Definition root_term (cs : list (nat * command)) (k : nat) : option eterm :=
  match run [] cs with Some b => bound b k | None => None end.

(** The formulas egglog has constructors for. *)
Fixpoint expressible (e : expr) : Prop :=
  match e with
  | EConst _ | EAtom _ => True
  | ENot p | EG _ _ p | EF _ _ p => expressible p
  | EAnd es | EOr es => 2 <= List.length es <= 4 /\ fold_right (fun e P => expressible e /\ P) True es
  | EImpl p q | EEquiv p q | EU _ _ p q | ER _ _ p q => expressible p /\ expressible q
  | _ => False
  end.

(** Every node of the temporal engine stands for such a formula. *)
Definition all_expressible (g : list gnode) : Prop :=
  forall p n, nth_error g p = Some n -> gop n = NBool \/ exists e, stands g p e /\ expressible e.

(** ** How terms are printed: words and parentheses, in any layout *)
Inductive lexeme := Open | Close | Word (w : str).
Definition op (s : string) : lexeme := Word (list_ascii_of_string s).
Definition interval_text (l u : Z) : list lexeme :=
  [Open; op "Interval"; Word (dec (Z.to_N l)); Word (dec (Z.to_N u)); Close].
Definition quoted (s : str) : str := """" :: s ++ [""""].
Fixpoint printed (t : eterm) : list lexeme :=
  match t with
  | TBool b => [Open; op "Bool"; op (if b then "true" else "false"); Close]
  | TVar a => [Open; op "Var"; Word (quoted ("a" :: dec (N.of_nat a))); Close]
  | TNot p => Open :: op "Not" :: printed p ++ [Close]
  | TImplies p q => Open :: op "Implies" :: printed p ++ printed q ++ [Close]
  | TEquiv p q => Open :: op "Equiv" :: printed p ++ printed q ++ [Close]
  | TAnd2 p q => Open :: op "And2" :: printed p ++ printed q ++ [Close]
  | TAnd3 p q r => Open :: op "And3" :: printed p ++ printed q ++ printed r ++ [Close]
  | TAnd4 p q r s => Open :: op "And4" :: printed p ++ printed q ++ printed r ++ printed s ++ [Close]
  | TOr2 p q => Open :: op "Or2" :: printed p ++ printed q ++ [Close]
  | TOr3 p q r => Open :: op "Or3" :: printed p ++ printed q ++ printed r ++ [Close]
  | TOr4 p q r s => Open :: op "Or4" :: printed p ++ printed q ++ printed r ++ printed s ++ [Close]
  | TGlobal l u p => Open :: op "Global" :: interval_text l u ++ printed p ++ [Close]
  | TFuture l u p => Open :: op "Future" :: interval_text l u ++ printed p ++ [Close]
  | TUntil l u p q => Open :: op "Until" :: interval_text l u ++ printed p ++ printed q ++ [Close]
  | TRelease l u p q => Open :: op "Release" :: interval_text l u ++ printed p ++ printed q ++ [Close]
  end.
Definition gap (s : str) : Prop := Forall (fun c => In c [" "; "009"; "010"; "013"]) s.
(** [laid_out ls text]: the lexemes in order, any blanks between them, at least
    one between two words. *)
Inductive laid_out : list lexeme -> str -> Prop :=
| out_end s : gap s -> laid_out [] s
| out_open s ls text : gap s -> laid_out ls text -> laid_out (Open :: ls) (s ++ "(" :: text)
| out_close s ls text : gap s -> laid_out ls text -> laid_out (Close :: ls) (s ++ ")" :: text)
| out_word s w ls text :
    gap s -> laid_out ls text -> (forall w' ls', ls = Word w' :: ls' -> exists c r, text = c :: r /\ gap [c]) ->
    laid_out (Word w :: ls) (s ++ w ++ text).

(** One atomic, nothing else. *)
Definition bare (t : eterm) : Prop := exists a, t = TVar a.
Fixpoint timed (t : eterm) : Prop :=
  match t with
  | TBool _ | TVar _ => False
  | TNot p => timed p
  | TImplies p q | TEquiv p q | TAnd2 p q | TOr2 p q => timed p \/ timed q
  | TAnd3 p q r | TOr3 p q r => timed p \/ timed q \/ timed r
  | TAnd4 p q r s | TOr4 p q r s => timed p \/ timed q \/ timed r \/ timed s
  | TGlobal _ _ _ | TFuture _ _ _ | TUntil _ _ _ _ | TRelease _ _ _ _ => True
  end.
(** The atomics a formula reads. *)
Fixpoint reads (e : expr) (a : nat) : Prop :=
  match e with
  | EConst _ => False
  | EAtom b => a = b
  | ENot p | EF _ _ p | EG _ _ p | EO _ _ p | EH _ _ p => reads p a
  | EAnd es | EOr es => fold_right (fun e P => reads e a \/ P) False es
  | EXor p q | EImpl p q | EEquiv p q | EBeq p q | EU _ _ p q | ER _ _ p q | ES _ _ p q | ET _ _ p q => reads p a \/ reads q a
  end.

(** ** The grammar of the output: parse_egglog_output.py 86-158 *)
Definition interval_tokens (l u : N) : list token := [TL; TKInterval; TNum l; TNum u; TR].
Inductive phrase : list token -> rterm -> Prop :=
| ph_implies a b p q : phrase a p -> phrase b q -> phrase (TL :: THead HImplies :: a ++ b ++ [TR]) (RImplies p q)
| ph_equiv a b p q : phrase a p -> phrase b q -> phrase (TL :: THead HEquiv :: a ++ b ++ [TR]) (REquiv p q)
| ph_not a p : phrase a p -> phrase (TL :: THead HNot :: a ++ [TR]) (RNot p)
| ph_and a ps : phrases a ps -> ps <> [] -> phrase (TL :: THead HAnd :: a ++ [TR]) (RAnd ps)
| ph_or a ps : phrases a ps -> ps <> [] -> phrase (TL :: THead HOr :: a ++ [TR]) (ROr ps)
| ph_future l u a p : phrase a p -> phrase (TL :: THead HFuture :: interval_tokens l u ++ a ++ [TR]) (RFuture l u p)
| ph_global l u a p : phrase a p -> phrase (TL :: THead HGlobal :: interval_tokens l u ++ a ++ [TR]) (RGlobal l u p)
| ph_until l u a b p q : phrase a p -> phrase b q ->
    phrase (TL :: THead HUntil :: interval_tokens l u ++ a ++ b ++ [TR]) (RUntil l u p q)
| ph_release l u a b p q : phrase a p -> phrase b q ->
    phrase (TL :: THead HRelease :: interval_tokens l u ++ a ++ b ++ [TR]) (RRelease l u p q)
| ph_true : phrase [TL; TKBool; TTrue; TR] (RBool true)
| ph_false : phrase [TL; TKBool; TFalse; TR] (RBool false)
| ph_var s : phrase [TL; TKVar; TStr s; TR] (RSignal s)
with phrases : list token -> list rterm -> Prop :=
| phs_none : phrases [] []
| phs_more a b p ps : phrase a p -> phrases b ps -> phrases (a ++ b) (p :: ps).
