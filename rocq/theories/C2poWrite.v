(** * C2PO files (proofs): writing and reading back *)
From Coq Require Import List Arith NArith ZArith Bool Ascii String Lia.
Require Import Verif.MapFile Verif.MapProofs Verif.C2poText Verif.C2poSpec Verif.C2poProofs Verif.C2poFiles Verif.C2poLex.
Import ListNotations.
Local Open Scope list_scope.
Local Open Scope char_scope.

Section Induction.
Variable P : cx -> Prop.
Hypothesis Hbool : forall b, P (CBool b).
Hypothesis Hint : forall z, P (CInt z).
Hypothesis Hfloat : forall t, P (CFloat t).
Hypothesis Htime : P CTime.
Hypothesis Hsig : forall s, P (CSig s).
Hypothesis Hvar : forall s, P (CVar s).
Hypothesis Harr : forall es, Forall P es -> P (CArr es).
Hypothesis Hidx : forall e i, P e -> P (CIdx e i).
Hypothesis Hslice : forall e i j, P e -> P (CSlice e i j).
Hypothesis Hacc : forall e m, P e -> P (CAcc e m).
Hypothesis Hcall : forall s es, Forall P es -> P (CCall s es).
Hypothesis Hquant : forall k x a b, P a -> P b -> P (CQuant k x a b).
Hypothesis Hcount : forall k x a b c, P a -> P b -> P c -> P (CCount k x a b c).
Hypothesis Hpre : forall u e, P e -> P (CPre u e).
Hypothesis Hfun : forall f e, P e -> P (CFun f e).
Hypothesis Hprev : forall a b, P a -> P b -> P (CPrev a b).
Hypothesis Hop : forall o es, Forall P es -> P (COp o es).
Hypothesis Ht1 : forall k lb ub e, P e -> P (CT1 k lb ub e).
Hypothesis Ht2 : forall k lb ub a b, P a -> P b -> P (CT2 k lb ub a b).
Fixpoint cx_ind' (e : cx) : P e :=
  let all := fix all l : Forall P l := match l with [] => Forall_nil P | e :: l => Forall_cons e (cx_ind' e) (all l) end in
  match e with
  | CBool b => Hbool b | CInt z => Hint z | CFloat t => Hfloat t | CTime => Htime | CSig s => Hsig s | CVar s => Hvar s
  | CArr es => Harr es (all es) | CIdx e i => Hidx e i (cx_ind' e) | CSlice e i j => Hslice e i j (cx_ind' e)
  | CAcc e m => Hacc e m (cx_ind' e) | CCall s es => Hcall s es (all es)
  | CQuant k x a b => Hquant k x a b (cx_ind' a) (cx_ind' b)
  | CCount k x a b c => Hcount k x a b c (cx_ind' a) (cx_ind' b) (cx_ind' c)
  | CPre u e => Hpre u e (cx_ind' e) | CFun f e => Hfun f e (cx_ind' e) | CPrev a b => Hprev a b (cx_ind' a) (cx_ind' b)
  | COp o es => Hop o es (all es)
  | CT1 k lb ub e => Ht1 k lb ub e (cx_ind' e) | CT2 k lb ub a b => Ht2 k lb ub a b (cx_ind' a) (cx_ind' b)
  end.
End Induction.

(** ** The tokens of an expression *)
Fixpoint joined (t : list token) (l : list (list token)) : list token :=
  match l with [] => [] | [x] => x | x :: l => x ++ t ++ joined t l end.
Definition bounds (lb ub : nat) : list token := [TLBrack; TNum (Z.of_nat lb); TComma; TNum (Z.of_nat ub); TRBrack].
Definition prefix_token (u : prefix) : token := match u with PNot => TNot | PTilde => TTilde | PMinus => TOp Sub end.
Fixpoint toks (e : cx) : list token :=
  match e with
  | CBool b => [if b then TTrue else TFalse]
  | CInt z => [TNum z]
  | CFloat t => [TDec t]
  | CTime => [TTime]
  | CSig s | CVar s => [TSym s]
  | CArr es => TLBrace :: joined [TComma] (map toks es) ++ [TRBrace]
  | CIdx e i => toks e ++ [TLBrack; TNum i; TRBrack]
  | CSlice e i j => toks e ++ [TLBrack; TNum i; TDots; TNum j; TRBrack]
  | CAcc e m => toks e ++ [TDot; TSym m]
  | CCall s es => TSym s :: TLParen :: joined [TComma] (map toks es) ++ [TRParen]
  | CQuant k x a b => TQuant k :: TLParen :: TSym x :: TColon :: toks a ++ TRParen :: TLParen :: toks b ++ [TRParen]
  | CCount _ _ _ _ _ => []
  | CPre u e => TLParen :: (prefix_token u :: toks e) ++ [TRParen]
  | CFun f e => TLParen :: (TFun f :: toks e) ++ [TRParen]
  | CPrev a b => TPrev :: TLParen :: toks a ++ TComma :: toks b ++ [TRParen]
  | COp o es => TLParen :: joined [TOp o] (map toks es) ++ [TRParen]
  | CT1 k lb ub e => TLParen :: ((TUnary k :: bounds lb ub) ++ toks e) ++ [TRParen]
  | CT2 k lb ub a b => TLParen :: (toks a ++ (TBinary k :: bounds lb ub) ++ toks b) ++ [TRParen]
  end.

(** ** They are spelled by its text *)
Definition loose (r : str) : Prop :=
  match r with
  | [] => True
  | c :: r => one_of " ),;[]}" c = true \/ c = "010" \/ (c = "." /\ begins is_head r)
  end.
Definition text (s : str) (ts : list token) : Prop :=
  forall r rts, spells r rts -> loose r -> spells (s ++ r) (ts ++ rts).
Lemma head_digit c : is_head c = true -> is_digit c = false.
Proof. intros H. letters c H; reflexivity. Qed.
Lemma loose_ends r : loose r -> ~ begins is_word r /\ ~ begins is_digit r /\ ~ (begins (one_of ".") r /\ begins is_digit (tl r)).
Proof.
  destruct r as [|c r]; [repeat split; cbn; tauto|]. intros [H|[->|[-> H]]].
  - destruct c as [[] [] [] [] [] [] [] []]; vm_compute in H; try discriminate H; repeat split; intros K; try discriminate K;
      destruct K as [K _]; discriminate K.
  - repeat split; intros K; try discriminate K. destruct K as [K _]. discriminate K.
  - repeat split; intros K; try discriminate K. destruct K as [_ K]. cbn [tl] in K. destruct r as [|c r]; [exact K|].
    cbn [begins] in H, K. rewrite (head_digit _ H) in K. discriminate.
Qed.
Lemma sp t r rts : well_spelled t -> separate t r -> spells r rts -> spells (spelling t ++ r) (t :: rts).
Proof. apply sp_token. Qed.
Lemma sp_space r rts : spells r rts -> spells (" " :: r) rts.
Proof. apply sp_blank. left. reflexivity. Qed.
(** Tokens that may end an expression. *)
Lemma text_token t : well_spelled t -> (forall r, loose r -> separate t r) -> text (spelling t) [t].
Proof. intros W H r rts Hr Lr. apply sp; auto. Qed.
Lemma text_name s : usable_name s -> text s [TSym s].
Proof. intros H. apply (text_token (TSym s)); [exact H|]. intros r L. apply (loose_ends r L). Qed.
Lemma text_num z : text (int_text z) [TNum z].
Proof. apply (text_token (TNum z)); [exact I|]. intros r L. destruct (loose_ends r L) as (_ & A & B). split; assumption. Qed.
Lemma dec_num n : dec (N.of_nat n) = spelling (TNum (Z.of_nat n)).
Proof.
  cbn [spelling]. unfold int_text. replace (Z.of_nat n <? 0)%Z with false by (symmetry; apply Z.ltb_ge; lia).
  f_equal. lia.
Qed.
Lemma lower_digits s : forallb is_digit s = true -> map lower s = s.
Proof.
  induction s as [|c s IH]; [reflexivity|]. cbn [forallb map]. intros H. apply andb_prop in H. destruct H as [Hc Hs]. rewrite IH by exact Hs.
  f_equal. letters c Hc; reflexivity.
Qed.
Lemma lower_decimal t : decimal t -> map lower t = t.
Proof.
  intros (sign & d & f & -> & Sg & D & F & _). rewrite !map_app. cbn [map]. rewrite (lower_digits d D), (lower_digits f F).
  destruct Sg as [-> | ->]; reflexivity.
Qed.
(** Brackets, commas and the like are followed by anything. *)
Ltac flat := cbn [app]; repeat (rewrite <- app_assoc; cbn [app]).
Ltac free t := apply (sp t); [exact I|try exact I|].
Lemma text_close r rts : spells r rts -> spells (")" :: r) (TRParen :: rts).
Proof. intros H. free TRParen. exact H. Qed.
Lemma spells_bounds lb ub r rts : spells r rts -> spells (bounds_text lb ub ++ r) (bounds lb ub ++ rts).
Proof.
  intros H. unfold bounds_text, bounds. cbn [app]. rewrite <- !app_assoc. cbn [app]. rewrite <- !app_assoc. cbn [app]. free TLBrack.
  rewrite !dec_num. free (TNum (Z.of_nat lb)); [split; [discriminate|intros [K _]; discriminate K]|]. free TComma.
  free (TNum (Z.of_nat ub)); [split; [discriminate|intros [K _]; discriminate K]|]. free TRBrack. exact H.
Qed.
Lemma spells_unary k lb ub r rts : spells r rts -> spells (unary_text k lb ub ++ r) (TUnary k :: bounds lb ub ++ rts).
Proof.
  intros H. unfold unary_text. rewrite <- app_assoc. destruct k.
  - free (TUnary UG); [discriminate|apply spells_bounds; exact H].
  - free (TUnary UF); [discriminate|apply spells_bounds; exact H].
  - free (TUnary UH); [discriminate|apply spells_bounds; exact H].
  - free (TUnary UO); [discriminate|apply spells_bounds; exact H].
Qed.
Lemma spells_binary k lb ub r rts : spells r rts -> spells (binary_text k lb ub ++ r) (TBinary k :: bounds lb ub ++ rts).
Proof.
  intros H. unfold binary_text. rewrite <- app_assoc. destruct k.
  - free (TBinary BU); [discriminate|apply spells_bounds; exact H].
  - free (TBinary BR); [discriminate|apply spells_bounds; exact H].
  - free (TBinary BS); [discriminate|apply spells_bounds; exact H].
  - free (TBinary BT); [discriminate|apply spells_bounds; exact H].
Qed.
(** Texts between separators *)
Lemma separated_cons sym x y l : separated sym (x :: y :: l) = x ++ sym ++ separated sym (y :: l).
Proof. reflexivity. Qed.
Lemma joined_cons t x y l : joined t (x :: y :: l) = x ++ t ++ joined t (y :: l).
Proof. reflexivity. Qed.
Lemma text_separated sym op ss tss :
  (forall r rts, spells r rts -> spells (sym ++ r) (op ++ rts)) -> (forall r, loose (sym ++ r)) ->
  Forall2 text ss tss -> ss <> [] -> text (separated sym ss) (joined op tss).
Proof.
  intros Hsym Hl F. induction F as [|s ts ss tss T F IH]; intros N r rts Hr Lr; [congruence|].
  destruct F as [|s1 ts1 ss tss T1 F].
  - cbn [separated joined]. apply T; assumption.
  - rewrite separated_cons, joined_cons, <- !app_assoc. apply T; [|apply Hl]. apply Hsym. apply IH; [discriminate|exact Hr|exact Lr].
Qed.
Lemma comma_sep r rts : spells r rts -> spells (quoted ", " ++ r) ([TComma] ++ rts).
Proof. intros H. cbn [app quoted list_ascii_of_string]. free TComma. apply sp_space. exact H. Qed.
Lemma infix_sep o r rts : spells r rts -> spells ((" " :: infix_text o ++ [" "]) ++ r) ([TOp o] ++ rts).
Proof.
  intros H. cbn [app]. rewrite <- app_assoc. cbn [app]. apply sp_space. apply (sp (TOp o)); [exact I| |apply sp_space; exact H].
  destruct o; try exact I; cbn; discriminate.
Qed.
Lemma Forall_fold {A} (P : A -> Prop) l : fold_right (fun e Q => P e /\ Q) True l -> Forall P l.
Proof. induction l as [|a l IH]; cbn; [constructor|]. intros [H K]. constructor; auto. Qed.
Lemma fold_Forall {A} (P : A -> Prop) l : Forall P l -> fold_right (fun e Q => P e /\ Q) True l.
Proof. induction 1; cbn; auto. Qed.

Section Program.
Variable mission : option nat.
Variable py : str -> str.
Lemma texts es : Forall (fun e => writable e -> forall sigs, named py sigs e -> text (show e) (toks e)) es ->
  forall sigs, Forall writable es -> Forall (named py sigs) es -> Forall2 text (map show es) (map toks es).
Proof. intros F sigs W N. induction F as [|e es H F IH]; [constructor|]. inversion W; inversion N; subst. constructor; eauto. Qed.
Lemma operands_two sym a b es : operands sym (a :: b :: es) = "(" :: separated (" " :: sym ++ [" "]) (a :: b :: es) ++ [")"].
Proof. reflexivity. Qed.
Lemma show_text e : writable e -> forall sigs, named py sigs e -> text (show e) (toks e).
Proof using Type.
  induction e as [b|z|t| |s|s|es IH|e i IH|e i j IH|e m IH|s es IH|k x a b IHa IHb|k x a b c IHa IHb IHc|u e IH|f e IH|a b IHa IHb|o es IH
                 |k lb ub e IH|k lb ub a b IHa IHb] using cx_ind'; intros W sigs N; cbn [writable named] in W, N; cbn [show toks].
  - destruct b; [apply (text_token TTrue)|apply (text_token TFalse)]; try exact I; intros r L; apply (loose_ends r L).
  - apply text_num.
  - rewrite (lower_decimal _ W). apply (text_token (TDec t)); [exact W|]. intros r L. apply (loose_ends r L).
  - apply (text_token TTime); [exact I|]. intros r L; apply (loose_ends r L).
  - apply text_name, N.
  - apply text_name, N.
  - destruct W as [Ne W]. apply Forall_fold in W, N. pose proof (texts _ IH _ W N) as T. intros r rts Hr Lr.
    destruct es as [|e es]; [congruence|]. set (l := e :: es) in *.
    change (braces ["{"] ["}"] (map show l)) with ("{" :: separated (quoted ", ") (map show l) ++ ["}"]).
    flat. free TLBrace. eapply text_separated; [exact comma_sep|left; reflexivity|exact T|discriminate| |left; reflexivity].
    free TRBrace. exact Hr.
  - intros r rts Hr Lr. flat. apply (IH W _ N); [|left; reflexivity].
    free TLBrack. apply (text_num i); [|left; reflexivity]. free TRBrack. exact Hr.
  - intros r rts Hr Lr. flat. apply (IH W _ N); [|left; reflexivity]. free TLBrack. free (TNum i).
    { split; [discriminate|]. cbn. intros [_ K]. discriminate K. }
    free TDots. apply (text_num j); [|left; reflexivity]. free TRBrack. exact Hr.
  - destruct N as [N M]. intros r rts Hr Lr. flat. assert (Hm : begins is_head (m ++ r)) by (destruct M as ((Id & _) & _); destruct m; [destruct Id|exact (proj1 Id)]).
    apply (IH W _ N); [|right; right; split; [reflexivity|exact Hm]]. free TDot.
    + destruct (m ++ r) as [|c l]; [intros []|]. cbn [begins] in Hm |- *. letters c Hm; discriminate.
    + apply (text_name m M); assumption.
  - destruct W as [Ne W]. destruct N as [U N]. apply Forall_fold in W, N. pose proof (texts _ IH _ W N) as T. intros r rts Hr Lr.
    destruct es as [|e es]; [congruence|]. set (l := e :: es) in *.
    change (braces (s ++ ["("]) [")"] (map show l)) with ((s ++ ["("]) ++ separated (quoted ", ") (map show l) ++ [")"]).
    flat. apply (sp (TSym s)); [exact U|discriminate|]. free TLParen.
    eapply text_separated; [exact comma_sep|left; reflexivity|exact T|discriminate| |left; reflexivity]. free TRParen. exact Hr.
  - destruct W as [Wa Wb]. destruct N as (U & Na & Nb). intros r rts Hr Lr.
    flat. free (TQuant k); [destruct k; discriminate|]. free TLParen. apply (sp (TSym x)); [exact U|discriminate|]. apply sp_space.
    free TColon; [discriminate|]. apply sp_space. apply (IHa Wa _ Na); [|left; reflexivity]. free TRParen. free TLParen.
    apply (IHb Wb _ Nb); [|left; reflexivity]. free TRParen. exact Hr.
  - contradiction.
  - intros r rts Hr Lr. cbn [operands]. flat. free TLParen.
    assert (Hu : forall r rts, spells r rts -> spells (prefix_text u ++ " " :: r) (prefix_token u :: rts)).
    { clear. intros r rts H. destruct u.
      - free TNot; [discriminate|apply sp_space; exact H].
      - free TTilde. apply sp_space. exact H.
      - free (TOp Sub); [discriminate|apply sp_space; exact H]. }
    apply Hu. apply (IH W _ N); [|left; reflexivity]. free TRParen. exact Hr.
  - destruct W as [_ W]. intros r rts Hr Lr. cbn [operands]. flat. free TLParen.
    free (TFun f); [discriminate|]. apply sp_space. apply (IH W _ N); [|left; reflexivity]. free TRParen. exact Hr.
  - destruct W as [Wa Wb]. destruct N as [Na Nb]. intros r rts Hr Lr. flat. free TPrev. free TLParen. apply (IHa Wa _ Na); [|left; reflexivity]. free TComma. apply (IHb Wb _ Nb); [|left; reflexivity].
    free TRParen. exact Hr.
  - destruct W as [Ne W]. apply Forall_fold in W, N. pose proof (texts _ IH _ W N) as T. intros r rts Hr Lr.
    destruct es as [|e1 [|e2 es]]; [cbn in Ne; lia|cbn in Ne; lia|]. set (l := e1 :: e2 :: es) in *.
    change (operands (infix_text o) (map show l)) with ("(" :: separated (" " :: infix_text o ++ [" "]) (map show l) ++ [")"]).
    flat. free TLParen.
    eapply text_separated; [exact (infix_sep o)|left; reflexivity|exact T|discriminate| |left; reflexivity]. free TRParen. exact Hr.
  - intros r rts Hr Lr. cbn [operands]. flat. free TLParen.
    apply spells_unary. apply sp_space. apply (IH W _ N); [|left; reflexivity]. free TRParen. exact Hr.
  - destruct W as [Wa Wb]. destruct N as [Na Nb]. intros r rts Hr Lr. rewrite operands_two. cbn [separated].
    flat. free TLParen. apply (IHa Wa _ Na); [|left; reflexivity].
    apply sp_space. apply spells_binary. apply sp_space. apply (IHb Wb _ Nb); [|left; reflexivity]. free TRParen. exact Hr.
Qed.

(** ** And they read as the expression *)
Notation phrase := (phrase mission py).
Lemma infix_leveled o : exists q, infix_level o q /\ q <= 13.
Proof. destruct o; eexists; (split; [constructor|lia]). Qed.
Lemma phrase_chain sigs o q es : infix_level o q -> q <= 13 -> Forall (fun e => phrase sigs (toks e) (nested e) 16 16) es ->
  forall ts e l r, phrase sigs ts e l r -> q <= r ->
  exists l' r', phrase sigs (joined [TOp o] (ts :: map toks es)) (fold_left (fun x y => COp o [x; y]) (map nested es) e) l' r'.
Proof.
  intros Q Hq F. induction F as [|e1 es P F IH]; intros ts e l r H Hr; [exists l, r; exact H|].
  pose proof (p_infix mission py sigs q [TOp o] _ ts e l r (toks e1) (nested e1) 16 16 (op_infix mission o q Q) H P Hr ltac:(lia)) as S.
  cbn [map fold_left]. rewrite joined_cons.
  destruct (IH _ _ _ _ S ltac:(lia)) as (l' & r' & G). exists l', r'.
  replace (ts ++ [TOp o] ++ joined [TOp o] (toks e1 :: map toks es)) with (joined [TOp o] ((ts ++ [TOp o] ++ toks e1) :: map toks es)); [exact G|].
  destruct es as [|e2 es]; [reflexivity|]. cbn [map]. rewrite !joined_cons, <- !app_assoc. reflexivity.
Qed.
Lemma phrase_args sigs es : es <> [] -> Forall (fun e => phrase sigs (toks e) (nested e) 16 16) es ->
  args mission py sigs (joined [TComma] (map toks es)) (map nested es).
Proof.
  intros N F. induction F as [|e es P F IH]; [congruence|]. destruct es as [|e2 es]; [eapply a_one; exact P|].
  cbn [map]. rewrite joined_cons. eapply a_more; [exact P|]. apply IH. discriminate.
Qed.
Lemma bounds_interval lb ub : interval mission (bounds lb ub) lb ub.
Proof. apply interval_full; constructor. Qed.
Lemma show_phrase sigs e : writable e -> named py sigs e ->
  phrase sigs (toks e) (nested e) 16 16 /\
  (in_parens e = true -> exists inner l r, toks e = TLParen :: inner ++ [TRParen] /\ phrase sigs inner (nested e) l r).
Proof.
  assert (Pa : forall e inner l r, toks e = TLParen :: inner ++ [TRParen] -> phrase sigs inner (nested e) l r ->
    phrase sigs (toks e) (nested e) 16 16 /\
    (in_parens e = true -> exists inner l r, toks e = TLParen :: inner ++ [TRParen] /\ phrase sigs inner (nested e) l r)).
  { intros e0 inner l r E H. split; [rewrite E; econstructor; exact H|]. intros _. eauto. }
  assert (All : forall es, Forall (fun e => writable e -> named py sigs e ->
      phrase sigs (toks e) (nested e) 16 16 /\
      (in_parens e = true -> exists inner l r, toks e = TLParen :: inner ++ [TRParen] /\ phrase sigs inner (nested e) l r)) es ->
    Forall writable es -> Forall (named py sigs) es -> Forall (fun e => phrase sigs (toks e) (nested e) 16 16) es).
  { induction 1 as [|e0 es H F IH]; intros W N; [constructor|]. inversion W; inversion N; subst. constructor; [apply H; assumption|auto]. }
  induction e as [b|z|t| |s|s|es IH|e i IH|e i j IH|e m IH|s es IH|k x a b IHa IHb|k x a b c IHa IHb IHc|u e IH|f e IH|a b IHa IHb|o es IH
                 |k lb ub e IH|k lb ub a b IHa IHb] using cx_ind'; intros W N; cbn [writable named] in W, N;
    try (split; [|discriminate]).
  - cbn [toks nested]. destruct b; apply p_leaf; constructor.
  - apply p_leaf. constructor.
  - cbn [toks nested]. apply p_leaf. rewrite <- N at 2. constructor.
  - apply p_leaf. constructor.
  - apply p_leaf. constructor. apply N.
  - apply p_leaf. constructor. apply N.
  - cbn [toks nested]. destruct W as [Ne W]. apply Forall_fold in W, N. apply p_array, phrase_args; auto.
  - cbn [toks nested]. apply p_index, IH; assumption.
  - cbn [toks nested]. apply p_slice, IH; assumption.
  - cbn [toks nested]. apply p_access, IH; [assumption|apply N].
  - cbn [toks nested]. destruct W as [Ne W]. destruct N as [U N]. apply Forall_fold in W, N. apply p_call, phrase_args; auto.
  - cbn [toks nested]. destruct W as [Wa Wb]. destruct N as (U & Na & Nb). eapply p_quant; [apply IHa|apply IHb]; assumption.
  - contradiction.
  - destruct (IH W N) as [P _]. eapply Pa; [reflexivity|]. cbn [nested].
    change (prefix_token u :: toks e) with ([prefix_token u] ++ toks e).
    apply (p_prefix mission py sigs 14 [prefix_token u] (CPre u) (toks e) (nested e) 16 16); [destruct u; constructor|exact P|lia].
  - destruct W as [Wi W]. destruct (IH W N) as [_ P]. destruct (P Wi) as (inner & l & r & E & G).
    eapply Pa; [cbn [toks]; reflexivity|]. rewrite E. cbn [nested]. eapply p_func. exact G.
  - cbn [toks nested]. destruct W as [Wa Wb]. destruct N as [Na Nb]. eapply p_prev; [apply IHa|apply IHb]; assumption.
  - destruct W as [Ne W]. apply Forall_fold in W, N. pose proof (All _ IH W N) as F. destruct es as [|e1 es]; [cbn in Ne; lia|].
    inversion F as [|? ? P1 F1]; subst. destruct (infix_leveled o) as (q & Q & Hq).
    destruct (phrase_chain sigs o q es Q Hq F1 (toks e1) (nested e1) 16 16 P1 ltac:(lia)) as (l & r & G).
    eapply Pa; [cbn [toks map]; reflexivity|exact G].
  - destruct (IH W N) as [P _]. eapply Pa; [reflexivity|]. cbn [nested].
    apply (p_prefix mission py sigs 5 (TUnary k :: bounds lb ub) (CT1 k lb ub) (toks e) (nested e) 16 16);
      [constructor; apply bounds_interval|exact P|lia].
  - destruct W as [Wa Wb]. destruct N as [Na Nb]. eapply Pa; [reflexivity|]. cbn [nested].
    eapply (p_infix mission py sigs 4 (TBinary k :: bounds lb ub) (CT2 k lb ub));
      [constructor; apply bounds_interval|apply IHa; assumption|apply IHb; assumption|lia|lia].
Qed.
Lemma show_reads sigs e : writable e -> named py sigs e -> reads mission py sigs (toks e) (nested e).
Proof. intros W N. exists 16, 16. apply show_phrase; assumption. Qed.
End Program.
