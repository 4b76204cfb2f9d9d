(** * Equality saturation: reading printed terms (proofs) *)
From Coq Require Import List Arith NArith ZArith Bool Ascii String Lia.
Require Import Verif.Mltl Verif.MapFile Verif.MapProofs Verif.Egglog Verif.EgglogProofs Verif.Saturate Verif.SaturateSpec Verif.SaturateProofs.
Import ListNotations.
Local Open Scope nat_scope.
Local Open Scope list_scope.
Local Open Scope char_scope.

(** ** Words *)
Lemma lex_skip : forall w r, lex (w ++ r) (List.length w) = lex r 0.
Proof. induction w as [|c w IH]; intros r; [destruct r; reflexivity|]. cbn [app List.length lex]. apply IH. Qed.
(** What may follow a word. *)
Definition ends (r : str) : Prop :=
  match r with [] => True | c :: _ => In c [" "; "009"; "010"; "013"; "("; ")"] end.
Definition spells (w : str) (t : token) : Prop := forall r, ends r -> lex (w ++ r) 0 = t :: lex r 0.
Lemma spells_intro c w t :
  ((c =? " ") || (c =? "009") || (c =? "010")) = false ->
  (forall r, ends r -> token_at (c :: w ++ r) = Some (t, S (List.length w))) -> spells (c :: w) t.
Proof.
  intros B H r E. cbn [app lex]. rewrite B, (H r E). cbn [pred]. rewrite lex_skip. reflexivity.
Qed.
Lemma ends_digit r : ends r -> take_while is_digit r = [].
Proof.
  destruct r as [|c r]; [reflexivity|]. cbn [ends In take_while].
  intros H; repeat (destruct H as [<-|H]; [reflexivity|]); contradiction.
Qed.
Lemma take_digits_end d r : forallb is_digit d = true -> ends r -> take_while is_digit (d ++ r) = d.
Proof. intros D E. rewrite take_all, ends_digit, app_nil_r by assumption. reflexivity. Qed.
Ltac keyword := apply spells_intro; [reflexivity|]; intros r E; reflexivity.
Lemma spells_implies : spells (word "Implies") (THead HImplies). Proof. keyword. Qed.
Lemma spells_not : spells (word "Not") (THead HNot). Proof. keyword. Qed.
Lemma spells_equiv : spells (word "Equiv") (THead HEquiv). Proof. keyword. Qed.
Lemma spells_future : spells (word "Future") (THead HFuture). Proof. keyword. Qed.
Lemma spells_global : spells (word "Global") (THead HGlobal). Proof. keyword. Qed.
Lemma spells_until : spells (word "Until") (THead HUntil). Proof. keyword. Qed.
Lemma spells_release : spells (word "Release") (THead HRelease). Proof. keyword. Qed.
Lemma spells_var : spells (word "Var") TKVar. Proof. keyword. Qed.
Lemma spells_interval : spells (word "Interval") TKInterval. Proof. keyword. Qed.
Lemma spells_kbool : spells (word "Bool") TKBool. Proof. keyword. Qed.
Lemma spells_true : spells (word "true") TTrue. Proof. keyword. Qed.
Lemma spells_false : spells (word "false") TFalse. Proof. keyword. Qed.
Ltac arity := apply spells_intro; [reflexivity|]; intros r E; unfold token_at; cbn [keyword_at starts keywords word list_ascii_of_string];
  cbn -[take_while]; cbn [take_while]; rewrite (ends_digit r E); reflexivity.
Lemma spells_and2 : spells (word "And2") (THead HAnd). Proof. arity. Qed.
Lemma spells_and3 : spells (word "And3") (THead HAnd). Proof. arity. Qed.
Lemma spells_and4 : spells (word "And4") (THead HAnd). Proof. arity. Qed.
Lemma spells_or2 : spells (word "Or2") (THead HOr). Proof. arity. Qed.
Lemma spells_or3 : spells (word "Or3") (THead HOr). Proof. arity. Qed.
Lemma spells_or4 : spells (word "Or4") (THead HOr). Proof. arity. Qed.

Lemma digit_token c s : is_digit c = true ->
  ((c =? " ") || (c =? "009") || (c =? "010")) = false /\
  token_at (c :: s) = Some (TNum (N.of_uint (uint_of (c :: take_while is_digit s))), S (List.length (take_while is_digit s))).
Proof.
  intros D. unfold token_at. cbn [take_while]. rewrite D.
  destruct c as [[] [] [] [] [] [] [] []]; try discriminate D; split; reflexivity.
Qed.
Lemma spells_number n : spells (dec n) (TNum n).
Proof.
  destruct (dec_cons n) as (c & r & E & D). pose proof (dec_digits n) as F. rewrite E in F |- *.
  cbn [forallb] in F. apply andb_true_iff in F as [_ F].
  destruct (digit_token c [] D) as [B _]. apply spells_intro; [exact B|]. intros s Es.
  rewrite (proj2 (digit_token c (r ++ s) D)), take_digits_end by assumption.
  rewrite <- E, dec_inv. reflexivity.
Qed.
Lemma quote_free l r : forallb (fun x => negb (x =? """")) l = true ->
  take_while (fun c => negb (c =? """")) (l ++ """" :: r) = l.
Proof. intros H. rewrite take_all by exact H. cbn. apply app_nil_r. Qed.
Lemma skipn_exact {A} (l r : list A) : skipn (List.length l) (l ++ r) = r.
Proof. induction l; [reflexivity|exact IHl]. Qed.
Lemma spells_string s : forallb (fun x => negb (x =? """")) s = true -> spells (quoted s) (TStr s).
Proof.
  intros H. unfold quoted. apply spells_intro; [reflexivity|]. intros r E.
  rewrite <- app_assoc. cbn [app].
  assert (Sa : string_at ("""" :: s ++ """" :: r) = Some s).
  { unfold string_at. rewrite (quote_free s r H), skipn_exact. reflexivity. }
  unfold token_at. rewrite Sa. rewrite app_length. cbn [List.length].
  replace (S (List.length s + 1)) with (2 + List.length s) by lia. reflexivity.
Qed.

(** ** Layout *)
Inductive lexed : lexeme -> token -> Prop :=
| lexed_open : lexed Open TL
| lexed_close : lexed Close TR
| lexed_word w t : spells w t -> lexed (Word w) t.
Lemma blank_skipped c r : In c [" "; "009"; "010"; "013"] -> lex (c :: r) 0 = lex r 0.
Proof. intros H. repeat (destruct H as [<-|H]; [reflexivity|]). contradiction. Qed.
Lemma gap_skipped s r : gap s -> lex (s ++ r) 0 = lex r 0.
Proof. induction 1; [reflexivity|]. cbn [app]. rewrite blank_skipped by assumption. exact IHForall. Qed.
Lemma blank_ends c r : In c [" "; "009"; "010"; "013"] -> ends (c :: r).
Proof. intros H. cbn in *. tauto. Qed.
Lemma gap_ends s r : gap s -> ends r -> ends (s ++ r).
Proof. destruct 1; [intros H; exact H|]. intros _. apply blank_ends. assumption. Qed.
Lemma laid_out_ends ls text : laid_out ls text -> (forall w ls', ls <> Word w :: ls') -> ends text.
Proof.
  destruct 1; intros N.
  - rewrite <- (app_nil_r s). apply gap_ends; [assumption|exact I].
  - apply gap_ends; [assumption|]. cbn. tauto.
  - apply gap_ends; [assumption|]. cbn. tauto.
  - exfalso. eapply N. reflexivity.
Qed.
Lemma laid_out_lexes ls text : laid_out ls text -> forall ts, Forall2 lexed ls ts -> lex text 0 = ts.
Proof.
  induction 1 as [s G|s ls text G L IH|s ls text G L IH|s w ls text G L IH W]; intros ts F; inversion F; subst.
  - rewrite <- (app_nil_r s). apply gap_skipped, G.
  - inversion H1; subst. rewrite gap_skipped by exact G. cbn. f_equal. apply IH. assumption.
  - inversion H1; subst. rewrite gap_skipped by exact G. cbn. f_equal. apply IH. assumption.
  - inversion H1; subst. rewrite gap_skipped by exact G. rewrite H0; [f_equal; apply IH; assumption|].
    destruct ls as [|[| |w'] ls]; try (eapply laid_out_ends; [exact L|discriminate]).
    destruct (W _ _ eq_refl) as (c & r & -> & K). inversion K; subst. apply blank_ends. assumption.
Qed.

(** ** Terms *)
Fixpoint back (t : eterm) : rterm :=
  match t with
  | TBool b => RBool b
  | TVar a => RSignal ("a" :: dec (N.of_nat a))
  | TNot p => RNot (back p)
  | TImplies p q => RImplies (back p) (back q)
  | TEquiv p q => REquiv (back p) (back q)
  | TAnd2 p q => RAnd [back p; back q]
  | TAnd3 p q r => RAnd [back p; back q; back r]
  | TAnd4 p q r s => RAnd [back p; back q; back r; back s]
  | TOr2 p q => ROr [back p; back q]
  | TOr3 p q r => ROr [back p; back q; back r]
  | TOr4 p q r s => ROr [back p; back q; back r; back s]
  | TGlobal l u p => RGlobal (Z.to_N l) (Z.to_N u) (back p)
  | TFuture l u p => RFuture (Z.to_N l) (Z.to_N u) (back p)
  | TUntil l u p q => RUntil (Z.to_N l) (Z.to_N u) (back p) (back q)
  | TRelease l u p q => RRelease (Z.to_N l) (Z.to_N u) (back p) (back q)
  end.
Lemma lexed_interval l u : Forall2 lexed (interval_text l u) (interval_tokens (Z.to_N l) (Z.to_N u)).
Proof.
  unfold interval_text, interval_tokens. repeat constructor; first [exact spells_interval|apply spells_number].
Qed.
Lemma Forall2_app' {A B} (R : A -> B -> Prop) a b c d : Forall2 R a c -> Forall2 R b d -> Forall2 R (a ++ b) (c ++ d).
Proof. apply Forall2_app. Qed.
Lemma phrases2 a b p q : phrase a p -> phrase b q -> phrases (a ++ b) [p; q].
Proof. intros P Q. constructor; [exact P|]. apply phrases_one, Q. Qed.
Lemma phrases3 a b c p q r : phrase a p -> phrase b q -> phrase c r -> phrases (a ++ b ++ c) [p; q; r].
Proof. intros P Q R. constructor; [exact P|]. apply phrases2; assumption. Qed.
Lemma phrases4 a b c d p q r s : phrase a p -> phrase b q -> phrase c r -> phrase d s -> phrases (a ++ b ++ c ++ d) [p; q; r; s].
Proof. intros P Q R T. constructor; [exact P|]. apply phrases3; assumption. Qed.
Ltac lexes := repeat first [assumption | exact lexed_close | apply lexed_interval | apply Forall2_app' | apply Forall2_cons
  | exact lexed_open | apply Forall2_nil | (apply lexed_word; first
  [exact spells_implies|exact spells_not|exact spells_equiv|exact spells_future|exact spells_global|exact spells_until
  |exact spells_release|exact spells_and2|exact spells_and3|exact spells_and4|exact spells_or2|exact spells_or3|exact spells_or4])].
Lemma printed_phrase t : exists ts, Forall2 lexed (printed t) ts /\ phrase ts (back t).
Proof.
  induction t; cbn [printed back];
    repeat match goal with H : exists _, _ |- _ => destruct H as (? & ? & ?) end.
  - destruct b; [exists [TL; TKBool; TTrue; TR]|exists [TL; TKBool; TFalse; TR]]; (split; [|constructor]); lexes;
      apply lexed_word; first [exact spells_kbool|exact spells_true|exact spells_false].
  - exists [TL; TKVar; TStr ("a" :: dec (N.of_nat a)); TR]. split; [|constructor]. lexes; apply lexed_word; [exact spells_var|].
    apply spells_string. cbn. apply dec_no. reflexivity.
  - eexists; split; [|constructor; eassumption]. lexes.
  - eexists; split; [|constructor; eassumption]. lexes.
  - eexists; split; [|constructor; eassumption]. lexes.
  - eexists; split; [|apply ph_and; [apply phrases2; eassumption|discriminate]]. rewrite <- app_assoc. lexes.
  - eexists; split; [|apply ph_and; [apply phrases3; eassumption|discriminate]]. rewrite <- !app_assoc. lexes.
  - eexists; split; [|apply ph_and; [apply phrases4; eassumption|discriminate]]. rewrite <- !app_assoc. lexes.
  - eexists; split; [|apply ph_or; [apply phrases2; eassumption|discriminate]]. rewrite <- app_assoc. lexes.
  - eexists; split; [|apply ph_or; [apply phrases3; eassumption|discriminate]]. rewrite <- !app_assoc. lexes.
  - eexists; split; [|apply ph_or; [apply phrases4; eassumption|discriminate]]. rewrite <- !app_assoc. lexes.
  - eexists; split; [|constructor; eassumption]. lexes.
  - eexists; split; [|constructor; eassumption]. lexes.
  - eexists; split; [|constructor; eassumption]. lexes.
  - eexists; split; [|constructor; eassumption]. lexes.
Qed.
Lemma text_parses t text : laid_out (printed t) text -> parse (lex text 0) [] = Some (back t).
Proof.
  intros L. destruct (printed_phrase t) as (ts & F & P). rewrite (laid_out_lexes _ _ L _ F). apply phrase_read, P.
Qed.

(** ** Atomics *)
Fixpoint occurs (a : nat) (t : eterm) : Prop :=
  match t with
  | TBool _ => False
  | TVar b => a = b
  | TNot p | TGlobal _ _ p | TFuture _ _ p => occurs a p
  | TImplies p q | TEquiv p q | TAnd2 p q | TOr2 p q | TUntil _ _ p q | TRelease _ _ p q => occurs a p \/ occurs a q
  | TAnd3 p q r | TOr3 p q r => occurs a p \/ occurs a q \/ occurs a r
  | TAnd4 p q r s | TOr4 p q r s => occurs a p \/ occurs a q \/ occurs a r \/ occurs a s
  end.
Lemma reads_occurs a t : reads (of_eterm t) a <-> occurs a t.
Proof. induction t; cbn [of_eterm reads occurs fold_right]; tauto. Qed.
Lemma atomic_known known a : known a = true -> atomic_of known ("a" :: dec (N.of_nat a)) = Some a.
Proof. intros K. unfold atomic_of. cbn [tl]. rewrite int_dec, Nat2N.id, K. reflexivity. Qed.
Lemma resolved known t : (forall a, occurs a t -> known a = true) -> resolve known (back t) = Some (of_eterm t).
Proof.
  induction t; intros K; cbn [back of_eterm resolve]; cbn [occurs] in K; rewrite ?Z_N_nat;
    repeat match goal with IH : _ -> resolve known (back ?t) = _ |- _ => rewrite IH by (intros a O; apply K; tauto); clear IH end;
    try reflexivity.
  rewrite atomic_known by (apply K; reflexivity). reflexivity.
Qed.
Lemma checked t : tlegal t -> checks true (back t) = true.
Proof.
  induction t; cbn [tlegal back checks forallb]; intros L;
    repeat match goal with IH : _ -> checks true _ = true |- _ => rewrite IH by tauto; clear IH end;
    rewrite ?andb_true_r; cbn [andb]; try reflexivity; apply N.leb_le; lia.
Qed.
Lemma checked_untimed ft t : ~ timed t -> checks ft (back t) = true.
Proof.
  induction t; cbn [timed back checks forallb]; intros L; try tauto;
    repeat match goal with IH : _ -> checks ft _ = true |- _ => rewrite IH by tauto; clear IH end; reflexivity.
Qed.
Lemma unchecked_timed t : timed t -> checks false (back t) = false.
Proof.
  induction t; cbn [timed back checks forallb]; intros L; try tauto;
    repeat match goal with H : _ \/ _ |- _ => destruct H as [H|H] end;
    repeat match goal with IH : timed ?t -> checks false _ = false, H : timed ?t |- _ => rewrite (IH H); clear IH H end;
    rewrite ?andb_false_r, ?andb_false_l; cbn [andb]; rewrite ?andb_false_r; reflexivity.
Qed.

(** ** Saturation does not bring in new atomics *)
Fixpoint pvars (p : tpat) : list nat :=
  match p with
  | PV v => [v]
  | PBool _ => []
  | PNot p | PGlobal _ _ p | PFuture _ _ p => pvars p
  | PImplies p q | PEquiv p q | PAnd2 p q | POr2 p q | PUntil _ _ p q | PRelease _ _ p q => pvars p ++ pvars q
  | PAnd3 p q r | POr3 p q r => pvars p ++ pvars q ++ pvars r
  | PAnd4 p q r s | POr4 p q r s => pvars p ++ pvars q ++ pvars r ++ pvars s
  end.
Lemma occurs_tinst a sb st p : occurs a (tinst sb st p) <-> exists v, In v (pvars p) /\ occurs a (st v).
Proof.
  assert (U : forall l l', (exists v, In v (l ++ l') /\ occurs a (st v)) <->
    (exists v, In v l /\ occurs a (st v)) \/ (exists v, In v l' /\ occurs a (st v))).
  { intros l l'. split.
    - intros (v & I & O). apply in_app_or in I as [I|I]; eauto.
    - intros [(v & I & O)|(v & I & O)]; exists v; split; auto; apply in_or_app; auto. }
  induction p; cbn [tinst occurs pvars]; rewrite ?U; try tauto.
  - split; [intros H; exists v; cbn; auto|intros (v' & [<-|[]] & H); exact H].
  - split; [tauto|intros (v & [] & _)].
Qed.
Definition covers (p q : tpat) : bool := forallb (fun v => existsb (Nat.eqb v) (pvars p)) (pvars q).
Lemma covers_occurs p q a sb st : covers p q = true -> occurs a (tinst sb st q) -> occurs a (tinst sb st p).
Proof.
  intros C H. apply occurs_tinst in H as (v & I & O). apply occurs_tinst. exists v. split; [|exact O].
  unfold covers in C. rewrite forallb_forall in C. specialize (C v I). apply existsb_exists in C as (w & J & E).
  apply Nat.eqb_eq in E. subst w. exact J.
Qed.
Lemma rules_cover r : In r all_rules -> covers (lhs r) (rhs r) = true /\ (bidirectional r = true -> covers (rhs r) (lhs r) = true).
Proof.
  assert (A : forallb (fun r => covers (lhs r) (rhs r) && (negb (bidirectional r) || covers (rhs r) (lhs r))) all_rules = true)
    by (vm_compute; reflexivity).
  rewrite forallb_forall in A. intros I. specialize (A r I). apply andb_true_iff in A as [A B].
  split; [exact A|]. intros Bi. rewrite Bi in B. exact B.
Qed.
Lemma saturation_atomics root s t a : egraph all_rules root s t -> (occurs a s -> occurs a root) /\ (occurs a t -> occurs a root).
Proof.
  induction 1; cbn [occurs] in *; try tauto.
  - assert (occurs a s -> occurs a t).
    { destruct t; cbn [subterms In occurs] in *;
        repeat match goal with H : _ \/ _ |- _ => destruct H as [H|H] | H : False |- _ => destruct H end; subst; tauto. }
    tauto.
  - destruct (rules_cover r H) as [C _]. split; [tauto|]. intros O. apply IHegraph, (covers_occurs _ _ _ _ _ C O).
  - destruct (rules_cover r H) as [_ C]. split; [tauto|]. intros O. apply IHegraph, (covers_occurs _ _ _ _ _ (C H0) O).
Qed.
