(** * Equality saturation: proofs *)
From Coq Require Import List Arith NArith ZArith Bool Ascii String Lia.
Require Import Verif.Mltl Verif.MapFile Verif.MapProofs Verif.Egglog Verif.EgglogProofs Verif.Saturate Verif.SaturateSpec.
Import ListNotations.
Local Open Scope nat_scope.
Local Open Scope list_scope.
Local Open Scope char_scope.

(** ** The reader accepts exactly the grammar *)
Definition finish (v : value) (ts : list token) (st : list frame) : option rterm :=
  match st with
  | [] => match v, ts with VTerm t, [] => Some t | _, _ => None end
  | f :: st => match give v f with Some f => parse ts (f :: st) | None => None end
  end.
Lemma parse_close ts f st v : close f = Some v -> parse (TR :: ts) (f :: st) = finish v ts st.
Proof. intros E. cbn [parse]. rewrite E. destruct st; reflexivity. Qed.
Lemma give_interval l u ts h st : temporal h = true ->
  parse (interval_tokens l u ++ ts) (FHead h None [] :: st) = parse ts (FHead h (Some (l, u)) [] :: st).
Proof. intros T. cbn. rewrite T. reflexivity. Qed.

Lemma rev_nonempty (ps : list rterm) : ps <> [] -> exists r l, rev ps = r :: l.
Proof.
  intros H. destruct (rev ps) as [|r l] eqn:E; [|eauto].
  apply (f_equal (@rev rterm)) in E. rewrite rev_involutive in E. contradiction.
Qed.
Lemma close_nary ps : ps <> [] ->
  close (FHead HAnd None (rev ps)) = Some (VTerm (RAnd ps)) /\ close (FHead HOr None (rev ps)) = Some (VTerm (ROr ps)).
Proof.
  intros H. destruct (rev_nonempty ps H) as (r & l & E).
  assert (K : rev (r :: l) = ps) by (rewrite <- E; apply rev_involutive).
  rewrite E, <- K. split; reflexivity.
Qed.
Scheme phrase_mut := Induction for phrase Sort Prop
  with phrases_mut := Induction for phrases Sort Prop.
Combined Scheme phrase_both from phrase_mut, phrases_mut.

Lemma phrase_parses :
  (forall ts r, phrase ts r -> forall rest st, parse (ts ++ rest) st = finish (VTerm r) rest st) /\
  (forall ts rs, phrases ts rs -> forall rest h iv ps st,
     (match iv with None => temporal h = false | Some _ => True end) ->
     parse (ts ++ rest) (FHead h iv ps :: st) = parse rest (FHead h iv (rev rs ++ ps) :: st)).
Proof.
  apply phrase_both; intros; cbn [app]; repeat rewrite <- app_assoc;
    try (cbn [parse advance];
         rewrite ?give_interval by reflexivity;
         repeat (first [rewrite H | rewrite H0]; cbn [finish give temporal]); cbn [app];
         erewrite parse_close by reflexivity; reflexivity);
    try (destruct st; reflexivity).
  - cbn [parse advance]. rewrite H by reflexivity. cbn [app]. rewrite app_nil_r. apply parse_close.
    apply (close_nary ps n).
  - cbn [parse advance]. rewrite H by reflexivity. cbn [app]. rewrite app_nil_r. apply parse_close.
    apply (close_nary ps n).
  - rewrite H. cbn [finish give]. destruct iv as [iv|].
    + rewrite H0 by exact I. cbn [rev]. rewrite <- app_assoc. reflexivity.
    + replace (match ps0 with [] | _ => if temporal h then None else Some (FHead h None (p :: ps0)) end) with (Some (FHead h None (p :: ps0))) by (destruct ps0; rewrite H1; reflexivity). rewrite H0 by exact H1. cbn [rev]. rewrite <- app_assoc. reflexivity.
Qed.
Lemma phrase_read ts r : phrase ts r -> parse ts [] = Some r.
Proof. intros H. rewrite <- (app_nil_r ts), (proj1 phrase_parses _ _ H). reflexivity. Qed.

(** What is open: the tokens read since the outermost parenthesis. *)
Inductive half : frame -> list token -> Prop :=
| half_open : half FOpen [TL]
| half_head h a ps : temporal h = false -> phrases a ps -> half (FHead h None (rev ps)) (TL :: THead h :: a)
| half_bare h : temporal h = true -> half (FHead h None []) [TL; THead h]
| half_timed h l u a ps : temporal h = true -> phrases a ps ->
    half (FHead h (Some (l, u)) (rev ps)) (TL :: THead h :: interval_tokens l u ++ a)
| half_interval bs : half (FInterval bs) (TL :: TKInterval :: map TNum (rev bs))
| half_bool : half (FBool None) [TL; TKBool]
| half_value b : half (FBool (Some b)) [TL; TKBool; if b then TTrue else TFalse]
| half_var : half (FVar None) [TL; TKVar]
| half_name s : half (FVar (Some s)) [TL; TKVar; TStr s].
Inductive open_stack : list frame -> list token -> Prop :=
| open_none : open_stack [] []
| open_more f a st b : half f a -> open_stack st b -> open_stack (f :: st) (b ++ a).
Definition written_value (v : value) (a : list token) : Prop :=
  match v with VTerm t => phrase a t | VInterval l u => a = interval_tokens l u end.

Lemma phrases_app a ps b qs : phrases a ps -> phrases b qs -> phrases (a ++ b) (ps ++ qs).
Proof. induction 1; intros H1; [exact H1|]. rewrite <- app_assoc. cbn. constructor; auto. Qed.
Lemma phrases_one a p : phrase a p -> phrases a [p].
Proof. intros H. rewrite <- (app_nil_r a). repeat constructor. exact H. Qed.
Lemma phrases_snoc a ps b p : phrases a ps -> phrase b p -> phrases (a ++ b) (ps ++ [p]).
Proof. intros H K. apply phrases_app; [exact H|apply phrases_one, K]. Qed.
Lemma phrases_inv a ps : phrases a ps ->
  match ps with
  | [] => a = []
  | p :: ps => exists b c, a = b ++ c /\ phrase b p /\ phrases c ps
  end.
Proof. destruct 1; eauto. Qed.
Lemma phrases_two a p q : phrases a [p; q] -> exists b c, a = b ++ c /\ phrase b p /\ phrase c q.
Proof.
  intros H. apply phrases_inv in H as (b & c & -> & P & H). apply phrases_inv in H as (d & e & -> & Q & H).
  apply phrases_inv in H. subst e. rewrite app_nil_r. eauto.
Qed.
Lemma phrases_single a p : phrases a [p] -> phrase a p.
Proof. 
  intros H. apply phrases_inv in H as (b & c & -> & P & H). apply phrases_inv in H. subst c. rewrite app_nil_r. exact P.
Qed.
Lemma rev_is {A} (l r : list A) : rev l = r -> l = rev r.
Proof. intros <-. symmetry. apply rev_involutive. Qed.

Lemma half_close f a v : half f a -> close f = Some v -> written_value v (a ++ [TR]).
Proof.
  intros H E. destruct H as [|h a ps T P|h T|h l u a ps T P|bs| |b| |s]; try discriminate.
  - destruct h; try discriminate T; cbn [close] in E;
      destruct (rev ps) as [|x xs] eqn:R; try discriminate; apply rev_is in R;
      try (destruct xs as [|y ys]; try discriminate; try (destruct ys; try discriminate));
      injection E as <-; cbn [rev app] in R; subst ps; cbn [written_value]; cbn [app];
      try (apply phrases_two in P as (b & c & -> & P1 & P2); rewrite <- app_assoc; constructor; assumption);
      try (constructor; apply phrases_single; assumption);
      try (constructor; [exact P|]; intros N; apply (f_equal (@List.length rterm)) in N; cbn in N; rewrite ?app_length in N; cbn in N; lia).
  - destruct h; discriminate.
  - destruct h; try discriminate T; cbn [close] in E;
      destruct (rev ps) as [|x xs] eqn:R; try discriminate; apply rev_is in R;
      try (destruct xs as [|y ys]; try discriminate; try (destruct ys; try discriminate));
      injection E as <-; cbn [rev app] in R; subst ps; cbn [written_value];
      cbn [app]; try (apply phrases_two in P as (b & c & -> & P1 & P2)); try (apply phrases_single in P);
      repeat rewrite <- app_assoc; first [exact (ph_future _ _ _ _ P)|exact (ph_global _ _ _ _ P)
        |exact (ph_until _ _ _ _ _ _ P1 P2)|exact (ph_release _ _ _ _ _ _ P1 P2)].
  - cbn [close] in E. destruct bs as [|u [|l [|]]]; try discriminate. injection E as <-. reflexivity.
  - injection E as <-. destruct b; constructor.
  - injection E as <-. constructor.
Qed.
Lemma half_give f a v b f' : half f a -> written_value v b -> give v f = Some f' -> half f' (a ++ b).
Proof.
  intros H W E. destruct H as [|h a ps T P|h T|h l u a ps T P|bs| |c| |s]; try discriminate.
  - cbn [give] in E. rewrite T in E. destruct v as [t|l u].
    + assert (f' = FHead h None (t :: rev ps)) as -> by (destruct (rev ps); injection E as <-; reflexivity).
      cbn [written_value] in W. cbn [app]. rewrite <- (rev_involutive (t :: rev ps)).
      apply half_head; [exact T|]. cbn [rev]. rewrite rev_involutive. apply phrases_snoc; assumption.
    + destruct (rev ps); discriminate.
  - cbn [give] in E. rewrite T in E. destruct v as [t|l u]; [discriminate|]. injection E as <-.
    cbn [written_value] in W. subst b. cbn [app].
    pose proof (half_timed h l u [] [] T phs_none) as K. rewrite app_nil_r in K. exact K.
  - cbn [give] in E. destruct v as [t|l' u']; [|discriminate]. injection E as <-.
    cbn [written_value] in W. cbn [app]. rewrite <- app_assoc. rewrite <- (rev_involutive (t :: rev ps)).
    apply half_timed; [exact T|]. cbn [rev]. rewrite rev_involutive. apply phrases_snoc; assumption.
Qed.
Lemma half_advance f a t f' : half f a -> advance t f = Some f' -> half f' (a ++ [t]).
Proof.
  intros H E. destruct H as [|h a ps T P|h T|h l u a ps T P|bs| |c| |s]; destruct t; try discriminate; injection E as <-;
    cbn [app]; try solve [constructor].
  - destruct (temporal h) eqn:T; [constructor; exact T|]. exact (half_head h [] [] T phs_none).
  - pose proof (half_interval (n :: bs)) as K. cbn [rev] in K. rewrite map_app in K. exact K.
Qed.
Lemma parse_phrase : forall ts st a r, open_stack st a -> parse ts st = Some r -> phrase (a ++ ts) r.
Proof.
  induction ts as [|t ts IH]; intros st a r O E; [discriminate|].
  assert (K : forall f st f', st = f :: skipn 1 st -> advance t f = Some f' -> parse ts (f' :: skipn 1 st) = Some r ->
    open_stack st a -> phrase (a ++ t :: ts) r).
  { intros f st0 f' Q A P Os. rewrite Q in Os. inversion Os as [|f0 x st1 y Hf Ho]; subst.
    pose proof (IH (f' :: skipn 1 st0) (y ++ x ++ [t]) r (open_more _ _ _ _ (half_advance _ _ _ _ Hf A) Ho) P) as F.
    rewrite <- !app_assoc in F. rewrite <- app_assoc. exact F. }
  destruct t; cbn [parse] in E;
    try (destruct st as [|f st]; [discriminate|]; destruct (advance _ f) as [f'|] eqn:A; [|discriminate];
         exact (K f (f :: st) f' eq_refl A E O)).
  - pose proof (IH _ _ _ (open_more _ _ _ _ half_open O) E) as F. rewrite <- app_assoc in F. exact F.
  - destruct st as [|f st]; [discriminate|]. destruct (close f) as [v|] eqn:C; [|discriminate].
    inversion O as [|f0 x st1 y Hf Ho]; subst. pose proof (half_close _ _ _ Hf C) as W.
    destruct st as [|f' st'].
    + inversion Ho; subst. destruct v as [t|]; [|discriminate]. destruct ts; [|discriminate].
      injection E as <-. exact W.
    + destruct (give v f') as [f''|] eqn:G; [|discriminate].
      inversion Ho as [|f1 x1 st2 y1 Hf1 Ho1]; subst.
      pose proof (IH _ _ _ (open_more _ _ _ _ (half_give _ _ _ _ _ Hf1 W G) Ho1) E) as F.
      repeat rewrite <- app_assoc in *. exact F.
Qed.
Lemma reader_grammar ts r : parse ts [] = Some r <-> phrase ts r.
Proof. split; [intros E; exact (parse_phrase ts [] [] r open_none E)|apply phrase_read]. Qed.
