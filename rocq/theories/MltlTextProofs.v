(** * MLTL standard files (proofs) *)
From Coq Require Import List Arith NArith Bool Ascii String Lia.
From Coq Require Decimal DecimalFacts DecimalN.
Require Import Verif.Mltl Verif.MapFile Verif.MapProofs Verif.MltlText Verif.MltlTextSpec.
Import ListNotations.
Local Open Scope list_scope.

(** ** The parser accepts what the grammar derives *)
Definition token_level (t : token) : nat :=
  match t with TImpl | TIff => 1 | TOr => 2 | TAnd => 3 | TBinary _ => 4 | _ => 0 end.
Definition follow (l : nat) (rest : list token) : Prop :=
  match rest with t :: _ => token_level t <= l | [] => True end.
Definition low (l : nat) (st : list frame) : Prop :=
  match st with
  | [] | FParen :: _ => True
  | FNot :: _ | FUnary _ _ _ :: _ => 5 <= l
  | FInfix o _ :: _ => level o < l
  end.

Section Parser.
Variable mission : option nat.
Notation parse := (parse mission).
Notation formula := (formula mission).

Lemma formula_down l m ts e : l <= m -> formula m ts e -> formula l ts e.
Proof. induction 1 as [|m _ IH]; [auto|]. intros H. apply IH, f_higher, H. Qed.
Lemma formula_level l ts e : formula l ts e -> l <= 5.
Proof. induction 1; lia. Qed.
Lemma level_bounds o : 1 <= level o <= 4.
Proof. destruct o; cbn; lia. Qed.
Lemma bound_iff b n : bound mission b n <-> bound_of mission b = Some n.
Proof.
  split.
  - intros [k|m H]; cbn; congruence.
  - destruct b; cbn; intros H; try discriminate; [injection H as <-; constructor|constructor; exact H].
Qed.

Lemma collapse f e q e' st rest : complete f e = Some (q, e') -> follow q rest ->
  parse (f :: st) (Some e) rest = parse st (Some e') rest.
Proof.
  intros C F. destruct rest as [|t rest]; [reflexivity|]. cbn [follow] in F.
  assert (R : forall p, p <= q -> reduce p (f :: st) e = reduce p st e').
  { intros p Hp. cbn [reduce]. rewrite C. apply Nat.leb_le in Hp. rewrite Hp. reflexivity. }
  destruct t; cbn [token_level] in F; cbn [MltlText.parse]; try reflexivity; try (rewrite R by (cbn [level]; lia); reflexivity).
  destruct rest as [|t1 rest]; [reflexivity|]. destruct t1; try reflexivity.
  destruct rest as [|x rest]; [reflexivity|]. destruct rest as [|t2 rest]; [reflexivity|].
  destruct t2; try reflexivity.
  - destruct rest as [|y rest]; [reflexivity|]. destruct rest as [|t3 rest]; [reflexivity|]. destruct t3; try reflexivity.
    destruct (bound_of mission x) as [lb|]; [|reflexivity]. destruct (bound_of mission y) as [ub|]; [|reflexivity].
    rewrite R by exact F. reflexivity.
  - destruct (bound_of mission x) as [ub|]; [|reflexivity]. rewrite R by exact F. reflexivity.
Qed.

Lemma reduce_low l st e : low l st -> l <= 4 -> reduce l st e = (st, e).
Proof.
  destruct st as [|[] st]; cbn [low reduce complete]; intros H Hl; try reflexivity; try lia.
  replace (l <=? level o) with false; [reflexivity|]. symmetry. apply Nat.leb_gt. exact H.
Qed.

Lemma prefix_step op f st ts : prefix_op mission op f ->
  exists fr, parse st None (op ++ ts) = parse (fr :: st) None ts /\
    (forall e, complete fr e = Some (5, f e)) /\ low 5 (fr :: st).
Proof.
  assert (I : forall u iv lb ub, interval mission iv lb ub ->
    parse st None ((TUnary u :: iv) ++ ts) = parse (FUnary u lb ub :: st) None ts).
  { intros u iv lb ub [b ub' B|a b lb' ub' A B]; cbn [app MltlText.parse]; apply bound_iff in B; rewrite ?B; [reflexivity|].
    apply bound_iff in A. rewrite A. reflexivity. }
  intros [|iv lb ub H|iv lb ub H|iv lb ub H|iv lb ub H].
  - exists FNot. cbn; auto.
  - exists (FUnary UG lb ub). rewrite (I _ _ _ _ H). cbn; auto.
  - exists (FUnary UF lb ub). rewrite (I _ _ _ _ H). cbn; auto.
  - exists (FUnary UH lb ub). rewrite (I _ _ _ _ H). cbn; auto.
  - exists (FUnary UO lb ub). rewrite (I _ _ _ _ H). cbn; auto.
Qed.
Lemma infix_step l op f st e ts : infix_op mission l op f -> low l st ->
  exists o, parse st (Some e) (op ++ ts) = parse (FInfix o e :: st) None ts /\
    level o = l /\ (forall a b, apply_infix o a b = f a b) /\ follow l (op ++ ts) /\ l <= 4.
Proof.
  intros H Lw.
  assert (I : l = 4 -> forall b iv lb ub, interval mission iv lb ub ->
    parse st (Some e) ((TBinary b :: iv) ++ ts) = parse (FInfix (ITemp b lb ub) e :: st) None ts).
  { intros -> b iv lb ub [x ub' B|a x lb' ub' A B]; cbn [app MltlText.parse]; apply bound_iff in B; rewrite ?B.
    - cbn [level]. rewrite (reduce_low 4) by auto. reflexivity.
    - apply bound_iff in A. rewrite A. cbn [level]. rewrite (reduce_low 4) by auto. reflexivity. }
  destruct H as [| | | |iv lb ub H|iv lb ub H|iv lb ub H|iv lb ub H].
  - exists IImpl. cbn [app MltlText.parse level]. rewrite (reduce_low 1) by auto. cbn; repeat split; auto with arith.
  - exists IIff. cbn [app MltlText.parse level]. rewrite (reduce_low 1) by auto. cbn; repeat split; auto with arith.
  - exists IOr. cbn [app MltlText.parse level]. rewrite (reduce_low 2) by auto. cbn; repeat split; auto with arith.
  - exists IAnd. cbn [app MltlText.parse level]. rewrite (reduce_low 3) by auto. cbn; repeat split; auto with arith.
  - exists (ITemp BU lb ub). rewrite (I eq_refl _ _ _ _ H). cbn; repeat split; auto with arith.
  - exists (ITemp BR lb ub). rewrite (I eq_refl _ _ _ _ H). cbn; repeat split; auto with arith.
  - exists (ITemp BS lb ub). rewrite (I eq_refl _ _ _ _ H). cbn; repeat split; auto with arith.
  - exists (ITemp BT lb ub). rewrite (I eq_refl _ _ _ _ H). cbn; repeat split; auto with arith.
Qed.

Lemma follow_up l m rest : l <= m -> follow l rest -> follow m rest.
Proof. destruct rest; cbn; [auto|lia]. Qed.
Lemma low_up l m st : l <= m -> low l st -> low m st.
Proof. destruct st as [|[] st]; cbn; auto; lia. Qed.
Lemma complete_parse l ts e : formula l ts e -> forall st rest, low l st -> follow l rest ->
  parse st None (ts ++ rest) = parse st (Some e) rest.
Proof.
  induction 1 as [| |n|ts e _ IH|op f ts e Hop _ IH|l op f ts1 e1 ts2 e2 Hop _ IH1 _ IH2|l ts e _ IH]; intros st rest Lw Fo;
    try reflexivity.
  - cbn [app MltlText.parse]. rewrite <- app_assoc. rewrite IH by (cbn; auto). reflexivity.
  - rewrite <- app_assoc. destruct (prefix_step op f st (ts ++ rest) Hop) as (fr & E & C & Lf). rewrite E, IH by assumption.
    apply (collapse _ _ 5); [apply C|exact Fo].
  - rewrite <- !app_assoc. destruct (infix_step l op f st e1 (ts2 ++ rest) Hop Lw) as (o & E & Lo & A & F & L4).
    rewrite IH1 by assumption. rewrite E. rewrite IH2.
    + apply (collapse _ _ l); [cbn; rewrite A, Lo; reflexivity|exact Fo].
    + cbn. lia.
    + eapply follow_up; [|exact Fo]. lia.
  - apply IH; [eapply low_up; [|exact Lw]; lia|eapply follow_up; [|exact Fo]; lia].
Qed.
Lemma parse_complete ts es : formulas mission ts es -> parse [] None ts = Some es.
Proof.
  induction 1 as [|ts e rest es F _ IH]; [reflexivity|]. rewrite (complete_parse _ _ _ F) by (cbn; auto with arith).
  cbn [MltlText.parse reduce]. rewrite IH. reflexivity.
Qed.

(** ** It accepts nothing else *)
Inductive ctx : list frame -> list token -> nat -> Prop :=
| c_nil : ctx [] [] 1
| c_paren st pre l : ctx st pre l -> ctx (FParen :: st) (pre ++ [TLParen]) 1
| c_prefix f op g st pre l : (forall e, complete f e = Some (5, g e)) -> prefix_op mission op g -> ctx st pre l ->
    ctx (f :: st) (pre ++ op) 5
| c_infix o op ts e st pre l : infix_op mission (level o) op (apply_infix o) -> formula (level o) ts e -> l <= level o ->
    ctx st pre l -> ctx (FInfix o e :: st) (pre ++ ts ++ op) (S (level o)).
Lemma ctx_level st pre l : ctx st pre l -> 1 <= l <= 5.
Proof. destruct 1; try lia. pose proof (level_bounds o). lia. Qed.

Lemma reduce_sound p st pre l : ctx st pre l -> forall m ts e st' e', p <= m -> p <= 4 -> l <= m -> formula m ts e ->
  reduce p st e = (st', e') ->
  exists pre' ts' l' m', ctx st' pre' l' /\ formula m' ts' e' /\ pre ++ ts = pre' ++ ts' /\ l' <= m' /\ p <= m' /\
    l' <= Nat.max p 1 /\ (p = 0 -> st' = [] \/ exists st0, st' = FParen :: st0).
Proof.
  induction 1 as [|st pre l C _|f op g st pre l Cf Hop C IH|o op ts0 e0 st pre l Hop F Hl C IH]; intros m ts e st' e' Hp H4 Hm Fe R.
  - cbn in R. injection R as <- <-. exists [], ts, 1, m. repeat split; auto; try lia. constructor.
  - cbn in R. injection R as <- <-. exists (pre ++ [TLParen]), ts, 1, m. repeat split; auto; try lia.
    + econstructor; eassumption.
    + intros _. right. eauto.
  - cbn [reduce] in R. rewrite Cf in R. replace (p <=? 5) with true in R by (symmetry; apply Nat.leb_le; lia).
    destruct (IH 5 (op ++ ts) (g e) st' e') as (pre' & ts' & l' & m' & H1 & H2 & H3 & H5); try lia; try assumption.
    + apply (ctx_level _ _ _ C).
    + apply f_prefix; [exact Hop|]. eapply formula_down; [|exact Fe]. exact Hm.
    + exists pre', ts', l', m'. rewrite <- app_assoc. auto.
  - cbn [reduce complete] in R. destruct (p <=? level o) eqn:E.
    + apply Nat.leb_le in E.
      destruct (IH (level o) (ts0 ++ op ++ ts) (apply_infix o e0 e) st' e') as (pre' & ts' & l' & m' & H1 & H2 & H3 & H5);
        try lia; try assumption.
      * apply f_infix; [exact Hop|exact F|]. eapply formula_down; [|exact Fe]. exact Hm.
      * exists pre', ts', l', m'. rewrite <- !app_assoc. auto.
    + apply Nat.leb_gt in E. injection R as <- <-.
      exists (pre ++ ts0 ++ op), ts, (S (level o)), m.
      split; [econstructor; eassumption|]. repeat split; auto; try lia.
Qed.

Lemma unary_op u iv lb ub : interval mission iv lb ub ->
  prefix_op mission (TUnary u :: iv) (apply_unary u lb ub).
Proof. destruct u; cbn; constructor; assumption. Qed.
Lemma infix_simple st pre l ts0 e o t st' e' : ctx st pre l -> formula 5 ts0 e -> reduce (level o) st e = (st', e') ->
  infix_op mission (level o) t (apply_infix o) ->
  exists pre' l', ctx (FInfix o e' :: st') pre' l' /\ pre' = (pre ++ ts0) ++ t.
Proof.
  intros C F R Hop. pose proof (level_bounds o) as B. pose proof (ctx_level _ _ _ C) as Lv.
  destruct (reduce_sound (level o) _ _ _ C 5 ts0 e st' e') as (pre' & ts' & l' & m' & H1 & H2 & H3 & H4 & H5 & H6 & _); try lia; try assumption.
  exists (pre' ++ ts' ++ t), (S (level o)). split; [|rewrite app_assoc, <- H3; reflexivity].
  eapply c_infix; [exact Hop| |  |exact H1].
  - eapply formula_down; [|exact H2]. lia.
  - lia.
Qed.
Lemma temp_op b iv lb ub : interval mission iv lb ub ->
  infix_op mission 4 (TBinary b :: iv) (apply_infix (ITemp b lb ub)).
Proof.
  intros H. destruct b.
  - exact (op_until mission iv lb ub H).
  - exact (op_release mission iv lb ub H).
  - exact (op_since mission iv lb ub H).
  - exact (op_trigger mission iv lb ub H).
Qed.

Definition sound_at (n : nat) : Prop := forall ts es, List.length ts < n ->
  (forall st pre l, ctx st pre l -> parse st None ts = Some es -> formulas mission (pre ++ ts) es) /\
  (forall st pre l ts0 e, ctx st pre l -> formula 5 ts0 e -> parse st (Some e) ts = Some es -> formulas mission (pre ++ ts0 ++ ts) es).
Lemma parse_sound_at : forall n, sound_at n.
Proof.
  induction n as [|n IH]; intros ts es Hn; [lia|]. split.
  - intros st pre l C H. destruct ts as [|t ts].
    { cbn in H. destruct st; [|discriminate]. injection H as <-. inversion C; subst. constructor. }
    cbn [List.length] in Hn.
    assert (Op : forall fr op g r, List.length r < n -> parse (fr :: st) None r = Some es ->
               (forall e, complete fr e = Some (5, g e)) -> prefix_op mission op g -> formulas mission (pre ++ op ++ r) es).
    { intros fr op g r Hr P Cf Po. rewrite app_assoc. eapply (proj1 (IH r es Hr)); [|exact P]. eapply c_prefix; eassumption. }
    assert (At : forall e, formula 5 [t] e -> parse st (Some e) ts = Some es -> formulas mission (pre ++ t :: ts) es).
    { intros e Fe P. apply (proj2 (IH ts es ltac:(lia)) st pre l [t] e C Fe P). }
    destruct t; cbn [MltlText.parse] in H; try discriminate.
    + apply (Op FNot [TNot] ENot ts); [lia|exact H|reflexivity|constructor].
    + change (TLParen :: ts) with ([TLParen] ++ ts). rewrite app_assoc.
      eapply (proj1 (IH ts es ltac:(lia))); [|exact H]. econstructor; eassumption.
    + destruct ts as [|t1 ts]; [discriminate|]. destruct t1; try discriminate.
      destruct ts as [|x ts]; [discriminate|]. destruct ts as [|t2 ts]; [discriminate|]. destruct t2; try discriminate.
      * destruct ts as [|y ts]; [discriminate|]. destruct ts as [|t3 ts]; [discriminate|]. destruct t3; try discriminate.
        destruct (bound_of mission x) as [lb|] eqn:Bx; [|discriminate]. destruct (bound_of mission y) as [ub|] eqn:By; [|discriminate].
        apply (Op (FUnary u lb ub) [TUnary u; TLBrack; x; TComma; y; TRBrack] (apply_unary u lb ub) ts);
          [cbn in Hn; lia|exact H|reflexivity|]. apply unary_op, interval_full; apply bound_iff; assumption.
      * destruct (bound_of mission x) as [ub|] eqn:Bx; [|discriminate].
        apply (Op (FUnary u 0 ub) [TUnary u; TLBrack; x; TRBrack] (apply_unary u 0 ub) ts);
          [cbn in Hn; lia|exact H|reflexivity|]. apply unary_op, interval_short; apply bound_iff; assumption.
    + apply (At (EConst true)); [constructor|exact H].
    + apply (At (EConst false)); [constructor|exact H].
    + apply (At (EAtom (N.to_nat n0))); [constructor|exact H].
  - intros st pre l ts0 e C Fe H. destruct ts as [|t ts]; [discriminate|]. cbn [List.length] in Hn.
    assert (Inf : forall o op r st' e', reduce (level o) st e = (st', e') -> List.length r < n ->
               parse (FInfix o e' :: st') None r = Some es -> infix_op mission (level o) op (apply_infix o) ->
               formulas mission (pre ++ ts0 ++ op ++ r) es).
    { intros o op r st' e' R Hr P Ho. destruct (infix_simple _ _ _ _ _ _ _ _ _ C Fe R Ho) as (pre' & l' & C' & E).
      pose proof (proj1 (IH r es Hr) _ _ _ C' P) as F. rewrite E in F. rewrite <- !app_assoc in F. exact F. }
    destruct t; cbn [MltlText.parse] in H; try discriminate.
    + destruct (reduce (level IAnd) st e) as [st' e'] eqn:R. apply (Inf IAnd [TAnd] ts st' e' R); [lia|exact H|constructor].
    + destruct (reduce (level IOr) st e) as [st' e'] eqn:R. apply (Inf IOr [TOr] ts st' e' R); [lia|exact H|constructor].
    + destruct (reduce (level IImpl) st e) as [st' e'] eqn:R. apply (Inf IImpl [TImpl] ts st' e' R); [lia|exact H|constructor].
    + destruct (reduce (level IIff) st e) as [st' e'] eqn:R. apply (Inf IIff [TIff] ts st' e' R); [lia|exact H|constructor].
    + destruct (reduce 0 st e) as [st' e'] eqn:R. destruct st'; [|discriminate].
      destruct (parse [] None ts) as [es'|] eqn:P; [|discriminate]. injection H as <-.
      destruct (reduce_sound 0 _ _ _ C 5 ts0 e [] e' ltac:(lia) ltac:(lia) (proj2 (ctx_level _ _ _ C)) Fe R)
        as (pre' & ts' & l' & m' & H1 & H2 & H3 & H4 & _).
      inversion H1; subst. rewrite app_assoc, H3. cbn [app]. constructor.
      * eapply formula_down; [|exact H2]. exact H4.
      * apply (proj1 (IH ts es' ltac:(lia)) [] [] 1 c_nil P).
    + destruct (reduce 0 st e) as [st' e'] eqn:R. destruct st' as [|[] st']; try discriminate.
      destruct (reduce_sound 0 _ _ _ C 5 ts0 e _ e' ltac:(lia) ltac:(lia) (proj2 (ctx_level _ _ _ C)) Fe R)
        as (pre' & ts' & l' & m' & H1 & H2 & H3 & H4 & _).
      inversion H1 as [|st0 pre0 l0 C0| |]; subst.
      * pose proof (proj2 (IH ts es ltac:(lia)) st' pre0 l0 (TLParen :: ts' ++ [TRParen]) e' C0) as G.
        assert (F5 : formula 5 (TLParen :: ts' ++ [TRParen]) e').
        { apply f_paren. eapply formula_down; [|exact H2]. exact H4. }
        specialize (G F5 H). rewrite app_assoc, H3. rewrite <- !app_assoc. cbn [app] in G |- *. rewrite <- app_assoc in G. exact G.
      * match goal with X : forall e, complete FParen e = _ |- _ => specialize (X e'); discriminate end.
    + destruct ts as [|t1 ts]; [discriminate|]. destruct t1; try discriminate.
      destruct ts as [|x ts]; [discriminate|]. destruct ts as [|t2 ts]; [discriminate|]. destruct t2; try discriminate.
      * destruct ts as [|y ts]; [discriminate|]. destruct ts as [|t3 ts]; [discriminate|]. destruct t3; try discriminate.
        destruct (bound_of mission x) as [lb|] eqn:Bx; [|discriminate]. destruct (bound_of mission y) as [ub|] eqn:By; [|discriminate].
        destruct (reduce (level (ITemp b lb ub)) st e) as [st' e'] eqn:R.
        apply (Inf (ITemp b lb ub) [TBinary b; TLBrack; x; TComma; y; TRBrack] ts st' e' R); [cbn in Hn; lia|exact H|].
        apply temp_op, interval_full; apply bound_iff; assumption.
      * destruct (bound_of mission x) as [ub|] eqn:Bx; [|discriminate].
        destruct (reduce (level (ITemp b 0 ub)) st e) as [st' e'] eqn:R.
        apply (Inf (ITemp b 0 ub) [TBinary b; TLBrack; x; TRBrack] ts st' e' R); [cbn in Hn; lia|exact H|].
        apply temp_op, interval_short; apply bound_iff; assumption.
Qed.
Lemma parse_iff ts es : parse [] None ts = Some es <-> formulas mission ts es.
Proof.
  split; [|apply parse_complete]. intros H.
  exact (proj1 (parse_sound_at (S (List.length ts)) ts es (Nat.lt_succ_diag_r _)) [] [] 1 c_nil H).
Qed.
End Parser.

(** ** The lexer *)
Lemma lex_skip : forall a s, lex (a ++ s) (List.length a) = lex s 0.
Proof. induction a as [|c a IH]; intros s; [reflexivity|]. cbn [app List.length lex]. apply IH. Qed.
Definition no_digit (s : str) : Prop := match s with c :: _ => is_digit c = false | [] => True end.
Lemma take_digits n s : no_digit s -> take_while is_digit (dec n ++ s) = dec n.
Proof.
  intros H. rewrite take_all by apply dec_digits. destruct s as [|c s]; cbn; [apply app_nil_r|]. cbn in H. rewrite H. apply app_nil_r.
Qed.
Lemma dec_zero n r : dec n = "0"%char :: r -> n = 0%N /\ r = [].
Proof.
  intros H. unfold dec in H.
  assert (U : Decimal.unorm (N.to_uint n) = N.to_uint n).
  { rewrite <- (DecimalN.Unsigned.of_to n) at 2. rewrite DecimalN.Unsigned.to_of. reflexivity. }
  destruct (N.to_uint n) as [|u|u|u|u|u|u|u|u|u|u] eqn:E; cbn in H; try discriminate.
  assert (u = Decimal.Nil) as ->.
  { unfold Decimal.unorm in U. cbn [Decimal.nzhead] in U. destruct (Decimal.nzhead u) eqn:Z; try discriminate.
    - injection U as ->. reflexivity.
    - injection U as ->. exfalso. exact (DecimalFacts.nzhead_nonzero _ _ Z). }
  split; [|injection H as <-; reflexivity]. rewrite <- (DecimalN.Unsigned.of_to n), E. reflexivity.
Qed.
Lemma number_at_dec n s : no_digit s -> number_at (dec n ++ s) = Some (n, List.length (dec n)).
Proof.
  intros H. destruct (dec_cons n) as (c & r & E & Hc). pose proof (take_digits n s H) as T. pose proof (dec_inv n) as I.
  unfold number_at. destruct (dec n ++ s) as [|x y] eqn:A; [rewrite E in A; discriminate|].
  assert (x = c) as -> by (rewrite E in A; cbn in A; congruence).
  destruct (Ascii.eqb c "0") eqn:Z.
  - apply Ascii.eqb_eq in Z as ->. destruct (dec_zero n r E) as [-> ->]. rewrite E. reflexivity.
  - rewrite Hc, T, I. reflexivity.
Qed.
Lemma digit_start : forall c, is_digit c = true -> forall r,
  ((Ascii.eqb c " ") || (Ascii.eqb c "009"))%bool = false /\
  token_at (c :: r) = option_map (fun p => (Some (TNum (fst p)), snd p)) (number_at (c :: r)).
Proof.
  intros c H r. destruct c as [[] [] [] [] [] [] [] []]; vm_compute in H; try discriminate; split; reflexivity.
Qed.
Lemma lex_token t s :
  (match t with TNum _ | TAtom _ => no_digit s | _ => True end) -> lex (spelling t ++ s) 0 = t :: lex s 0.
Proof.
  intros H. destruct t as [| | | | | |n| | | | | | |[]|[]| | |n]; try reflexivity; cbn [spelling].
  - destruct (dec_cons n) as (c & r & E & Hc). pose proof (number_at_dec n s H) as M. rewrite E in *. cbn [app] in *.
    cbn [lex]. destruct (digit_start c Hc (r ++ s)) as [B T]. rewrite B, T, M. cbn [option_map fst snd List.length pred].
    rewrite lex_skip. reflexivity.
  - cbn [app lex]. change (Ascii.eqb "a" " " || Ascii.eqb "a" "009")%bool with false. cbn iota.
    assert (T : token_at ("a"%char :: dec n ++ s) = option_map (fun p => (Some (TAtom (fst p)), S (snd p))) (number_at (dec n ++ s)))
      by reflexivity.
    rewrite T, number_at_dec by exact H. cbn [option_map fst snd pred]. rewrite lex_skip. reflexivity.
Qed.
Lemma line_length_at body s : ~ In "010"%char body -> line_length (body ++ "010"%char :: s) = Some (S (List.length body)).
Proof.
  induction body as [|c body IH]; intros H; [reflexivity|]. cbn [app line_length List.length].
  destruct (Ascii.eqb_spec c "010"%char) as [E|_]; [exfalso; apply H; left; exact E|].
  rewrite IH by (intros K; apply H; right; exact K). reflexivity.
Qed.
Lemma lex_comment body s : ~ In "010"%char body -> lex ("#"%char :: body ++ "010"%char :: s) 0 = lex s 0.
Proof.
  intros H. cbn [lex]. change (Ascii.eqb "#" " " || Ascii.eqb "#" "009")%bool with false. cbn iota.
  assert (T : token_at ("#"%char :: body ++ "010"%char :: s) = option_map (fun n => (None, S n)) (line_length (body ++ "010"%char :: s)))
    by reflexivity.
  rewrite T, line_length_at by exact H. cbn [option_map pred].
  replace (body ++ "010"%char :: s) with ((body ++ ["010"%char]) ++ s) by (rewrite <- app_assoc; reflexivity).
  replace (S (List.length body)) with (List.length (body ++ ["010"%char])) by (rewrite app_length; cbn; lia). apply lex_skip.
Qed.
Lemma lex_spells s ts : spells s ts -> lex s 0 = ts.
Proof.
  induction 1 as [|c s ts H _ IH|body s ts H _ IH|t s ts _ IH H]; [reflexivity| | |].
  - cbn [lex]. destruct H as [-> | ->]; exact IH.
  - rewrite lex_comment by exact H. exact IH.
  - rewrite lex_token; [congruence|]. destruct t; auto.
Qed.

(** ** Writing and reading back *)
Definition text (s : str) (ts : list token) : Prop :=
  forall r rts, spells r rts -> no_digit r -> spells (s ++ r) (ts ++ rts).
Lemma sp t s ts : spells s ts -> (match t with TNum _ | TAtom _ => no_digit s | _ => True end) -> spells (spelling t ++ s) (t :: ts).
Proof. intros H C. apply sp_token; [exact H|]. destruct t; auto. Qed.
Lemma sp_space s ts : spells s ts -> spells (" "%char :: s) ts.
Proof. intros H. apply sp_blank; auto. Qed.
Lemma spells_bounds lb ub r rts : spells r rts ->
  spells (bounds_text lb ub ++ r) (TLBrack :: TNum (N.of_nat lb) :: TComma :: TNum (N.of_nat ub) :: TRBrack :: rts).
Proof.
  intros H. unfold bounds_text. cbn [app]. rewrite <- app_assoc. cbn [app]. rewrite <- app_assoc. cbn [app].
  apply (sp TLBrack); [|exact Logic.I]. apply (sp (TNum (N.of_nat lb))); [|reflexivity].
  apply (sp TComma); [|exact Logic.I]. apply (sp (TNum (N.of_nat ub))); [|reflexivity]. apply (sp TRBrack); [exact H|exact Logic.I].
Qed.
Lemma spells_close r rts : spells r rts -> spells (")"%char :: r) (TRParen :: rts).
Proof. intros H. apply (sp TRParen); [exact H|exact Logic.I]. Qed.
Definition unary_text_ts (op ts : list token) : list token := TLParen :: op ++ ts ++ [TRParen].
(** An operator symbol and the tokens it spells. *)
Definition symbol_text (sym : str) (op : list token) : Prop := forall r rts, spells r rts -> no_digit r -> spells (sym ++ r) (op ++ rts).
Lemma text_unary sym op s ts : symbol_text sym op -> text s ts -> text (list_text sym [] [s]) (TLParen :: op ++ ts ++ [TRParen]).
Proof.
  intros Hs Ht r rts Hr Nr. cbn [list_text app]. rewrite <- app_assoc. cbn [app]. rewrite <- !app_assoc. cbn [app].
  apply (sp TLParen); [|exact Logic.I]. apply Hs; [|reflexivity]. apply sp_space. apply Ht; [|reflexivity].
  apply spells_close. exact Hr.
Qed.
Lemma separated_flat sym s ss : separated sym (s :: ss) = s ++ flat_map (fun x => " "%char :: sym ++ " "%char :: x) ss.
Proof.
  revert s. induction ss as [|x ss IH]; intros s; [cbn; rewrite app_nil_r; reflexivity|].
  change (separated sym (s :: x :: ss)) with (s ++ " "%char :: sym ++ " "%char :: separated sym (x :: ss)). rewrite IH.
  cbn [flat_map app]. rewrite <- !app_assoc. reflexivity.
Qed.
Lemma text_list sym1 sym op s ts ss tss : symbol_text sym op -> text s ts -> Forall2 text ss tss -> ss <> [] ->
  text (list_text sym1 sym (s :: ss)) (TLParen :: ts ++ flat_map (fun x => op ++ x) tss ++ [TRParen]).
Proof.
  intros Hs Ht Hl Hne r rts Hr Nr. destruct ss as [|x ss]; [congruence|].
  change (list_text sym1 sym (s :: x :: ss)) with ("("%char :: separated sym (s :: x :: ss) ++ [")"%char]).
  rewrite separated_flat. clear Hne. set (l := x :: ss) in *. clearbody l.
  cbn [app]. rewrite <- !app_assoc. apply (sp TLParen); [|exact Logic.I].
  assert (G : spells (flat_map (fun x => " "%char :: sym ++ " "%char :: x) l ++ [")"%char] ++ r)
                     (flat_map (fun x => op ++ x) tss ++ [TRParen] ++ rts) /\
              no_digit (flat_map (fun x => " "%char :: sym ++ " "%char :: x) l ++ [")"%char] ++ r)).
  { clear Ht. induction Hl as [|y ty l tl Hy _ IH]; cbn [flat_map app]; [split; [apply spells_close, Hr|reflexivity]|].
    destruct IH as [IH1 IH2]. split; [|reflexivity]. rewrite <- !app_assoc. cbn [app]. apply sp_space. apply Hs; [|reflexivity].
    apply sp_space. apply Hy; assumption. }
  apply Ht; apply G.
Qed.

Section RoundTrip.
Variable mission : option nat.
Notation formula := (formula mission).

Record written (e : expr) (s : str) (ts : list token) (e' : expr) : Prop := {
  w_text : text s ts;
  w_formula : formula 5 ts e';
  w_sat : equivalent e e';
  w_future : uses_future e' = uses_future e;
  w_past : uses_past e' = uses_past e
}.

Lemma interval_tokens lb ub :
  interval mission [TLBrack; TNum (N.of_nat lb); TComma; TNum (N.of_nat ub); TRBrack] lb ub.
Proof.
  rewrite <- (Nnat.Nat2N.id lb) at 2. rewrite <- (Nnat.Nat2N.id ub) at 2. apply interval_full; apply bound_num.
Qed.
Lemma symbol_unary u lb ub sym : sym = spelling (TUnary u) ->
  symbol_text (sym ++ bounds_text lb ub) [TUnary u; TLBrack; TNum (N.of_nat lb); TComma; TNum (N.of_nat ub); TRBrack].
Proof.
  intros -> r rts Hr Nr. rewrite <- app_assoc. apply sp; [|exact Logic.I]. apply spells_bounds, Hr.
Qed.
Lemma symbol_binary u lb ub sym : sym = spelling (TBinary u) ->
  symbol_text (sym ++ bounds_text lb ub) [TBinary u; TLBrack; TNum (N.of_nat lb); TComma; TNum (N.of_nat ub); TRBrack].
Proof.
  intros -> r rts Hr Nr. rewrite <- app_assoc. apply sp; [|exact Logic.I]. apply spells_bounds, Hr.
Qed.
Lemma symbol_plain t : (match t with TNum _ | TAtom _ => False | _ => True end) -> symbol_text (spelling t) [t].
Proof. intros H r rts Hr Nr. apply sp; [exact Hr|]. destruct t; auto. Qed.

Lemma prefix_formula op f ts e : prefix_op mission op f -> formula 5 ts e -> formula 5 (TLParen :: op ++ ts ++ [TRParen]) (f e).
Proof.
  intros Ho Hf. rewrite app_assoc. apply f_paren. apply (formula_down mission 1 5); [lia|]. apply f_prefix; assumption.
Qed.
Lemma infix_formula l op f ts1 e1 ts2 e2 : infix_op mission l op f -> 1 <= l <= 4 -> formula 5 ts1 e1 -> formula 5 ts2 e2 ->
  formula 5 (TLParen :: ts1 ++ (flat_map (fun x => op ++ x) [ts2]) ++ [TRParen]) (f e1 e2).
Proof.
  intros Ho Hl H1 H2. cbn [flat_map]. rewrite app_nil_r, app_assoc. apply f_paren.
  apply (formula_down mission 1 l); [lia|]. apply f_infix; [exact Ho| |].
  - apply (formula_down mission l 5); [lia|exact H1].
  - apply (formula_down mission (S l) 5); [lia|exact H2].
Qed.

(** Operand lists. *)
Lemma list_formula l op (f : expr -> expr -> expr) : infix_op mission l op f -> 1 <= l <= 4 ->
  forall tss es, Forall2 (formula 5) tss es -> forall ts e, formula l ts e ->
  formula l (ts ++ flat_map (fun x => op ++ x) tss) (fold_left f es e).
Proof.
  intros Ho Hl tss es H. induction H as [|t x tss es Ht _ IH]; intros ts e He; cbn [flat_map fold_left].
  - rewrite app_nil_r. exact He.
  - rewrite !app_assoc. rewrite <- (app_assoc ts). apply IH. apply f_infix; [exact Ho|exact He|].
    apply (formula_down mission (S l) 5); [lia|exact Ht].
Qed.
Lemma fold_and_sat tr i : forall es e, sat tr (fold_left (fun a b => EAnd [a; b]) es e) i <->
  sat tr e i /\ fold_right (fun e P => sat tr e i /\ P) True es.
Proof. induction es as [|x es IH]; intros e; cbn [fold_left fold_right]; [tauto|]. rewrite IH. cbn. tauto. Qed.
Lemma fold_or_sat tr i : forall es e, sat tr (fold_left (fun a b => EOr [a; b]) es e) i <->
  sat tr e i \/ fold_right (fun e P => sat tr e i \/ P) False es.
Proof. induction es as [|x es IH]; intros e; cbn [fold_left fold_right]; [tauto|]. rewrite IH. cbn. tauto. Qed.
Lemma fold_flag (u : expr -> bool) (mk : list expr -> expr) : (forall es, u (mk es) = existsb u es) ->
  forall es e, u (fold_left (fun a b => mk [a; b]) es e) = u e || existsb u es.
Proof.
  intros H. induction es as [|x es IH]; intros e; cbn [fold_left existsb]; [rewrite orb_false_r; reflexivity|].
  rewrite IH, H. cbn. rewrite orb_false_r, orb_assoc. reflexivity.
Qed.
Definition writes (e : expr) : Prop := exists s ts e', write_expr e = Some s /\ written e s ts e'.
Definition write_all : list expr -> option (list str) :=
  fix all es := match es with
                | [] => Some []
                | e :: es => match write_expr e, all es with Some s, Some l => Some (s :: l) | _, _ => None end
                end.
Lemma writes_all es : Forall writes es -> exists ss tss es', write_all es = Some ss /\
  Forall2 text ss tss /\ Forall2 (formula 5) tss es' /\ Forall2 equivalent es es' /\
  existsb uses_future es' = existsb uses_future es /\ existsb uses_past es' = existsb uses_past es /\ List.length ss = List.length es.
Proof.
  induction 1 as [|e es (s & ts & e' & E & W) _ (ss & tss & es' & E1 & H1 & H2 & H3 & H4 & H5 & H6)]; cbn [write_all].
  - exists [], [], []. repeat split; constructor.
  - rewrite E, E1. exists (s :: ss), (ts :: tss), (e' :: es'). destruct W. cbn [existsb List.length].
    repeat split; try constructor; auto; congruence.
Qed.
Lemma equivalent_and es es' : Forall2 equivalent es es' ->
  forall tr i, fold_right (fun e P => sat tr e i /\ P) True es <-> fold_right (fun e P => sat tr e i /\ P) True es'.
Proof. induction 1 as [|e e' es es' H _ IH]; intros tr i; cbn; [tauto|]. rewrite (IH tr i), (H tr i). tauto. Qed.
Lemma equivalent_or es es' : Forall2 equivalent es es' ->
  forall tr i, fold_right (fun e P => sat tr e i \/ P) False es <-> fold_right (fun e P => sat tr e i \/ P) False es'.
Proof. induction 1 as [|e e' es es' H _ IH]; intros tr i; cbn; [tauto|]. rewrite (IH tr i), (H tr i). tauto. Qed.

Lemma write_list (mk : list expr -> expr) sym1 sym op l es :
  symbol_text sym op -> infix_op mission l op (fun a b => mk [a; b]) -> 1 <= l <= 4 ->
  (forall es, uses_future (mk es) = existsb uses_future es) -> (forall es, uses_past (mk es) = existsb uses_past es) ->
  (forall e es e' es', equivalent e e' -> Forall2 equivalent es es' -> equivalent (mk (e :: es)) (fold_left (fun a b => mk [a; b]) es' e')) ->
  Forall writes es -> 2 <= List.length es ->
  exists s ts e', option_map (list_text sym1 sym) (write_all es) = Some s /\ written (mk es) s ts e'.
Proof.
  intros Hs Ho Hl Hf Hp He H H2. destruct (writes_all es H) as (ss & tss & es' & E & T & F & Q & U1 & U2 & Ln).
  rewrite E. destruct es as [|e es]; [cbn in H2; lia|]. inversion Q as [|? e' ? es0 Q1 Q2]; subst.
  inversion F as [|t ? tss0 ? F1 F2]; subst. inversion T as [|s ? ss0 ? T1 T2]; subst.
  exists (list_text sym1 sym (s :: ss0)), (TLParen :: t ++ flat_map (fun x => op ++ x) tss0 ++ [TRParen]), (fold_left (fun a b => mk [a; b]) es0 e').
  split; [reflexivity|]. constructor.
  - apply text_list; auto. intros ->. cbn in Ln, H2. lia.
  - rewrite app_assoc. apply f_paren. apply (formula_down mission 1 l); [lia|]. apply list_formula; auto.
    apply (formula_down mission l 5); [lia|exact F1].
  - apply He; assumption.
  - rewrite (fold_flag _ mk Hf), Hf. exact U1.
  - rewrite (fold_flag _ mk Hp), Hp. exact U2.
Qed.
Lemma write_unary (f : expr -> expr) sym op e :
  symbol_text sym op -> prefix_op mission op f ->
  (forall e, uses_future (f e) = uses_future e \/ uses_future (f e) = true /\ forall e', uses_future (f e') = true) ->
  (forall e, uses_past (f e) = uses_past e \/ uses_past (f e) = true /\ forall e', uses_past (f e') = true) ->
  (forall e e', equivalent e e' -> equivalent (f e) (f e')) -> writes e ->
  exists s ts e', option_map (fun s => list_text sym [] [s]) (write_expr e) = Some s /\ written (f e) s ts e'.
Proof.
  intros Hs Ho Hf Hp He (s & ts & e' & E & W). rewrite E.
  exists (list_text sym [] [s]), (TLParen :: op ++ ts ++ [TRParen]), (f e'). split; [reflexivity|]. destruct W. constructor.
  - apply text_unary; assumption.
  - apply prefix_formula; assumption.
  - apply He; assumption.
  - destruct (Hf e) as [A|[A1 A2]]; [destruct (Hf e') as [B|[B1 B2]]|]; [congruence|rewrite B1, B2; reflexivity|rewrite A1, A2; reflexivity].
  - destruct (Hp e) as [A|[A1 A2]]; [destruct (Hp e') as [B|[B1 B2]]|]; [congruence|rewrite B1, B2; reflexivity|rewrite A1, A2; reflexivity].
Qed.
Lemma write_binary (f : expr -> expr -> expr) sym op l p q :
  symbol_text sym op -> infix_op mission l op f -> 1 <= l <= 4 ->
  ((forall p q, uses_future (f p q) = uses_future p || uses_future q) \/ (forall p q, uses_future (f p q) = true)) ->
  ((forall p q, uses_past (f p q) = uses_past p || uses_past q) \/ (forall p q, uses_past (f p q) = true)) ->
  (forall p q p' q', equivalent p p' -> equivalent q q' -> equivalent (f p q) (f p' q')) -> writes p -> writes q ->
  exists s ts e', option_map (list_text sym sym) (both (write_expr p) (write_expr q)) = Some s /\ written (f p q) s ts e'.
Proof.
  intros Hs Ho Hl Hf Hp He (s1 & ts1 & e1 & E1 & W1) (s2 & ts2 & e2 & E2 & W2). rewrite E1, E2. cbn [both option_map].
  exists (list_text sym sym [s1; s2]), (TLParen :: ts1 ++ flat_map (fun x => op ++ x) [ts2] ++ [TRParen]), (f e1 e2).
  split; [reflexivity|]. destruct W1, W2. constructor.
  - apply (text_list sym sym op s1 ts1 [s2] [ts2]); auto; discriminate.
  - apply infix_formula with (l := l); assumption.
  - apply He; assumption.
  - destruct Hf as [Hf|Hf]; rewrite !Hf; congruence.
  - destruct Hp as [Hp|Hp]; rewrite !Hp; congruence.
Qed.
End RoundTrip.

Ltac equiv1 := let A := fresh in let tr := fresh in let i := fresh in
  intros ? ? A tr i; cbn [sat]; setoid_rewrite (A tr); reflexivity.
Ltac equiv2 := let A := fresh in let B := fresh in let tr := fresh in let i := fresh in
  intros ? ? ? ? A B tr i; cbn [sat]; setoid_rewrite (A tr); setoid_rewrite (B tr); reflexivity.
Ltac flag1 := intros ?; first [left; reflexivity | right; split; [reflexivity|intros ?; reflexivity]].
Ltac flag2 := first [left; intros ? ?; reflexivity | right; intros ? ?; reflexivity].
Lemma standard_all (P : expr -> Prop) es : Forall (fun e => standard e -> P e) es ->
  fold_right (fun e P => standard e /\ P) True es -> Forall P es.
Proof. induction 1 as [|e es H _ IH]; cbn; intros K; constructor; [apply H, K|apply IH, K]. Qed.
Lemma text_false : text (quoted "false ") [TFalse].
Proof. intros r rts H N. apply (sp TFalse (" "%char :: r)); [apply sp_space, H|exact Logic.I]. Qed.
Lemma text_true : text (quoted "true ") [TTrue].
Proof. intros r rts H N. apply (sp TTrue (" "%char :: r)); [apply sp_space, H|exact Logic.I]. Qed.
Lemma text_atom n : text ("a"%char :: dec n) [TAtom n].
Proof. intros r rts H N. apply (sp (TAtom n) r); assumption. Qed.
Lemma write_standard mission e : standard e -> writes mission e.
Proof.
  induction e using expr_ind'; cbn [standard]; intros Hs; try contradiction.
  - destruct b.
    + exists (quoted "true "), [TTrue], (EConst true). split; [reflexivity|].
      constructor; [apply text_true|constructor|intros tr i; reflexivity|reflexivity..].
    + exists (quoted "false "), [TFalse], (EConst false). split; [reflexivity|].
      constructor; [apply text_false|constructor|intros tr i; reflexivity|reflexivity..].
  - exists ("a"%char :: dec (N.of_nat a)), [TAtom (N.of_nat a)], (EAtom a). split; [reflexivity|].
    constructor; [apply text_atom| |intros tr i; reflexivity|reflexivity..].
    rewrite <- (Nnat.Nat2N.id a) at 2. constructor.
  - apply (write_unary mission ENot (quoted "!") [TNot] e (symbol_plain TNot Logic.I)); [constructor|flag1|flag1|equiv1|auto].
  - destruct Hs as [H2 Hs].
    apply (write_list mission EAnd (quoted "&&") (quoted "&") [TAnd] 3 es (symbol_plain TAnd Logic.I)); [constructor|lia|reflexivity..| | |exact H2].
    + intros e es0 e' es' A B tr i. rewrite fold_and_sat. cbn [sat fold_right]. rewrite (A tr i), (equivalent_and _ _ B tr i). reflexivity.
    + apply standard_all; assumption.
  - destruct Hs as [H2 Hs].
    apply (write_list mission EOr (quoted "||") (quoted "|") [TOr] 2 es (symbol_plain TOr Logic.I)); [constructor|lia|reflexivity..| | |exact H2].
    + intros e es0 e' es' A B tr i. rewrite fold_or_sat. cbn [sat fold_right]. rewrite (A tr i), (equivalent_or _ _ B tr i). reflexivity.
    + apply standard_all; assumption.
  - apply (write_binary mission EImpl (quoted "->") [TImpl] 1 e1 e2 (symbol_plain TImpl Logic.I)); [constructor|lia|flag2|flag2|equiv2|tauto|tauto].
  - apply (write_binary mission EEquiv (quoted "<->") [TIff] 1 e1 e2 (symbol_plain TIff Logic.I)); [constructor|lia|flag2|flag2|equiv2|tauto|tauto].
  - apply (write_unary mission (EF lb ub) (quoted "F" ++ bounds_text lb ub) _ e (symbol_unary UF lb ub _ eq_refl)); [|flag1|flag1|equiv1|auto].
    apply op_future, interval_tokens.
  - apply (write_unary mission (EG lb ub) (quoted "G" ++ bounds_text lb ub) _ e (symbol_unary UG lb ub _ eq_refl)); [|flag1|flag1|equiv1|auto].
    apply op_global, interval_tokens.
  - apply (write_binary mission (EU lb ub) (quoted "U" ++ bounds_text lb ub) _ 4 e1 e2 (symbol_binary BU lb ub _ eq_refl)); [|lia|flag2|flag2|equiv2|tauto|tauto].
    apply op_until, interval_tokens.
  - apply (write_binary mission (ER lb ub) (quoted "R" ++ bounds_text lb ub) _ 4 e1 e2 (symbol_binary BR lb ub _ eq_refl)); [|lia|flag2|flag2|equiv2|tauto|tauto].
    apply op_release, interval_tokens.
  - apply (write_unary mission (EO lb ub) (quoted "O" ++ bounds_text lb ub) _ e (symbol_unary UO lb ub _ eq_refl)); [|flag1|flag1|equiv1|auto].
    apply op_once, interval_tokens.
  - apply (write_unary mission (EH lb ub) (quoted "H" ++ bounds_text lb ub) _ e (symbol_unary UH lb ub _ eq_refl)); [|flag1|flag1|equiv1|auto].
    apply op_hist, interval_tokens.
  - apply (write_binary mission (ES lb ub) (quoted "S" ++ bounds_text lb ub) _ 4 e1 e2 (symbol_binary BS lb ub _ eq_refl)); [|lia|flag2|flag2|equiv2|tauto|tauto].
    apply op_since, interval_tokens.
  - apply (write_binary mission (ET lb ub) (quoted "T" ++ bounds_text lb ub) _ 4 e1 e2 (symbol_binary BT lb ub _ eq_refl)); [|lia|flag2|flag2|equiv2|tauto|tauto].
    apply op_trigger, interval_tokens.
Qed.
Lemma write_formulas_spec mission es : Forall standard es -> exists txt ts es', write_formulas es = Some txt /\
  spells txt ts /\ formulas mission ts es' /\ Forall2 equivalent es es' /\
  existsb uses_future es' = existsb uses_future es /\ existsb uses_past es' = existsb uses_past es.
Proof.
  induction 1 as [|e es He _ (txt & ts & es' & E & H1 & H2 & H3 & H4 & H5)]; cbn [write_formulas].
  - exists [], [], []. repeat split; constructor.
  - destruct (write_standard mission e He) as (s & ts1 & e' & E1 & [W1 W2 W3 W4 W5]). rewrite E1, E.
    exists (s ++ "010"%char :: txt), (ts1 ++ TNewline :: ts), (e' :: es'). cbn [existsb]. split; [reflexivity|].
    split; [apply W1; [apply (sp TNewline); [exact H1|exact Logic.I]|reflexivity]|].
    split; [apply fs_cons; [apply (formula_down mission 1 5); [lia|exact W2]|exact H2]|].
    split; [constructor; assumption|]. split; congruence.
Qed.

(** ** Future and past operators *)
Lemma exists_in (u : expr -> bool) es : existsb u es = true <-> Exists (fun e => u e = true) es.
Proof. rewrite existsb_exists, Exists_exists. tauto. Qed.
Lemma future_sound e : has_future e -> uses_future e = true.
Proof.
  induction 1 as [| | | |e e' H _ IH]; try reflexivity.
  destruct e; cbn in H |- *; try contradiction;
    try (apply existsb_exists; exists e'; split; assumption);
    try reflexivity; repeat (destruct H as [<-|H]; [rewrite IH; rewrite ?orb_true_r; reflexivity|]); try contradiction.
Qed.
Lemma past_sound e : has_past e -> uses_past e = true.
Proof.
  induction 1 as [| | | |e e' H _ IH]; try reflexivity.
  destruct e; cbn in H |- *; try contradiction;
    try (apply existsb_exists; exists e'; split; assumption);
    try reflexivity; repeat (destruct H as [<-|H]; [rewrite IH; rewrite ?orb_true_r; reflexivity|]); try contradiction.
Qed.
Lemma future_complete e : uses_future e = true -> has_future e.
Proof.
  induction e using expr_ind'; cbn [uses_future]; intros U; try discriminate;
    try (apply existsb_exists in U as (x & Hx & Ux); apply (hf_in _ x); [exact Hx|]; exact (proj1 (Forall_forall _ _) H x Hx Ux));
    first [ econstructor; fail
          | apply orb_true_iff in U as [U|U]; [apply (hf_in _ e1)|apply (hf_in _ e2)]; cbn [In]; auto
          | apply (hf_in _ e); cbn [In]; auto ].
Qed.
Lemma past_complete e : uses_past e = true -> has_past e.
Proof.
  induction e using expr_ind'; cbn [uses_past]; intros U; try discriminate;
    try (apply existsb_exists in U as (x & Hx & Ux); apply (hp_in _ x); [exact Hx|]; exact (proj1 (Forall_forall _ _) H x Hx Ux));
    first [ econstructor; fail
          | apply orb_true_iff in U as [U|U]; [apply (hp_in _ e1)|apply (hp_in _ e2)]; cbn [In]; auto
          | apply (hp_in _ e); cbn [In]; auto ].
Qed.
Lemma futures_iff es : existsb uses_future es = true <-> Exists has_future es.
Proof.
  rewrite exists_in, !Exists_exists. split; intros (x & H & K); exists x; split; auto using future_sound, future_complete.
Qed.
Lemma pasts_iff es : existsb uses_past es = true <-> Exists has_past es.
Proof.
  rewrite exists_in, !Exists_exists. split; intros (x & H & K); exists x; split; auto using past_sound, past_complete.
Qed.

(** ** Theorems *)
Lemma parse_mltl_iff mission s ts past es : spells s ts ->
  (parse_mltl mission s = Some (past, es) <->
   formulas mission ts es /\ ~ (Exists has_future es /\ Exists has_past es) /\ (past = true <-> Exists has_past es)).
Proof.
  intros Hs. unfold parse_mltl. rewrite (lex_spells s ts Hs).
  rewrite <- (parse_iff mission ts es), <- futures_iff, <- pasts_iff.
  destruct (parse mission [] None ts) as [es0|]; [|split; [discriminate|intros (? & _); discriminate]].
  destruct (existsb uses_future es0) eqn:A, (existsb uses_past es0) eqn:B; cbn [andb]; split.
  all: try discriminate.
  all: try (intros H; injection H as <- <-; rewrite A, B; repeat split; try discriminate; intros [K1 K2]; discriminate).
  all: intros (H & K1 & K2); injection H as ->; rewrite A, B in *; try (exfalso; apply K1; split; reflexivity);
    do 2 f_equal; destruct past; try reflexivity; exfalso;
    try (destruct K2 as [K2 _]; specialize (K2 eq_refl); discriminate);
    try (destruct K2 as [_ K2]; specialize (K2 eq_refl); discriminate).
Qed.
Lemma round_trip mission es : Forall standard es -> es <> [] -> ~ (Exists has_future es /\ Exists has_past es) ->
  exists txt past es', write_mltl es = Some txt /\ parse_mltl mission txt = Some (past, es') /\
    Forall2 equivalent es es' /\ (past = true <-> Exists has_past es).
Proof.
  intros Hs Hne Hm. destruct (write_formulas_spec mission es Hs) as (txt & ts & es' & E & H1 & H2 & H3 & H4 & H5).
  rewrite <- futures_iff, <- pasts_iff in Hm.
  exists txt, (existsb uses_past es), es'. split.
  { unfold write_mltl. rewrite E. destruct txt; [|reflexivity]. exfalso. destruct es as [|e es]; [congruence|]. cbn in E.
    destruct (write_expr e) as [u|]; [|discriminate]. destruct (write_formulas es); [|discriminate]. injection E as E.
    destruct u; discriminate. }
  split; [|split; [exact H3|apply pasts_iff]].
  apply (parse_mltl_iff mission txt ts _ _ H1). split; [exact H2|]. rewrite <- futures_iff, <- pasts_iff, H4, H5. split; [exact Hm|reflexivity].
Qed.
Lemma formulas_unique mission ts es es' : formulas mission ts es -> formulas mission ts es' -> es = es'.
Proof. intros H K. apply parse_iff in H. apply parse_iff in K. congruence. Qed.
Lemma tilde_spells_nothing : forall ts, ~ spells (quoted "~a0" ++ ["010"%char]) ts.
Proof.
  intros ts H. remember (quoted "~a0" ++ ["010"%char]) as s eqn:E.
  destruct H as [|c s ts H _|body s ts _ _|t s ts _ _]; [discriminate| | |].
  - injection E as -> _. destruct H; discriminate.
  - discriminate.
  - destruct t as [| | | | | |n| | | | | | |[]|[]| | |n]; try discriminate.
    destruct (dec_cons n) as (c & r & D & Hc). cbn [spelling] in E. rewrite D in E. injection E as -> _. discriminate.
Qed.
Lemma documented_spells : spells (quoted "a0|a1&a2" ++ ["010"%char]) [TAtom 0; TOr; TAtom 1; TAnd; TAtom 2; TNewline].
Proof.
  apply (sp (TAtom 0) (quoted "|a1&a2" ++ ["010"%char])); [|reflexivity].
  apply (sp TOr (quoted "a1&a2" ++ ["010"%char])); [|exact Logic.I].
  apply (sp (TAtom 1) (quoted "&a2" ++ ["010"%char])); [|reflexivity].
  apply (sp TAnd (quoted "a2" ++ ["010"%char])); [|exact Logic.I].
  apply (sp (TAtom 2) ["010"%char]); [|reflexivity].
  apply (sp TNewline []); [constructor|exact Logic.I].
Qed.
Lemma documented_reading : documented 1 [TAtom 0; TOr; TAtom 1; TAnd; TAtom 2] (EAnd [EOr [EAtom 0; EAtom 1]; EAtom 2]).
Proof.
  apply (d_and [TAtom 0; TOr; TAtom 1] _ [TAtom 2]).
  - apply (d_or [TAtom 0] _ [TAtom 1]); [do 3 apply d_higher|do 2 apply d_higher]; [apply (d_atom 0)|apply (d_atom 1)].
  - do 2 apply d_higher. apply (d_atom 2).
Qed.
Lemma documented_differs : ~ equivalent (EAnd [EOr [EAtom 0; EAtom 1]; EAtom 2]) (EOr [EAtom 0; EAnd [EAtom 1; EAtom 2]]).
Proof.
  intros H. specialize (H (fun _ a => Nat.eqb a 0) 0). cbn in H. destruct H as [_ H].
  destruct (H (or_introl eq_refl)) as [_ [H2 _]]. discriminate.
Qed.
