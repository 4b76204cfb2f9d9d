(** * C2PO files (proofs): expressions *)
From Coq Require Import List Arith NArith ZArith Bool Ascii String Lia.
Require Import Verif.MapFile Verif.C2poText Verif.C2poSpec.
Import ListNotations.
Local Open Scope list_scope.

Scheme phrase_mut := Induction for phrase Sort Prop
  with args_mut := Induction for args Sort Prop.
Combined Scheme phrase_args_ind from phrase_mut, args_mut.

Definition token_level (t : token) : nat :=
  match t with TOp o => level o | TBinary _ => 4 | TDot | TLBrack => 15 | TLParen => 17 | _ => 0 end.
Definition follow (r : nat) (rest : list token) : Prop :=
  match rest with t :: _ => token_level t <= r | [] => True end.
Definition frame_level (f : frame) : nat :=
  match f with FPre _ => 14 | FT1 _ _ _ => 5 | FT2 _ _ _ _ => 4 | FOp o _ => level o | _ => 0 end.
Definition low (l : nat) (st : list frame) : Prop :=
  match st with f :: _ => frame_level f < l | [] => True end.
(** Tokens an expression can begin with *)
Definition begins_expr (t : token) : bool :=
  match t with
  | TTrue | TFalse | TTime | TNum _ | TDec _ | TSym _ | TLParen | TLBrace | TFun _ | TPrev | TQuant _ | TCount _
  | TNot | TTilde | TOp Sub | TUnary _ => true
  | _ => false
  end.

Lemma level_bounds o : 1 <= level o <= 13.
Proof. destruct o; cbn; lia. Qed.
Lemma level_iff o l : infix_level o l <-> level o = l.
Proof. split; [destruct 1; reflexivity|intros <-; destruct o; constructor]. Qed.
Lemma complete_level f e q e' : complete f e = Some (q, e') -> frame_level f = q /\ 1 <= q <= 14.
Proof.
  destruct f; cbn; intros H; try discriminate; injection H as <- _; split; try lia.
  pose proof (level_bounds o). lia.
Qed.
Lemma complete_none f e : complete f e = None -> frame_level f = 0.
Proof. destruct f; cbn; congruence. Qed.
Lemma mem_iff s l : mem s l = true <-> In s l.
Proof. unfold mem. destruct (in_dec (list_eq_dec ascii_dec) s l); split; auto; discriminate. Qed.

Section Parser.
Variable mission : option nat.
Variable py : str -> str.
Variable sigs : list str.
Notation parse := (parse mission py sigs).
Notation phrase := (phrase mission py sigs).
Notation args := (args mission py sigs).
Notation bound := (bound mission).
Notation interval := (interval mission).

Lemma bound_iff b n : bound b n <-> bound_of mission b = Some n.
Proof.
  split.
  - intros [k|m H]; cbn; [|exact H]. replace (Z.of_nat k <? 0)%Z with false by (symmetry; apply Z.ltb_ge; lia).
    rewrite Nat2Z.id. reflexivity.
  - destruct b; cbn; intros H; try discriminate; [constructor; exact H|].
    destruct (z <? 0)%Z eqn:E; [discriminate|]. apply Z.ltb_ge in E. injection H as <-.
    rewrite <- (Z2Nat.id z) at 1 by exact E. constructor.
Qed.
Lemma leaf_iff t e : leaf_of py sigs t e <-> leaf py sigs t = Some e.
Proof.
  split.
  - destruct 1; cbn; try reflexivity.
    + apply mem_iff in H. rewrite H. reflexivity.
    + destruct (mem s sigs) eqn:E; [|reflexivity]. apply mem_iff in E. contradiction.
  - destruct t; cbn; intros H; try discriminate; injection H as <-; try constructor.
    destruct (mem s sigs) eqn:E; [constructor; apply mem_iff, E|constructor].
    intros I. apply mem_iff in I. congruence.
Qed.

Lemma phrase_begins :
  (forall ts e l r, phrase ts e l r -> exists t ts', ts = t :: ts' /\ begins_expr t = true) /\
  (forall ts es, args ts es -> exists t ts', ts = t :: ts' /\ begins_expr t = true).
Proof.
  apply phrase_args_ind; intros; cbn [app]; try (eexists _, _; split; reflexivity).
  - destruct l; eexists _, _; split; reflexivity.
  - destruct H as (t & r & -> & B). eexists _, _; split; [reflexivity|exact B].
  - destruct H as (t & r & -> & B). eexists _, _; split; [reflexivity|exact B].
  - destruct H as (t & r & -> & B). eexists _, _; split; [reflexivity|exact B].
  - destruct p0; eexists _, _; split; reflexivity.
  - destruct H as (t & r & -> & B). eexists _, _; split; [reflexivity|exact B].
  - exact H.
  - destruct H as (t & r' & -> & B). eexists _, _; split; [reflexivity|exact B].
Qed.
Lemma phrase_edges : forall ts e l r, phrase ts e l r -> 1 <= l <= 16 /\ 1 <= r <= 16.
Proof.
  apply (phrase_mut mission py sigs (fun ts e l r _ => 1 <= l <= 16 /\ 1 <= r <= 16) (fun ts es _ => True)); intros; try lia; auto.
  - destruct p0; lia.
  - assert (1 <= q <= 13) by (destruct i; [apply level_iff in H1; pose proof (level_bounds o); lia|lia]). lia.
Qed.
Lemma follow_le l m rest : l <= m -> follow l rest -> follow m rest.
Proof. destruct rest; cbn; [auto|lia]. Qed.
Lemma low_le l m st : l <= m -> low l st -> low m st.
Proof. destruct st; cbn; [auto|lia]. Qed.
Lemma low_16 st : low 16 st.
Proof. destruct st as [|[] st]; cbn; try lia; try exact Logic.I. pose proof (level_bounds o). lia. Qed.

Lemma collapse f e q e' st rest : complete f e = Some (q, e') -> follow q rest ->
  parse (f :: st) (Some e) rest = parse st (Some e') rest.
Proof.
  intros C F. destruct (complete_level _ _ _ _ C) as [_ Q].
  assert (R : forall p, p <= q -> reduce p (f :: st) e = reduce p st e').
  { intros p Hp. cbn [reduce]. rewrite C. apply Nat.leb_le in Hp. rewrite Hp. reflexivity. }
  destruct rest as [|t rest]; [cbn [C2poText.parse]; rewrite R by lia; reflexivity|]. cbn [follow] in F.
  destruct t; cbn [token_level] in F; cbn [C2poText.parse]; try lia; try (rewrite R by lia; reflexivity).
Qed.
Lemma reduce_low p st e : low p st -> reduce p st e = (st, e).
Proof.
  destruct st as [|f st]; cbn [low reduce]; intros H; [reflexivity|].
  destruct (complete f e) as [[q e']|] eqn:C; [|reflexivity].
  destruct (complete_level _ _ _ _ C) as [E _]. replace (p <=? q) with false; [reflexivity|]. symmetry. apply Nat.leb_gt. lia.
Qed.
Lemma reduce_open f st e : complete f e = None -> reduce 0 (f :: st) e = (f :: st, e).
Proof. intros H. cbn [reduce]. rewrite H. reflexivity. Qed.

Lemma prefix_step p op f st ts : prefix_op mission p op f ->
  exists fr, parse st None (op ++ ts) = parse (fr :: st) None ts /\ (forall e, complete fr e = Some (p, f e)).
Proof.
  intros [| | |k iv lb ub H]; [exists (FPre PNot)|exists (FPre PTilde)|exists (FPre PMinus)|exists (FT1 k lb ub)]; split; try reflexivity.
  destruct H as [b ub' B|a b lb' ub' A B]; cbn [app C2poText.parse]; apply bound_iff in B; rewrite ?B; [reflexivity|].
  apply bound_iff in A. rewrite A. reflexivity.
Qed.
Lemma infix_step q op f st e ts : infix_op mission q op f -> low q st ->
  exists fr, parse st (Some e) (op ++ ts) = parse (fr :: st) None ts /\
    (forall b, complete fr b = Some (q, f e b)) /\ follow q (op ++ ts) /\ frame_level fr = q.
Proof.
  intros [o l Ho|k iv lb ub H] Lw.
  - apply level_iff in Ho. exists (FOp o e). cbn [app C2poText.parse]. rewrite Ho, reduce_low by exact Lw. cbn. rewrite Ho. auto.
  - exists (FT2 k lb ub e). split; [|cbn; auto].
    destruct H as [b ub' B|a b lb' ub' A B]; cbn [app C2poText.parse]; apply bound_iff in B; rewrite ?B.
    + rewrite reduce_low by exact Lw. reflexivity.
    + apply bound_iff in A. rewrite A, reduce_low by exact Lw. reflexivity.
Qed.

Lemma array_open st ts : match ts with TRBrace :: _ => False | _ => True end ->
  parse st None (TLBrace :: ts) = parse (FArr [] :: st) None ts.
Proof. intros H. destruct ts as [|[] ts]; try reflexivity. Qed.
Lemma call_open st s ts : match ts with TRParen :: _ => False | _ => True end ->
  parse st None (TSym s :: TLParen :: ts) = parse (FCall s [] :: st) None ts.
Proof. intros H. destruct ts as [|[] ts]; try reflexivity. contradiction. Qed.

(** ** What the grammar derives is read so *)
Lemma complete_parse :
  (forall ts e l r, phrase ts e l r -> forall st rest, low l st -> follow r rest ->
     parse st None (ts ++ rest) = parse st (Some e) rest) /\
  (forall ts es, args ts es -> forall st rest,
     (forall done, parse (FArr done :: st) None (ts ++ TRBrace :: rest) = parse st (Some (CArr (rev done ++ es))) rest) /\
     (forall s done, parse (FCall s done :: st) None (ts ++ TRParen :: rest) = parse st (Some (CCall s (rev done ++ es))) rest)).
Proof.
  assert (Lr : forall (f : frame) st l, 1 <= l -> frame_level f = 0 -> low l (f :: st)) by (intros f st l H E; cbn; lia).
  assert (Fw : forall t rest r, token_level t = 0 -> follow r (t :: rest)) by (intros t rest r E; cbn; lia).
  apply phrase_args_ind.
  - intros t e L st rest _ F. apply leaf_iff in L. destruct t; cbn in L; try discriminate; cbn [app C2poText.parse leaf]; try (injection L as <-; reflexivity).
    destruct rest as [|[] rest]; try (injection L as <-; reflexivity). cbn in F. lia.
  - intros ts e l r P IH st rest _ _. destruct (phrase_edges _ _ _ _ P). cbn [app C2poText.parse]. rewrite <- app_assoc.
    rewrite IH by (try apply Lr; try apply Fw; auto; lia). reflexivity.
  - intros ts es A IH st rest _ _. cbn [app]. rewrite <- app_assoc. cbn [app].
    destruct (proj2 phrase_begins _ _ A) as (t & ts' & -> & B).
    rewrite array_open by (destruct t; try discriminate; exact Logic.I). rewrite (proj1 (IH st rest)). reflexivity.
  - reflexivity.
  - intros s ts es A IH st rest _ _. cbn [app]. rewrite <- app_assoc. cbn [app].
    destruct (proj2 phrase_begins _ _ A) as (t & ts' & -> & B).
    rewrite call_open by (destruct t; try discriminate; exact Logic.I). rewrite (proj2 (IH st rest)). reflexivity.
  - intros ts e i P IH st rest _ _. rewrite <- app_assoc, IH by (try apply low_16; cbn; lia). reflexivity.
  - intros ts e i j P IH st rest _ _. rewrite <- app_assoc, IH by (try apply low_16; cbn; lia). reflexivity.
  - intros ts e m P IH st rest _ _. rewrite <- app_assoc, IH by (try apply low_16; cbn; lia). reflexivity.
  - intros f ts e l r P IH st rest _ _. destruct (phrase_edges _ _ _ _ P). cbn [app C2poText.parse]. rewrite <- app_assoc.
    rewrite IH by (try apply Lr; try apply Fw; auto; lia). reflexivity.
  - intros ts1 e1 l1 r1 ts2 e2 l2 r2 P1 IH1 P2 IH2 st rest _ _.
    destruct (phrase_edges _ _ _ _ P1), (phrase_edges _ _ _ _ P2).
    cbn [app C2poText.parse]. rewrite <- app_assoc. cbn [app]. rewrite <- app_assoc. cbn [app].
    rewrite IH1 by (try apply Lr; try apply Fw; auto; lia). cbn [C2poText.parse reduce complete on_comma].
    rewrite IH2 by (try apply Lr; try apply Fw; auto; lia). reflexivity.
  - intros k x ts1 e1 l1 r1 ts2 e2 l2 r2 P1 IH1 P2 IH2 st rest _ _.
    destruct (phrase_edges _ _ _ _ P1), (phrase_edges _ _ _ _ P2).
    cbn [app C2poText.parse]. rewrite <- app_assoc. cbn [app]. rewrite <- app_assoc. cbn [app].
    rewrite IH1 by (try apply Lr; try apply Fw; auto; lia). cbn [C2poText.parse reduce complete on_rparen].
    rewrite IH2 by (try apply Lr; try apply Fw; auto; lia). reflexivity.
  - intros k x ts1 e1 l1 r1 ts2 e2 l2 r2 ts3 e3 l3 r3 P1 IH1 P2 IH2 P3 IH3 st rest _ _.
    destruct (phrase_edges _ _ _ _ P1), (phrase_edges _ _ _ _ P2), (phrase_edges _ _ _ _ P3).
    cbn [app C2poText.parse]. rewrite <- app_assoc. cbn [app]. rewrite <- app_assoc. cbn [app]. rewrite <- app_assoc. cbn [app].
    rewrite IH1 by (try apply Lr; try apply Fw; auto; lia). cbn [C2poText.parse reduce complete on_comma].
    rewrite IH2 by (try apply Lr; try apply Fw; auto; lia). cbn [C2poText.parse reduce complete on_rparen].
    rewrite IH3 by (try apply Lr; try apply Fw; auto; lia). reflexivity.
  - intros p op f ts e l r Hop P IH Hp st rest _ Fo. rewrite <- app_assoc.
    destruct (prefix_step p op f st (ts ++ rest) Hop) as (fr & E & C). rewrite E.
    rewrite IH; [|cbn; rewrite (proj1 (complete_level _ _ _ _ (C e))); exact Hp|eapply follow_le; [|exact Fo]; lia].
    apply (collapse _ _ p); [apply C|]. eapply follow_le; [|exact Fo]. lia.
  - intros q op f ts1 e1 l1 r1 ts2 e2 l2 r2 Hop P1 IH1 P2 IH2 H1 H2 st rest Lw Fo. rewrite <- !app_assoc.
    destruct (infix_step q op f st e1 (ts2 ++ rest) Hop) as (fr & E & C & F & Fl); [eapply low_le; [|exact Lw]; lia|].
    rewrite IH1; [|eapply low_le; [|exact Lw]; lia|eapply follow_le; [|exact F]; lia]. rewrite E.
    rewrite IH2; [|cbn; lia|eapply follow_le; [|exact Fo]; lia].
    apply (collapse _ _ q); [apply C|]. eapply follow_le; [|exact Fo]. lia.
  - intros ts e l r P IH st rest. destruct (phrase_edges _ _ _ _ P). split; intros.
    + rewrite IH by (try apply Lr; try apply Fw; auto; lia). reflexivity.
    + rewrite IH by (try apply Lr; try apply Fw; auto; lia). reflexivity.
  - intros ts e l r ts' es P IH A IHA st rest. destruct (phrase_edges _ _ _ _ P). split; intros; rewrite <- app_assoc; cbn [app].
    + rewrite IH by (try apply Lr; try apply Fw; auto; lia). cbn [C2poText.parse reduce complete on_comma].
      rewrite (proj1 (IHA st rest)). cbn [rev]. rewrite <- app_assoc. reflexivity.
    + rewrite IH by (try apply Lr; try apply Fw; auto; lia). cbn [C2poText.parse reduce complete on_comma].
      rewrite (proj2 (IHA st rest)). cbn [rev]. rewrite <- app_assoc. reflexivity.
Qed.
(** Tokens after an expression: none that continues it *)
Definition ends (rest : list token) : Prop := follow 0 rest.
Lemma expr_complete ts e rest : reads mission py sigs ts e -> ends rest ->
  parse_expr mission py sigs (ts ++ rest) = Some (e, rest).
Proof.
  intros (l & r & P) F. unfold parse_expr.
  rewrite (proj1 complete_parse _ _ _ _ P); [|exact Logic.I|eapply follow_le; [|exact F]; lia].
  unfold ends in F. destruct rest as [|[] rest]; cbn in F |- *; try reflexivity; try lia.
  pose proof (level_bounds o). lia.
Qed.

(** ** Nothing else is read *)
Inductive partial : list token -> list cx -> Prop :=
| pa_nil : partial [] []
| pa_snoc ts done ts1 e l r : partial ts done -> phrase ts1 e l r -> partial (ts ++ ts1 ++ [TComma]) (e :: done).
Lemma partial_args ts done : partial ts done -> forall ts' es, args ts' es -> args (ts ++ ts') (rev done ++ es).
Proof.
  induction 1 as [|ts done ts1 e l r _ IH P]; intros ts' es A; [exact A|]. cbn [rev]. rewrite <- !app_assoc. cbn [app].
  apply IH. econstructor; eassumption.
Qed.
Inductive ctx : list frame -> list token -> Prop :=
| c_nil : ctx [] []
| c_paren st pre : ctx st pre -> ctx (FParen :: st) (pre ++ [TLParen])
| c_func f st pre : ctx st pre -> ctx (FFun f :: st) (pre ++ [TFun f; TLParen])
| c_prev st pre : ctx st pre -> ctx (FPrev :: st) (pre ++ [TPrev; TLParen])
| c_prev2 st pre ts a l r : ctx st pre -> phrase ts a l r -> ctx (FPrev2 a :: st) (pre ++ TPrev :: TLParen :: ts ++ [TComma])
| c_arr st pre ts done : ctx st pre -> partial ts done -> ctx (FArr done :: st) (pre ++ TLBrace :: ts)
| c_call s st pre ts done : ctx st pre -> partial ts done -> ctx (FCall s done :: st) (pre ++ TSym s :: TLParen :: ts)
| c_quant k x st pre : ctx st pre -> ctx (FQuant k x :: st) (pre ++ [TQuant k; TLParen; TSym x; TColon])
| c_quant2 k x st pre ts a l r : ctx st pre -> phrase ts a l r ->
    ctx (FQuant2 k x a :: st) (pre ++ TQuant k :: TLParen :: TSym x :: TColon :: ts ++ [TRParen; TLParen])
| c_count k x st pre : ctx st pre -> ctx (FCount k x :: st) (pre ++ [TCount k; TLParen; TSym x; TColon])
| c_count2 k x st pre ts a l r : ctx st pre -> phrase ts a l r ->
    ctx (FCount2 k x a :: st) (pre ++ TCount k :: TLParen :: TSym x :: TColon :: ts ++ [TComma])
| c_count3 k x st pre ts a l r ts2 b l2 r2 : ctx st pre -> phrase ts a l r -> phrase ts2 b l2 r2 ->
    ctx (FCount3 k x a b :: st) (pre ++ TCount k :: TLParen :: TSym x :: TColon :: ts ++ TComma :: ts2 ++ [TRParen; TLParen])
| c_prefix f p op g st pre : (forall e, complete f e = Some (p, g e)) -> prefix_op mission p op g -> ctx st pre -> ctx (f :: st) (pre ++ op)
| c_infix f q op g st pre ts a l r : (forall e, complete f e = Some (q, g a e)) -> infix_op mission q op g ->
    phrase ts a l r -> q <= r -> low (Nat.min q l) st -> ctx st pre -> ctx (f :: st) (pre ++ ts ++ op).

Lemma reduce_sound p st pre : ctx st pre -> forall ts e l r st' e', phrase ts e l r -> low l st -> p <= r ->
  reduce p st e = (st', e') ->
  exists pre' ts' l' r', ctx st' pre' /\ phrase ts' e' l' r' /\ pre ++ ts = pre' ++ ts' /\ low l' st' /\ p <= r' /\
    (1 <= p -> low p st') /\ (p = 0 -> match st' with f :: _ => complete f e' = None | [] => True end).
Proof.
  assert (Stop : forall st pre ts e l r st' e', ctx st pre -> phrase ts e l r -> low l st -> p <= r -> reduce p st e = (st', e') ->
    (match st with f :: _ => complete f e = None | [] => True end) ->
    exists pre' ts' l' r', ctx st' pre' /\ phrase ts' e' l' r' /\ pre ++ ts = pre' ++ ts' /\ low l' st' /\ p <= r' /\
      (1 <= p -> low p st') /\ (p = 0 -> match st' with f :: _ => complete f e' = None | [] => True end)).
  { intros st0 pre0 ts e l r st' e' C P Lw Hp R N.
    assert (E : reduce p st0 e = (st0, e)) by (destruct st0; [reflexivity|]; cbn [reduce]; rewrite N; reflexivity).
    rewrite E in R. injection R as <- <-. exists pre0, ts, l, r. split; [exact C|]. split; [exact P|]. split; [reflexivity|].
    split; [exact Lw|]. split; [exact Hp|]. split; [|auto].
    intros H1. destruct st0 as [|f st0]; [exact Logic.I|]. cbn. rewrite (complete_none _ _ N). lia. }
  induction 1; intros ts0 e0 l0 r0 st' e' P Lw Hp R;
    try (eapply Stop; [| | | |exact R|]; [econstructor; eassumption|exact P|exact Lw|exact Hp|reflexivity]).
  - cbn [reduce] in R. rewrite H in R. destruct (complete_level _ _ _ _ (H e0)) as [Fl B].
    destruct (p <=? p0) eqn:E.
    + apply Nat.leb_le in E. cbn in Lw.
      destruct (IHctx (op ++ ts0) (g e0) 16 (Nat.min p0 r0) st' e') as (pre' & ts' & l' & r' & H2 & H3 & H4 & H5); auto.
      * eapply p_prefix; [eassumption|exact P|lia].
      * apply low_16.
      * lia.
      * exists pre', ts', l', r'. rewrite <- app_assoc. auto.
    + apply Nat.leb_gt in E. injection R as <- <-. exists (pre ++ op), ts0, l0, r0.
      split; [econstructor; eassumption|]. split; [exact P|]. split; [reflexivity|]. split; [exact Lw|]. split; [exact Hp|].
      split; [|lia]. intros _. cbn. lia.
  - cbn [reduce] in R. rewrite H in R. destruct (complete_level _ _ _ _ (H e0)) as [Fl B].
    destruct (p <=? q) eqn:E.
    + apply Nat.leb_le in E. cbn in Lw.
      destruct (IHctx (ts ++ op ++ ts0) (g a e0) (Nat.min q l) (Nat.min q r0) st' e') as (pre' & ts' & l' & r' & X2 & X3 & X4 & X5); auto.
      * eapply p_infix; [eassumption|eassumption|exact P|assumption|lia].
      * lia.
      * exists pre', ts', l', r'. rewrite <- !app_assoc. auto.
    + apply Nat.leb_gt in E. injection R as <- <-. exists (pre ++ ts ++ op), ts0, l0, r0.
      split; [econstructor; eassumption|]. split; [exact P|]. split; [reflexivity|]. split; [exact Lw|]. split; [exact Hp|].
      split; [|lia]. intros _. cbn. lia.
Qed.

Definition result (ts : list token) (e : cx) (rest : list token) : Prop :=
  exists used, ts = used ++ rest /\ reads mission py sigs used e /\ ends rest.
Definition sound_at (n : nat) : Prop := forall ts e' rest, List.length ts < n ->
  (forall st pre, ctx st pre -> parse st None ts = Some (e', rest) -> result (pre ++ ts) e' rest) /\
  (forall st pre ts0 e, ctx st pre -> phrase ts0 e 16 16 -> parse st (Some e) ts = Some (e', rest) -> result (pre ++ ts0 ++ ts) e' rest).

Lemma infix_ctx st pre ts0 e q op g (fr : cx -> frame) st' e' : ctx st pre -> phrase ts0 e 16 16 -> reduce q st e = (st', e') ->
  1 <= q <= 14 -> infix_op mission q op g -> (forall a b, complete (fr a) b = Some (q, g a b)) ->
  exists pre', ctx (fr e' :: st') pre' /\ pre' = (pre ++ ts0) ++ op.
Proof.
  intros C P R Q Hop Hc. destruct (reduce_sound q _ _ C _ _ _ _ _ _ P (low_16 st) ltac:(lia) R) as (pre' & ts' & l' & r' & H1 & H2 & H3 & H4 & H5 & H6 & _).
  exists (pre' ++ ts' ++ op). split; [|rewrite H3, <- app_assoc; reflexivity].
  eapply c_infix; [apply Hc|exact Hop|exact H2|exact H5| |exact H1].
  specialize (H6 ltac:(lia)). destruct st' as [|f st']; [exact Logic.I|]. cbn in *. lia.
Qed.
Lemma reduce_zero st pre ts0 e st' e' : ctx st pre -> phrase ts0 e 16 16 -> reduce 0 st e = (st', e') ->
  exists pre' ts' l' r', ctx st' pre' /\ phrase ts' e' l' r' /\ pre ++ ts0 = pre' ++ ts' /\
    match st' with f :: _ => complete f e' = None | [] => True end.
Proof.
  intros C P R. destruct (reduce_sound 0 _ _ C _ _ _ _ _ _ P (low_16 st) ltac:(lia) R) as (pre' & ts' & l' & r' & H1 & H2 & H3 & _ & _ & _ & H7).
  exists pre', ts', l', r'. split; [exact H1|]. split; [exact H2|]. split; [exact H3|]. exact (H7 eq_refl).
Qed.
Lemma finish_sound st pre ts0 e ts e' rest : ctx st pre -> phrase ts0 e 16 16 -> ends ts ->
  match reduce 0 st e with ([], e) => Some (e, ts) | _ => None end = Some (e', rest) -> result (pre ++ ts0 ++ ts) e' rest.
Proof.
  intros C P F H. destruct (reduce 0 st e) as [st' e1] eqn:R. destruct st'; [|discriminate]. injection H as -> ->.
  destruct (reduce_zero _ _ _ _ _ _ C P R) as (pre' & ts' & l' & r' & H1 & H2 & H3 & _). inversion H1; subst.
  exists ts'. rewrite app_assoc, H3. cbn. split; [reflexivity|]. split; [|exact F]. exists l', r'. exact H2.
Qed.

Lemma rparen_sound f st pre e ts l r : ctx (f :: st) pre -> phrase ts e l r -> complete f e = None ->
  match on_rparen f e with
  | Some (Operand e') => exists pre' ts', ctx st pre' /\ phrase ts' e' 16 16 /\ pre ++ ts ++ [TRParen] = pre' ++ ts'
  | Some (Reopen f') => ctx (f' :: st) (pre ++ ts ++ [TRParen; TLParen])
  | None => True
  end.
Proof.
  intros C P N. inversion C; subst; cbn [on_rparen]; auto; try (match goal with X : forall e, complete _ e = _ |- _ => rewrite X in N; discriminate end).
  - exists pre0, (TLParen :: ts ++ [TRParen]). rewrite <- app_assoc. repeat split; auto. econstructor; eassumption.
  - exists pre0, (TFun f0 :: TLParen :: ts ++ [TRParen]). rewrite <- app_assoc. repeat split; auto. econstructor; eassumption.
  - exists pre0, (TPrev :: TLParen :: ts0 ++ TComma :: ts ++ [TRParen]). split; [assumption|]. split; [econstructor; eassumption|].
    rewrite <- app_assoc. cbn [app]. rewrite <- app_assoc. reflexivity.
  - exists pre0, (TSym s :: TLParen :: (ts0 ++ ts) ++ [TRParen]). split; [assumption|]. split.
    + apply p_call. cbn [rev]. eapply partial_args; [eassumption|]. econstructor; eassumption.
    + rewrite <- !app_assoc. cbn [app]. reflexivity.
  - rewrite <- app_assoc. cbn [app]. econstructor; eassumption.
  - exists pre0, (TQuant k :: TLParen :: TSym x :: TColon :: ts0 ++ TRParen :: TLParen :: ts ++ [TRParen]). split; [assumption|].
    split; [econstructor; eassumption|]. rewrite <- app_assoc. cbn [app]. rewrite <- app_assoc. reflexivity.
  - rewrite <- app_assoc. cbn [app]. rewrite <- app_assoc. cbn [app]. econstructor; eassumption.
  - exists pre0, (TCount k :: TLParen :: TSym x :: TColon :: ts0 ++ TComma :: ts2 ++ TRParen :: TLParen :: ts ++ [TRParen]). split; [assumption|].
    split; [econstructor; eassumption|]. rewrite <- app_assoc. cbn [app]. rewrite <- app_assoc. cbn [app]. rewrite <- app_assoc. reflexivity.
Qed.
Lemma comma_sound f st pre e ts l r : ctx (f :: st) pre -> phrase ts e l r -> complete f e = None ->
  match on_comma f e with Some f' => ctx (f' :: st) (pre ++ ts ++ [TComma]) | None => True end.
Proof.
  intros C P N. inversion C; subst; cbn [on_comma]; auto; try (match goal with X : forall e, complete _ e = _ |- _ => rewrite X in N; discriminate end);
    rewrite <- app_assoc; cbn [app]; econstructor; try eassumption; econstructor; eassumption.
Qed.
Lemma rbrace_sound f st pre e ts l r : ctx (f :: st) pre -> phrase ts e l r -> complete f e = None ->
  match on_rbrace f e with
  | Some e' => exists pre' ts', ctx st pre' /\ phrase ts' e' 16 16 /\ pre ++ ts ++ [TRBrace] = pre' ++ ts'
  | None => True
  end.
Proof.
  intros C P N. inversion C; subst; cbn [on_rbrace]; auto; try (match goal with X : forall e, complete _ e = _ |- _ => rewrite X in N; discriminate end).
  exists pre0, (TLBrace :: (ts0 ++ ts) ++ [TRBrace]). split; [assumption|]. split.
  - apply p_array. cbn [rev]. eapply partial_args; [eassumption|]. econstructor; eassumption.
  - rewrite <- !app_assoc. reflexivity.
Qed.

Lemma sound_all : forall n, sound_at n.
Proof.
  induction n as [|n IH]; intros ts e' rest Hn; [lia|]. split.
  - intros st pre C H. destruct ts as [|t ts]; [discriminate|]. cbn [List.length] in Hn.
    assert (Fr : forall fr op r, List.length r < n -> parse (fr :: st) None r = Some (e', rest) -> ctx (fr :: st) (pre ++ op) ->
               result (pre ++ op ++ r) e' rest).
    { intros fr op r Hr P C'. rewrite app_assoc. eapply (proj1 (IH r e' rest Hr)); eassumption. }
    assert (Pr : forall fr p op g r, List.length r < n -> parse (fr :: st) None r = Some (e', rest) ->
               (forall e, complete fr e = Some (p, g e)) -> prefix_op mission p op g -> result (pre ++ op ++ r) e' rest).
    { intros fr p op g r Hr P Cf Po. eapply Fr; [exact Hr|exact P|]. eapply c_prefix; eassumption. }
    assert (At : forall e r op, List.length r < n -> parse st (Some e) r = Some (e', rest) -> phrase op e 16 16 -> result (pre ++ op ++ r) e' rest).
    { intros e r op Hr P Ph. eapply (proj2 (IH r e' rest Hr)); eassumption. }
    assert (Lf : match leaf py sigs t with Some e => parse st (Some e) ts | None => None end = Some (e', rest) -> result (pre ++ t :: ts) e' rest).
    { intros P. destruct (leaf py sigs t) as [e|] eqn:E; [|discriminate]. apply (At e ts [t]); [lia|exact P|]. constructor. apply leaf_iff. exact E. }
    destruct t; try (exact (Lf H)); try discriminate H.
    + destruct ts as [|[] ts]; try discriminate. destruct ts as [|[] ts]; try discriminate. destruct ts as [|[] ts]; try discriminate.
      cbn in Hn. apply (Fr (FQuant k s) [TQuant k; TLParen; TSym s; TColon] ts); [lia|exact H|constructor; exact C].
    + destruct ts as [|[] ts]; try discriminate. destruct ts as [|[] ts]; try discriminate. destruct ts as [|[] ts]; try discriminate.
      cbn in Hn. apply (Fr (FCount k s) [TCount k; TLParen; TSym s; TColon] ts); [lia|exact H|constructor; exact C].
    + destruct ts as [|t1 ts]; [discriminate|]. destruct t1; try discriminate.
      destruct ts as [|x ts]; [discriminate|]. destruct ts as [|t2 ts]; [discriminate|]. destruct t2; try discriminate.
      * destruct ts as [|y ts]; [discriminate|]. destruct ts as [|t3 ts]; [discriminate|]. destruct t3; try discriminate.
        cbn [C2poText.parse] in H.
        destruct (bound_of mission x) as [lb|] eqn:Bx; [|discriminate]. destruct (bound_of mission y) as [ub|] eqn:By; [|discriminate].
        apply (Pr (FT1 k lb ub) 5 [TUnary k; TLBrack; x; TComma; y; TRBrack] (CT1 k lb ub) ts);
          [cbn in Hn; lia|exact H|reflexivity|]. apply op_unary, interval_full; apply bound_iff; assumption.
      * cbn [C2poText.parse] in H. destruct (bound_of mission x) as [ub|] eqn:Bx; [|discriminate].
        apply (Pr (FT1 k 0 ub) 5 [TUnary k; TLBrack; x; TRBrack] (CT1 k 0 ub) ts);
          [cbn in Hn; lia|exact H|reflexivity|]. apply op_unary, interval_short; apply bound_iff; assumption.
    + apply (Pr (FPre PNot) 14 [TNot] (CPre PNot) ts); [lia|exact H|reflexivity|constructor].
    + apply (Pr (FPre PTilde) 14 [TTilde] (CPre PTilde) ts); [lia|exact H|reflexivity|constructor].
    + destruct o; try discriminate. apply (Pr (FPre PMinus) 14 [TOp Sub] (CPre PMinus) ts); [lia|exact H|reflexivity|constructor].
    + destruct ts as [|[] ts]; try discriminate. cbn in Hn. apply (Fr (FFun f) [TFun f; TLParen] ts); [lia|exact H|constructor; exact C].
    + destruct ts as [|[] ts]; try discriminate. cbn in Hn. apply (Fr FPrev [TPrev; TLParen] ts); [lia|exact H|constructor; exact C].
    + destruct ts as [|t1 ts]; [exact (Lf H)|]. destruct t1; try (exact (Lf H)). cbn in Hn.
      assert (Cl : parse (FCall s [] :: st) None ts = Some (e', rest) -> result (pre ++ TSym s :: TLParen :: ts) e' rest).
      { intros P. apply (Fr (FCall s []) [TSym s; TLParen] ts); [lia|exact P|]. constructor; [exact C|constructor]. }
      destruct ts as [|t2 ts]; [exact (Cl H)|]. destruct t2; try (exact (Cl H)).
      cbn in Hn. apply (At (CCall s []) ts [TSym s; TLParen; TRParen]); [lia|exact H|constructor].
    + assert (Ar : parse (FArr [] :: st) None ts = Some (e', rest) -> result (pre ++ TLBrace :: ts) e' rest).
      { intros P. apply (Fr (FArr []) [TLBrace] ts); [lia|exact P|]. constructor; [exact C|constructor]. }
      destruct ts as [|t1 ts]; [exact (Ar H)|]. destruct t1; try (exact (Ar H)).
    + apply (Fr FParen [TLParen] ts); [lia|exact H|constructor; exact C].
  - intros st pre ts0 e C P H. 
    assert (Inf : forall q op g (fr : cx -> frame) r st' e1, reduce q st e = (st', e1) -> 1 <= q <= 14 -> List.length r < n ->
               parse (fr e1 :: st') None r = Some (e', rest) -> infix_op mission q op g -> (forall a b, complete (fr a) b = Some (q, g a b)) ->
               result (pre ++ ts0 ++ op ++ r) e' rest).
    { intros q op g fr r st' e1 R Q Hr Pa Ho Hc. destruct (infix_ctx _ _ _ _ _ _ _ fr _ _ C P R Q Ho Hc) as (pre' & C' & E).
      pose proof (proj1 (IH r e' rest Hr) _ _ C' Pa) as F. rewrite E, <- !app_assoc in F. exact F. }
    assert (Po : forall op e1 r, List.length r < n -> parse st (Some e1) r = Some (e', rest) -> phrase (ts0 ++ op) e1 16 16 ->
               result (pre ++ ts0 ++ op ++ r) e' rest).
    { intros op e1 r Hr Pa Ph. rewrite (app_assoc ts0). eapply (proj2 (IH r e' rest Hr)); eassumption. }
    destruct ts as [|t ts]; [exact (finish_sound _ _ _ _ [] _ _ C P Logic.I H)|]. cbn [List.length] in Hn.
    destruct t; try (refine (finish_sound _ _ _ _ (_ :: ts) _ _ C P _ H); cbn; lia); try discriminate H.
    + destruct ts as [|t1 ts]; [discriminate|]. destruct t1; try discriminate.
      destruct ts as [|x ts]; [discriminate|]. destruct ts as [|t2 ts]; [discriminate|]. destruct t2; try discriminate.
      * destruct ts as [|y ts]; [discriminate|]. destruct ts as [|t3 ts]; [discriminate|]. destruct t3; try discriminate.
        cbn [C2poText.parse] in H.
        destruct (bound_of mission x) as [lb|] eqn:Bx; [|discriminate]. destruct (bound_of mission y) as [ub|] eqn:By; [|discriminate].
        destruct (reduce 4 st e) as [st' e1] eqn:R.
        apply (Inf 4 [TBinary k; TLBrack; x; TComma; y; TRBrack] (CT2 k lb ub) (FT2 k lb ub) ts st' e1 R); [lia|cbn in Hn; lia|exact H| |reflexivity].
        apply op_binary, interval_full; apply bound_iff; assumption.
      * cbn [C2poText.parse] in H. destruct (bound_of mission x) as [ub|] eqn:Bx; [|discriminate].
        destruct (reduce 4 st e) as [st' e1] eqn:R.
        apply (Inf 4 [TBinary k; TLBrack; x; TRBrack] (CT2 k 0 ub) (FT2 k 0 ub) ts st' e1 R); [lia|cbn in Hn; lia|exact H| |reflexivity].
        apply op_binary, interval_short; apply bound_iff; assumption.
    + cbn [C2poText.parse] in H. destruct (reduce (level o) st e) as [st' e1] eqn:R. pose proof (level_bounds o).
      apply (Inf (level o) [TOp o] (fun a b => COp o [a; b]) (FOp o) ts st' e1 R); [lia|lia|exact H| |reflexivity].
      constructor. apply level_iff. reflexivity.
    + destruct ts as [|[] ts]; try discriminate. cbn in Hn.
      apply (Po [TDot; TSym s] (CAcc e s) ts); [lia|exact H|constructor; exact P].
    + cbn [C2poText.parse] in H. destruct (reduce 0 st e) as [st' e1] eqn:R.
      destruct (reduce_zero _ _ _ _ _ _ C P R) as (pre' & ts' & l' & r' & H1 & H2 & H3 & H4).
      destruct st' as [|f st'].
      { injection H as -> <-. inversion H1; subst. exists ts'. rewrite app_assoc, H3. split; [reflexivity|]. split; [|cbn; lia]. exists l', r'. exact H2. }
      pose proof (comma_sound _ _ _ _ _ _ _ H1 H2 H4) as K. destruct (on_comma f e1) as [f'|]; [|discriminate].
      pose proof (proj1 (IH ts e' rest ltac:(lia)) _ _ K H) as Q. rewrite app_assoc, H3, <- !app_assoc in *. exact Q.
    + destruct ts as [|t1 ts]; [discriminate|]. destruct t1; try discriminate. destruct ts as [|t2 ts]; [discriminate|]. destruct t2; try discriminate.
      * destruct ts as [|t3 ts]; [discriminate|]. destruct t3; try discriminate. destruct ts as [|t4 ts]; [discriminate|]. destruct t4; try discriminate.
        cbn in Hn. apply (Po [TLBrack; TNum z; TDots; TNum z0; TRBrack] (CSlice e z z0) ts); [lia|exact H|constructor; exact P].
      * cbn in Hn. apply (Po [TLBrack; TNum z; TRBrack] (CIdx e z) ts); [lia|exact H|constructor; exact P].
    + cbn [C2poText.parse] in H. destruct (reduce 0 st e) as [st' e1] eqn:R.
      destruct (reduce_zero _ _ _ _ _ _ C P R) as (pre' & ts' & l' & r' & H1 & H2 & H3 & H4).
      destruct st' as [|f st'].
      { injection H as -> <-. inversion H1; subst. exists ts'. rewrite app_assoc, H3. split; [reflexivity|]. split; [|cbn; lia]. exists l', r'. exact H2. }
      pose proof (rbrace_sound _ _ _ _ _ _ _ H1 H2 H4) as K. destruct (on_rbrace f e1) as [e2|]; [|discriminate].
      destruct K as (pre2 & ts2 & C2 & P2 & E2).
      pose proof (proj2 (IH ts e' rest ltac:(lia)) _ _ _ _ C2 P2 H) as Q.
      rewrite app_assoc, H3. rewrite app_assoc, <- E2, <- !app_assoc in Q. rewrite <- !app_assoc. exact Q.
    + cbn [C2poText.parse] in H. destruct (reduce 0 st e) as [st' e1] eqn:R.
      destruct (reduce_zero _ _ _ _ _ _ C P R) as (pre' & ts' & l' & r' & H1 & H2 & H3 & H4).
      destruct st' as [|f st'].
      { injection H as -> <-. inversion H1; subst. exists ts'. rewrite app_assoc, H3. split; [reflexivity|]. split; [|cbn; lia]. exists l', r'. exact H2. }
      pose proof (rparen_sound _ _ _ _ _ _ _ H1 H2 H4) as K. destruct (on_rparen f e1) as [[e2|f']|]; [| |discriminate].
      * destruct K as (pre2 & ts2 & C2 & P2 & E2).
        pose proof (proj2 (IH ts e' rest ltac:(lia)) _ _ _ _ C2 P2 H) as Q.
        rewrite app_assoc, H3. rewrite app_assoc, <- E2, <- !app_assoc in Q. rewrite <- !app_assoc. exact Q.
      * destruct ts as [|[] ts]; try discriminate. cbn in Hn.
        pose proof (proj1 (IH ts e' rest ltac:(lia)) _ _ K H) as Q. rewrite app_assoc, H3, <- !app_assoc in *. exact Q.
Qed.
Lemma expr_iff ts e rest : parse_expr mission py sigs ts = Some (e, rest) <-> result ts e rest.
Proof.
  split.
  - intros H. exact (proj1 (sound_all (S (List.length ts)) ts e rest (Nat.lt_succ_diag_r _)) [] [] c_nil H).
  - intros (used & -> & R & F). apply expr_complete; assumption.
Qed.
End Parser.
