(** * Equivalence files (proofs) *)
From Coq Require Import List Arith NArith Bool Ascii String Lia.
From Verif Require Import MapFile MapProofs EquivText EquivTextSpec.
From Verif Require MltlText MltlTextProofs.
Import ListNotations.
Local Open Scope list_scope.
Local Open Scope nat_scope.

(** ** The parser accepts what the grammar derives *)
Definition token_level (s : sort) (t : token) : nat :=
  match t with TOp o => level o | TBinary _ => 4 | _ => 0 end.
Definition follow (s : sort) (l : nat) (rest : list token) : Prop :=
  match rest with t :: _ => token_level s t <= l | [] => True end.
Definition low (l : nat) (st : list frame) : Prop :=
  match st with FRule q _ :: _ => q < l \/ 8 <= l | _ => True end.

Lemma derives_down s l m ts e : l <= m -> derives s m ts e -> derives s l ts e.
Proof. induction 1 as [|m _ IH]; [auto|]. intros H. apply IH, d_higher, H. Qed.
Lemma operator_iff s l o : operator s l o <-> sort_of o = s /\ level o = l.
Proof. split; [intros []; split; reflexivity|]. intros [<- <-]. destruct o; constructor. Qed.
Lemma level_bounds o : 1 <= level o <= 7.
Proof. destruct o; cbn; lia. Qed.
Lemma sort_eqb_refl s : sort_eqb s s = true.
Proof. destruct s; reflexivity. Qed.
Lemma sort_eqb_eq s s' : sort_eqb s s' = true -> s = s'.
Proof. destruct s, s'; cbn; congruence. Qed.

Lemma reduce_low p st e : low p st -> p <= 7 -> reduce p st e = (st, e).
Proof.
  intros H Hp. destruct st as [|[] st]; try reflexivity. cbn [low] in H. cbn [reduce].
  replace (p <=? q) with false; [reflexivity|]. symmetry. apply Nat.leb_gt. lia.
Qed.
Lemma collapse fst q f e st s rest : follow s q rest ->
  parse fst (FRule q f :: st) s (Some e) rest = parse fst st s (Some (f e)) rest.
Proof.
  intros F. destruct rest as [|t rest]; [reflexivity|]. cbn [follow] in F.
  assert (R : forall p, p <= q -> reduce p (FRule q f :: st) e = reduce p st (f e)).
  { intros p Hp. cbn [reduce]. apply Nat.leb_le in Hp. rewrite Hp. reflexivity. }
  destruct t; cbn [token_level] in F; cbn [parse]; try reflexivity; try (rewrite R by lia; reflexivity).
Qed.
Lemma follow_up s l m rest : l <= m -> follow s l rest -> follow s m rest.
Proof. destruct rest; cbn; [auto|lia]. Qed.
Lemma low_up l m st : l <= m -> low l st -> low m st.
Proof. destruct st as [|[] st]; cbn; auto; lia. Qed.

Lemma complete_parse s l ts e : derives s l ts e -> forall first st rest, low l st -> follow s l rest ->
  parse first st s None (ts ++ rest) = parse first st s (Some e) rest.
Proof.
  induction 1 as [| | | | | | |s ts e _ IH|m ta a tb b _ IHa _ IHb|ts p _ IH|u tl lb tu ub ts p _ IHl _ IHu _ IH
                 |b tp p tl lb tu ub tq q _ IHp _ IHl _ IHu _ IHq|s l o ta a tb b Ho _ IHa _ IHb|s l ts e _ IH];
    intros first st rest Lw Fo; try reflexivity.
  - cbn [app parse]. replace (leaf s TLParen) with (@None tree) by (destruct s; reflexivity).
    rewrite <- app_assoc, IH by (cbn; auto with arith). cbn [app parse reduce]. destruct s; reflexivity.
  - cbn [app parse leaf]. rewrite <- app_assoc. cbn [app]. rewrite IHa by (cbn; auto with arith). cbn [parse reduce].
    rewrite <- app_assoc, IHb by (cbn; auto with arith). reflexivity.
  - cbn [app parse leaf]. rewrite IH by (cbn; auto with arith). apply collapse, Fo.
  - cbn [app parse leaf]. rewrite <- app_assoc. cbn [app]. rewrite IHl by (cbn; auto with arith). cbn [parse reduce].
    rewrite <- app_assoc. cbn [app]. rewrite IHu by (cbn; auto with arith). cbn [parse reduce].
    rewrite IH by (cbn; auto with arith). apply collapse, Fo.
  - rewrite <- app_assoc. cbn [app]. rewrite IHp by (cbn; auto with arith). cbn [parse].
    rewrite reduce_low by (auto; lia).
    rewrite <- app_assoc. cbn [app]. rewrite IHl by (cbn; auto with arith). cbn [parse reduce].
    rewrite <- app_assoc. cbn [app]. rewrite IHu by (cbn; auto with arith). cbn [parse reduce].
    rewrite IHq; [|cbn; auto with arith|eapply follow_up; [|exact Fo]; lia].
    apply (collapse first 4 (Bin b lb ub p)), Fo.
  - apply operator_iff in Ho as [Hs Hl]. pose proof (level_bounds o) as B.
    rewrite <- app_assoc. cbn [app]. rewrite IHa by (cbn; auto; lia). cbn [parse]. rewrite Hs, sort_eqb_refl, Hl.
    rewrite reduce_low by (auto; lia). rewrite IHb; [|cbn; lia|eapply follow_up; [|exact Fo]; lia].
    apply (collapse first l (Op o a)), Fo.
  - apply IH; [eapply low_up; [|exact Lw]; lia|eapply follow_up; [|exact Fo]; lia].
Qed.
Lemma formulas_complete first ts fs : formula_lines ts fs -> parse first [] Formula None ts = Some ([], fs).
Proof.
  intros H. revert first. induction H as [|ts p rest fs D _ IH]; intros first; [reflexivity|].
  rewrite (complete_parse _ _ _ _ D) by (cbn; auto with arith). cbn [parse reduce]. rewrite IH. reflexivity.
Qed.
Lemma parse_complete ts cs fs : file_lines ts cs fs -> parse true [] Formula None ts = Some (cs, fs).
Proof.
  induction 1 as [ts fs H|ts c rest cs fs D _ IH]; [exact (formulas_complete true ts fs H)|].
  cbn [parse leaf]. rewrite (complete_parse _ _ _ _ D) by (cbn; auto with arith). cbn [parse reduce]. rewrite IH. reflexivity.
Qed.

(** ** It accepts nothing else *)
(** The tokens of the present line read so far, and the level of the operand that
    the innermost rule waits for. *)
Inductive ctx (first : bool) : list frame -> sort -> list token -> nat -> Prop :=
| c_nil : ctx first [] Formula [] 1
| c_constraint : first = true -> ctx first [FConstraint] Term [TConstraint] 1
| c_paren st s pre l : ctx first st s pre l -> ctx first (FParen :: st) s (pre ++ [TLParen]) 1
| c_rule q m f op st s pre l : (forall ts e, derives s m ts e -> derives s q (op ++ ts) (f e)) -> 1 <= q <= 8 ->
    m = Nat.min 8 (S q) -> l <= q -> ctx first st s pre l -> ctx first (FRule q f :: st) s (pre ++ op) m
| c_lower q g op st pre l :
    (forall tl lb tu ub ts e, derives Term 1 tl lb -> derives Term 1 tu ub -> derives Formula (Nat.min 8 (S q)) ts e ->
       derives Formula q (op ++ tl ++ TComma :: tu ++ TRBrack :: ts) (g lb ub e)) -> 1 <= q <= 8 -> l <= q ->
    ctx first st Formula pre l -> ctx first (FLower q g :: st) Term (pre ++ op) 1
| c_upper q g op st pre l :
    (forall tu ub ts e, derives Term 1 tu ub -> derives Formula (Nat.min 8 (S q)) ts e ->
       derives Formula q (op ++ tu ++ TRBrack :: ts) (g ub e)) -> 1 <= q <= 8 -> l <= q ->
    ctx first st Formula pre l -> ctx first (FUpper q g :: st) Term (pre ++ op) 1
| c_first g op st pre l :
    (forall ta a tb b, derives Term 1 ta a -> derives Term 1 tb b ->
       derives Term 8 (op ++ ta ++ TComma :: tb ++ [TRParen]) (g a b)) ->
    ctx first st Term pre l -> ctx first (FFirst g :: st) Term (pre ++ op) 1
| c_second g op st pre l :
    (forall tb b, derives Term 1 tb b -> derives Term 8 (op ++ tb ++ [TRParen]) (g b)) ->
    ctx first st Term pre l -> ctx first (FSecond g :: st) Term (pre ++ op) 1.
Lemma ctx_level first st s pre l : ctx first st s pre l -> 1 <= l <= 8.
Proof. destruct 1; lia. Qed.

Definition settled (st : list frame) : Prop := match st with FRule _ _ :: _ => False | _ => True end.
Lemma reduce_sound first p st s pre l : ctx first st s pre l -> forall m ts e st' e', p <= m -> p <= 7 -> l <= m ->
  derives s m ts e -> reduce p st e = (st', e') ->
  exists pre' ts' l' m', ctx first st' s pre' l' /\ derives s m' ts' e' /\ pre ++ ts = pre' ++ ts' /\ l' <= m' /\ p <= m' /\
    l' <= Nat.max p 1 /\ (p = 0 -> settled st').
Proof.
  intros C. induction C as [|Hf|st s pre l C _|q mm f op st s pre l Hd Hq Hm Hl C IH|q g op st pre l Hd Hq Hl C _
                           |q g op st pre l Hd Hq Hl C _|g op st pre l Hd C _|g op st pre l Hd C _];
    intros m ts e st' e' Hp H7 Hlm D R.
  4:{ cbn [reduce] in R. destruct (p <=? q) eqn:E.
      - apply Nat.leb_le in E. destruct (IH q (op ++ ts) (f e) st' e' E H7 Hl) as (pre' & ts' & l' & m' & H1 & H2 & H3 & H4).
        + apply Hd. eapply derives_down; [|exact D]. exact Hlm.
        + exact R.
        + exists pre', ts', l', m'. rewrite <- app_assoc. auto.
      - apply Nat.leb_gt in E. injection R as <- <-. exists (pre ++ op), ts, mm, m.
        split; [eapply c_rule; eassumption|]. split; [exact D|]. split; [reflexivity|]. split; [exact Hlm|]. split; [exact Hp|].
        split; lia. }
  all: cbn [reduce] in R; injection R as <- <-.
  - exists [], ts, 1, m. repeat split; auto; try lia; cbn; auto. constructor.
  - exists [TConstraint], ts, 1, m. repeat split; auto; try lia; cbn; auto. constructor. exact Hf.
  - exists (pre ++ [TLParen]), ts, 1, m. repeat split; auto; try lia; cbn; auto. econstructor; eassumption.
  - exists (pre ++ op), ts, 1, m. split; [eapply c_lower; eassumption|]. repeat split; auto; try lia; cbn; auto.
  - exists (pre ++ op), ts, 1, m. split; [eapply c_upper; eassumption|]. repeat split; auto; try lia; cbn; auto.
  - exists (pre ++ op), ts, 1, m. split; [eapply c_first; eassumption|]. repeat split; auto; try lia; cbn; auto.
  - exists (pre ++ op), ts, 1, m. split; [eapply c_second; eassumption|]. repeat split; auto; try lia; cbn; auto.
Qed.

Definition result (first : bool) (ts : list token) (r : list tree * list tree) : Prop :=
  if first then file_lines ts (fst r) (snd r) else fst r = [] /\ formula_lines ts (snd r).
Lemma result_formula first ts p rest r : derives Formula 1 ts p -> result false rest r ->
  result first (ts ++ TNewline :: rest) (fst r, p :: snd r).
Proof.
  intros D [E H]. destruct first; cbn [result fst snd]; rewrite E; [apply f_formulas|split; [reflexivity|]]; constructor; assumption.
Qed.
Lemma leaf_derives s t e : leaf s t = Some e -> derives s 8 [t] e.
Proof. destruct s, t; cbn; intros H; try discriminate; injection H as <-; constructor. Qed.

Definition sound_at (n : nat) : Prop := forall ts r first, List.length ts < n ->
  (forall st s pre l, ctx first st s pre l -> parse first st s None ts = Some r -> result first (pre ++ ts) r) /\
  (forall st s pre l ts0 e, ctx first st s pre l -> derives s 8 ts0 e -> parse first st s (Some e) ts = Some r ->
     result first (pre ++ ts0 ++ ts) r).
Lemma parse_sound_at : forall n, sound_at n.
Proof.
  induction n as [|n IH]; intros ts r first Hn; [lia|]. split.
  - intros st s pre l C H. destruct ts as [|t ts].
    { cbn in H. destruct st; [|discriminate]. injection H as <-. inversion C; subst.
      destruct first; [apply f_formulas; constructor|split; [reflexivity|constructor]]. }
    cbn [List.length] in Hn. cbn [parse] in H. destruct (leaf s t) as [e|] eqn:Lf.
    { exact (proj2 (IH ts r first ltac:(lia)) st s pre l [t] e C (leaf_derives _ _ _ Lf) H). }
    assert (Go : forall st' s' op m rest, ctx first st' s' (pre ++ op) m -> List.length rest < n ->
               parse first st' s' None rest = Some r -> result first (pre ++ op ++ rest) r).
    { intros st' s' op m rest C' Hr P. rewrite app_assoc. exact (proj1 (IH rest r first Hr) _ _ _ _ C' P). }
    pose proof (ctx_level _ _ _ _ _ C) as Lv.
    destruct t; try discriminate.
    + destruct st; [|destruct s; discriminate]. destruct first; [|destruct s; discriminate]. inversion C; subst.
      exact (proj1 (IH ts r true ltac:(lia)) _ _ _ _ (c_constraint true eq_refl) H).
    + destruct s; [|discriminate]. apply (Go (FRule 8 Not :: st) Formula [TNot] 8 ts); [|lia|exact H].
      eapply (c_rule _ 8 8); [|lia|reflexivity| |exact C]; [|lia]. intros ts' e' D. exact (d_not ts' e' D).
    + destruct s; [|discriminate]. destruct ts as [|[] ts]; try discriminate.
      apply (Go (FLower 8 (Un u) :: st) Term [TUnary u; TLBrack] 1 ts); [|cbn in Hn; lia|exact H].
      eapply c_lower; [|lia| |exact C]; [|lia]. intros tl lb tu ub ts' e' Dl Du D. exact (d_unary u tl lb tu ub ts' e' Dl Du D).
    + destruct s; [discriminate|]. destruct ts as [|[] ts]; try discriminate.
      apply (Go (FFirst (Call m) :: st) Term [TCall m; TLParen] 1 ts); [|cbn in Hn; lia|exact H].
      eapply c_first; [|exact C]. intros ta a tb b Da Db. exact (d_call m ta a tb b Da Db).
    + apply (Go (FParen :: st) s [TLParen] 1 ts); [|lia|destruct s; exact H]. econstructor. exact C.
  - intros st s pre l ts0 e C D H. destruct ts as [|t ts]; [discriminate|]. cbn [List.length] in Hn.
    pose proof (ctx_level _ _ _ _ _ C) as Lv.
    assert (Red : forall p st' e', p <= 7 -> reduce p st e = (st', e') ->
      exists pre' ts' l' m', ctx first st' s pre' l' /\ derives s m' ts' e' /\ pre ++ ts0 = pre' ++ ts' /\ l' <= m' /\ p <= m' /\
        l' <= Nat.max p 1 /\ (p = 0 -> settled st')).
    { intros p st' e' Hp R. apply (reduce_sound first p st s pre l C 8 ts0 e st' e'); auto; lia. }
    assert (Go : forall pre' ts' st' s' op m rest, pre ++ ts0 = pre' ++ ts' -> ctx first st' s' (pre' ++ ts' ++ op) m ->
               List.length rest < n -> parse first st' s' None rest = Some r -> result first (pre ++ ts0 ++ op ++ rest) r).
    { intros pre' ts' st' s' op m rest E C' Hr P. pose proof (proj1 (IH rest r first Hr) _ _ _ _ C' P) as G.
      rewrite app_assoc, E. rewrite <- !app_assoc in *. exact G. }
    destruct t; try discriminate; cbn [parse] in H.
    + (* infix *)
      destruct (sort_eqb s (sort_of o)) eqn:Es; [|destruct s; discriminate]. apply sort_eqb_eq in Es.
      assert (H' : (let (st, e) := reduce (level o) st e in parse first (FRule (level o) (Op o e) :: st) s None ts) = Some r)
        by (destruct s; exact H). clear H. pose proof (level_bounds o) as B.
      destruct (reduce (level o) st e) as [st' e'] eqn:R.
      destruct (Red (level o) st' e' ltac:(lia) R) as (pre' & ts' & l' & m' & C' & D' & E & H1 & H2 & H3 & _).
      apply (Go pre' ts' (FRule (level o) (Op o e') :: st') s [TOp o] (S (level o)) ts E); [|lia|exact H'].
      eapply c_rule; [|lia|lia| |exact C']; [|lia]. intros tb b Db. rewrite <- app_assoc. cbn [app].
      apply d_operator; [apply operator_iff; auto| |exact Db]. eapply derives_down; [|exact D']. exact H2.
    + destruct s; [|discriminate]. destruct ts as [|[] ts]; try discriminate.
      destruct (reduce 4 st e) as [st' e'] eqn:R.
      destruct (Red 4 st' e' ltac:(lia) R) as (pre' & ts' & l' & m' & C' & D' & E & H1 & H2 & H3 & _).
      apply (Go pre' ts' (FLower 4 (fun lb ub => Bin b lb ub e') :: st') Term [TBinary b; TLBrack] 1 ts E); [|cbn in Hn; lia|exact H].
      eapply c_lower; [|lia| |exact C']; [|lia]. intros tl lb tu ub tq q Dl Du Dq. rewrite <- app_assoc. cbn [app].
      apply d_binary; auto. eapply derives_down; [|exact D']. exact H2.
    + (* newline *)
      assert (H' : match reduce 0 st e with
        | ([], e) => option_map (fun p => (fst p, e :: snd p)) (parse false [] Formula None ts)
        | (FConstraint :: _, e) => option_map (fun p => (e :: fst p, snd p)) (parse first [] Formula None ts)
        | _ => None end = Some r) by (destruct s; exact H). clear H.
      destruct (reduce 0 st e) as [st' e'] eqn:R.
      destruct (Red 0 st' e' ltac:(lia) R) as (pre' & ts' & l' & m' & C' & D' & E & H1 & H2 & H3 & _).
      rewrite app_assoc, E. destruct st' as [|[] st']; try discriminate.
      * inversion C'; subst. cbn [app]. destruct (parse false [] Formula None ts) as [r'|] eqn:P; [|discriminate]. injection H' as <-.
        apply result_formula; [eapply derives_down; [|exact D']; exact H1|].
        exact (proj1 (IH ts r' false ltac:(lia)) _ _ _ _ (c_nil false) P).
      * inversion C'; subst. cbn [app]. destruct (parse true [] Formula None ts) as [r'|] eqn:P; [|discriminate]. injection H' as <-.
        cbn [result fst snd]. apply f_constraint; [eapply derives_down; [|exact D']; exact H1|].
        exact (proj1 (IH ts r' true ltac:(lia)) _ _ _ _ (c_nil true) P).
    + (* comma *)
      assert (H' : match reduce 0 st e with
        | (FLower q g :: st, e) => parse first (FUpper q (g e) :: st) Term None ts
        | (FFirst g :: st, e) => parse first (FSecond (g e) :: st) Term None ts
        | _ => None end = Some r) by (destruct s; exact H). clear H.
      destruct (reduce 0 st e) as [st' e'] eqn:R.
      destruct (Red 0 st' e' ltac:(lia) R) as (pre' & ts' & l' & m' & C' & D' & E & H1 & H2 & H3 & _).
      destruct st' as [|[] st']; try discriminate; inversion C'; subst.
      * assert (D1 : derives Term 1 ts' e') by (eapply derives_down; [|exact D']; exact H1).
        apply (Go (pre0 ++ op) ts' (FUpper q (g e') :: st') Term [TComma] 1 ts E); [|lia|exact H'].
        rewrite <- app_assoc. eapply c_upper; [| | |eassumption]; try eassumption.
        intros tu ub tss p Du Dp. repeat rewrite <- app_assoc. cbn [app]. match goal with K : forall tl lb, _ |- _ => apply K; assumption end.
      * assert (D1 : derives Term 1 ts' e') by (eapply derives_down; [|exact D']; exact H1).
        apply (Go (pre0 ++ op) ts' (FSecond (g e') :: st') Term [TComma] 1 ts E); [|lia|exact H'].
        rewrite <- app_assoc. eapply c_second; [|eassumption].
        intros tb b Db. repeat rewrite <- app_assoc. cbn [app]. match goal with K : forall ta a, _ |- _ => apply K; assumption end.
    + (* right bracket *)
      assert (H' : match reduce 0 st e with
        | (FUpper q g :: st, e) => parse first (FRule q (g e) :: st) Formula None ts
        | _ => None end = Some r) by (destruct s; exact H). clear H.
      destruct (reduce 0 st e) as [st' e'] eqn:R.
      destruct (Red 0 st' e' ltac:(lia) R) as (pre' & ts' & l' & m' & C' & D' & E & H1 & H2 & H3 & _).
      destruct st' as [|[] st']; try discriminate; inversion C'; subst.
      assert (D1 : derives Term 1 ts' e') by (eapply derives_down; [|exact D']; exact H1).
      apply (Go (pre0 ++ op) ts' (FRule q (g e') :: st') Formula [TRBrack] (Nat.min 8 (S q)) ts E); [|lia|exact H'].
      rewrite <- app_assoc. eapply c_rule; [| |reflexivity| |eassumption]; try eassumption.
      intros tss p Dp. repeat rewrite <- app_assoc. cbn [app]. match goal with K : forall tu ub, _ |- _ => apply K; assumption end.
    + (* right parenthesis *)
      assert (H' : match reduce 0 st e with
        | (FParen :: st, e) => parse first st s (Some e) ts
        | (FSecond g :: st, e) => parse first st Term (Some (g e)) ts
        | _ => None end = Some r) by (destruct s; exact H). clear H.
      destruct (reduce 0 st e) as [st' e'] eqn:R.
      destruct (Red 0 st' e' ltac:(lia) R) as (pre' & ts' & l' & m' & C' & D' & E & H1 & H2 & H3 & _).
      destruct st' as [|[] st']; try discriminate; inversion C'; subst.
      * assert (D1 : derives s 8 (TLParen :: ts' ++ [TRParen]) e') by (apply d_paren; eapply derives_down; [|exact D']; exact H1).
        match goal with K : ctx first st' s _ _ |- _ => pose proof (proj2 (IH ts r first ltac:(lia)) _ _ _ _ _ _ K D1 H') as G end.
        rewrite app_assoc, E. repeat (rewrite <- app_assoc in G |- * ); cbn [app] in *. repeat rewrite <- app_assoc in *. exact G.
      * assert (D1 : derives Term 1 ts' e') by (eapply derives_down; [|exact D']; exact H1).
        match goal with K : forall tb b, derives Term 1 tb b -> _, K' : ctx first st' Term _ _ |- _ =>
          pose proof (proj2 (IH ts r first ltac:(lia)) _ _ _ _ _ _ K' (K ts' e' D1) H') as G end.
        rewrite app_assoc, E. repeat rewrite <- app_assoc in *. cbn [app] in *. exact G.
Qed.
Lemma parse_iff ts cs fs : parse true [] Formula None ts = Some (cs, fs) <-> file_lines ts cs fs.
Proof.
  split; [|apply parse_complete]. intros H.
  exact (proj1 (parse_sound_at (S (List.length ts)) ts (cs, fs) true (Nat.lt_succ_diag_r _)) [] Formula [] 1 (c_nil true) H).
Qed.

(** ** The lexer *)
Lemma lex_skip : forall a s, lex (a ++ s) (List.length a) = lex s 0.
Proof. induction a as [|c a IH]; intros s; [reflexivity|]. cbn [app List.length lex]. apply IH. Qed.
Lemma digit_start : forall c, is_digit c = true -> forall r,
  ((Ascii.eqb c " ") || (Ascii.eqb c "009"))%bool = false /\
  token_at (c :: r) = option_map (fun p => (Some (TNum (fst p)), snd p)) (MltlText.number_at (c :: r)).
Proof.
  intros c H r. destruct c as [[] [] [] [] [] [] [] []]; vm_compute in H; try discriminate; split; reflexivity.
Qed.
Lemma indexed_at mk n s : MltlTextProofs.no_digit s -> indexed mk (dec n ++ s) = Some (Some (mk n), S (List.length (dec n))).
Proof. intros H. unfold indexed. rewrite MltlTextProofs.number_at_dec by exact H. reflexivity. Qed.
Lemma lex_token t s : apart t s -> lex (spelling t ++ s) 0 = t :: lex s 0.
Proof.
  intros H.
  assert (N : forall X : Prop, match s with c :: _ => is_digit c = false | [] => X end -> MltlTextProofs.no_digit s)
    by (intros X; destruct s; cbn; auto).
  destruct t as [| |o|[]|[]|[]|n|n|n|n| | | | | | | | |]; try reflexivity; cbn [spelling].
  - cbn [apart] in H. destruct s as [|c s]; [reflexivity|].
    destruct c as [[] [] [] [] [] [] [] []]; try reflexivity. exfalso; apply H; reflexivity.
  - destruct o; try reflexivity; cbn [apart] in H; (destruct s as [|c s]; [reflexivity|]);
      destruct c as [[] [] [] [] [] [] [] []]; try reflexivity; exfalso; (destruct H as [H1 H2] || idtac);
      first [apply H; reflexivity | apply H1; reflexivity | apply H2; reflexivity].
  - assert (Hd : MltlTextProofs.no_digit s) by (apply (N True); exact H).
    destruct (dec_cons n) as (c & r & E & Hc). pose proof (MltlTextProofs.number_at_dec n s Hd) as M. rewrite E in *. cbn [app] in *.
    cbn [lex]. destruct (digit_start c Hc (r ++ s)) as [B T]. rewrite B, T, M. cbn [option_map fst snd List.length pred].
    rewrite lex_skip. reflexivity.
  - assert (Hd : MltlTextProofs.no_digit s) by (apply (N True); exact H). cbn [app lex].
    change (Ascii.eqb "a" " " || Ascii.eqb "a" "009")%bool with false. cbn iota.
    change (token_at ("a"%char :: dec n ++ s)) with (indexed TAtom (dec n ++ s)).
    rewrite indexed_at by exact Hd. cbn [pred]. rewrite lex_skip. reflexivity.
  - assert (Hd : MltlTextProofs.no_digit s) by (apply (N True); exact H). cbn [app lex].
    change (Ascii.eqb "b" " " || Ascii.eqb "b" "009")%bool with false. cbn iota.
    change (token_at ("b"%char :: dec n ++ s)) with (indexed TBound (dec n ++ s)).
    rewrite indexed_at by exact Hd. cbn [pred]. rewrite lex_skip. reflexivity.
  - assert (Hd : MltlTextProofs.no_digit s) by (apply (N True); exact H). cbn [app lex].
    change (Ascii.eqb "p" " " || Ascii.eqb "p" "009")%bool with false. cbn iota.
    change (token_at ("p"%char :: dec n ++ s)) with (indexed TProp (dec n ++ s)).
    rewrite indexed_at by exact Hd. cbn [pred]. rewrite lex_skip. reflexivity.
Qed.
Lemma lex_comment body s : ~ In "010"%char body -> lex ("#"%char :: body ++ "010"%char :: s) 0 = lex s 0.
Proof.
  intros H. cbn [lex]. change (Ascii.eqb "#" " " || Ascii.eqb "#" "009")%bool with false. cbn iota.
  assert (T : token_at ("#"%char :: body ++ "010"%char :: s) = option_map (fun n => (None, S n)) (MltlText.line_length (body ++ "010"%char :: s)))
    by reflexivity.
  rewrite T, MltlTextProofs.line_length_at by exact H. cbn [option_map pred].
  replace (body ++ "010"%char :: s) with ((body ++ ["010"%char]) ++ s) by (rewrite <- app_assoc; reflexivity).
  replace (S (List.length body)) with (List.length (body ++ ["010"%char])) by (rewrite app_length; cbn; lia). apply lex_skip.
Qed.
Lemma lex_spells s ts : spells s ts -> lex s 0 = ts.
Proof.
  induction 1 as [|c s ts H _ IH|body s ts H _ IH|t s ts _ IH H]; [reflexivity| | |].
  - cbn [lex]. destruct H as [-> | ->]; exact IH.
  - rewrite lex_comment by exact H. exact IH.
  - rewrite lex_token by exact H. congruence.
Qed.

(** ** Files *)
Lemma read_iff s ts cs fs : spells s ts -> (read_equiv s = Some (cs, fs) <-> file_lines ts cs fs).
Proof. intros H. unfold read_equiv. rewrite (lex_spells s ts H). apply parse_iff. Qed.
Lemma derivations_unique ts cs fs cs' fs' : file_lines ts cs fs -> file_lines ts cs' fs' -> cs = cs' /\ fs = fs'.
Proof. intros H H'. apply parse_iff in H, H'. split; congruence. Qed.
Lemma bound_tree_inj a : forall b, bound_tree a = bound_tree b -> a = b.
Proof. induction a; intros []; cbn; intros E; try discriminate; try reflexivity; injection E; intros; f_equal; auto; lia. Qed.
Lemma constraint_tree_inj c d : constraint_tree c = constraint_tree d -> c = d.
Proof.
  destruct c as [r a b], d as [r' a' b']. unfold constraint_tree. cbn. intros E. injection E as Er Ea Eb.
  apply bound_tree_inj in Ea, Eb. subst. destruct r, r'; congruence.
Qed.
Lemma formula_tree_inj name : (forall a b, name a = name b -> a = b) -> forall p q, formula_tree name p = formula_tree name q -> p = q.
Proof.
  intros Hn. assert (Ha : forall a b, formula_tree name (SymSmt.SAtom a) = formula_tree name (SymSmt.SAtom b) -> a = b).
  { intros a b E. apply Hn. cbn in E. destruct (name a) as [[] n], (name b) as [[] m]; congruence. }
  induction p; intros [] E; try (specialize (Ha _ _ E); congruence);
    cbn in E; try (destruct (name a) as [[] ?]; discriminate); try (destruct (name a0) as [[] ?]; discriminate);
    try discriminate; injection E; intros; repeat match goal with H : bound_tree _ = bound_tree _ |- _ => apply bound_tree_inj in H end;
    f_equal; auto.
Qed.
Lemma map_inj {A B} (f : A -> B) : (forall a b, f a = f b -> a = b) -> forall l m, map f l = map f m -> l = m.
Proof. intros Hf. induction l as [|a l IH]; intros [|b m]; cbn; intros E; try discriminate; [reflexivity|]. injection E as E1 E2. f_equal; auto. Qed.
(** A text written for a file is read as that file, and for no other file. *)
Lemma read_written name s fl : written name s fl ->
  read_equiv s = Some (map constraint_tree (SymSmt.constraints fl), map (formula_tree name) (SymSmt.formulas fl)).
Proof. intros (ts & Hs & Hf). apply (read_iff s ts); assumption. Qed.
Lemma written_unique name s fl fl' : (forall a b, name a = name b -> a = b) -> written name s fl -> written name s fl' -> fl = fl'.
Proof.
  intros Hn H H'. apply read_written in H, H'. rewrite H in H'. injection H' as Ec Ef.
  apply (map_inj _ constraint_tree_inj) in Ec. apply (map_inj _ (formula_tree_inj name Hn)) in Ef.
  destruct fl, fl'. cbn in *. congruence.
Qed.

(** Every file can be written. *)
Lemma spells_some ts : exists s, spells s ts.
Proof.
  induction ts as [|t ts (s & H)]; [exists []; constructor|].
  exists (spelling t ++ " "%char :: s). constructor; [constructor; auto|].
  destruct t as [| |o| | | | | | | | | | | | | | | |]; cbn; try reflexivity; try discriminate; auto.
  destruct o; cbn; try discriminate; auto. split; discriminate.
Qed.
Lemma level_up s l ts e : l <= 8 -> derives s 8 ts e -> derives s l ts e.
Proof. apply derives_down. Qed.
Lemma operator_derives o ta a tb b : derives (sort_of o) 8 ta a -> derives (sort_of o) 8 tb b ->
  exists ts, derives (sort_of o) 8 ts (Op o a b) /\ derives (sort_of o) 1 ts (Op o a b).
Proof.
  intros Ha Hb. pose proof (level_bounds o) as B. exists (TLParen :: (ta ++ TOp o :: tb) ++ [TRParen]).
  assert (D : derives (sort_of o) 8 (TLParen :: (ta ++ TOp o :: tb) ++ [TRParen]) (Op o a b)).
  { apply d_paren. apply (derives_down _ 1 (level o)); [lia|]. apply d_operator; [apply operator_iff; auto| |];
      (apply level_up; [lia|assumption]). }
  split; [exact D|]. apply level_up; [lia|exact D].
Qed.
Lemma bound_written b : exists ts, derives Term 8 ts (bound_tree b).
Proof.
  induction b as [n|v| |a (ta & Ha) b (tb & Hb)|a (ta & Ha) b (tb & Hb)|a (ta & Ha) b (tb & Hb)|a (ta & Ha) b (tb & Hb)|a (ta & Ha) b (tb & Hb)];
    cbn [bound_tree]; try (eexists; constructor; fail).
  - destruct (operator_derives OAdd ta _ tb _ Ha Hb) as (ts & H & _). eauto.
  - destruct (operator_derives OSub ta _ tb _ Ha Hb) as (ts & H & _). eauto.
  - destruct (operator_derives OMul ta _ tb _ Ha Hb) as (ts & H & _). eauto.
  - eexists. apply d_call; (apply level_up; [lia|eassumption]).
  - eexists. apply d_call; (apply level_up; [lia|eassumption]).
Qed.
Lemma constraint_written c : exists ts, derives Term 1 ts (constraint_tree c).
Proof.
  destruct c as [r a b]. destruct (bound_written a) as (ta & Ha), (bound_written b) as (tb & Hb). unfold constraint_tree. cbn.
  destruct r; [destruct (operator_derives OEq ta _ tb _ Ha Hb) as (ts & _ & H)|destruct (operator_derives ONe ta _ tb _ Ha Hb) as (ts & _ & H)
    |destruct (operator_derives OGe ta _ tb _ Ha Hb) as (ts & _ & H)|destruct (operator_derives OLe ta _ tb _ Ha Hb) as (ts & _ & H)
    |destruct (operator_derives OGt ta _ tb _ Ha Hb) as (ts & _ & H)|destruct (operator_derives OLt ta _ tb _ Ha Hb) as (ts & _ & H)]; eauto.
Qed.
Lemma temporal_written b lb ub tp p tq q : derives Formula 8 tp p -> derives Formula 8 tq q ->
  exists ts, derives Formula 8 ts (Bin b (bound_tree lb) (bound_tree ub) p q).
Proof.
  intros Hp Hq. destruct (bound_written lb) as (tl & Hl), (bound_written ub) as (tu & Hu). eexists. apply d_paren.
  apply (derives_down _ 1 4); [lia|]. apply d_binary; (apply level_up; [lia|eassumption]).
Qed.
Lemma unary_written u lb ub tp p : derives Formula 8 tp p -> exists ts, derives Formula 8 ts (Un u (bound_tree lb) (bound_tree ub) p).
Proof.
  intros Hp. destruct (bound_written lb) as (tl & Hl), (bound_written ub) as (tu & Hu). eexists.
  apply d_unary; [apply level_up; [lia|exact Hl]|apply level_up; [lia|exact Hu]|exact Hp].
Qed.
Lemma formula_written name p : exists ts, derives Formula 8 ts (formula_tree name p).
Proof.
  induction p as [b|a|p (tp & Hp)|p (tp & Hp) q (tq & Hq)|p (tp & Hp) q (tq & Hq)|p (tp & Hp) q (tq & Hq)|p (tp & Hp) q (tq & Hq)
                 |lb ub p (tp & Hp)|lb ub p (tp & Hp)|lb ub p (tp & Hp) q (tq & Hq)|lb ub p (tp & Hp) q (tq & Hq)]; cbn [formula_tree].
  - destruct b; eexists; constructor.
  - destruct (name a) as [[] n]; eexists; constructor.
  - eexists. apply d_not. exact Hp.
  - destruct (operator_derives OImpl tp _ tq _ Hp Hq) as (ts & H & _). eauto.
  - destruct (operator_derives OIff tp _ tq _ Hp Hq) as (ts & H & _). eauto.
  - destruct (operator_derives OOr tp _ tq _ Hp Hq) as (ts & H & _). eauto.
  - destruct (operator_derives OAnd tp _ tq _ Hp Hq) as (ts & H & _). eauto.
  - eapply unary_written. exact Hp.
  - eapply unary_written. exact Hp.
  - eapply temporal_written; eassumption.
  - eapply temporal_written; eassumption.
Qed.
Lemma file_written name fl : exists s, written name s fl.
Proof.
  destruct fl as [cs fs].
  assert (F : exists ts, formula_lines ts (map (formula_tree name) fs)).
  { induction fs as [|p fs (ts & H)]; [exists []; constructor|]. destruct (formula_written name p) as (tp & Hp).
    eexists. cbn [map]. apply fl_cons; [apply level_up; [lia|exact Hp]|exact H]. }
  assert (C : exists ts, file_lines ts (map constraint_tree cs) (map (formula_tree name) fs)).
  { destruct F as (tf & Hf). induction cs as [|c cs (ts & H)]; [exists tf; constructor; exact Hf|].
    destruct (constraint_written c) as (tc & Hc). eexists. cbn [map]. apply f_constraint; eassumption. }
  destruct C as (ts & Ht). destruct (spells_some ts) as (s & Hs). exists s, ts. split; assumption.
Qed.
