(** * C2PO files (proofs): programs read back *)
From Coq Require Import List Arith NArith ZArith Bool Ascii String Lia.
Require Import Verif.MapFile Verif.MapProofs Verif.C2poText Verif.C2poSpec Verif.C2poProofs Verif.C2poFiles Verif.C2poLex Verif.C2poWrite.
Import ListNotations.
Local Open Scope list_scope.
Local Open Scope char_scope.

(** ** Declarations *)
Fixpoint ty_toks (t : ty) : list token :=
  match t with
  | TyName s => [TSym s]
  | TyArr t (Some n) => ty_toks t ++ [TLBrack; TNum (Z.of_nat n); TRBrack]
  | TyArr t None => ty_toks t ++ [TLBrack; TRBrack]
  end.
Lemma suffixes_snoc ts t u more v : suffixes ts t u -> suffixes more u v -> suffixes (ts ++ more) t v.
Proof. induction 1 as [t|t ts u _ IH|t n ts u _ IH]; intros M; [exact M|constructor; auto|constructor; auto]. Qed.
Lemma ty_suffixes t : exists s ts, ty_toks t = TSym s :: ts /\ suffixes ts (TyName s) t.
Proof.
  induction t as [s|t (s & ts & E & H) [n|]]; cbn [ty_toks].
  - exists s, []. split; [reflexivity|constructor].
  - exists s, (ts ++ [TLBrack; TNum (Z.of_nat n); TRBrack]). rewrite E. split; [reflexivity|]. eapply suffixes_snoc; [exact H|]. constructor. constructor.
  - exists s, (ts ++ [TLBrack; TRBrack]). rewrite E. split; [reflexivity|]. eapply suffixes_snoc; [exact H|]. constructor. constructor.
Qed.
Lemma ty_spells t : named_type t -> text (ty_text t) (ty_toks t).
Proof.
  induction t as [s|t IH [n|]]; cbn [named_type ty_text ty_toks]; intros N r rts Hr Lr.
  - apply text_name; assumption.
  - flat. apply (IH N); [|left; reflexivity]. free TLBrack. rewrite dec_num. apply (text_num (Z.of_nat n)); [|left; reflexivity].
    free TRBrack. exact Hr.
  - flat. apply (IH N); [|left; reflexivity]. free TLBrack. free TRBrack. exact Hr.
Qed.
Definition decl_toks (d : decl) : list token := joined [TComma] (map (fun s => [TSym s]) (fst d)) ++ TColon :: ty_toks (snd d) ++ [TSemi].
Lemma decl_reads d : fst d <> [] -> declaration (decl_toks d) d.
Proof.
  destruct d as [[|s names] t]; cbn [fst snd]; intros N; [congruence|]. unfold decl_toks. cbn [fst snd map].
  destruct (ty_suffixes t) as (b & ts & E & H). rewrite E.
  assert (J : forall s, joined [TComma] ([TSym s] :: map (fun s => [TSym s]) names) = TSym s :: flat_map (fun x => [TComma; TSym x]) names).
  { induction names as [|x names IH]; intros s0; [reflexivity|]. cbn [map]. rewrite joined_cons, (IH ltac:(discriminate)). reflexivity. }
  rewrite J. exact (decl_of s names b ts t H).
Qed.
(** After a name, a colon stands without a blank. *)
Lemma name_colon s r rts : usable_name s -> spells r rts -> spells (s ++ quoted ": " ++ r) (TSym s :: TColon :: rts).
Proof.
  intros U H. apply (sp (TSym s)); [exact U|discriminate|]. cbn [quoted list_ascii_of_string app]. free TColon; [discriminate|].
  apply sp_space. exact H.
Qed.
Lemma names_colon names r rts : names <> [] -> Forall usable_name names -> spells r rts ->
  spells (separated [","] names ++ quoted ": " ++ r) (joined [TComma] (map (fun s => [TSym s]) names) ++ TColon :: rts).
Proof.
  intros N F. induction F as [|s names U F IH]; intros H; [congruence|]. destruct names as [|s2 names].
  - apply name_colon; assumption.
  - rewrite separated_cons. cbn [map]. rewrite joined_cons. flat. apply (sp (TSym s)); [exact U|discriminate|]. free TComma.
    apply IH; [discriminate|exact H].
Qed.
(** ** Entries between blanks *)
Lemma blanks_spells b r rts : Forall (fun c => one_of " " c = true \/ c = "009" \/ c = "010") b -> spells r rts -> spells (b ++ r) rts.
Proof. intros F H. induction F as [|c b Hc F IH]; [exact H|]. cbn [app]. apply sp_blank; assumption. Qed.
(** An entry: followed by anything, for it ends with a semicolon. *)
Definition entry (s : str) (ts : list token) : Prop := forall r rts, spells r rts -> spells (s ++ r) (ts ++ rts).
Lemma entries sep ss tss : Forall (fun c => one_of " " c = true \/ c = "009" \/ c = "010") sep -> Forall2 entry ss tss ->
  entry (separated sep ss) (List.concat tss).
Proof.
  intros B F. induction F as [|s ts ss tss T F IH]; intros r rts Hr; [exact Hr|]. destruct F as [|s1 ts1 ss tss T1 F].
  - cbn [separated List.concat]. rewrite app_nil_r. apply T. exact Hr.
  - rewrite separated_cons. cbn [List.concat]. rewrite <- !app_assoc. apply T. apply blanks_spells; [exact B|].
    specialize (IH r rts Hr). cbn [List.concat] in IH. rewrite <- app_assoc in IH. exact IH.
Qed.
Lemma Forall2_maps {A} (f : A -> str) (g : A -> list token) (P : A -> Prop) l :
  (forall a, P a -> entry (f a) (g a)) -> Forall P l -> Forall2 entry (map f l) (map g l).
Proof. intros H F. induction F; cbn; constructor; auto. Qed.
Lemma items_concat {A} (one : list token -> A -> Prop) (g : A -> list token) (h : A -> A) l :
  Forall (fun a => one (g a) (h a)) l -> items one (List.concat (map g l)) (map h l).
Proof. induction 1; cbn; [constructor|constructor; assumption]. Qed.
Lemma decl_entry d : named_decl d -> entry (decl_text d ++ [";"]) (decl_toks d).
Proof.
  intros (N & F & T) r rts Hr. unfold decl_text, decl_toks. rewrite <- !app_assoc. cbn [app].
  apply names_colon; [exact N|exact F|]. rewrite <- app_assoc. apply (ty_spells _ T); [|left; reflexivity]. free TSemi. exact Hr.
Qed.
Definition struct_toks (s : str * list decl) : list token :=
  TSym (fst s) :: TColon :: TLBrace :: List.concat (map decl_toks (snd s)) ++ [TRBrace; TSemi].
Lemma struct_entry s : usable_name (fst s) -> Forall named_decl (snd s) -> entry (struct_text s ++ [";"]) (struct_toks s).
Proof.
  intros U F r rts Hr. unfold struct_text, struct_toks. rewrite <- !app_assoc. cbn [app quoted list_ascii_of_string]. rewrite <- app_assoc. cbn [app].
  apply (sp (TSym (fst s))); [exact U|discriminate|]. free TColon; [discriminate|]. apply sp_space. free TLBrace.
  apply (entries [" "]).
  - constructor; [left; reflexivity|constructor].
  - apply (Forall2_maps _ _ named_decl); [apply decl_entry|exact F].
  - free TRBrace. free TSemi. exact Hr.
Qed.
Lemma struct_reads s : Forall named_decl (snd s) -> structure (struct_toks s) s.
Proof.
  intros F. destruct s as [s ds]. unfold struct_toks. cbn [fst snd] in *. constructor. rewrite <- (map_id ds) at 2. apply items_concat.
  eapply Forall_impl; [|exact F]. intros d (N & _). apply decl_reads. exact N.
Qed.

Section Program.
Variable mission : option nat.
Variable py : str -> str.

(** ** Definitions and specifications *)
Definition define_toks (d : str * cx) : list token := TSym (fst d) :: TAssign :: toks (snd d) ++ [TSemi].
Lemma define_entry sigs d : usable_name (fst d) -> named py sigs (snd d) -> writable (snd d) ->
  entry (definition_text d ++ [";"]) (define_toks d).
Proof.
  intros U N W r rts Hr. unfold definition_text, define_toks. rewrite <- !app_assoc. cbn [app quoted list_ascii_of_string]. rewrite <- app_assoc. cbn [app].
  apply (sp (TSym (fst d))); [exact U|discriminate|]. apply sp_space. free TAssign. apply sp_space.
  apply (show_text py _ W _ N); [|left; reflexivity]. free TSemi. exact Hr.
Qed.
Lemma define_reads sigs d : named py sigs (snd d) -> writable (snd d) ->
  definition mission py sigs (define_toks d) (fst d, nested (snd d)).
Proof. intros N W. constructor. apply show_reads; assumption. Qed.
Definition spec_toks (s : spec) : list token :=
  match s with
  | Formula l _ e => (if is_internal l then [] else [TSym l; TColon]) ++ toks e ++ [TSemi]
  | Contract l _ a g => TSym l :: TColon :: toks a ++ TContract :: toks g ++ [TSemi]
  end.
Lemma spec_entry sigs s : named_spec py sigs s -> writable_spec s -> entry (spec_text s) (spec_toks s).
Proof.
  destruct s as [l n e|l n a g]; cbn [named_spec writable_spec spec_text spec_toks].
  - intros [U N] [_ W] r rts Hr. destruct (is_internal l); flat.
    + apply (show_text py _ W _ N); [|left; reflexivity]. free TSemi. exact Hr.
    + apply (name_colon l); [exact (U eq_refl)|]. apply (show_text py _ W _ N); [|left; reflexivity]. free TSemi. exact Hr.
  - intros (U & Na & Ng) [Wa Wg] r rts Hr. flat. apply (name_colon l); [exact U|]. apply (show_text py _ Wa _ Na); [|left; reflexivity].
    cbn [quoted list_ascii_of_string app]. apply sp_space. free TContract. apply sp_space. apply (show_text py _ Wg _ Ng); [|left; reflexivity].
    free TSemi. exact Hr.
Qed.
Definition width (s : spec) : nat := match s with Formula _ _ _ => 1 | Contract _ _ _ _ => 3 end.
Definition number (s : spec) : nat := match s with Formula _ n _ | Contract _ n _ _ => n end.
Lemma spec_reads sigs s : named_spec py sigs s -> writable_spec s ->
  specification mission py sigs (number s) (spec_toks s) (nested_spec s) (number s + width s).
Proof.
  destruct s as [l n e|l n a g]; cbn [named_spec writable_spec spec_toks nested_spec number width].
  - intros [U N] [L W]. rewrite Nat.add_1_r. destruct (is_internal l).
    + rewrite (L eq_refl). cbn [app]. apply spec_plain. apply show_reads; assumption.
    + apply spec_label. apply show_reads; assumption.
  - intros (U & Na & Ng) [Wa Wg]. apply spec_contract; apply show_reads; assumption.
Qed.
Lemma specs_read sigs l : Forall (named_spec py sigs) l -> Forall writable_spec l ->
  forall n, flat_map spec_numbers l = seq n (List.length (flat_map spec_numbers l)) ->
  specifications mission py sigs n (List.concat (map spec_toks l)) (map nested_spec l) (n + List.length (flat_map spec_numbers l)).
Proof.
  induction l as [|s l IH]; intros N W n E; [cbn; rewrite Nat.add_0_r; constructor|]. inversion N; inversion W; subst.
  assert (Hn : number s = n /\ flat_map spec_numbers l = seq (n + width s) (List.length (flat_map spec_numbers l))).
  { cbn [flat_map] in E. destruct s as [l0 k e0|l0 k a0 g0]; cbn [spec_numbers app List.length seq] in E; injection E.
    - intros E1 <-. cbn [number width]. rewrite Nat.add_1_r. auto.
    - intros E1 _ _ <-. cbn [number width]. replace (k + 3) with (S (S (S k))) by lia. auto. }
  destruct Hn as [<- E2]. cbn [map List.concat]. eapply specs_cons; [apply spec_reads; assumption|].
  replace (number s + List.length (flat_map spec_numbers (s :: l))) with (number s + width s + List.length (flat_map spec_numbers l)).
  - apply IH; assumption.
  - cbn [flat_map]. rewrite app_length. destruct s; cbn; lia.
Qed.

(** ** Sections *)
Definition section_toks (s : section) : list token :=
  match s with
  | SStruct l => TKw KStruct :: List.concat (map struct_toks l)
  | SEnum _ => []
  | SInput l => TKw KInput :: List.concat (map decl_toks l)
  | SDefine l => TKw KDefine :: List.concat (map define_toks l)
  | SSpec f l => TKw (if f then KFtspec else KPtspec) :: List.concat (map spec_toks l)
  end.
Lemma lines_entry k ss tss : Forall2 entry ss tss -> entry (lines (spelling (TKw k)) ss) (TKw k :: List.concat tss).
Proof.
  intros F r rts Hr. unfold lines. rewrite <- app_assoc. cbn [app]. free (TKw k); [discriminate|].
  apply sp_blank; [right; right; reflexivity|]. apply sp_blank; [right; left; reflexivity|]. apply entries; [|exact F|exact Hr].
  constructor; [right; right; reflexivity|constructor; [right; left; reflexivity|constructor]].
Qed.
Lemma proper_all p : forall sigs n, proper py sigs n p -> Forall writable_section p ->
  Forall2 entry (map section_text p) (map section_toks p) /\ file mission py sigs n (List.concat (map section_toks p)) (map nested_section p).
Proof.
  induction p as [|s p IH]; intros sigs n P W; [split; constructor|]. inversion W as [|? ? Ws Wp]; subst.
  destruct s as [l|l|l|l|f l]; cbn [proper writable_section] in P, Ws.
  - destruct P as (Ne & F & P). destruct (IH _ _ P Wp) as [E R]. split; cbn [map List.concat section_text section_toks nested_section].
    + constructor; [|exact E]. apply (lines_entry KStruct). apply (Forall2_maps _ _ _ _ (fun s H => struct_entry s (proj1 H) (proj2 H)) F).
    + destruct l as [|s l]; [congruence|]. apply file_struct; [|exact R]. rewrite <- (map_id (s :: l)) at 2. apply items_concat.
      eapply Forall_impl; [|exact F]. intros x [_ H]. apply struct_reads. exact H.
  - contradiction.
  - destruct P as (Ne & F & P). destruct (IH _ _ P Wp) as [E R]. split; cbn [map List.concat section_text section_toks nested_section].
    + constructor; [|exact E]. apply (lines_entry KInput). apply (Forall2_maps _ _ _ _ decl_entry F).
    + destruct l as [|s l]; [congruence|]. apply file_input; [|exact R]. rewrite <- (map_id (s :: l)) at 2. apply items_concat.
      eapply Forall_impl; [|exact F]. intros x (H & _). apply decl_reads. exact H.
  - destruct P as (Ne & F & P). destruct (IH _ _ P Wp) as [E R]. split; cbn [map List.concat section_text section_toks nested_section].
    + constructor; [|exact E]. apply (lines_entry KDefine).
      apply (Forall2_maps _ _ (fun d => (usable_name (fst d) /\ named py sigs (snd d)) /\ writable (snd d))).
      * intros d ((U & N) & Wd). eapply define_entry; eassumption.
      * apply Forall_and; assumption.
    + destruct l as [|s l]; [congruence|]. apply (file_define mission py sigs n _ (fst s, nested (snd s))); [|exact R].
      apply (items_concat (definition mission py sigs) define_toks (fun d => (fst d, nested (snd d))) (s :: l)).
      pose proof (Forall_and F Ws) as G. eapply Forall_impl; [|exact G]. intros x ((_ & N) & Wd). apply define_reads; assumption.
  - destruct P as (Ne & F & Q & P). destruct (IH _ _ P Wp) as [E R]. split; cbn [map List.concat section_text section_toks nested_section].
    + constructor; [|exact E].
      assert (G : Forall2 entry (map spec_text l) (map spec_toks l)).
      { apply (Forall2_maps _ _ (fun s => named_spec py sigs s /\ writable_spec s)); [|apply Forall_and; assumption].
        intros x [N X]. eapply spec_entry; eassumption. }
      destruct f; [apply (lines_entry KFtspec)|apply (lines_entry KPtspec)]; exact G.
    + pose proof (specs_read sigs l F Ws n Q) as S. destruct l as [|s l]; [congruence|].
      apply (file_spec mission py sigs n f _ (nested_spec s) (map nested_spec l) _ _ _ S). exact R.
Qed.
Lemma write_reads p : proper py [] 0 p -> Forall writable_section p ->
  parse_c2po mission py (write_c2po p) = Some (map nested_section p).
Proof.
  intros P W. destruct (proper_all p [] 0 P W) as [E R]. unfold parse_c2po, write_c2po. apply file_iff.
  replace (lex (separated ["010"] (map section_text p)) 0) with (List.concat (map section_toks p)); [exact R|]. symmetry. apply lex_spells.
  rewrite <- (app_nil_r (separated _ _)), <- (app_nil_r (List.concat _)). apply entries; [|exact E|constructor].
  constructor; [right; right; reflexivity|constructor].
Qed.

(** ** Programs that have been read *)
Notation floats_settle := (floats_settle py).
Ltac spelled H := repeat (rewrite ?Forall_app, ?Forall_cons_iff in H; cbn [app] in H); cbn [well_spelled] in H.
Lemma phrase_named sigs : floats_settle ->
  (forall ts e l r, phrase mission py sigs ts e l r -> Forall well_spelled ts -> writable e -> named py sigs e /\ nested e = e) /\
  (forall ts es, args mission py sigs ts es -> Forall well_spelled ts -> Forall writable es ->
     Forall (named py sigs) es /\ map nested es = es).
Proof.
  intros Fl. apply phrase_args_ind.
  - intros t e [] S W; cbn [named nested writable] in *; auto.
    + inversion S; subst. auto.
    + inversion S; subst. auto.
    + inversion S; subst. auto.
  - intros ts e l r _ IH S W. spelled S. apply IH; tauto.
  - intros ts es _ IH S [_ W]. spelled S. apply Forall_fold in W. destruct (IH ltac:(tauto) W) as [N E]. cbn [named nested]. rewrite E.
    split; [apply fold_Forall; exact N|reflexivity].
  - intros s S W. destruct W as [W _]. congruence.
  - intros s ts es _ IH S [_ W]. spelled S. apply Forall_fold in W. destruct (IH ltac:(tauto) W) as [N E]. cbn [named nested]. rewrite E.
    split; [split; [tauto|apply fold_Forall; exact N]|reflexivity].
  - intros ts e i _ IH S W. spelled S. destruct (IH ltac:(tauto) W) as [N E]. cbn [named nested]. rewrite E. auto.
  - intros ts e i j _ IH S W. spelled S. destruct (IH ltac:(tauto) W) as [N E]. cbn [named nested]. rewrite E. auto.
  - intros ts e m _ IH S W. spelled S. destruct (IH ltac:(tauto) W) as [N E]. cbn [named nested]. rewrite E. split; [tauto|reflexivity].
  - intros f ts e l r _ IH S [_ W]. spelled S. destruct (IH ltac:(tauto) W) as [N E]. cbn [named nested]. rewrite E. auto.
  - intros ts1 e1 l1 r1 ts2 e2 l2 r2 _ IH1 _ IH2 S [W1 W2]. spelled S. destruct (IH1 ltac:(tauto) W1) as [N1 E1].
    destruct (IH2 ltac:(tauto) W2) as [N2 E2]. cbn [named nested]. rewrite E1, E2. auto.
  - intros k x ts1 e1 l1 r1 ts2 e2 l2 r2 _ IH1 _ IH2 S [W1 W2]. spelled S. destruct (IH1 ltac:(tauto) W1) as [N1 E1].
    destruct (IH2 ltac:(tauto) W2) as [N2 E2]. cbn [named nested]. rewrite E1, E2. split; [tauto|reflexivity].
  - intros. contradiction.
  - intros p op f ts e l r Hop _ IH _ S W. spelled S. destruct Hop; cbn [writable] in W; destruct (IH ltac:(tauto) W) as [N E];
      cbn [named nested]; rewrite E; auto.
  - intros q op f ts1 e1 l1 r1 ts2 e2 l2 r2 Hop _ IH1 _ IH2 _ _ S W. spelled S. destruct Hop; cbn [writable fold_right] in W;
      (destruct (IH1 ltac:(tauto) ltac:(tauto)) as [N1 E1]; destruct (IH2 ltac:(tauto) ltac:(tauto)) as [N2 E2];
       cbn [named nested map fold_left fold_right]; rewrite E1, E2; auto).
  - intros ts e l r _ IH S W. inversion W; subst. destruct (IH S ltac:(assumption)) as [N E]. cbn [map]. rewrite E. auto.
  - intros ts e l r rest es _ IH1 _ IH2 S W. spelled S. inversion W; subst. destruct (IH1 ltac:(tauto) ltac:(assumption)) as [N1 E1].
    destruct (IH2 ltac:(tauto) ltac:(assumption)) as [N2 E2]. cbn [map]. rewrite E1, E2. auto.
Qed.
Lemma reads_named sigs ts e : floats_settle -> reads mission py sigs ts e -> Forall well_spelled ts -> writable e ->
  named py sigs e /\ nested e = e.
Proof. intros Fl (l & r & P). exact (proj1 (phrase_named sigs Fl) ts e l r P). Qed.
Lemma suffixes_named ts t u : suffixes ts t u -> named_type t -> named_type u.
Proof. induction 1; auto. Qed.
Lemma declaration_named ts d : declaration ts d -> Forall well_spelled ts -> named_decl d.
Proof.
  intros [s names t ss u H] S. spelled S. destruct S as (Us & S). repeat split; cbn [fst snd].
  - discriminate.
  - constructor; [exact Us|]. apply Forall_forall. intros x Hx. destruct S as (S & _). rewrite Forall_forall in S.
    apply (S (TSym x)). apply in_flat_map. exists x. split; [exact Hx|right; left; reflexivity].
  - apply (suffixes_named _ _ _ H). cbn [named_type]. tauto.
Qed.
Lemma items_Forall {A} (one : list token -> A -> Prop) (Q : A -> Prop) ts l :
  (forall ts a, one ts a -> Forall well_spelled ts -> Q a) -> items one ts l -> Forall well_spelled ts -> Forall Q l.
Proof. intros H I. induction I; intros S; [constructor|]. spelled S. constructor; [eapply H; [eassumption|tauto]|tauto]. Qed.
Lemma structure_named ts s : structure ts s -> Forall well_spelled ts -> usable_name (fst s) /\ Forall named_decl (snd s).
Proof.
  intros [s0 ss ds I] S. spelled S. cbn [fst snd]. split; [tauto|]. apply (items_Forall _ _ _ _ declaration_named I). tauto.
Qed.
Lemma internal_fresh n : is_internal (fresh_label n) = true.
Proof.
  unfold fresh_label. cbn [quoted list_ascii_of_string app is_internal rev]. rewrite rev_app_distr. reflexivity.
Qed.
Lemma definition_named sigs ts d : floats_settle -> definition mission py sigs ts d -> Forall well_spelled ts ->
  writable (snd d) -> usable_name (fst d) /\ named py sigs (snd d) /\ nested (snd d) = snd d.
Proof. intros Fl [s0 ss e R] S W. spelled S. cbn [fst snd] in *. split; [tauto|]. apply (reads_named sigs ss e Fl R); tauto. Qed.
Lemma specification_named sigs n ts s m : floats_settle -> specification mission py sigs n ts s m -> Forall well_spelled ts ->
  writable_spec s -> named_spec py sigs s /\ nested_spec s = s.
Proof.
  intros Fl [k ss e R|k l ss e R|k l ts1 a ts2 g R1 R2] S W; spelled S; cbn [named_spec nested_spec writable_spec] in *.
  - destruct (reads_named sigs ss e Fl R ltac:(tauto) ltac:(tauto)) as [N E]. rewrite E. rewrite internal_fresh. split; [split; [discriminate|exact N]|reflexivity].
  - destruct (reads_named sigs ss e Fl R ltac:(tauto) ltac:(tauto)) as [N E]. rewrite E. split; [tauto|reflexivity].
  - destruct (reads_named sigs _ _ Fl R1 ltac:(tauto) ltac:(tauto)) as [N1 E1].
    destruct (reads_named sigs _ _ Fl R2 ltac:(tauto) ltac:(tauto)) as [N2 E2]. rewrite E1, E2. split; [tauto|reflexivity].
Qed.
Lemma specifications_named sigs n ts l m : floats_settle -> specifications mission py sigs n ts l m -> Forall well_spelled ts ->
  Forall writable_spec l -> Forall (named_spec py sigs) l /\ map nested_spec l = l.
Proof.
  intros Fl. induction 1 as [n|n ts s m rest l k Sp _ IH]; intros S W; [auto|]. spelled S. inversion W as [|? ? W1 W2]; subst.
  destruct (specification_named sigs _ _ _ _ Fl Sp ltac:(tauto) W1) as [N1 E1]. destruct (IH ltac:(tauto) W2) as [N2 E2].
  cbn [map]. rewrite E1, E2. auto.
Qed.
Lemma file_proper : floats_settle -> forall sigs n ts p, file mission py sigs n ts p -> Forall well_spelled ts -> Forall writable_section p ->
  proper py sigs n p /\ map nested_section p = p.
Proof.
  intros Fl. induction 1 as [sigs n|sigs n ts s l rest p I F IH|sigs n ts s l rest p I F IH|sigs n ts s l rest p I F IH|sigs n ts s l rest p I F IH
                 |sigs n future ts s l m rest p I F IH]; intros S W; try (split; reflexivity); inversion W as [|? ? Ws Wp]; subst; spelled S;
    cbn [proper map nested_section writable_section] in *.
  - destruct (IH ltac:(tauto) Wp) as [P E]. rewrite E. repeat split; auto; try discriminate. apply (items_Forall _ _ _ _ structure_named I). tauto.
  - contradiction.
  - destruct (IH ltac:(tauto) Wp) as [P E]. rewrite E. repeat split; auto; try discriminate. apply (items_Forall _ _ _ _ declaration_named I). tauto.
  - destruct (IH ltac:(tauto) Wp) as [P E]. rewrite E.
    assert (G : Forall (fun d => usable_name (fst d) /\ named py sigs (snd d) /\ nested (snd d) = snd d) (s :: l)).
    { assert (G : Forall (fun d => writable (snd d) -> usable_name (fst d) /\ named py sigs (snd d) /\ nested (snd d) = snd d) (s :: l)).
      { apply (items_Forall _ _ _ _ (fun ts d => definition_named sigs ts d Fl) I). tauto. }
      rewrite Forall_forall in *. intros d Hd. apply G; [exact Hd|]. apply (Ws d Hd). }
    repeat split; auto; try discriminate.
    + eapply Forall_impl; [|exact G]. cbn. tauto.
    + f_equal. f_equal. change (map (fun d => (fst d, nested (snd d))) (s :: l) = s :: l). rewrite <- (map_id (s :: l)) at 2. apply map_ext_in.
      intros [x e] Hx. rewrite Forall_forall in G. destruct (G _ Hx) as (_ & _ & K). cbn in *. congruence.
  - destruct (specifications_named _ _ _ _ _ Fl I ltac:(tauto) Ws) as [N E1]. destruct (IH ltac:(tauto) Wp) as [P E]. rewrite E.
    destruct (specs_numbers mission py _ _ _ _ _ I) as [Q Hm].
    repeat split; auto; try discriminate.
    + rewrite Q at 1. rewrite Q, seq_length. reflexivity.
    + rewrite Q, seq_length. replace (n + (m - n)) with m by lia. exact P.
    + f_equal. f_equal. exact E1.
Qed.
Lemma read_write_read content p : floats_settle -> parse_c2po mission py content = Some p -> Forall writable_section p ->
  parse_c2po mission py (write_c2po p) = Some p.
Proof.
  intros Fl H W. unfold parse_c2po in H. apply file_iff in H. destruct (file_proper Fl _ _ _ _ H (lex_spelled content 0) W) as [P E].
  rewrite write_reads by assumption. rewrite E. reflexivity.
Qed.
End Program.
