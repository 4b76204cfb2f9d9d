(** * C2PO files (proofs): sections *)
From Coq Require Import List Arith NArith ZArith Bool Ascii String Lia.
Require Import Verif.MapFile Verif.C2poText Verif.C2poSpec Verif.C2poProofs.
Import ListNotations.
Local Open Scope list_scope.

(** ** Declarations and structs *)
Lemma suffix_sound : forall n ts t u rest, List.length ts < n -> parse_suffix t ts = Some (u, rest) ->
  exists used, ts = used ++ rest /\ suffixes used t u.
Proof.
  induction n as [|n IH]; intros ts t u rest Hn H; [lia|].
  assert (St : Some (t, ts) = Some (u, rest) -> exists used, ts = used ++ rest /\ suffixes used t u).
  { intros E. injection E as <- <-. exists []. split; [reflexivity|constructor]. }
  destruct ts as [|t0 ts]; [exact (St H)|]. destruct t0; try exact (St H).
  destruct ts as [|t1 ts]; [exact (St H)|]. destruct t1; try exact (St H).
  - destruct ts as [|t2 ts]; [exact (St H)|]. destruct t2; try exact (St H). cbn [parse_suffix] in H.
    destruct (z <? 0)%Z eqn:E; [discriminate|]. apply Z.ltb_ge in E. cbn in Hn.
    destruct (IH ts _ _ _ ltac:(lia) H) as (used & -> & S).
    exists (TLBrack :: TNum z :: TRBrack :: used). split; [reflexivity|]. rewrite <- (Z2Nat.id z) at 1 by exact E. constructor. exact S.
  - cbn [parse_suffix] in H. cbn in Hn. destruct (IH ts _ _ _ ltac:(lia) H) as (used & -> & S).
    exists (TLBrack :: TRBrack :: used). split; [reflexivity|]. constructor. exact S.
Qed.
Lemma suffix_complete used t u rest : suffixes used t u -> match rest with TLBrack :: _ => False | _ => True end ->
  parse_suffix t (used ++ rest) = Some (u, rest).
Proof.
  intros H R. induction H as [t|t ts u _ IH|t n ts u _ IH]; cbn [app].
  - destruct rest as [|[] rest]; try reflexivity. contradiction.
  - exact IH.
  - cbn [parse_suffix]. replace (Z.of_nat n <? 0)%Z with false by (symmetry; apply Z.ltb_ge; lia). rewrite Nat2Z.id. exact IH.
Qed.
Definition more_names (names : list str) : list token := flat_map (fun x => [TComma; TSym x]) names.
Lemma names_sound : forall n ts done names rest, List.length ts < n -> parse_names done ts = Some (names, rest) ->
  exists more, ts = more_names more ++ TColon :: rest /\ names = rev done ++ more.
Proof.
  induction n as [|n IH]; intros ts done names rest Hn H; [lia|]. destruct ts as [|[] ts]; try discriminate.
  - injection H as <- <-. exists []. split; [reflexivity|symmetry; apply app_nil_r].
  - destruct ts as [|[] ts]; try discriminate. cbn in Hn. destruct (IH ts (s :: done) names rest ltac:(lia) H) as (more & -> & ->).
    exists (s :: more). split; [reflexivity|]. cbn [rev]. rewrite <- app_assoc. reflexivity.
Qed.
Lemma names_complete more : forall done rest, parse_names done (more_names more ++ TColon :: rest) = Some (rev done ++ more, rest).
Proof.
  induction more as [|s more IH]; intros done rest; cbn [more_names flat_map app parse_names]; [rewrite app_nil_r; reflexivity|].
  change (flat_map (fun x => [TComma; TSym x]) more) with (more_names more). rewrite IH. cbn [rev]. rewrite <- app_assoc. reflexivity.
Qed.
Lemma decl_sound ts d rest : parse_decl ts = Some (d, rest) -> exists used, ts = used ++ rest /\ declaration used d.
Proof.
  destruct ts as [|[] ts]; try discriminate. cbn [parse_decl]. destruct (parse_names [s] ts) as [[names r]|] eqn:N; [|discriminate].
  destruct r as [|[] r]; try discriminate. destruct (parse_suffix (TyName s0) r) as [[u r2]|] eqn:S; [|discriminate].
  destruct r2 as [|[] r2]; try discriminate. intros H. injection H as <- <-.
  destruct (names_sound _ _ _ _ _ (Nat.lt_succ_diag_r _) N) as (more & -> & ->).
  destruct (suffix_sound _ _ _ _ _ (Nat.lt_succ_diag_r _) S) as (used & -> & Sf).
  exists (TSym s :: more_names more ++ TColon :: TSym s0 :: used ++ [TSemi]). split.
  - cbn [app]. f_equal. rewrite <- app_assoc. cbn [app]. rewrite <- app_assoc. reflexivity.
  - cbn [rev app]. constructor. exact Sf.
Qed.
Lemma decl_complete used d rest : declaration used d -> parse_decl (used ++ rest) = Some (d, rest).
Proof.
  intros [s names t ts u H]. cbn [app parse_decl]. rewrite <- app_assoc. cbn [app]. rewrite (names_complete names [s]). rewrite <- app_assoc.
  rewrite (suffix_complete _ _ _ _ H) by exact Logic.I. reflexivity.
Qed.

Section Many.
Context {A : Type} (item : list token -> option (A * list token)) (one : list token -> A -> Prop).
Hypothesis item_sound : forall ts a rest, item ts = Some (a, rest) -> exists used, ts = used ++ rest /\ one used a.
Hypothesis item_complete : forall used a rest, one used a -> item (used ++ rest) = Some (a, rest).
Hypothesis one_starts : forall used a, one used a -> exists t ts, used = t :: ts /\ is_symbol t = true.
Lemma many_sound : forall fuel ts l rest, parse_many is_symbol item fuel ts = Some (l, rest) ->
  exists used, ts = used ++ rest /\ items one used l.
Proof using item_sound.
  induction fuel as [|n IH]; intros ts l rest H; destruct ts as [|t ts]; cbn [parse_many] in H;
    try (injection H as <- <-; exists []; split; [reflexivity|constructor]).
  - destruct (is_symbol t); [discriminate|]. injection H as <- <-. exists []. split; [reflexivity|constructor].
  - destruct (is_symbol t); [|injection H as <- <-; exists []; split; [reflexivity|constructor]].
    destruct (item (t :: ts)) as [[a r]|] eqn:E; [|discriminate]. destruct (item_sound _ _ _ E) as (u1 & E1 & O).
    destruct (parse_many is_symbol item n r) as [[l' r']|] eqn:M; [|discriminate]. cbn in H. injection H as <- <-.
    destruct (IH _ _ _ M) as (u2 & -> & I). exists (u1 ++ u2). split; [rewrite E1, app_assoc; reflexivity|constructor; assumption].
Qed.
Lemma many_complete used l rest : items one used l -> match rest with TSym _ :: _ => False | _ => True end ->
  forall fuel, List.length used <= fuel -> parse_many is_symbol item fuel (used ++ rest) = Some (l, rest).
Proof using item_complete one_starts.
  intros H R. induction H as [|ts a used l O _ IH]; intros fuel Hf; cbn [app].
  - destruct rest as [|[] rest]; destruct fuel; try reflexivity; contradiction.
  - destruct (one_starts _ _ O) as (t & ts' & -> & St). rewrite app_length in Hf. cbn [List.length] in Hf. rewrite <- app_assoc.
    pose proof (item_complete _ _ (used ++ rest) O) as E. cbn [app] in E |- *. destruct fuel as [|n]; [lia|].
    cbn [parse_many]. rewrite St, E, IH by lia. reflexivity.
Qed.
End Many.
Arguments many_sound {A item one}.
Arguments many_complete {A item one}.

Lemma decl_starts used d : declaration used d -> exists t ts, used = t :: ts /\ is_symbol t = true.
Proof. intros []. eexists _, _. split; reflexivity. Qed.
Lemma struct_starts used d : structure used d -> exists t ts, used = t :: ts /\ is_symbol t = true.
Proof. intros []. eexists _, _. split; reflexivity. Qed.
Lemma struct_sound ts d rest : parse_struct ts = Some (d, rest) -> exists used, ts = used ++ rest /\ structure used d.
Proof.
  destruct ts as [|[] ts]; try discriminate. destruct ts as [|[] ts]; try discriminate. destruct ts as [|[] ts]; try discriminate.
  cbn [parse_struct]. destruct (parse_many is_symbol parse_decl (List.length ts) ts) as [[ds r]|] eqn:M; [|discriminate].
  destruct r as [|[] r]; try discriminate. destruct r as [|[] r]; try discriminate. intros H. injection H as <- <-.
  destruct (many_sound decl_sound _ _ _ _ M) as (used & -> & I).
  exists (TSym s :: TColon :: TLBrace :: used ++ [TRBrace; TSemi]). split; [cbn [app]; rewrite <- app_assoc; reflexivity|constructor; exact I].
Qed.
Lemma struct_complete used d rest : structure used d -> parse_struct (used ++ rest) = Some (d, rest).
Proof.
  intros [s ts ds I]. cbn [app parse_struct]. rewrite <- app_assoc. cbn [app].
  rewrite (many_complete decl_complete decl_starts _ _ (TRBrace :: TSemi :: rest) I Logic.I) by (rewrite app_length; lia). reflexivity.
Qed.

Section Files.
Variable mission : option nat.
Variable py : str -> str.

(** ** Enums, definitions and specifications *)
Section Signals.
Variable sigs : list str.
Notation reads := (reads mission py sigs).
Notation parse_expr := (parse_expr mission py sigs).
Lemma expr_sound ts e rest : parse_expr ts = Some (e, rest) -> exists used, ts = used ++ rest /\ reads used e.
Proof. intros H. apply expr_iff in H. destruct H as (used & -> & R & _). eauto. Qed.
Lemma reads_begins ts e : reads ts e -> exists t ts', ts = t :: ts' /\ begins_expr t = true.
Proof. intros (l & r & P). exact (proj1 (phrase_begins mission py sigs) _ _ _ _ P). Qed.

Lemma members_sound : forall fuel next ts l rest, parse_members mission py sigs fuel next ts = Some (l, rest) ->
  exists used, ts = used ++ TRBrace :: TSemi :: rest /\ members mission py sigs next used l.
Proof.
  induction fuel as [|n IH]; intros next ts l rest H; [discriminate|]. destruct ts as [|[] ts]; try discriminate.
  destruct ts as [|[] ts]; try discriminate.
  - cbn [parse_members] in H. destruct (parse_expr ts) as [[e r]|] eqn:E; [|discriminate]. destruct (expr_sound _ _ _ E) as (u1 & -> & R).
    destruct r as [|[] r]; try discriminate.
    + destruct (parse_members mission py sigs n next r) as [[l' r']|] eqn:M; [|discriminate]. cbn in H. injection H as <- <-.
      destruct (IH _ _ _ _ M) as (u2 & -> & Mb). exists (TSym s :: TColon :: u1 ++ TComma :: u2).
      split; [cbn [app]; rewrite <- app_assoc; reflexivity|constructor; assumption].
    + destruct r as [|[] r]; try discriminate. injection H as <- <-. exists (TSym s :: TColon :: u1). split; [reflexivity|constructor; exact R].
  - cbn [parse_members] in H. destruct (parse_members mission py sigs n (S next) ts) as [[l' r']|] eqn:M; [|discriminate]. cbn in H. injection H as <- <-.
    destruct (IH _ _ _ _ M) as (u2 & -> & Mb). exists (TSym s :: TComma :: u2). split; [reflexivity|constructor; assumption].
  - destruct ts as [|[] ts]; try discriminate. cbn [parse_members] in H. injection H as <- <-. exists [TSym s]. split; [reflexivity|constructor].
Qed.
Lemma members_complete next used l : members mission py sigs next used l -> forall rest fuel, List.length used <= fuel ->
  parse_members mission py sigs fuel next (used ++ TRBrace :: TSemi :: rest) = Some (l, rest).
Proof.
  induction 1 as [next m|next m ts e R|next m ts l _ IH|next m ts e rs l R _ IH]; intros rest fuel Hf;
    (destruct fuel as [|n]; [cbn in Hf; lia|]); cbn [app parse_members].
  - reflexivity.
  - rewrite (expr_complete _ _ _ _ _ _ R) by (cbn; lia). reflexivity.
  - cbn in Hf. rewrite IH by lia. reflexivity.
  - cbn in Hf. rewrite app_length in Hf. cbn in Hf. rewrite <- app_assoc. cbn [app].
    rewrite (expr_complete _ _ _ _ _ _ R) by (cbn; lia). rewrite IH by lia. reflexivity.
Qed.
Lemma enum_sound ts d rest : parse_enum mission py sigs ts = Some (d, rest) ->
  exists used, ts = used ++ rest /\ enumeration mission py sigs used d.
Proof.
  destruct ts as [|[] ts]; try discriminate. destruct ts as [|[] ts]; try discriminate. destruct ts as [|[] ts]; try discriminate.
  cbn [parse_enum]. destruct (parse_members mission py sigs (List.length ts) 0 ts) as [[l r]|] eqn:M; [|discriminate]. cbn. intros H. injection H as <- <-.
  destruct (members_sound _ _ _ _ _ M) as (used & -> & Mb).
  exists (TSym s :: TColon :: TLBrace :: used ++ [TRBrace; TSemi]). split; [cbn [app]; rewrite <- app_assoc; reflexivity|constructor; exact Mb].
Qed.
Lemma enum_complete used d rest : enumeration mission py sigs used d -> parse_enum mission py sigs (used ++ rest) = Some (d, rest).
Proof.
  intros [s ts l M]. cbn [app parse_enum]. rewrite <- app_assoc. cbn [app]. rewrite (members_complete _ _ _ M) by (rewrite app_length; lia). reflexivity.
Qed.
Lemma enum_starts used d : enumeration mission py sigs used d -> exists t ts, used = t :: ts /\ is_symbol t = true.
Proof. intros []. eexists _, _. split; reflexivity. Qed.
Lemma definition_sound ts d rest : parse_definition mission py sigs ts = Some (d, rest) ->
  exists used, ts = used ++ rest /\ definition mission py sigs used d.
Proof.
  destruct ts as [|[] ts]; try discriminate. destruct ts as [|[] ts]; try discriminate. cbn [parse_definition].
  destruct (parse_expr ts) as [[e r]|] eqn:E; [|discriminate]. destruct r as [|[] r]; try discriminate. intros H. injection H as <- <-.
  destruct (expr_sound _ _ _ E) as (used & -> & R).
  exists (TSym s :: TAssign :: used ++ [TSemi]). split; [cbn [app]; rewrite <- app_assoc; reflexivity|constructor; exact R].
Qed.
Lemma definition_complete used d rest : definition mission py sigs used d -> parse_definition mission py sigs (used ++ rest) = Some (d, rest).
Proof.
  intros [s ts e R]. cbn [app parse_definition]. rewrite <- app_assoc. rewrite (expr_complete _ _ _ _ _ _ R) by (cbn; lia). reflexivity.
Qed.
Lemma definition_starts used d : definition mission py sigs used d -> exists t ts, used = t :: ts /\ is_symbol t = true.
Proof. intros []. eexists _, _. split; reflexivity. Qed.

Lemma spec_sound n ts s m rest : parse_spec mission py sigs n ts = Some (s, m, rest) ->
  exists used, ts = used ++ rest /\ specification mission py sigs n used s m.
Proof.
  intros H.
  assert (Pl : match parse_expr ts with Some (e, TSemi :: ts) => Some (Formula (fresh_label n) n e, S n, ts) | _ => None end = Some (s, m, rest) ->
    exists used, ts = used ++ rest /\ specification mission py sigs n used s m).
  { clear H. intros H. destruct (parse_expr ts) as [[e r]|] eqn:E; [|discriminate]. destruct r as [|[] r]; try discriminate. injection H as <- <- <-.
    destruct (expr_sound _ _ _ E) as (used & -> & R). exists (used ++ [TSemi]). split; [rewrite <- app_assoc; reflexivity|constructor; exact R]. }
  destruct ts as [|t ts]; [exact (Pl H)|]. destruct t; try exact (Pl H). destruct ts as [|t ts]; [exact (Pl H)|]. destruct t; try exact (Pl H).
  clear Pl. cbn [parse_spec] in H. destruct (parse_expr ts) as [[e r]|] eqn:E; [|discriminate]. destruct (expr_sound _ _ _ E) as (used & -> & R).
  destruct r as [|[] r]; try discriminate.
  - destruct (parse_expr r) as [[g r2]|] eqn:E2; [|discriminate]. destruct (expr_sound _ _ _ E2) as (used2 & -> & R2).
    destruct r2 as [|[] r2]; try discriminate. injection H as <- <- <-.
    exists (TSym s0 :: TColon :: used ++ TContract :: used2 ++ [TSemi]). split; [|constructor; assumption].
    cbn [app]. rewrite <- app_assoc. cbn [app]. rewrite <- app_assoc. reflexivity.
  - injection H as <- <- <-. exists (TSym s0 :: TColon :: used ++ [TSemi]). split; [cbn [app]; rewrite <- app_assoc; reflexivity|constructor; exact R].
Qed.
(** An expression followed by a semicolon does not look like a label. *)
Lemma no_label ts e rest : reads ts e -> match ts ++ TSemi :: rest with TSym _ :: TColon :: _ => False | _ => True end.
Proof.
  intros R. assert (E : parse_expr (ts ++ TSemi :: rest) = Some (e, TSemi :: rest)) by (apply expr_complete; [exact R|cbn; lia]).
  destruct (ts ++ TSemi :: rest) as [|t l] eqn:El; [exact Logic.I|]. destruct t; try exact Logic.I. destruct l as [|t l]; [exact Logic.I|].
  destruct t; try exact Logic.I. cbn in E. destruct (mem s sigs); discriminate E.
Qed.
Lemma spec_complete n used s m rest : specification mission py sigs n used s m -> parse_spec mission py sigs n (used ++ rest) = Some (s, m, rest).
Proof.
  intros [k ts e R|k l ts e R|k l ts1 a ts2 g R1 R2].
  - rewrite <- app_assoc. cbn [app]. pose proof (no_label ts e rest R) as N.
    assert (E : parse_expr (ts ++ TSemi :: rest) = Some (e, TSemi :: rest)) by (apply expr_complete; [exact R|cbn; lia]).
    unfold parse_spec. destruct (ts ++ TSemi :: rest) as [|t l]; [rewrite E; reflexivity|]. destruct t; try (rewrite E; reflexivity).
    destruct l as [|t l]; [rewrite E; reflexivity|]. destruct t; try (rewrite E; reflexivity). contradiction.
  - cbn [app parse_spec]. rewrite <- app_assoc. rewrite (expr_complete _ _ _ _ _ _ R) by (cbn; lia). reflexivity.
  - cbn [app parse_spec]. rewrite <- app_assoc. cbn [app]. rewrite (expr_complete _ _ _ _ _ _ R1) by (cbn; lia).
    rewrite <- app_assoc. rewrite (expr_complete _ _ _ _ _ _ R2) by (cbn; lia). reflexivity.
Qed.
Lemma spec_starts n used s m : specification mission py sigs n used s m ->
  exists t ts, used = t :: ts /\ match t with TKw _ => False | _ => True end.
Proof.
  intros [k ts e R|k l ts e R|k l ts1 a ts2 g R1 R2]; try (eexists _, _; split; [reflexivity|exact Logic.I]).
  destruct (reads_begins _ _ R) as (t & ts' & -> & B). exists t, (ts' ++ [TSemi]). split; [reflexivity|]. destruct t; try exact Logic.I. discriminate.
Qed.
Lemma specs_sound : forall fuel n ts l m rest, parse_specs mission py sigs fuel n ts = Some (l, m, rest) ->
  exists used, ts = used ++ rest /\ specifications mission py sigs n used l m.
Proof.
  induction fuel as [|k IH]; intros n ts l m rest H.
  - assert (St : Some (@nil spec, n, ts) = Some (l, m, rest) -> exists used, ts = used ++ rest /\ specifications mission py sigs n used l m).
    { intros E. injection E as <- <- <-. exists []. split; [reflexivity|constructor]. }
    destruct ts as [|[] ts]; try discriminate; exact (St H).
  - assert (Go : forall t ts', ts = t :: ts' ->
       match parse_spec mission py sigs n ts with
       | Some (s, n, ts) => option_map (fun p => (s :: fst (fst p), snd (fst p), snd p)) (parse_specs mission py sigs k n ts)
       | None => None
       end = Some (l, m, rest) -> exists used, ts = used ++ rest /\ specifications mission py sigs n used l m).
    { clear H. intros t ts' _ H. destruct (parse_spec mission py sigs n ts) as [[[s n1] r]|] eqn:E; [|discriminate].
      destruct (parse_specs mission py sigs k n1 r) as [[[l' m'] r']|] eqn:M; [|discriminate]. cbn in H. injection H as <- <- <-.
      destruct (spec_sound _ _ _ _ _ E) as (u1 & -> & S1). destruct (IH _ _ _ _ _ M) as (u2 & -> & S2).
      exists (u1 ++ u2). split; [apply app_assoc|econstructor; eassumption]. }
    destruct ts as [|t ts]; [injection H as <- <- <-; exists []; split; [reflexivity|constructor]|].
    destruct t; try exact (Go _ _ eq_refl H). injection H as <- <- <-. exists []. split; [reflexivity|constructor].
Qed.
Lemma specs_complete n used l m : specifications mission py sigs n used l m -> forall rest fuel, List.length used <= fuel ->
  match rest with [] | TKw _ :: _ => True | _ => False end ->
  parse_specs mission py sigs fuel n (used ++ rest) = Some (l, m, rest).
Proof.
  induction 1 as [n|n ts s m used l k Sp _ IH]; intros rest fuel Hf R; cbn [app].
  - destruct rest as [|[] rest]; try contradiction; destruct fuel; reflexivity.
  - destruct (spec_starts _ _ _ _ Sp) as (t & ts' & -> & B). rewrite app_length in Hf. cbn [List.length] in Hf. rewrite <- app_assoc.
    pose proof (spec_complete _ _ _ _ (used ++ rest) Sp) as E. cbn [app] in E |- *. destruct fuel as [|f]; [lia|].
    cbn [parse_specs]. rewrite E, IH by (assumption || lia). destruct t; try contradiction; reflexivity.
Qed.
Lemma specs_nonempty n used s l m : specifications mission py sigs n used (s :: l) m -> used <> [].
Proof.
  intros H. inversion H; subst. destruct (spec_starts _ _ _ _ ltac:(eassumption)) as (t & ts' & -> & _). discriminate.
Qed.
End Signals.

(** ** Files *)
Lemma input_signals ds : input_names ds = signals_of ds.
Proof. induction ds as [|[names []] ds IH]; unfold input_names in *; cbn; [reflexivity|rewrite IH; reflexivity|exact IH]. Qed.
Lemma file_starts sigs n ts p : file mission py sigs n ts p -> match ts with [] | TKw _ :: _ => True | _ => False end.
Proof. destruct 1; exact Logic.I. Qed.
Lemma file_sound : forall fuel sigs n ts p, parse_sections mission py fuel sigs n ts = Some p -> file mission py sigs n ts p.
Proof.
  induction fuel as [|k IH]; intros sigs n ts p H; [discriminate|]. destruct ts as [|[] ts]; try discriminate; [injection H as <-; constructor|].
  destruct k0; cbn [parse_sections] in H.
  - destruct (parse_many is_symbol parse_struct (List.length ts) ts) as [[[|s l] r]|] eqn:M; try discriminate.
    destruct (parse_sections mission py k sigs n r) as [p'|] eqn:E; [|discriminate]. cbn in H. injection H as <-.
    destruct (many_sound struct_sound _ _ _ _ M) as (used & -> & I). constructor; [exact I|exact (IH _ _ _ _ E)].
  - destruct (parse_many is_symbol (parse_enum mission py sigs) (List.length ts) ts) as [[[|s l] r]|] eqn:M; try discriminate.
    destruct (parse_sections mission py k sigs n r) as [p'|] eqn:E; [|discriminate]. cbn in H. injection H as <-.
    destruct (many_sound (enum_sound sigs) _ _ _ _ M) as (used & -> & I). constructor; [exact I|exact (IH _ _ _ _ E)].
  - destruct (parse_many is_symbol parse_decl (List.length ts) ts) as [[[|d l] r]|] eqn:M; try discriminate.
    destruct (parse_sections mission py k (sigs ++ input_names (d :: l)) n r) as [p'|] eqn:E; [|discriminate]. cbn [option_map] in H. injection H as <-.
    rewrite input_signals in E. destruct (many_sound decl_sound _ _ _ _ M) as (used & -> & I). constructor; [exact I|exact (IH _ _ _ _ E)].
  - destruct (parse_many is_symbol (parse_definition mission py sigs) (List.length ts) ts) as [[[|s l] r]|] eqn:M; try discriminate.
    destruct (parse_sections mission py k sigs n r) as [p'|] eqn:E; [|discriminate]. cbn in H. injection H as <-.
    destruct (many_sound (definition_sound sigs) _ _ _ _ M) as (used & -> & I). constructor; [exact I|exact (IH _ _ _ _ E)].
  - destruct (parse_specs mission py sigs (List.length ts) n ts) as [[[[|s l] m] r]|] eqn:M; try discriminate.
    destruct (parse_sections mission py k sigs m r) as [p'|] eqn:E; [|discriminate]. cbn in H. injection H as <-.
    destruct (specs_sound sigs _ _ _ _ _ _ M) as (used & -> & I). apply (file_spec _ _ _ _ true _ _ _ m); [exact I|exact (IH _ _ _ _ E)].
  - destruct (parse_specs mission py sigs (List.length ts) n ts) as [[[[|s l] m] r]|] eqn:M; try discriminate.
    destruct (parse_sections mission py k sigs m r) as [p'|] eqn:E; [|discriminate]. cbn in H. injection H as <-.
    destruct (specs_sound sigs _ _ _ _ _ _ M) as (used & -> & I). apply (file_spec _ _ _ _ false _ _ _ m); [exact I|exact (IH _ _ _ _ E)].
Qed.
Lemma file_complete sigs n ts p : file mission py sigs n ts p -> forall fuel, List.length ts < fuel -> parse_sections mission py fuel sigs n ts = Some p.
Proof.
  assert (Len : forall (a b : list token) k, List.length (TKw KEnum :: a ++ b) < S k -> List.length b < k /\ List.length a <= List.length (a ++ b)).
  { intros a b k. cbn. rewrite app_length. lia. }
  assert (St : forall sigs n ts p, file mission py sigs n ts p -> match ts with TSym _ :: _ => False | _ => True end).
  { intros s n0 t q F. apply file_starts in F. destruct t as [|[] t]; try contradiction; exact Logic.I. }
  induction 1 as [sigs n|sigs n ts s l rest p I F IH|sigs n ts s l rest p I F IH|sigs n ts s l rest p I F IH|sigs n ts s l rest p I F IH
                 |sigs n future ts s l m rest p I F IH]; intros fuel Hf; (destruct fuel as [|k]; [cbn in Hf; lia|]).
  - reflexivity.
  - destruct (Len ts rest k Hf) as [L1 L2]. cbn [parse_sections].
    rewrite (many_complete struct_complete struct_starts _ _ _ I (St _ _ _ _ F) _ L2), IH by exact L1. reflexivity.
  - destruct (Len ts rest k Hf) as [L1 L2]. cbn [parse_sections].
    rewrite (many_complete (enum_complete sigs) (enum_starts sigs) _ _ _ I (St _ _ _ _ F) _ L2), IH by exact L1. reflexivity.
  - destruct (Len ts rest k Hf) as [L1 L2]. cbn [parse_sections].
    rewrite (many_complete decl_complete decl_starts _ _ _ I (St _ _ _ _ F) _ L2), input_signals, IH by exact L1. reflexivity.
  - destruct (Len ts rest k Hf) as [L1 L2]. cbn [parse_sections].
    rewrite (many_complete (definition_complete sigs) (definition_starts sigs) _ _ _ I (St _ _ _ _ F) _ L2), IH by exact L1. reflexivity.
  - destruct (Len ts rest k Hf) as [L1 L2]. pose proof (specs_complete sigs _ _ _ _ I rest _ L2 (file_starts _ _ _ _ F)) as E.
    destruct future; cbn [parse_sections]; rewrite E, IH by exact L1; reflexivity.
Qed.
Lemma file_iff ts p : parse_tokens mission py ts = Some p <-> file mission py [] 0 ts p.
Proof. split; [apply file_sound|intros H; apply (file_complete _ _ _ _ H); lia]. Qed.

(** ** Numbers of the specifications *)
Lemma specs_numbers sigs n ts l m : specifications mission py sigs n ts l m -> flat_map spec_numbers l = seq n (m - n) /\ n <= m.
Proof.
  induction 1 as [n|n ts s m rest l k Sp _ [IH Hk]]; [rewrite Nat.sub_diag; auto|]. cbn [flat_map]. rewrite IH.
  destruct Sp; cbn [spec_numbers app]; (split; [|lia]).
  - replace (k - n) with (S (k - S n)) by lia. reflexivity.
  - replace (k - n) with (S (k - S n)) by lia. reflexivity.
  - replace (k - n) with (3 + (k - (n + 3))) by lia. cbn [Nat.add seq]. rewrite !Nat.add_1_r. replace (n + 2) with (S (S n)) by lia.
    replace (n + 3) with (S (S (S n))) by lia. reflexivity.
Qed.
Lemma file_numbers sigs n ts p : file mission py sigs n ts p -> numbers p = seq n (List.length (numbers p)).
Proof.
  unfold numbers. induction 1 as [| | | | |sigs n future ts s l m rest p I F IH]; try reflexivity; try exact IHfile.
  destruct (specs_numbers _ _ _ _ _ I) as [E Hm]. set (F1 := fun s : section => _) in *.
  change (flat_map F1 (SSpec future (s :: l) :: p)) with (flat_map spec_numbers (s :: l) ++ flat_map F1 p).
  rewrite app_length, seq_app. f_equal.
  - rewrite E, seq_length. reflexivity.
  - rewrite E at 1. rewrite seq_length. replace (n + (m - n)) with m by lia. exact IH.
Qed.
End Files.
