(** * The type checker: accepted programs *)
From Coq Require Import List Arith ZArith Bool Lia.
Require Import Verif.TypeCheck Verif.TypeSpec Verif.TypeProofs Verif.TypeExprs.
Import ListNotations.

Lemma nodup_apart : forall {B} (l m : list B) x, NoDup (l ++ m) -> In x l -> ~ In x m.
Proof.
  induction l as [|y l IH]; intros m x N I; [destruct I|]. inversion N as [|? ? Y N']; subst.
  destruct I as [->|I]; [intros J; apply Y, in_app_iff; auto|exact (IH _ _ N' I)].
Qed.
Lemma nodup_tail : forall {B} (l m : list B), NoDup (l ++ m) -> NoDup m.
Proof. induction l as [|y l IH]; intros m N; [exact N|inversion N; auto]. Qed.
Lemma nodup_head : forall {B} (l m : list B), NoDup (l ++ m) -> NoDup l.
Proof.
  induction l as [|y l IH]; intros m N; [constructor|inversion N as [|? ? Y N']; subst; constructor; [|eauto]].
  intros I; apply Y, in_app_iff; auto.
Qed.

Section Programs.
  Variable A : arithmetic.
  Variable p : list section.
  Variable inp : nat -> den A.
  Notation structs := (structs_of p).
  Notation enums := (enums_of p).
  Notation belongs := (belongs A structs enums).
  Notation good := (good A structs enums).
  Notation eval := (eval A structs enums).
  Hypothesis ND : names_distinct p.
  Hypothesis Typed : forall x t, In (x, t) (inputs_of p) -> belongs (inp x) t = true.

  Lemma members_eq : members enums = members_of p.
  Proof using Type. reflexivity. Qed.
  Lemma parts :
    (forall x, In x (map fst (inputs_of p)) -> ~ In x (map fst (defs_of p))) /\
    (forall x, In x (map fst (inputs_of p)) \/ In x (map fst (defs_of p)) -> ~ In x (map fst structs)) /\
    (forall x, In x (map fst structs) -> ~ In x (map fst enums)) /\
    NoDup (map fst structs) /\ NoDup (map fst enums).
  Proof using ND.
    pose proof (nd_declared _ ND) as N; unfold declared in N.
    pose proof (nodup_tail _ _ N) as N2. pose proof (nodup_tail _ _ N2) as N3. pose proof (nodup_tail _ _ N3) as N4.
    split; [intros x I J; apply (nodup_apart _ _ _ N I), in_app_iff; auto|].
    split; [intros x [I|I] J; [apply (nodup_apart _ _ _ N I)|apply (nodup_apart _ _ _ N2 I)]; rewrite !in_app_iff; auto|].
    split; [intros x I J; apply (nodup_apart _ _ _ N3 I), in_app_iff; auto|].
    split; [exact (nodup_head _ _ N3)|exact (nodup_head _ _ N4)].
  Qed.
  Lemma separate_names : separate structs enums.
  Proof using ND.
    destruct parts as [_ [_ [S1 _]]]. split.
    - intros s B; apply bound_in_in in B. destruct (bound_in enums s) eqn:E; [apply bound_in_in in E; elim (S1 _ B E)|reflexivity].
    - intros m M; apply mem_in in M; apply (nd_members _ ND) in M. unfold declared in M; rewrite !in_app_iff in M.
      split; (destruct (bound_in _ m) eqn:E; [apply bound_in_in in E; tauto|reflexivity]).
  Qed.

  Record inv (c : ctx) (v : env A) : Prop := {
    inv_con : consistent A structs enums c v;
    inv_structs : incl (c_structs c) structs;
    inv_enums : incl (c_enums c) enums;
    inv_sigs : forall x t, lookup (c_sigs c) x = Some t -> In x (map fst (inputs_of p));
    inv_defs : forall x k u, lookup (c_defs c) x = Some (k, u) ->
      (In x (map fst (inputs_of p)) /\ k = false /\ exists w n, u = TArray w n) \/ In x (map fst (defs_of p));
    inv_specs : forall x, mem x (c_specs c) = true -> In x (map label (items_of p));
    inv_vars : forall x t, lookup (c_vars c) x = Some t -> ~ In x (declared p) /\ ~ In x (members_of p);
    inv_out : forall r, In r (outcomes A v) -> r <> Wrong }.

  Lemma inv_apart : forall c v x, inv c v -> ~ In x (declared p) -> ~ In x (members_of p) -> apart enums c x.
  Proof using Type.
    intros c v x I D M; unfold declared in D; rewrite !in_app_iff in D. refine (conj _ (conj _ _)).
    - destruct (lookup (c_defs c) x) as [[k u]|] eqn:E; [destruct (inv_defs _ _ I _ _ _ E) as [[X _]|X]; tauto|reflexivity].
    - destruct (mem x (c_specs c)) eqn:E; [apply (inv_specs _ _ I) in E; tauto|reflexivity].
    - apply mem_false; exact M.
  Qed.
  (** An expression of the program. *)
  Lemma top_sound : forall c v e t c', inv c v -> In e (exprs_of p) -> check_top c e = Some (t, c') ->
    good (eval v [] e) t /\ inv c' v.
  Proof using ND.
    intros c v e t c' I E H; unfold check_top in H. apply bind_some in H; destruct H as [[u s] [C H]]; injection H as <- <-.
    assert (O : st_ok A structs enums c (St [] (c_vars c)) []).
    { constructor; cbn; intros; try discriminate; try reflexivity. destruct (inv_vars _ _ I _ _ H); eapply inv_apart; eassumption. }
    assert (R : room enums c (St [] (c_vars c)) (binders e)).
    { intros x X; split; [|reflexivity]. destruct (nd_binders _ ND _ _ E X); eapply inv_apart; eassumption. }
    split; [eapply check_sound; [exact separate_names|exact (inv_con _ _ I)|exact O|exact R|exact C]|].
    destruct I as [[] ]; constructor; try assumption; [constructor; assumption|].
    cbn. intros x t L. destruct (check_scoped _ _ _ _ _ C) as [_ V]. destruct (V _ _ L) as [L'|B]; [eauto|exact (nd_binders _ ND _ _ E B)].
  Qed.
  Lemma good_sane : forall r t, good r t -> r <> Wrong.
  Proof using Type. intros [d|g|] t G; try discriminate; contradiction. Qed.
  Lemma truth_good : forall r, good r TBool -> good (truth A r) TBool.
  Proof using Type. intros [d|g|] G; cbn in *; try assumption. destruct d; try discriminate G; reflexivity. Qed.

  Lemma lookup_structs : forall s l, In (s, l) structs -> lookup structs s = Some l.
  Proof using ND. intros s l I; apply in_lookup; [apply parts|exact I]. Qed.
  Lemma lookup_enums : forall s l, In (s, l) enums -> lookup enums s = Some l.
  Proof using ND. intros s l I; apply in_lookup; [apply parts|exact I]. Qed.

  Lemma input_belongs : forall c v d t, inv c v -> belongs d t = true -> belongs d (input_type c t) = true.
  Proof using ND.
    intros c v d t I B; destruct t; try exact B; cbn. destruct (bound_in (c_enums c) s) eqn:E; [|exact B].
    destruct (bound_in_lookup _ _ E) as [l L]. apply (con_enums _ _ _ _ _ (inv_con _ _ I)) in L.
    destruct separate_names as [S1 S2]. pose proof (bound_in_some _ _ _ L) as N.
    destruct d as [f|f|f|r f|m|k|r k|r]; try discriminate B; try exact B; exfalso.
    - rewrite belongs_rec in B; apply andb_true_iff in B; destruct B as [B B1]; apply Nat.eqb_eq in B; subst.
      destruct (lookup structs s) eqn:X; [|discriminate]. apply bound_in_some in X. rewrite (S1 _ X) in N; discriminate.
    - cbn in B. rewrite !andb_true_iff in B; destruct B as [[B _] B1]; apply Nat.eqb_eq in B; subst. rewrite N in B1; discriminate.
  Qed.
  Lemma input_array : forall c t, match input_type c t with TArray _ _ => true | _ => false end = match t with TArray _ _ => true | _ => false end.
  Proof using Type. intros c [] ; try reflexivity. cbn. destruct (bound_in (c_enums c) s); reflexivity. Qed.

  Lemma struct_not_def : forall c v x l, inv c v -> lookup (c_structs c) x = Some l ->
    ~ In x (map fst (inputs_of p)) /\ ~ In x (map fst (defs_of p)).
  Proof using ND.
    intros c v x l I L. apply lookup_in in L. apply (inv_structs _ _ I) in L.
    assert (X : In x (map fst structs)) by (change x with (fst (x, l)); apply in_map; exact L).
    destruct parts as [_ [P _]]. split; intros J; apply (P x); auto.
  Qed.

  Lemma input_step : forall c v x t c', inv c v -> In (x, t) (inputs_of p) -> add_input c x t = Some c' -> inv c' (run_input A inp v (x, t)).
  Proof using ND Typed.
    intros c v x t c' I M H. pose proof (Typed _ _ M) as B. pose proof (input_belongs _ _ _ _ I B) as B'.
    assert (Mx : In x (map fst (inputs_of p))) by (change x with (fst (x, t)); apply in_map; exact M).
    pose proof (struct_not_def c v) as SD.
    unfold add_input in H. pose proof (input_array c t) as Y.
    set (t' := input_type c t) in *.
    assert (Z : (exists w n, t' = TArray w n /\ (exists w' n', t = TArray w' n') /\
                  c' = Ctx (c_bz c) (c_ft c) ((x, (false, t')) :: c_defs c) (c_structs c) (c_enums c) ((x, t') :: c_sigs c) (c_vars c) (c_specs c) (c_contracts c))
             \/ ((forall w n, t <> TArray w n) /\
                  c' = Ctx (c_bz c) (c_ft c) (c_defs c) (c_structs c) (c_enums c) ((x, t') :: c_sigs c) (c_vars c) (c_specs c) (c_contracts c))).
    { destruct t' as [| | | |w n|r|r]; try (right; injection H as <-; split; [intros w n ->; discriminate Y|reflexivity]).
      left; exists w, n. apply bind_some in H; destruct H as [? [_ H]]; injection H as <-. split; [reflexivity|split; [|reflexivity]].
      destruct t; try discriminate Y; eauto. }
    destruct I as [Con IS IE ISg ID ISp IV IO].
    assert (SD' : forall y l, lookup (c_structs c) y = Some l -> y =? x = false).
    { intros y l L. destruct (SD y l) as [N _]; [constructor; assumption|exact L|]. apply Nat.eqb_neq; intros ->; auto. }
    destruct Con as [K1 K2 K3 K4 K5 K6 K7 K8 K9].
    destruct Z as [[w [n [-> [[w' [n' ->]] ->]]]] | [N ->]]; cbn [run_input].
    - constructor; cbn; try assumption.
      + constructor; cbn; try assumption.
        * intros y u; destruct (y =? x); [intros L; injection L as <-; eauto|eauto].
        * intros y k u; destruct (y =? x); [intros L; injection L as <- <-; exists (Ok (inp x)); repeat split; [exact B'|discriminate]|eauto].
        * intros y; destruct (y =? x); [discriminate|auto].
        * intros y u k w1; destruct (y =? x); [intros L L'; injection L' as <- <-; eauto|eauto].
        * intros y l L. rewrite (SD' _ _ L); eauto.
      + intros y u; destruct (y =? x) eqn:E; [apply Nat.eqb_eq in E; subst; auto|eauto].
      + intros y k u; destruct (y =? x) eqn:E; [apply Nat.eqb_eq in E; subst; intros L; injection L as <- <-; left; eauto|eauto].
      + intros r [<-|Ir]; [discriminate|apply IO; exact Ir].
    - assert (X : run_input A inp v (x, t) = Env ((x, inp x) :: e_sigs v) (e_defs v) (e_specs v) (e_contracts v))
        by (destruct t; try reflexivity; elim (N _ _ eq_refl)).
      cbn [run_input] in X; rewrite X. constructor; cbn; try assumption.
      + constructor; cbn; try assumption.
        * intros y u; destruct (y =? x); [intros L; injection L as <-; eauto|eauto].
        * intros y u k w1; destruct (y =? x) eqn:E; [apply Nat.eqb_eq in E; subst; intros L L'|eauto].
          destruct (ID _ _ _ L') as [[_ Q]|Q]; [exact Q|]. destruct parts as [P _]; elim (P _ Mx Q).
      + intros y u; destruct (y =? x) eqn:E; [apply Nat.eqb_eq in E; subst; auto|eauto].
  Qed.

  Lemma def_step : forall c v x e c', inv c v -> In (x, e) (defs_of p) -> add_def c x e = Some c' -> inv c' (run_def A structs enums v (x, e)).
  Proof using ND.
    intros c v x e c' I M H. unfold add_def in H. apply bind_some in H; destruct H as [[t c1] [C H]]; injection H as <-.
    assert (Mx : In x (map fst (defs_of p))) by (change x with (fst (x, e)); apply in_map; exact M).
    assert (Me : In e (exprs_of p)) by (unfold exprs_of; apply in_app_iff; left; change e with (snd (x, e)); apply in_map; exact M).
    destruct (top_sound _ _ _ _ _ I Me C) as [G I1].
    assert (Bc : is_constant e = true -> basic t = true).
    { intros K. unfold check_top in C; apply bind_some in C; destruct C as [[u s] [C1 C2]]; injection C2 as -> _. exact (constant_basic _ _ _ _ _ K C1). }
    assert (SD' : forall y l, lookup (c_structs c1) y = Some l -> y =? x = false).
    { intros y l L. destruct (struct_not_def _ _ _ _ I1 L) as [_ N]. apply Nat.eqb_neq; intros ->; auto. }
    assert (SG : forall y t, lookup (c_sigs c1) y = Some t -> y =? x = false).
    { intros y u L. apply (inv_sigs _ _ I1) in L. apply Nat.eqb_neq; intros ->. destruct parts as [P _]; elim (P _ L Mx). }
    destruct I1 as [[K1 K2 K3 K4 K5 K6 K7 K8 K9] IS IE ISg ID ISp IV IO].
    unfold run_def; cbn [fst snd]. constructor; cbn; try assumption.
    - constructor; cbn; try assumption.
      + intros y k u; destruct (y =? x); [intros L; injection L as <- <-; exists (eval v [] e); auto|eauto].
      + intros y; destruct (y =? x); [discriminate|auto].
      + intros y u k w L. rewrite (SG _ _ L); eauto.
      + intros y l L. rewrite (SD' _ _ L); eauto.
    - intros y k u; destruct (y =? x) eqn:E; [apply Nat.eqb_eq in E; subst; auto|eauto].
    - intros r [<-|Ir]; [eapply good_sane; exact G|apply IO; exact Ir].
  Qed.

  Lemma struct_step : forall c v x l, inv c v -> In (x, dict l) structs -> inv (add_struct c x l) v.
  Proof using ND.
    intros c v x l I M.
    assert (Mx : In x (map fst structs)) by (change x with (fst (x, dict l)); apply in_map; exact M).
    destruct I as [[K1 K2 K3 K4 K5 K6 K7 K8 K9] IS IE ISg ID ISp IV IO]. constructor; cbn; try assumption.
    - constructor; cbn; try assumption.
      + intros s m; destruct (s =? x) eqn:E; [apply Nat.eqb_eq in E; subst; intros L; injection L as <-; apply lookup_structs; exact M|eauto].
      + intros s m; destruct (s =? x) eqn:E; [apply Nat.eqb_eq in E; subst; intros _|eauto].
        destruct (lookup (c_defs c) x) as [[k u]|] eqn:D; [|reflexivity]. destruct parts as [_ [P _]].
        elim (P x); [|exact Mx]. destruct (ID _ _ _ D) as [[Q _]|Q]; auto.
    - intros q [<-|Q]; [exact M|apply IS; exact Q].
  Qed.
  Lemma enum_step : forall c v x l c', inv c v -> In (x, map fst (dict l)) enums -> add_enum c x l = Some c' -> inv c' v.
  Proof using ND.
    intros c v x l c' I M H. unfold add_enum in H. apply guarded in H; destruct H as [_ H]; apply guarded in H; destruct H as [_ H]; injection H as <-.
    destruct I as [[K1 K2 K3 K4 K5 K6 K7 K8 K9] IS IE ISg ID ISp IV IO]. constructor; cbn; try assumption.
    - constructor; cbn; try assumption.
      intros s m; cbn; destruct (s =? x) eqn:E; [apply Nat.eqb_eq in E; subst; intros L; injection L as <-; apply lookup_enums; exact M|apply K2].
    - intros q [<-|Q]; [exact M|apply IE; exact Q].
  Qed.
  Lemma item_step : forall c v i c', inv c v -> In i (items_of p) -> add_item c i = Some c' -> inv c' (run_item A structs enums v i).
  Proof using ND.
    intros c v i c' I M H.
    assert (Mx : In (label i) (map label (items_of p))) by (apply in_map; exact M).
    assert (Me : forall e, In e (match i with Formula _ e => [e] | Contract _ e1 e2 => [e1; e2] end) -> In e (exprs_of p))
      by (intros e Ie; unfold exprs_of; apply in_app_iff; right; apply in_flat_map; exists i; auto).
    destruct i as [x e|x e1 e2]; cbn [add_item] in H.
    - apply bind_some in H; destruct H as [[t c1] [C H]]; cbn beta iota in H; apply guarded in H; destruct H as [B H]; injection H as <-.
      destruct (top_sound _ _ _ _ _ I (Me _ (or_introl eq_refl)) C) as [G I1]. apply is_bool_eq in B; subst t. apply truth_good in G.
      destruct I1 as [[K1 K2 K3 K4 K5 K6 K7 K8 K9] IS IE ISg ID ISp IV IO]. constructor; cbn [run_item]; try assumption.
      + constructor; cbn; try assumption.
        * intros y; destruct (y =? x); [intros _; exists (truth A (eval v [] e)); auto|cbn; auto].
        * intros y; destruct (y =? x); [discriminate|cbn; auto].
      + intros y; cbn; destruct (y =? x) eqn:E; [apply Nat.eqb_eq in E; subst; intros _; exact Mx|cbn; auto].
      + intros r Ir. unfold outcomes in Ir; cbn in Ir. rewrite in_app_iff in Ir; cbn in Ir.
        destruct Ir as [Ir|[<-|Ir]]; [apply IO|eapply good_sane; exact G|apply IO]; unfold outcomes; rewrite in_app_iff; auto.
    - apply bind_some in H; destruct H as [[t c1] [C H]]; cbn beta iota in H. apply bind_some in H; destruct H as [[u c2] [C2 H]]; cbn beta iota in H.
      apply guarded in H; destruct H as [B H]; injection H as <-. apply andb_true_iff in B; destruct B as [B1 B2]. apply is_bool_eq in B1, B2; subst t u.
      destruct (top_sound _ _ _ _ _ I (Me _ (or_introl eq_refl)) C) as [G1 I1]. destruct (top_sound _ _ _ _ _ I1 (Me _ (or_intror (or_introl eq_refl))) C2) as [G2 I2].
      apply truth_good in G1, G2.
      destruct I2 as [[K1 K2 K3 K4 K5 K6 K7 K8 K9] IS IE ISg ID ISp IV IO]. constructor; cbn [run_item]; try assumption.
      + constructor; cbn; assumption.
      + intros r Ir. unfold outcomes in Ir; cbn in Ir. rewrite !in_app_iff in Ir; cbn in Ir.
        destruct Ir as [Ir|[Ir|[<-|[<-|Ir]]]]; try (eapply good_sane; eassumption); apply IO; unfold outcomes; rewrite !in_app_iff; auto.
  Qed.

  Lemma each_step : forall {B} (name : B -> nat) (step : ctx -> B -> option ctx) (go : env A -> B -> env A) l seen c v c',
    (forall b c v c', In b l -> inv c v -> step c b = Some c' -> inv c' (go v b)) ->
    inv c v -> each name step l seen c = Some c' -> inv c' (fold_left go l v).
  Proof using Type.
    intros B name step go l; induction l as [|b l IH]; intros seen c v c' S I E; [injection E as <-; exact I|].
    cbn [each] in E. apply guarded in E; destruct E as [_ E]. apply bind_some in E; destruct E as [c1 [C E]]. cbn [fold_left].
    eapply IH; [intros; eapply S; eauto; right; assumption| |exact E]. eapply S; [left; reflexivity|exact I|exact C].
  Qed.
  Lemma fold_same : forall {B} (l : list B) (v : env A), fold_left (fun v _ => v) l v = v.
  Proof using Type. induction l; cbn; auto. Qed.

  Lemma section_step : forall x c v c', In x p -> inv c v -> check_section c x = Some c' -> inv c' (run_section A structs enums inp v x).
  Proof using ND Typed.
    intros x c v c' M I H. destruct x as [l|l|l|l|ft l]; cbn [check_section run_section] in *.
    - eapply each_step; [|exact I|exact H]. intros [y t] c0 v0 c1 J I0 S. cbn [fst snd] in S. eapply input_step; [exact I0| |exact S].
      unfold inputs_of; apply in_flat_map; exists (Input l); auto.
    - eapply each_step; [|exact I|exact H]. intros [y e] c0 v0 c1 J I0 S. cbn [fst snd] in S. eapply def_step; [exact I0| |exact S].
      unfold defs_of; apply in_flat_map; exists (Define l); auto.
    - rewrite <- (fold_same l v). eapply (each_step _ _ (fun v _ => v)); [|exact I|exact H].
      intros [y m] c0 v0 c1 J I0 S. cbn [fst snd] in S. injection S as <-. apply struct_step; [exact I0|].
      unfold structs_of; apply in_flat_map; exists (Structs l); split; [exact M|]. change (y, dict m) with ((fun q : nat * list (nat * ty) => (fst q, dict (snd q))) (y, m)). apply in_map; exact J.
    - assert (X : forall q, In q l -> In (fst q, map fst (dict (snd q))) enums).
      { intros q J; unfold enums_of; apply in_flat_map; exists (Enums l); split; [exact M|].
        change (fst q, map fst (dict (snd q))) with ((fun q : nat * list (nat * tx) => (fst q, map fst (dict (snd q)))) q). apply in_map; exact J. }
      clear M; revert c I H; induction l as [|[y m] l IH]; intros c I H; [injection H as <-; exact I|].
      cbn [each_enum] in H. apply bind_some in H; destruct H as [c1 [C H]]. eapply IH; [intros q J; apply X; right; exact J| |exact H].
      eapply enum_step; [exact I|exact (X _ (or_introl eq_refl))|exact C].
    - assert (I' : inv (with_mode c ft) v) by (destruct I as [[] ]; constructor; try assumption; constructor; assumption).
      eapply each_step; [|exact I'|exact H]. intros i c0 v0 c1 J I0 S. eapply item_step; [exact I0| |exact S].
      unfold items_of; apply in_flat_map; exists (Specs ft l); auto.
  Qed.
  Lemma sections_step : forall q c v c', incl q p -> inv c v -> check_sections c q = Some c' ->
    inv c' (fold_left (run_section A structs enums inp) q v).
  Proof using ND Typed.
    induction q as [|x q IH]; intros c v c' M I H; [injection H as <-; exact I|].
    cbn [check_sections] in H. apply bind_some in H; destruct H as [c1 [C H]]. cbn [fold_left].
    eapply IH; [intros y J; apply M; right; exact J| |exact H]. eapply section_step; [apply M; left; reflexivity|exact I|exact C].
  Qed.
  Lemma accepted_sound : forall bz, accepted bz p = true -> forall r, In r (outcomes A (run A structs enums inp p)) -> r <> Wrong.
  Proof using ND Typed.
    intros bz H; unfold accepted in H. destruct (check_sections (new_context bz) p) as [c|] eqn:E; [|discriminate].
    apply (inv_out c). unfold run. eapply sections_step; [apply incl_refl| |exact E].
    constructor; cbn; try discriminate; try (intros q []).
    constructor; cbn; try discriminate; try reflexivity.
  Qed.
End Programs.

(** ** Future and past *)
Lemma checks_times : forall c es, Forall (fun e => forall s t s', check c e s = Some (t, s') -> Forall (eq (section_time (c_ft c))) (times e)) es ->
  forall s ts s', checks c es s = Some (ts, s') -> Forall (eq (section_time (c_ft c))) (flat_map times es).
Proof.
  induction 1 as [|e es S1 _ IH]; intros s ts s' E; cbn [flat_map]; [constructor|].
  cbn [checks] in E; split_check E. destruct a as [ts' s1]. apply Forall_app; split; eauto.
Qed.
Lemma check_times : forall c e s t s', check c e s = Some (t, s') -> Forall (eq (section_time (c_ft c))) (times e).
Proof.
  intros c; induction e as
    [x|z|m e|  |x|x|es IH|e i IH|e i j IH|e m IH|n es IH|k x e1 e2 IH1 IH2|k x e1 e2 e3 IH1 IH2 IH3
    |k lb ub e IH|k lb ub e1 e2 IH1 IH2|e IH|k e1 e2 IH1 IH2|e IH|k e1 e2 IH1 IH2|k e IH|k e1 e2 IH1 IH2|k e1 e2 IH1 IH2|e1 e2 IH1 IH2]
    using tx_induction; intros s t s' E;
    try (rewrite check_arr in E); try (rewrite check_new in E); try (cbn [check] in E); split_check E; cbn [times];
    rewrite ?Forall_app; try (constructor; fail); eauto using checks_times; try (destruct a as [ts s1]; eapply checks_times; eassumption).
  - repeat split; eauto.
  - rewrite !andb_true_iff in G. destruct G as [[_ G] _]. apply eqb_prop in G. constructor; [|eauto]. rewrite <- G; destruct k; reflexivity.
  - rewrite !andb_true_iff in G. destruct G as [[_ G] _]. apply eqb_prop in G. constructor; [|rewrite Forall_app; eauto]. rewrite <- G; destruct k; reflexivity.
Qed.

(** ** Every expression of an accepted program has been checked *)
Definition checked (bz : bool) (e : tx) : Prop := exists c s r, c_bz c = bz /\ check c e s = Some r.
Definition checked_at (bz ft : bool) (e : tx) : Prop := exists c s r, c_bz c = bz /\ c_ft c = ft /\ check c e s = Some r.
Lemma check_top_same : forall c e t c', check_top c e = Some (t, c') -> c_bz c' = c_bz c /\ c_ft c' = c_ft c /\ exists s r, check c e s = Some r.
Proof.
  intros c e t c' H; unfold check_top in H; apply bind_some in H; destruct H as [[u s] [C H]]; injection H as <- <-.
  refine (conj eq_refl (conj eq_refl _)); eauto.
Qed.
Definition item_exprs (i : item) : list tx := match i with Formula _ e => [e] | Contract _ e1 e2 => [e1; e2] end.
Lemma each_all : forall {B} (name : B -> nat) (step : ctx -> B -> option ctx) (P : ctx -> Prop) (Q : B -> Prop) l seen c c',
  (forall b c c', step c b = Some c' -> P c -> P c' /\ Q b) -> P c -> each name step l seen c = Some c' -> P c' /\ forall b, In b l -> Q b.
Proof.
  intros B name step P Q l; induction l as [|b l IH]; intros seen c c' S I E; [injection E as <-; split; [exact I|intros b []]|].
  cbn [each] in E. apply guarded in E; destruct E as [_ E]. apply bind_some in E; destruct E as [c1 [C E]].
  destruct (S _ _ _ C I) as [I1 Q1]. destruct (IH _ _ _ S I1 E) as [I2 Q2]. split; [exact I2|intros b' [<-|J]; auto].
Qed.
Lemma add_item_checked : forall bz ft i c c', add_item c i = Some c' -> c_bz c = bz /\ c_ft c = ft ->
  (c_bz c' = bz /\ c_ft c' = ft) /\ forall e, In e (item_exprs i) -> checked_at bz ft e.
Proof.
  intros bz ft [x e|x e1 e2] c c' H [<- <-]; cbn [add_item] in H.
  - apply bind_some in H; destruct H as [[t c1] [C H]]; cbn beta iota in H; apply guarded in H; destruct H as [_ H]; injection H as <-.
    destruct (check_top_same _ _ _ _ C) as [B [F [s [r K]]]]. split; [split; assumption|]. intros e' [<-|[]]. exists c, s, r; auto.
  - apply bind_some in H; destruct H as [[t c1] [C H]]; cbn beta iota in H. apply bind_some in H; destruct H as [[u c2] [C2 H]]; cbn beta iota in H.
    apply guarded in H; destruct H as [_ H]; injection H as <-.
    destruct (check_top_same _ _ _ _ C) as [B [F [s [r K]]]]. destruct (check_top_same _ _ _ _ C2) as [B2 [F2 [s2 [r2 K2]]]].
    split; [split; cbn; congruence|]. intros e' [<-|[<-|[]]]; [exists c, s, r|exists c1, s2, r2]; auto.
Qed.
Lemma section_checked : forall bz x c c', check_section c x = Some c' -> c_bz c = bz -> c_bz c' = bz /\
  match x with
  | Define l => forall q, In q l -> checked bz (snd q)
  | Specs ft l => forall i, In i l -> forall e, In e (item_exprs i) -> checked_at bz ft e
  | _ => True
  end.
Proof.
  intros bz x c c' H Bz; destruct x as [l|l|l|l|ft l]; cbn [check_section] in H.
  - refine (conj (proj1 (each_all _ _ (fun c => c_bz c = bz) (fun _ => True) _ _ _ _ _ Bz H)) Logic.I).
    intros [y t] c0 c1 S <-; split; [|exact Logic.I]. cbn [fst snd] in S; unfold add_input in S.
    destruct (input_type c0 t); try (injection S as <-; reflexivity). apply bind_some in S; destruct S as [? [_ S]]; injection S as <-; reflexivity.
  - apply (each_all _ _ (fun c => c_bz c = bz) (fun q => checked bz (snd q)) _ _ _ _) with (2 := Bz) (3 := H).
    intros [y e] c0 c1 S <-. cbn [fst snd] in *; unfold add_def in S. apply bind_some in S; destruct S as [[t c2] [C S]]; injection S as <-.
    destruct (check_top_same _ _ _ _ C) as [B [F [s [r K]]]]. split; [exact B|exists c0, s, r; auto].
  - refine (conj (proj1 (each_all _ _ (fun c => c_bz c = bz) (fun _ => True) _ _ _ _ _ Bz H)) Logic.I).
    intros [y m] c0 c1 S <-; injection S as <-; split; [reflexivity|exact Logic.I].
  - split; [|exact Logic.I]. revert c Bz H; induction l as [|[y m] l IH]; intros c Bz H; [injection H as <-; exact Bz|].
    cbn [each_enum] in H. apply bind_some in H; destruct H as [c1 [C H]]. apply (IH c1); [|exact H].
    unfold add_enum in C. apply guarded in C; destruct C as [_ C]; apply guarded in C; destruct C as [_ C]; injection C as <-; exact Bz.
  - assert (X := each_all label add_item (fun c => c_bz c = bz /\ c_ft c = ft) (fun i => forall e, In e (item_exprs i) -> checked_at bz ft e) l []
      (with_mode c ft) c' (fun i c c' => add_item_checked bz ft i c c') (conj Bz eq_refl) H).
    destruct X as [[X _] Y]; auto.
Qed.
Lemma accepted_checked : forall bz p, accepted bz p = true ->
  (forall q, In q (defs_of p) -> checked bz (snd q)) /\
  (forall ft l i, In (Specs ft l) p -> In i l -> forall e, In e (item_exprs i) -> checked_at bz ft e).
Proof.
  intros bz p H; unfold accepted in H. destruct (check_sections (new_context bz) p) as [c|] eqn:E; [|discriminate]. clear H.
  assert (B : c_bz (new_context bz) = bz) by reflexivity. revert B E. generalize (new_context bz).
  induction p as [|x p IH]; intros c0 B E; [split; [intros q []|intros ft l i []]|].
  cbn [check_sections] in E. apply bind_some in E; destruct E as [c1 [C E]].
  destruct (section_checked _ _ _ _ C B) as [B1 X]. destruct (IH _ B1 E) as [Y1 Y2]. split.
  - intros q J. change (defs_of (x :: p)) with ((match x with Define l => l | _ => [] end) ++ defs_of p) in J.
    apply in_app_iff in J; destruct J as [J|J]; [|auto]. destruct x; try destruct J. apply X; exact J.
  - intros ft l i [->|J]; [exact (X i)|exact (Y2 _ _ _ J)].
Qed.
Lemma accepted_times : forall bz p ft l i, accepted bz p = true -> In (Specs ft l) p -> In i l -> forall k, In k (item_times i) -> k = section_time ft.
Proof.
  intros bz p ft l i H J K k M. destruct (accepted_checked _ _ H) as [_ X]. specialize (X _ _ _ J K).
  assert (Y : forall e, In e (item_exprs i) -> forall k, In k (times e) -> k = section_time ft).
  { intros e Ie k' Ik. destruct (X _ Ie) as [c [s [[t s'] [_ [<- C]]]]]. pose proof (check_times _ _ _ _ _ C) as F. rewrite Forall_forall in F. symmetry; auto. }
  destruct i as [x e|x e1 e2]; cbn in M; [apply (Y e); [left; reflexivity|exact M]|].
  apply in_app_iff in M; destruct M; [apply (Y e1); [left; reflexivity|assumption]|apply (Y e2); [right; left; reflexivity|assumption]].
Qed.

(** ** Without the Booleanizer *)
Lemma check_plain : forall c e s t s', c_bz c = false -> check c e s = Some (t, s') -> computes e = false.
Proof.
  intros c e s t s' Bz; revert s t s'.
  assert (L : forall es, Forall (fun e => forall s t s', check c e s = Some (t, s') -> computes e = false) es ->
    forall s ts s', checks c es s = Some (ts, s') -> existsb computes es = false).
  { induction 1 as [|d es S1 _ IH]; intros s ts s' E; cbn [existsb]; [reflexivity|].
    cbn [checks] in E; split_check E. destruct a as [ts' s1]. rewrite (S1 _ _ _ C), (IH _ _ _ C0); reflexivity. }
  induction e as
    [x|z|m e|  |x|x|es IH|e i IH|e i j IH|e m IH|n es IH|k x e1 e2 IH1 IH2|k x e1 e2 e3 IH1 IH2 IH3
    |k lb ub e IH|k lb ub e1 e2 IH1 IH2|e IH|k e1 e2 IH1 IH2|e IH|k e1 e2 IH1 IH2|k e IH|k e1 e2 IH1 IH2|k e1 e2 IH1 IH2|e1 e2 IH1 IH2]
    using tx_induction; intros s t s' E;
    try (rewrite check_arr in E); try (rewrite check_new in E); try (cbn [check] in E); split_check E; cbn [computes];
    try (rewrite Bz in *; cbn in G; discriminate); try reflexivity; try (destruct a as [ts s1]; eapply L; eassumption); try (eapply IH; eassumption);
    try (rewrite (IH1 _ _ _ C), (IH2 _ _ _ C0)); try reflexivity.
  rewrite Bz in G. destruct k; reflexivity || discriminate G.
Qed.
Lemma accepted_plain : forall p e, accepted false p = true -> In e (exprs_of p) -> computes e = false.
Proof.
  intros p e H J. destruct (accepted_checked _ _ H) as [X Y]. unfold exprs_of in J. apply in_app_iff in J; destruct J as [J|J].
  - apply in_map_iff in J; destruct J as [q [<- J]]. destruct (X _ J) as [c [s [[t s'] [B C]]]]. eapply check_plain; eassumption.
  - apply in_flat_map in J; destruct J as [i [J Ie]]. unfold items_of in J; apply in_flat_map in J; destruct J as [sec [J1 J2]].
    destruct sec as [l|l|l|l|ft l]; try destruct J2. destruct (Y _ _ _ J1 J2 e Ie) as [c [s [[t s'] [B [_ C]]]]]. eapply check_plain; eassumption.
Qed.
