(** * Proofs about the expansion of definitions *)
From Coq Require Import List Arith ZArith Bool Lia.
Require Import Verif.Mltl Verif.MltlShape Verif.MltlEval Verif.Scope Verif.Window.
Require Import Verif.Transform Verif.TransformProofs Verif.Definitions Verif.DelayProofs.
Import ListNotations.
Local Open Scope nat_scope.

(** ** Meaning in a trace that respects the names *)
Lemma lookup_in t s b : lookup t s = Some b -> In (s, b) t.
Proof.
  induction t as [|[x e] t IH]; cbn; [discriminate|].
  destruct (x =? s) eqn:E; [|intros H; right; auto].
  apply Nat.eqb_eq in E. subst. intros [= ->]. left; reflexivity.
Qed.
Lemma lookup_none t s : lookup t s = None -> ~ In s (names t).
Proof.
  induction t as [|[x e] t IH]; cbn; [tauto|].
  destruct (x =? s) eqn:E; [discriminate|]. apply Nat.eqb_neq in E. intros H [H'|H']; [congruence|].
  exact (IH H H').
Qed.

(** Tables whose entries mean what the trace gives to their names. *)
Definition table_ok (tr : trace) (t : table) := forall x b, In (x, b) t -> forall i, tr i x = den tr b i.

Lemma respects_ok tr ds : respects tr ds <-> table_ok tr ds.
Proof.
  split; intros H x b Hin i; specialize (H x b Hin i); rewrite <- den_sat in *.
  - destruct (tr i x), (den tr b i); intuition congruence.
  - rewrite H. tauto.
Qed.

Lemma expand_node_den tr t : table_ok tr t -> forall e i, den tr (expand_node t e) i = den tr e i.
Proof.
  intros H e i. destruct e; cbn [expand_node]; try reflexivity.
  match goal with |- context [lookup t ?n] => destruct (lookup t n) as [b|] eqn:E; [|reflexivity] end. apply lookup_in in E. cbn [den]. symmetry; apply H; exact E.
Qed.
Lemma expand_body_den tr t b i : table_ok tr t -> den tr (expand_body t b) i = den tr b i.
Proof.
  intros H. destruct b; cbn [expand_body]; try reflexivity;
    apply expr_map_den; apply expand_node_den; exact H.
Qed.

Lemma expand_definitions_ok tr ds : table_ok tr ds -> table_ok tr (expand_definitions ds).
Proof.
  unfold expand_definitions. intros H.
  assert (G : forall l t, table_ok tr l -> table_ok tr t ->
     table_ok tr (fold_left (fun t d => t ++ [(fst d, expand_body t (snd d))]) l t)).
  { induction l as [|[x b] l IH]; intros t Hl Ht; cbn [fold_left]; [exact Ht|].
    apply IH; [intros y c Hc; apply Hl; right; exact Hc|].
    intros y c Hc i. apply in_app_iff in Hc as [Hc|[Hc|[]]]; [apply Ht; exact Hc|].
    cbn in Hc. injection Hc as <- <-. rewrite expand_body_den by exact Ht.
    apply Hl. left; reflexivity. }
  apply G; [exact H|intros x b []].
Qed.

Lemma expand_meaning_den tr ds fs : table_ok tr (ds ++ fs) ->
  Forall2 (fun f g => fst f = fst g /\ forall i, den tr (snd g) i = den tr (snd f) i) fs (expand ds fs).
Proof.
  intros H. unfold expand, expand_specs.
  assert (Hd : table_ok tr (expand_definitions ds)).
  { apply expand_definitions_ok. intros x b Hx. apply H, in_app_iff. left; exact Hx. }
  assert (Hf : table_ok tr fs) by (intros x b Hx; apply H, in_app_iff; right; exact Hx).
  clear H. revert Hd. generalize (expand_definitions ds). intros D Hd.
  assert (G : forall l t done, table_ok tr l -> table_ok tr t ->
     Forall2 (fun f g => fst f = fst g /\ forall i, den tr (snd g) i = den tr (snd f) i) done t ->
     Forall2 (fun f g => fst f = fst g /\ forall i, den tr (snd g) i = den tr (snd f) i) (done ++ l)
       (fold_left (fun t f => t ++ [(fst f, expr_map (expand_node (D ++ t)) (snd f))]) l t)).
  { induction l as [|[x b] l IH]; intros t done Hl Ht H2; cbn [fold_left]; [rewrite app_nil_r; exact H2|].
    assert (Hb : forall i, den tr (expr_map (expand_node (D ++ t)) b) i = den tr b i).
    { apply expr_map_den, expand_node_den. intros y c Hc. apply in_app_iff in Hc as [Hc|Hc]; auto. }
    change ((x, b) :: l) with ([(x, b)] ++ l). rewrite app_assoc. apply IH.
    - intros y c Hc; apply Hl; right; exact Hc.
    - intros y c Hc i. apply in_app_iff in Hc as [Hc|[Hc|[]]]; [apply Ht; exact Hc|].
      cbn in Hc. injection Hc as <- <-. rewrite Hb. apply Hl. left; reflexivity.
    - apply Forall2_app; [exact H2|]. constructor; [|constructor]. cbn. split; [reflexivity|exact Hb]. }
  apply (G fs [] []); [exact Hf|intros x b []|constructor].
Qed.

Lemma Forall2_weaken {A B} (P Q : A -> B -> Prop) l l' :
  (forall a b, P a b -> Q a b) -> Forall2 P l l' -> Forall2 Q l l'.
Proof. intros H F. induction F; constructor; auto. Qed.

Lemma expand_meaning tr ds fs : respects tr (ds ++ fs) ->
  Forall2 (fun f g => fst f = fst g /\ forall i, sat tr (snd g) i <-> sat tr (snd f) i) fs (expand ds fs).
Proof.
  intros H. apply respects_ok in H. eapply Forall2_weaken; [|apply expand_meaning_den; exact H].
  intros f g [H1 H2]. split; [exact H1|]. intros i. rewrite <- !den_sat, H2. tauto.
Qed.

(** ** Every assignment of the other symbols extends to the names *)
Lemma avoids_den P e : avoids P e -> forall tr tr', (forall i s, ~ P s -> tr i s = tr' i s) ->
  forall i, den tr e i = den tr' e i.
Proof.
  unfold avoids. intros H tr tr' Ha.
  induction e as [b|a|e IH|es IH|es IH|p q IHp IHq|p q IHp IHq|p q IHp IHq|p q IHp IHq
                 |lb ub p IHp|lb ub p IHp|lb ub p q IHp IHq|lb ub p q IHp IHq
                 |lb ub p IHp|lb ub p IHp|lb ub p q IHp IHq|lb ub p q IHp IHq] using expr_ind';
    destruct H as [Hop Hs]; intros i.
  - reflexivity.
  - cbn [den]. apply Ha, Hop.
  - cbn [den]. rewrite IH; auto.
  - rewrite !den_and. apply forallb_ext_in. intros x Hx. rewrite fold_all_nodes, Forall_forall in Hs.
    rewrite Forall_forall in IH. apply IH; auto.
  - rewrite !den_or. apply existsb_ext_in. intros x Hx. rewrite fold_all_nodes, Forall_forall in Hs.
    rewrite Forall_forall in IH. apply IH; auto.
  - destruct Hs. cbn [den]. rewrite IHp, IHq; auto.
  - destruct Hs. cbn [den]. rewrite IHp, IHq; auto.
  - destruct Hs. cbn [den]. rewrite IHp, IHq; auto.
  - destruct Hs. cbn [den]. rewrite IHp, IHq; auto.
  - cbn [den]. apply opF_ext; auto.
  - cbn [den]. apply opG_ext; auto.
  - destruct Hs. cbn [den]. apply opU_ext; auto.
  - destruct Hs. cbn [den]. apply opR_ext; auto.
  - cbn [den]. apply opO_ext; auto.
  - cbn [den]. apply opH_ext; auto.
  - destruct Hs. cbn [den]. apply opS_ext; auto.
  - destruct Hs. cbn [den]. apply opT_ext; auto.
Qed.

Lemma all_nodes_impl (P Q : expr -> Prop) : (forall e, P e -> Q e) -> forall e, all_nodes P e -> all_nodes Q e.
Proof.
  intros H e. induction e using expr_ind'; cbn [all_nodes]; intros [Hn Hs]; (split; [apply H; exact Hn|]);
    try tauto.
  - rewrite fold_all_nodes in *. rewrite Forall_forall in *. auto.
  - rewrite fold_all_nodes in *. rewrite Forall_forall in *. auto.
Qed.
Lemma avoids_mono (P Q : nat -> Prop) e : (forall s, Q s -> P s) -> avoids P e -> avoids Q e.
Proof. intros H. apply all_nodes_impl. intros []; auto. Qed.

Definition upd (tr : trace) (x : nat) (f : nat -> bool) : trace :=
  fun i s => if s =? x then f i else tr i s.

Lemma extension_exists_gen ds : forall seen tr pre, ordered seen ds -> table_ok tr pre ->
  (forall x, In x (names pre) -> In x seen) ->
  (forall x b, In (x, b) pre -> avoids (fun s => In s (names ds)) b) ->
  exists tr', table_ok tr' (pre ++ ds) /\ forall i s, ~ In s (names ds) -> tr' i s = tr i s.
Proof.
  induction ds as [|[x b] ds IH]; intros seen tr pre Ho Hp Hs Ha.
  - exists tr. rewrite app_nil_r. split; [exact Hp|reflexivity].
  - destruct Ho as (Hx & Hb & Ho). cbn [names map fst] in *.
    set (tr1 := upd tr x (den tr b)).
    assert (E1 : forall i s, ~ In s (x :: names ds) -> tr1 i s = tr i s).
    { intros i s Hn. unfold tr1, upd. destruct (s =? x) eqn:E; [|reflexivity].
      apply Nat.eqb_eq in E. subst. exfalso; apply Hn; left; reflexivity. }
    destruct (IH (x :: seen) tr1 (pre ++ [(x, b)])) as (tr' & H1 & H2); [exact Ho| | | |].
    + intros y c Hc i. apply in_app_iff in Hc as [Hc|[Hc|[]]].
      * rewrite (avoids_den _ _ (Ha _ _ Hc) tr1 tr E1). rewrite <- (Hp _ _ Hc).
        unfold tr1, upd. destruct (y =? x) eqn:E; [|reflexivity].
        apply Nat.eqb_eq in E. subst y. exfalso. apply Hx, Hs. unfold names.
        change x with (fst (x, c)). apply in_map; exact Hc.
      * injection Hc as <- <-. rewrite (avoids_den _ _ Hb tr1 tr E1).
        unfold tr1, upd. rewrite Nat.eqb_refl. reflexivity.
    + intros y Hy. unfold names in Hy. rewrite map_app in Hy. apply in_app_iff in Hy as [Hy|[Hy|[]]].
      * right; apply Hs; exact Hy.
      * left; exact Hy.
    + intros y c Hc. apply in_app_iff in Hc as [Hc|[Hc|[]]].
      * eapply avoids_mono; [|apply (Ha _ _ Hc)]. intros s H; right; exact H.
      * injection Hc as <- <-. eapply avoids_mono; [|apply Hb]. intros s H; right; exact H.
    + exists tr'. rewrite <- app_assoc in H1. split; [exact H1|].
      intros i s Hn. rewrite H2 by (intros H; apply Hn; right; exact H). apply E1; exact Hn.
Qed.
Lemma extension_exists ds tr : ordered [] ds ->
  exists tr', respects tr' ds /\ forall i s, ~ In s (names ds) -> tr' i s = tr i s.
Proof.
  intros H. destruct (extension_exists_gen ds [] tr [] H) as (tr' & H1 & H2).
  - intros x b [].
  - intros x [].
  - intros x b [].
  - exists tr'. split; [apply respects_ok; exact H1|exact H2].
Qed.

(** ** No name is left *)
Lemma expand_avoids N t e :
  avoids (fun s => In s N /\ ~ In s (names t)) e ->
  (forall x b, In (x, b) t -> avoids (fun s => In s N) b) ->
  avoids (fun s => In s N) (expr_map (expand_node t) e).
Proof.
  unfold avoids. intros H Ht. induction e using expr_ind'; cbn [expr_map]; destruct H as [Hop Hs];
    cbn [expand_node]; try (split; [exact I|]); try tauto.
  - destruct (lookup t a) as [b|] eqn:E.
    + apply (Ht a), lookup_in, E.
    + split; [|exact I]. apply lookup_none in E. tauto.
  - rewrite fold_all_nodes in *. rewrite Forall_forall in *. intros x Hx.
    apply in_map_iff in Hx as (y & <- & Hy). auto.
  - rewrite fold_all_nodes in *. rewrite Forall_forall in *. intros x Hx.
    apply in_map_iff in Hx as (y & <- & Hy). auto.
Qed.
Lemma expand_body_avoids N t e :
  avoids (fun s => In s N /\ ~ In s (names t)) e -> ~ is_alias N e ->
  (forall x b, In (x, b) t -> avoids (fun s => In s N) b) ->
  avoids (fun s => In s N) (expand_body t e).
Proof.
  intros H Ha Ht. destruct e; cbn [expand_body]; try (apply expand_avoids; assumption).
  split; [|exact I]. intros Hn. apply Ha. eexists; split; [reflexivity|exact Hn].
Qed.

(** Processing a list in order, with the entries of [D] known beforehand. *)
Lemma process_avoids N D (g : table -> expr -> expr) (C : expr -> Prop) :
  (forall t e, C e -> avoids (fun s => In s N /\ ~ In s (names (D ++ t))) e ->
     (forall x b, In (x, b) (D ++ t) -> avoids (fun s => In s N) b) -> avoids (fun s => In s N) (g t e)) ->
  (forall x b, In (x, b) D -> avoids (fun s => In s N) b) ->
  forall l seen t, ordered seen l -> (forall x b, In (x, b) l -> C b) ->
  (forall s, In s N -> In s (names (D ++ t)) \/ In s (names l)) ->
  (forall x b, In (x, b) t -> avoids (fun s => In s N) b) ->
  forall x b, In (x, b) (fold_left (fun t d => t ++ [(fst d, g t (snd d))]) l t) -> avoids (fun s => In s N) b.
Proof.
  intros Hg HD. induction l as [|[y c] l IH]; intros seen t Ho HC Hn Ht x b; cbn [fold_left]; [apply Ht|].
  destruct Ho as (Hy & Hc & Ho). cbn [fst snd].
  apply (IH (y :: seen)); [exact Ho|intros; eapply HC; right; eassumption| |].
  - intros s Hs. unfold names. rewrite app_assoc, map_app. cbn. rewrite in_app_iff. cbn.
    destruct (Hn s Hs) as [H|[H|H]]; [left; left; exact H|left; right; left; exact H|right; exact H].
  - intros x' b' H. apply in_app_iff in H as [H|[H|[]]]; [apply (Ht x'); exact H|].
    injection H as <- <-. apply Hg; [apply (HC y); left; reflexivity| |].
    + eapply avoids_mono; [|exact Hc]. intros s [Hs Hs']. destruct (Hn s Hs); [contradiction|assumption].
    + intros x2 b2 H2. apply in_app_iff in H2 as [H2|H2]; [apply (HD x2); exact H2|apply (Ht x2); exact H2].
Qed.

Lemma process_names (g : table -> expr -> expr) l : forall t,
  names (fold_left (fun t d => t ++ [(fst d, g t (snd d))]) l t) = names t ++ names l.
Proof.
  induction l as [|[y c] l IH]; intros t; cbn [fold_left]; [cbn; rewrite app_nil_r; reflexivity|].
  rewrite IH. unfold names. rewrite map_app. cbn. rewrite <- app_assoc. reflexivity.
Qed.

(** Splitting [ordered]. *)
Lemma ordered_app ds fs : forall seen, ordered seen (ds ++ fs) ->
  (exists seen', ordered seen' fs) /\
  (forall x b, In (x, b) ds -> avoids (fun s => In s (names fs)) b).
Proof.
  induction ds as [|[y c] ds IH]; intros seen H; cbn in *.
  - split; [exists seen; exact H|intros x b []].
  - destruct H as (H1 & H2 & H3). destruct (IH _ H3) as [H4 H5]. split; [exact H4|].
    intros x b [[= <- <-]|Hin]; [|exact (H5 _ _ Hin)].
    eapply avoids_mono; [|exact H2]. intros s Hs. right. unfold names. rewrite map_app. apply in_app_iff.
    right; exact Hs.
Qed.
Lemma ordered_app_l ds fs : forall seen, ordered seen (ds ++ fs) -> ordered seen ds.
Proof.
  induction ds as [|[y c] ds IH]; intros seen H; cbn in *; [exact I|].
  destruct H as (H1 & H2 & H3). split; [exact H1|]. split; [|exact (IH _ H3)].
  eapply avoids_mono; [|exact H2]. intros s [Hs|Hs]; [left; exact Hs|right].
  unfold names. rewrite map_app. apply in_app_iff. left; exact Hs.
Qed.

Lemma avoids_or (P Q : nat -> Prop) e : avoids P e -> avoids Q e -> avoids (fun s => P s \/ Q s) e.
Proof.
  unfold avoids. intros H1 H2. induction e using expr_ind'; destruct H1 as [Hn1 Hs1], H2 as [Hn2 Hs2];
    (split; [try exact I; tauto|]); try tauto.
  - rewrite fold_all_nodes in *. rewrite Forall_forall in *. auto.
  - rewrite fold_all_nodes in *. rewrite Forall_forall in *. auto.
Qed.

Lemma expand_no_names ds fs : ordered [] (ds ++ fs) ->
  (forall x b, In (x, b) ds -> ~ is_alias (names ds) b) ->
  Forall (fun g => avoids (fun s => In s (names (ds ++ fs))) (snd g)) (expand ds fs).
Proof.
  intros Ho Hal. destruct (ordered_app _ _ _ Ho) as [[seen Hf] Hdf]. pose proof (ordered_app_l _ _ _ Ho) as Hd.
  set (N := names (ds ++ fs)).
  assert (HN : forall s, In s N <-> In s (names ds) \/ In s (names fs)).
  { intros s. unfold N, names. rewrite map_app, in_app_iff. tauto. }
  apply Forall_forall. intros [x b] Hx. cbn [snd].
  assert (HD : forall y c, In (y, c) (expand_definitions ds) -> avoids (fun s => In s N) c).
  { intros y c Hc.
    (* clear the definition names, the formula labels never occur *)
    assert (A : avoids (fun s => In s (names ds)) c).
    { eapply (process_avoids (names ds) [] expand_body (fun b => ~ is_alias (names ds) b));
        [| | exact Hd | exact Hal | | | exact Hc].
      - intros t e He H1 H2. apply expand_body_avoids; assumption.
      - intros z d [].
      - intros s Hs; right; exact Hs.
      - intros z d []. }
    assert (B : avoids (fun s => In s (names fs)) c).
    { revert Hc. unfold expand_definitions.
      assert (G : forall l t, (forall x b, In (x, b) l -> avoids (fun s => In s (names fs)) b) ->
         (forall x b, In (x, b) t -> avoids (fun s => In s (names fs)) b) ->
         forall x b, In (x, b) (fold_left (fun t d => t ++ [(fst d, expand_body t (snd d))]) l t) ->
         avoids (fun s => In s (names fs)) b).
      { induction l as [|[z d] l IH]; intros t Hl Ht x' b'; cbn [fold_left]; [apply Ht|].
        apply IH; [intros; eapply Hl; right; eassumption|].
        intros x2 b2 H2. apply in_app_iff in H2 as [H2|[H2|[]]]; [apply (Ht x2); exact H2|].
        injection H2 as <- <-. cbn [snd]. assert (Hz := Hl z d (or_introl eq_refl)).
        destruct d; cbn [expand_body]; try exact Hz;
          (apply expand_avoids; [eapply avoids_mono; [|exact Hz]; intros s [Hs _]; exact Hs|exact Ht]). }
      apply G; [exact Hdf|intros z d []]. }
    eapply avoids_mono; [|exact (avoids_or _ _ _ A B)]. intros s Hs. apply HN; exact Hs. }
  assert (Hnames : names (expand_definitions ds) = names ds).
  { unfold expand_definitions. rewrite process_names. reflexivity. }
  eapply (process_avoids N (expand_definitions ds)
            (fun t e => expr_map (expand_node (expand_definitions ds ++ t)) e) (fun _ => True));
    [| exact HD | exact Hf | auto | | | exact Hx].
  - intros t e _ H1 H2. apply expand_avoids; assumption.
  - intros s Hs. rewrite app_nil_r, Hnames. apply HN; exact Hs.
  - intros z d [].
Qed.

(** Macro semantics over the signals alone. *)
Lemma expand_macro ds fs tr tr' : ordered [] (ds ++ fs) ->
  (forall x b, In (x, b) ds -> ~ is_alias (names ds) b) ->
  respects tr' (ds ++ fs) -> (forall i s, ~ In s (names (ds ++ fs)) -> tr' i s = tr i s) ->
  Forall2 (fun f g => fst f = fst g /\ forall i, sat tr (snd g) i <-> sat tr' (snd f) i) fs (expand ds fs).
Proof.
  intros Ho Hal Hr Ha. pose proof (expand_no_names ds fs Ho Hal) as Hn.
  apply respects_ok in Hr. pose proof (expand_meaning_den tr' ds fs Hr) as Hm.
  set (N := names (ds ++ fs)) in *. clearbody N. clear Ho Hal Hr.
  generalize dependent (expand ds fs). intros E Hn Hm.
  induction Hm as [|f g fs' gs [H1 H2] Hm IH]; constructor.
  - split; [exact H1|]. intros i. inversion Hn as [|? ? Hg ?]; subst.
    rewrite <- !den_sat, <- H2. rewrite (avoids_den _ _ Hg tr tr'); [tauto|].
    intros j s Hs. symmetry. apply Ha; exact Hs.
  - apply IH. inversion Hn; assumption.
Qed.

(** ** Counterexamples *)
(** [d1 := F[0,2] s0 ; d2 := d1 ; formula d2]. *)
Lemma alias_refuted : exists ds fs, ordered [] (ds ++ fs) /\
  ~ Forall (fun g => avoids (fun s => In s (names (ds ++ fs))) (snd g)) (expand ds fs).
Proof.
  exists [(10, EF 0 2 (EAtom 0)); (11, EAtom 10)], [(20, EAtom 11)]. split.
  - cbn. repeat split; lia.
  - intros H. inversion H as [|? ? Hx _]; subst. cbn in Hx. apply Hx. left; reflexivity.
Qed.

(** Delays are computed when a node is built (cpt.py 513-532, 770-855) and are
    not recomputed by [replace]: the delay recorded on a formula is that of the
    expression before expansion. *)
Lemma stale_delay_refuted : exists ds lbl e g,
  ordered [] (ds ++ [(lbl, e)]) /\ expand ds [(lbl, e)] = [(lbl, g)] /\
  all_nodes future_op g /\ ~ depends_only_on (bpd e) (wpd e) g.
Proof.
  exists [(10, EF 0 10 (EAtom 0))], 20, (EU 0 3 (EAtom 1) (EAtom 10)), (EU 0 3 (EAtom 1) (EF 0 10 (EAtom 0))).
  split; [cbn; repeat split; lia|]. split; [reflexivity|]. split; [cbn; auto|].
  intros H. specialize (H (fun i a => (i =? 7)%nat) (fun i a => false) 0%nat).
  rewrite <- !den_sat in H. apply proj1 in H.
  - vm_compute in H. specialize (H eq_refl). discriminate H.
  - intros j a Hj. cbn in Hj. do 8 (destruct j as [|j]; [try reflexivity; lia|]). lia.
Qed.
