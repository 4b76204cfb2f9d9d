(** * Common-subexpression elimination: printing is injective, sharing is maximal *)
From Coq Require Import List Arith Bool Ascii Lia.
Require Import Verif.Graph Verif.GraphSpec Verif.GraphProofs.
Import ListNotations.

(** ** The printed form of a tree *)
Fixpoint pr (t : tree) : list ascii :=
  match t with
  | Tree k s args =>
      let cs := concat (map pr args) in
      match k with
      | KLeaf => s ++ [space]
      | KOp => removelast (lpar :: s ++ space :: cs) ++ [rpar; space]
      | KFormula => s ++ colon :: space :: cs
      | KSet => cs
      end
  end.

Lemma prefix_run_pr h T : denotes h T -> forall fuel n, size (T n) <= fuel -> prefix_run fuel h n = Some (pr (T n)).
Proof.
  intros D. induction fuel as [|fuel IH]; intros n Hn.
  - rewrite (D n) in Hn. cbn in Hn. lia.
  - cbn [prefix_run].
    assert (E : fold_right (fun c acc => match prefix_run fuel h c, acc with Some s, Some s' => Some (s ++ s') | _, _ => None end)
                  (Some []) (nchildren (h n)) = Some (concat (map pr (map T (nchildren (h n)))))).
    { assert (Hc : forall c, In c (nchildren (h n)) -> size (T c) <= fuel).
      { intros c Hc. pose proof (child_smaller _ _ _ _ D Hc). lia. }
      induction (nchildren (h n)) as [|c cs IHc]; [reflexivity|].
      cbn [fold_right map concat]. rewrite IH by (apply Hc; left; reflexivity).
      rewrite IHc by (intros x Hx; apply Hc; right; exact Hx). reflexivity. }
    rewrite E, (D n) at 1. cbn [pr]. destruct (nkind (h n)); reflexivity.
Qed.

Inductive wf_expr : tree -> Prop :=
| wf_leaf s : plain s -> wf_expr (Tree KLeaf s [])
| wf_op s args : plain s -> args <> [] -> Forall wf_expr args -> wf_expr (Tree KOp s args).
Inductive wf_item : tree -> Prop :=
| wf_item_expr t : wf_expr t -> wf_item t
| wf_item_formula s t : plain s -> wf_expr t -> wf_item (Tree KFormula s [t]).

Fixpoint pe (t : tree) : list ascii :=
  match t with
  | Tree KOp s args => lpar :: s ++ flat_map (fun c => space :: pe c) args ++ [rpar]
  | Tree _ s _ => s
  end.

Lemma tree_ind' (P : tree -> Prop) :
  (forall k s args, Forall P args -> P (Tree k s args)) -> forall t, P t.
Proof.
  intros H. fix IH 1. intros [k s args]. apply H. induction args as [|a args IHa]; constructor; [apply IH|exact IHa].
Qed.

Lemma pr_pe t : wf_expr t -> pr t = pe t ++ [space].
Proof.
  induction t as [k s args IH] using tree_ind'. intros W. inversion W as [s0 Hs|s0 args0 Hs Hne Hargs]; subst; cbn [pr pe]; [reflexivity|].
  assert (E : space :: concat (map pr args) = flat_map (fun c => space :: pe c) args ++ [space]).
  { clear W Hne. induction args as [|a args IHa]; [reflexivity|].
    inversion IH as [|? ? IH1 IH2]; subst. inversion Hargs as [|? ? Ha1 Ha2]; subst. cbn [map concat flat_map].
    rewrite IH1 by assumption. rewrite <- app_assoc. cbn [app].
    rewrite IHa by assumption. rewrite <- app_assoc. reflexivity. }
  rewrite E. rewrite app_comm_cons, app_assoc, removelast_last, <- app_assoc.
  cbn [app]. rewrite <- !app_assoc. reflexivity.
Qed.

(** ** Injectivity *)
Definition delim (c : ascii) : Prop := c = space \/ c = lpar \/ c = rpar \/ c = colon.
Lemma plain_split s s' x r x' r' : plain s -> plain s' -> delim x -> delim x' ->
  s ++ x :: r = s' ++ x' :: r' -> s = s' /\ x = x' /\ r = r'.
Proof.
  intros [_ Hs] [_ Hs'] Dx Dx'. revert s' Hs'. induction s as [|a s IH]; intros [|b s'] Hs'; cbn; intros E; injection E.
  - auto.
  - intros _ ->. inversion Hs'; subst. unfold delim in Dx. intuition congruence.
  - intros _ ->. inversion Hs; subst. unfold delim in Dx'. intuition congruence.
  - intros E' ->. inversion Hs; subst. inversion Hs'; subst.
    destruct (IH H2 s' H4 E') as (-> & -> & ->). auto.
Qed.

Definition ends (r : list ascii) : Prop := match r with [] => True | c :: _ => c = space \/ c = rpar end.

Lemma plain_split_ends s s' r r' : plain s -> plain s' -> ends r -> ends r' -> s ++ r = s' ++ r' -> s = s' /\ r = r'.
Proof.
  intros [_ Hs] [_ Hs'] Hr Hr'. revert s' Hs'. induction s as [|a s IH]; intros [|b s'] Hs'; cbn; intros E.
  - auto.
  - subst r. inversion Hs'; subst. cbn in Hr. intuition congruence.
  - subst r'. inversion Hs; subst. cbn in Hr'. intuition congruence.
  - injection E as -> E. inversion Hs; subst. inversion Hs'; subst. destruct (IH H2 s' H4 E) as [-> ->]. auto.
Qed.

Lemma plain_head s : plain s -> exists c s', s = c :: s' /\ c <> lpar /\ c <> space /\ c <> rpar.
Proof. intros [H H']. destruct s as [|c s]; [congruence|]. inversion H'; subst. exists c, s. intuition. Qed.

Lemma pe_inj t : forall t' r r', wf_expr t -> wf_expr t' -> ends r -> ends r' ->
  pe t ++ r = pe t' ++ r' -> t = t' /\ r = r'.
Proof.
  induction t as [k s args IH] using tree_ind'. intros t' r r' W W' Hr Hr' E.
  inversion W as [s0 Hs|s0 args0 Hs Hne Hargs]; inversion W' as [s0' Hs'|s0' args' Hs' Hne' Hargs']; subst; cbn [pe] in E.
  - destruct (plain_split_ends _ _ _ _ Hs Hs' Hr Hr' E) as [-> ->]. auto.
  - destruct (plain_head _ Hs) as (c & s1 & -> & Hc & _). cbn in E. congruence.
  - destruct (plain_head _ Hs') as (c & s1 & -> & Hc & _). cbn in E. congruence.
  - cbn [app] in E. injection E as E. rewrite <- !app_assoc in E.
    assert (Hd : forall l, Forall wf_expr l -> forall q : list ascii, ends (flat_map (fun c => space :: pe c) l ++ [rpar] ++ q)).
    { intros [|a l] _ q; cbn; auto. }
    apply plain_split_ends in E as [-> E]; [|assumption|assumption|apply Hd; assumption|apply Hd; assumption].
    enough (args = args' /\ r = r') as [-> ->] by auto.
    clear W W' Hne Hne'. revert args' Hargs' E. induction args as [|a args IHa]; intros [|a' args'] Hargs' E.
    + cbn in E. injection E as ->. auto.
    + cbn in E. discriminate E.
    + cbn in E. discriminate E.
    + cbn [flat_map app] in E. injection E as E. rewrite <- !app_assoc in E.
      inversion IH; subst. inversion Hargs; subst. inversion Hargs'; subst.
      apply H1 in E as [-> E]; [|assumption|assumption|apply Hd; assumption|apply Hd; assumption].
      destruct (IHa H2 H4 args' H6 E) as [-> ->]. auto.
Qed.

Lemma pe_ends t : wf_expr t -> exists c s, pe t = c :: s.
Proof.
  intros W. inversion W; subst; cbn [pe].
  - destruct (plain_head _ H) as (c & s1 & -> & _). eauto.
  - eauto.
Qed.

(** The key of the table, [repr(expr)], determines the expression. *)
Lemma key_inj t t' : wf_item t -> wf_item t' -> removelast (pr t) = removelast (pr t') -> t = t'.
Proof.
  assert (F : forall s u, wf_expr u -> removelast (pr (Tree KFormula s [u])) = s ++ colon :: space :: pe u).
  { intros s u Wu. cbn [pr map concat]. rewrite app_nil_r, pr_pe by exact Wu.
    rewrite !app_comm_cons, app_assoc, removelast_last. reflexivity. }
  assert (X : forall u, wf_expr u -> removelast (pr u) = pe u).
  { intros u Wu. rewrite pr_pe by exact Wu. apply removelast_last. }
  assert (N : forall s u v, plain s -> wf_expr u -> wf_expr v -> pe u <> s ++ colon :: space :: pe v).
  { intros s u v Hs Wu Wv E. inversion Wu; subst; cbn [pe] in E.
    - assert (Hin : In colon s0) by (rewrite E; apply in_app_iff; right; left; reflexivity).
      destruct H as [_ H]. rewrite Forall_forall in H. apply H in Hin. intuition congruence.
    - destruct (plain_head _ Hs) as (c & s1 & -> & Hc & _). cbn in E. congruence. }
  intros W W' E. inversion W as [u Wu|s u Hs Wu]; inversion W' as [u' Wu'|s' u' Hs' Wu']; subst.
  - rewrite !X in E by assumption. rewrite <- (app_nil_r (pe t)), <- (app_nil_r (pe t')) in E.
    apply pe_inj in E as [E _]; auto; exact I.
  - rewrite X, F in E by assumption. exfalso. exact (N _ _ _ Hs' Wu Wu' E).
  - rewrite F, X in E by assumption. exfalso. exact (N _ _ _ Hs Wu' Wu (eq_sym E)).
  - rewrite !F in E by assumption. apply plain_split in E as (-> & _ & E); unfold delim; auto.
    injection E as E. rewrite <- (app_nil_r (pe u)), <- (app_nil_r (pe u')) in E.
    apply pe_inj in E as [-> _]; auto; exact I.
Qed.

(** ** Shapes *)
Lemma well_shaped_expr h T : denotes h T -> well_shaped h -> forall n, is_expr (nkind (h n)) -> wf_expr (T n).
Proof.
  intros D W. enough (H : forall k n, size (T n) < k -> is_expr (nkind (h n)) -> wf_expr (T n)) by
    (intros n; apply (H (S (size (T n)))); lia).
  induction k as [|k IH]; intros n Hk He; [lia|]. rewrite (D n). destruct (W n) as [Hp Hn].
  destruct (nkind (h n)); try (destruct He; discriminate).
  - rewrite Hn. constructor; exact Hp.
  - destruct Hn as [Hne Hc]. constructor; [exact Hp|destruct (nchildren (h n)); cbn; congruence|].
    rewrite Forall_forall in *. intros t Ht. apply in_map_iff in Ht as (c & <- & Hin). apply IH; [|apply Hc; exact Hin].
    pose proof (child_smaller _ _ _ _ D Hin). lia.
Qed.
Lemma well_shaped_item h T : denotes h T -> well_shaped h -> forall n, nkind (h n) <> KSet -> wf_item (T n).
Proof.
  intros D W n Hn. destruct (nkind (h n)) eqn:E; try congruence.
  - constructor. apply (well_shaped_expr h); auto. left; exact E.
  - constructor. apply (well_shaped_expr h); auto. right; exact E.
  - destruct (W n) as [Hp Hc]. rewrite E in Hc. destruct Hc as (c & Hc & He).
    rewrite (D n), E, Hc. cbn [map]. apply wf_item_formula; [exact Hp|]. apply (well_shaped_expr h); assumption.
Qed.
Lemma child_not_set h n c : well_shaped h -> In c (nchildren (h n)) -> nkind (h c) <> KSet.
Proof.
  intros W H. destruct (W n) as [_ Hn]. destruct (nkind (h n)).
  - rewrite Hn in H. destruct H.
  - destruct Hn as [_ Hn]. rewrite Forall_forall in Hn. specialize (Hn c H). destruct Hn; congruence.
  - destruct Hn as (d & Hn & Hd). rewrite Hn in H. destruct H as [<-|[]]. destruct Hd; congruence.
  - rewrite Forall_forall in Hn. specialize (Hn c H). congruence.
Qed.

(** ** Redirecting a node to one with the same expression *)
Lemma redirect_denotes h T a b : denotes h T -> T a = T b -> denotes (redirect a b h) T.
Proof.
  intros D E n. rewrite (D n). cbn. f_equal. rewrite map_map. apply map_ext. intros c.
  destruct (Nat.eqb_spec c a) as [->|]; [exact E|reflexivity].
Qed.
Lemma redirect_kind h a b n : nkind (redirect a b h n) = nkind (h n).
Proof. reflexivity. Qed.
Lemma redirect_shaped h T a b : denotes h T -> T a = T b -> well_shaped h -> well_shaped (redirect a b h).
Proof.
  intros D E W n. destruct (W n) as [Hp Hn]. cbn [nsym redirect nkind nchildren]. split; [exact Hp|].
  assert (K : nkind (h a) = nkind (h b)) by (rewrite (D a), (D b) in E; congruence).
  assert (K' : forall c, nkind (h (if c =? a then b else c)) = nkind (h c)).
  { intros c. destruct (Nat.eqb_spec c a) as [->|]; congruence. }
  destruct (nkind (h n)).
  - rewrite Hn. reflexivity.
  - destruct Hn as [Hne Hc]. split; [destruct (nchildren (h n)); cbn; congruence|].
    rewrite Forall_forall in *. intros d Hd. apply in_map_iff in Hd as (c & <- & Hin).
    unfold redirect. cbn. rewrite K'. apply Hc, Hin.
  - destruct Hn as (c & Hc & He). rewrite Hc. cbn [map]. eexists. split; [reflexivity|].
    unfold redirect; cbn. rewrite K'. exact He.
  - rewrite Forall_forall in *. intros d Hd. apply in_map_iff in Hd as (c & <- & Hin).
    unfold redirect. cbn. rewrite K'. apply Hn, Hin.
Qed.

(** ** The table *)
Lemma string_eqb_eq s : forall t, string_eqb s t = true <-> s = t.
Proof.
  induction s as [|a s IH]; intros [|b t]; cbn; split; intros H; try discriminate; try reflexivity.
  - apply andb_prop in H as [H1 H2]. apply Ascii.eqb_eq in H1. apply IH in H2. congruence.
  - injection H as -> ->. rewrite Ascii.eqb_refl. apply IH. reflexivity.
Qed.
Lemma find_str_in m k e : find_str m k = Some e -> In (k, e) m.
Proof.
  induction m as [|[k' e'] m IH]; cbn; [discriminate|].
  destruct (string_eqb k' k) eqn:E; [|intros H; right; auto].
  apply string_eqb_eq in E. intros [= ->]. left; congruence.
Qed.
Lemma find_str_none m k : find_str m k = None -> ~ In k (map fst m).
Proof.
  induction m as [|[k' e'] m IH]; cbn; [tauto|].
  destruct (string_eqb k' k) eqn:E; [discriminate|]. intros H [H'|H']; [|exact (IH H H')].
  apply string_eqb_eq in H'. congruence.
Qed.

Definition key (T : nat -> tree) (n : nat) : list ascii := removelast (pr (T n)).
Definition table_keys (T : nat -> tree) (m : list (list ascii * nat)) : Prop :=
  forall k e, In (k, e) m -> k = key T e.

(** Nodes the loop may see: no set node, and printable with the given fuel. *)
Definition small (T : nat -> tree) (K : nat -> kind) (fuel : nat) (n : nat) : Prop :=
  K n <> KSet /\ size (T n) <= fuel.

(** Distinct nodes below [starts] denote distinct expressions. *)
Definition maximal (T : nat -> tree) (h : heap) (starts : list nat) : Prop :=
  forall n m, reachable h starts n -> reachable h starts m -> T n = T m -> n = m.

Lemma cse_key fuel h T e : denotes h T -> size (T e) <= fuel -> prefix_str fuel h e = Some (key T e).
Proof. intros D H. unfold prefix_str. rewrite (prefix_run_pr h T D) by exact H. reflexivity. Qed.

(** Unconditional part: meaning and shape are kept. *)
Definition cse_inv (T : nat -> tree) (K : nat -> kind) (h : heap) (m : list (list ascii * nat)) : Prop :=
  denotes h T /\ well_shaped h /\ (forall n, nkind (h n) = K n) /\ table_keys T m /\ (forall k e, In (k, e) m -> K e <> KSet).

Lemma cse_node_inv T K fuel e h m h' m' : cse_inv T K h m -> small T K fuel e ->
  cse_node fuel e h m = (h', m') -> cse_inv T K h' m'.
Proof.
  intros (D & W & HK & HT & HS) [He Hf] E. unfold cse_node in E. rewrite (cse_key fuel h T e D Hf) in E.
  destruct (find_str m (key T e)) as [e'|] eqn:F.
  - injection E as <- <-. apply find_str_in in F. pose proof (HS _ _ F) as HS'. apply HT in F.
    assert (TE : T e = T e').
    { apply key_inj; [| |exact F]; apply (well_shaped_item h); auto; rewrite HK; assumption. }
    destruct (e =? e'); [split; auto|].
    split; [apply redirect_denotes; assumption|]. split; [eapply redirect_shaped; eassumption|]. split; auto.
  - injection E as <- <-. split; [exact D|]. split; [exact W|]. split; [exact HK|]. split.
    + intros k x [[= <- <-]|H]; [reflexivity|apply HT; exact H].
    + intros k x [[= <- <-]|H]; [exact He|exact (HS _ _ H)].
Qed.

Definition reps (m : list (list ascii * nat)) : list nat := map snd m.

Lemma reps_inj T m : table_keys T m -> NoDup (map fst m) -> forall a b, In a (reps m) -> In b (reps m) -> T a = T b -> a = b.
Proof.
  intros HT HN a b Ha Hb E. unfold reps in *. apply in_map_iff in Ha as ([k x] & Hx & Ha). cbn in Hx. subst x.
  apply in_map_iff in Hb as ([k' x] & Hx & Hb). cbn in Hx. subst x.
  assert (k = k') by (rewrite (HT _ _ Ha), (HT _ _ Hb); unfold key; rewrite E; reflexivity). subst k'.
  clear HT E. induction m as [|[k2 x] m IH]; [destruct Ha|]. cbn in HN. inversion HN; subst.
  destruct Ha as [Ha|Ha], Hb as [Hb|Hb].
  - congruence.
  - injection Ha as -> ->. exfalso. apply H1. apply (in_map fst) in Hb. exact Hb.
  - injection Hb as -> ->. exfalso. apply H1. apply (in_map fst) in Ha. exact Ha.
  - apply IH; assumption.
Qed.

(** The invariant of the loop; the sets in [others] stay maximally shared. *)
Definition cse_P T K (others : list nat) (h : heap) (m : list (list ascii * nat)) (out : list nat) : Prop :=
  cse_inv T K h m /\ NoDup (map fst m) /\
  (forall n, In n (reps m) -> forall c, In c (nchildren (h n)) -> In c (reps m)) /\
  Forall (fun s => K s = KSet /\ maximal T h [s]) others.

Lemma map_inj_on T (L l l' : list nat) :
  (forall a b, In a L -> In b L -> T a = T b :> tree -> a = b) -> incl l L -> incl l' L -> map T l = map T l' -> l = l'.
Proof.
  intros H. revert l'. induction l as [|a l IH]; intros [|b l'] Hl Hl' E; try discriminate E; [reflexivity|].
  cbn in E. injection E as E1 E2. f_equal.
  - apply H; [apply Hl; left; reflexivity|apply Hl'; left; reflexivity|exact E1].
  - apply IH; [intros x Hx; apply Hl; right; exact Hx|intros x Hx; apply Hl'; right; exact Hx|exact E2].
Qed.

Lemma redirect_maximal T h s a b : denotes h T -> T a = T b -> a <> b -> nchildren (h a) = nchildren (h b) ->
  a <> s -> maximal T h [s] -> maximal T (redirect a b h) [s].
Proof.
  intros D E Hab Hch Has M.
  set (f := fun c => if c =? a then b else c).
  assert (R1 : forall n, reachable (redirect a b h) [s] n -> n <> a).
  { intros n Hn. inversion Hn as [? Hin|? c Hp Hc]; subst.
    - destruct Hin as [<-|[]]. congruence.
    - cbn in Hc. apply in_map_iff in Hc as (c0 & <- & _). destruct (Nat.eqb_spec c0 a); congruence. }
  assert (R2 : forall n, reachable (redirect a b h) [s] n ->
            reachable h [s] n \/ (n = b /\ reachable h [s] a)).
  { induction 1 as [n Hin|n c Hn IH Hc]; [left; apply reach_start; exact Hin|].
    cbn in Hc. apply in_map_iff in Hc as (c0 & <- & Hc0).
    assert (Hr : reachable h [s] c0).
    { destruct IH as [IH|[-> IH]].
      - eapply reach_child; eassumption.
      - eapply reach_child; [exact IH|]. rewrite Hch. exact Hc0. }
    destruct (Nat.eqb_spec c0 a) as [->|]; [right; split; [reflexivity|exact Hr]|left; exact Hr]. }
  intros n m Hn Hm Enm. destruct (R2 n Hn) as [Hn'|[-> Hn']], (R2 m Hm) as [Hm'|[-> Hm']].
  - apply M; assumption.
  - exfalso. apply (R1 n Hn). apply M; [exact Hn'|exact Hm'|congruence].
  - exfalso. apply (R1 m Hm). apply M; [exact Hm'|exact Hn'|congruence].
  - reflexivity.
Qed.

Lemma cse_act_ok T K fuel others s :
  act_ok T (small T K fuel) reps (cse_P T K others) (fun h => nchildren (h s)) (cse_node fuel).
Proof.
  intros e h m out h' m' (HI & HN & HC & HO) D [HeK Hef] Hno Hincl Hch E.
  assert (HI' : cse_inv T K h' m') by (eapply cse_node_inv; [exact HI|split; eassumption|exact E]).
  pose proof HI as (_ & W & HK & HT & HS). pose proof HI' as (D' & W' & HK' & HT' & HS').
  assert (Hsm : forall n c, small T K fuel n -> In c (nchildren (h' n)) -> small T K fuel c).
  { intros n c [Hn1 Hn2] Hc. split.
    - rewrite <- HK'. eapply child_not_set; eassumption.
    - pose proof (child_smaller _ _ _ _ D' Hc). lia. }
  unfold cse_node in E. rewrite (cse_key fuel h T e D Hef) in E.
  destruct (find_str m (key T e)) as [e'|] eqn:F.
  - pose proof (find_str_in _ _ _ F) as Fi. pose proof (HS _ _ Fi) as HeK'.
    assert (Hr : In e' (reps m)) by (unfold reps; apply in_map_iff; exists (key T e, e'); auto).
    assert (TE : T e = T e').
    { apply key_inj; [| |exact (HT _ _ Fi)]; apply (well_shaped_item h); auto; rewrite HK; assumption. }
    assert (Hne : e <> e') by (intros ->; apply Hno, Hincl, Hr).
    apply Nat.eqb_neq in Hne as Hneb. rewrite Hneb in E. injection E as <- <-.
    assert (Hsame : nchildren (h e) = nchildren (h e')).
    { apply (map_inj_on T (reps m)).
      - apply reps_inj; assumption.
      - exact Hch.
      - intros c Hc. apply (HC e'); assumption.
      - rewrite (D e), (D e') in TE. congruence. }
    set (f := fun c => if c =? e then e' else c).
    assert (Hf : forall c, In c (reps m) -> In (f c) (reps m)).
    { intros c Hc. unfold f. destruct (c =? e); assumption. }
    split; [|split; [exact D'|split; [intros x Hx; right; apply Hincl, Hx|split; [exact Hsm|]]]].
    + split; [exact HI'|]. split; [exact HN|]. split.
      * intros n Hn c Hc. cbn in Hc. apply in_map_iff in Hc as (c0 & <- & Hc0). apply Hf, (HC n); assumption.
      * rewrite Forall_forall in *. intros t Ht. destruct (HO t Ht) as [Hk Hm]. split; [exact Hk|].
        apply redirect_maximal; auto. congruence.
    + exists f. split; [reflexivity|]. split; [reflexivity|]. split.
      * intros c Hc. unfold f. apply Nat.eqb_neq in Hc. rewrite Hc. reflexivity.
      * split; [unfold f; rewrite Nat.eqb_refl; exact Hr|apply incl_refl].
  - injection E as <- <-.
    split; [|split; [exact D|split; [|split; [exact Hsm|]]]].
    + split; [exact HI'|]. split.
      * cbn. constructor; [apply find_str_none; exact F|exact HN].
      * split; [|exact HO]. intros n [<-|Hn] c Hc; right; [apply Hch; exact Hc|apply (HC n); assumption].
    + intros x [<-|Hx]; [left; reflexivity|right; apply Hincl, Hx].
    + exists (fun x => x). split; [intros n; rewrite map_id; reflexivity|]. split; [rewrite map_id; reflexivity|].
      split; [reflexivity|]. split; [left; reflexivity|intros x Hx; right; exact Hx].
Qed.

Lemma cse_set_correct T K depth fuel h others s h' :
  denotes h T -> well_shaped h -> (forall n, nkind (h n) = K n) -> K s = KSet ->
  (forall c, In c (nchildren (h s)) -> size (T c) <= depth) ->
  Forall (fun t => K t = KSet /\ maximal T h [t]) others ->
  cse_set depth fuel h s = Some h' ->
  denotes h' T /\ well_shaped h' /\ (forall n, nkind (h' n) = K n) /\
  Forall (fun t => K t = KSet /\ maximal T h' [t]) (s :: others).
Proof.
  intros D W HK Hs Hsz HO E. unfold cse_set in E.
  destruct (traverse (cse_node depth) fuel (map (pair false) (nchildren (h s))) [] h []) as [[h1 m]|] eqn:Et; [|discriminate E].
  injection E as <-.
  destruct (traverse_inv T (small T K depth) reps (cse_P T K others) (fun h => nchildren (h s)) (cse_node depth)
    (cse_act_ok T K depth others s) fuel (map (pair false) (nchildren (h s))) [] h [] [] h1 m) as (vis & out & I); [|exact Et|].
  - assert (NT : forall s1 c s2, map (pair false) (nchildren (h s)) = s1 ++ (true, c) :: s2 -> False).
    { intros s1 c s2 Es. assert (H : In (true, c) (map (pair false) (nchildren (h s)))).
      { rewrite Es. apply in_app_iff. right; left; reflexivity. }
      apply in_map_iff in H as (y & H & _). discriminate H. }
    split.
    + split; [|split; [constructor|split; [intros n []|exact HO]]].
      split; [exact D|]. split; [exact W|]. split; [exact HK|]. split; intros k x [].
    + exact D.
    + intros n c [Hn1 Hn2] Hc. split; [rewrite <- HK; eapply child_not_set; eassumption|].
      pose proof (child_smaller _ _ _ _ D Hc). lia.
    + intros b x Hx. apply in_map_iff in Hx as (y & [= <- <-] & Hy). split; [|apply Hsz, Hy].
      rewrite <- HK. eapply child_not_set; eassumption.
    + intros v. cbn [In]. split; [intros []|]. intros [[]|H].
      apply in_map_iff in H as (y & H & _). discriminate H.
    + intros s1 c s2 Es. exfalso. exact (NT _ _ _ Es).
    + intros v _ [].
    + intros s1 c s2 Es. exfalso. exact (NT _ _ _ Es).
    + intros x [].
    + intros n c _ [].
    + intros n c [].
    + intros c _ [].
    + intros c Hc. right. exists false. apply in_map. exact Hc.
  - destruct (inv_P _ _ _ _ _ _ _ _ _ _ I) as ((D' & W' & HK' & HT' & HS') & HN & HC & HO').
    split; [exact D'|]. split; [exact W'|]. split; [exact HK'|]. constructor; [|exact HO']. split; [exact Hs|].
    assert (RR : forall n, reachable h1 [s] n -> n = s \/ In n (reps m)).
    { induction 1 as [n [<-|[]]|n c Hn IH Hc]; [left; reflexivity|]. right.
      destruct IH as [->|IH].
      - destruct (inv_starts _ _ _ _ _ _ _ _ _ _ I c Hc) as [H|(b & [])]. exact H.
      - apply (HC n); assumption. }
    assert (NS : forall n, In n (reps m) -> K n <> KSet).
    { intros n Hn. apply in_map_iff in Hn as ([k x] & <- & Hn). exact (HS' _ _ Hn). }
    assert (KT : forall a b, T a = T b -> K a = K b).
    { intros a b E. rewrite (D' a), (D' b) in E. rewrite <- !HK'. congruence. }
    intros a b Ha Hb E. destruct (RR a Ha) as [->|Ha'], (RR b Hb) as [->|Hb'].
    + reflexivity.
    + exfalso. apply (NS b Hb'). rewrite <- (KT _ _ E). exact Hs.
    + exfalso. apply (NS a Ha'). rewrite (KT _ _ E). exact Hs.
    + apply (reps_inj T m); assumption.
Qed.

Lemma cse_set_ends T K depth h s : denotes h T -> well_shaped h -> (forall n, nkind (h n) = K n) ->
  (forall c, In c (nchildren (h s)) -> size (T c) <= depth) ->
  exists n h', forall fuel, n <= fuel -> cse_set depth fuel h s = Some h'.
Proof.
  intros D W HK Hsz.
  destruct (traverse_ends T (small T K depth) (cse_inv T K) (cse_node depth) (nchildren (h s)) h []) as (n & [h' m] & E).
  - intros h1 m (D1 & W1 & HK1 & _). split; [exact D1|]. intros x c [Hx1 Hx2] Hc. split.
    + rewrite <- HK1. eapply child_not_set; eassumption.
    + pose proof (child_smaller _ _ _ _ D1 Hc). lia.
  - intros e h1 m h2 m2 HI He Ea. eapply cse_node_inv; eassumption.
  - intros e He. split; [rewrite <- HK; eapply child_not_set; eassumption|apply Hsz, He].
  - split; [exact D|]. split; [exact W|]. split; [exact HK|]. split; intros k x [].
  - exists n, h'. intros fuel Hf. unfold cse_set. rewrite (E fuel Hf). reflexivity.
Qed.

(** The set nodes keep their children's sizes, since denotations are fixed. *)
Lemma optimize_cse_correct T h ft pt :
  denotes h T -> well_shaped h -> nkind (h ft) = KSet -> nkind (h pt) = KSet ->
  exists depth0, forall depth, depth0 <= depth -> exists fuel0 h', 
    (forall fuel, fuel0 <= fuel -> optimize_cse depth fuel h ft pt = Some h') /\
    denotes h' T /\ maximal T h' [ft] /\ maximal T h' [pt].
Proof.
  intros D W Hft Hpt. exists (size (T ft) + size (T pt)). intros depth Hd.
  set (K := fun n => nkind (h n)).
  assert (Hs1 : forall h1, denotes h1 T -> forall c, In c (nchildren (h1 ft)) -> size (T c) <= depth).
  { intros h1 D1 c Hc. pose proof (child_smaller _ _ _ _ D1 Hc). lia. }
  assert (Hs2 : forall h1, denotes h1 T -> forall c, In c (nchildren (h1 pt)) -> size (T c) <= depth).
  { intros h1 D1 c Hc. pose proof (child_smaller _ _ _ _ D1 Hc). lia. }
  destruct (cse_set_ends T K depth h ft D W (fun n => eq_refl) (Hs1 h D)) as (n1 & h1 & E1).
  destruct (cse_set_correct T K depth n1 h [] ft h1 D W (fun n => eq_refl) Hft (Hs1 h D) (Forall_nil _) (E1 _ (le_n _)))
    as (D1 & W1 & HK1 & HM1).
  destruct (cse_set_ends T K depth h1 pt D1 W1 HK1 (Hs2 h1 D1)) as (n2 & h2 & E2).
  destruct (cse_set_correct T K depth n2 h1 [ft] pt h2 D1 W1 HK1 Hpt (Hs2 h1 D1) HM1 (E2 _ (le_n _)))
    as (D2 & W2 & HK2 & HM2).
  exists (n1 + n2), h2. split.
  - intros fuel Hf. unfold optimize_cse. rewrite E1, E2 by lia. reflexivity.
  - split; [exact D2|]. inversion HM2 as [|? ? [_ Hp] HM3]; subst. inversion HM3 as [|? ? [_ Hf] _]; subst.
    split; assumption.
Qed.
