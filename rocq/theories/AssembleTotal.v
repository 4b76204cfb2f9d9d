(** * The assembler succeeds (proofs) *)
From Coq Require Import List Arith ZArith Bool Lia.
Require Import Verif.Graph Verif.GraphSpec Verif.GraphProofs Verif.Binary Verif.Assembly Verif.AssemblySpec Verif.AssemblyProofs.
Import ListNotations.
Local Open Scope Z_scope.

Lemma keys_set {V} (d : dict V) n v m : In m (map fst (dict_set d n v)) <-> In m (map fst d) \/ m = n.
Proof.
  induction d as [|[k w] d IH]; cbn.
  - split; intros [H|H]; auto; easy.
  - destruct (Nat.eqb_spec k n) as [->|]; cbn.
    + split; [intros [H|H]; auto|intros [[H|H]|H]; auto].
    + rewrite IH. tauto.
Qed.

Section Total.
Variable h : heap.
Variable cls : nat -> nclass.
Variable size : nat -> Z.
Hypothesis shaped : tl_shaped h cls.
Variable nodes : list nat.

Definition ready (st : gen) (n : nat) : Prop :=
  (owns (cls n) = true -> In n (map fst (g_tl st))) /\
  (bz_class (cls n) -> is_constant (cls n) && only_tl_parents h cls nodes n = false -> In n (map fst (g_bz st))).

(** A child of a numeric node is not skipped. *)
Lemma not_only_tl c e : In e nodes -> In c (nchildren (h e)) -> engine_of (cls e) <> EngTl ->
  only_tl_parents h cls nodes c = false.
Proof.
  intros He Hc Hn. unfold only_tl_parents. apply not_true_is_false. intros H. rewrite forallb_forall in H.
  specialize (H e He).
  assert (Ex : existsb (Nat.eqb c) (nchildren (h e)) = true) by (apply existsb_exists; exists c; split; [assumption|apply Nat.eqb_refl]).
  rewrite Ex in H. cbn in H. destruct (engine_of (cls e)); congruence.
Qed.
Lemma ready_bz st c e : In e nodes -> In c (nchildren (h e)) -> engine_of (cls e) <> EngTl -> bz_class (cls c) ->
  ready st c -> exists i, dict_get (g_bz st) c = Some i.
Proof.
  intros He Hc Hn Hb [_ R]. apply dict_get_key. apply R; [assumption|]. rewrite (not_only_tl c e) by assumption.
  apply andb_false_r.
Qed.
Lemma bool_parents e b : cls e = CBool b ->
  (forall p, In p nodes -> assemblable h cls ft_code p \/ assemblable h cls pt_code p) ->
  only_tl_parents h cls nodes e = true.
Proof.
  intros Ee Ha. unfold only_tl_parents. apply forallb_forall. intros p Hp.
  destruct (existsb (Nat.eqb e) (nchildren (h p))) eqn:Ex; [|reflexivity]. cbn.
  apply existsb_exists in Ex as (x & Hx & Exx). apply Nat.eqb_eq in Exx. subst x.
  assert (A : exists code, assemblable h cls code p) by (destruct (Ha p Hp); eauto).
  destruct A as [code A]. unfold assemblable in A.
  destruct (cls p) eqn:Ep; cbn; try reflexivity; exfalso.
  all: try (rewrite A in Hx; exact Hx).
  - destruct A as (c & Ec & Hb). rewrite Ec in Hx. destruct Hx as [<-|[]]. rewrite Ee in Hb. exact Hb.
  - rewrite Forall_forall in A. specialize (A e Hx). rewrite Ee in A. exact A.
Qed.

Definition extends (st st' : gen) : Prop :=
  (forall n, In n (map fst (g_tl st)) -> In n (map fst (g_tl st'))) /\
  (forall n, In n (map fst (g_bz st)) -> In n (map fst (g_bz st'))).
Lemma ready_mono st st' n : extends st st' -> ready st n -> ready st' n.
Proof. intros [E1 E2] [R1 R2]. split; auto. Qed.
Lemma extends_refl st : extends st st.
Proof. split; auto. Qed.
Lemma extends_trans a b c : extends a b -> extends b c -> extends a c.
Proof. intros [A1 A2] [B1 B2]. split; auto. Qed.

Lemma gen_node_total code offset st e :
  (forall p, In p nodes -> assemblable h cls ft_code p \/ assemblable h cls pt_code p) ->
  In e nodes -> assemblable h cls code e -> (forall c, In c (nchildren (h e)) -> ready st c) ->
  exists st', gen_node h cls size nodes code offset st e = Some st' /\ extends st st' /\ ready st' e.
Proof.
  intros Hall He A Hc. pose proof (shaped e) as Sh. pose proof (bool_parents e) as Bp.
  pose proof (fun c => ready_bz st c e He) as Rb.
  unfold gen_node. unfold assemblable in A. unfold ready at 1.
  destruct (cls e) eqn:Ee; cbn [atomic_id is_constant engine_of andb owns bz_class] in *.
  - eexists. split; [reflexivity|]. split; [|split; [|easy]].
    + split; cbn [g_tl g_bz]; intros n Hn; [apply keys_set; auto|assumption].
    + intros _. cbn [g_tl]. apply keys_set. auto.
  - rewrite (Bp b eq_refl Hall). eexists. split; [reflexivity|]. split; [apply extends_refl|]. split; easy.
  - destruct A as [A1 A2].
    assert (E : exists i, gen_tl h cls code offset (g_tl st) e = Some i).
    { unfold gen_tl. rewrite Ee. destruct (code o) as [z|]; [|congruence].
      destruct (nchildren (h e)) as [|x [|y [|w l]]]; cbn [length] in A2.
      - eexists; reflexivity.
      - destruct (gen_operand cls (g_tl st) (Some x)); eexists; reflexivity.
      - destruct (gen_operand cls (g_tl st) (Some x)), (gen_operand cls (g_tl st) (Some y)); eexists; reflexivity.
      - exfalso. lia. }
    destruct E as [i ->]. cbn [option_map]. eexists. split; [reflexivity|]. split; [|split; [|easy]].
    + split; cbn [g_tl g_bz]; intros n Hn; [apply keys_set; auto|assumption].
    + intros _. cbn [g_tl]. apply keys_set. auto.
  - destruct A as [A1 A2].
    assert (E : exists i, gen_tl h cls code offset (g_tl st) e = Some i).
    { unfold gen_tl. rewrite Ee. destruct (code o) as [z|]; [|congruence].
      destruct (nchildren (h e)) as [|x [|y [|w l]]]; cbn [length] in A2.
      - eexists; reflexivity.
      - destruct (gen_operand cls (g_tl st) (Some x)); eexists; reflexivity.
      - destruct (gen_operand cls (g_tl st) (Some x)), (gen_operand cls (g_tl st) (Some y)); eexists; reflexivity.
      - exfalso. lia. }
    destruct E as [i ->]. cbn [option_map]. eexists. split; [reflexivity|]. split; [|split; [|easy]].
    + split; cbn [g_tl g_bz]; intros n Hn; [apply keys_set; auto|assumption].
    + intros _. cbn [g_tl]. apply keys_set. auto.
  - assert (E : exists i, gen_tl h cls code offset (g_tl st) e = Some i).
    { destruct A as (c & Ec & Hb). destruct Sh as (c' & Ec' & Hv). rewrite Ec in Ec'. injection Ec' as <-.
      unfold gen_tl. rewrite Ee, Ec.
      assert (R : exists i, dict_get (g_tl st) c = Some i).
      { apply dict_get_key. apply (Hc c); [rewrite Ec; left; reflexivity|].
        destruct (cls c); try reflexivity; try (exfalso; exact Hv). exfalso. eapply Hb. reflexivity. }
      destruct R as [i Ei]. rewrite Ei.
      destruct (cls c) eqn:Ecc; try (exfalso; exact Hv); try (eexists; reflexivity).
      exfalso. eapply Hb. reflexivity. }
    destruct E as [i ->]. cbn [option_map]. eexists. split; [reflexivity|]. split; [|split; [|easy]].
    + split; cbn [g_tl g_bz]; intros n Hn; [apply keys_set; auto|assumption].
    + intros _. cbn [g_tl]. apply keys_set. auto.
  - eexists. split; [reflexivity|]. split; [apply extends_refl|]. split; easy.
  - destruct A as (c & Ec & Hb).
    destruct (Rb c ltac:(rewrite Ec; left; reflexivity) ltac:(discriminate) Hb (Hc c ltac:(rewrite Ec; left; reflexivity))) as [i Ei].
    unfold gen_bz. cbn [g_bz g_tl g_cg]. rewrite Ee, Ec, Ei. cbn [option_map]. eexists. split; [reflexivity|].
    split; [|split; [|easy]].
    + split; cbn [g_tl g_bz]; intros n Hn; apply keys_set; auto.
    + intros _. cbn [g_tl]. apply keys_set. auto.
  - unfold gen_bz. rewrite Ee. cbn [option_map]. eexists. split; [reflexivity|]. split; [|split; [easy|]].
    + split; cbn [g_tl g_bz]; intros n Hn; [assumption|apply keys_set; auto].
    + intros _ _. cbn [g_bz]. apply keys_set. auto.
  - destruct (only_tl_parents h cls nodes e) eqn:Eo.
    + eexists. split; [reflexivity|]. split; [apply extends_refl|]. split; easy.
    + unfold gen_bz. rewrite Ee. cbn [option_map]. eexists. split; [reflexivity|]. split; [|split; [easy|]].
      * split; cbn [g_tl g_bz]; intros n Hn; [assumption|apply keys_set; auto].
      * intros _ _. cbn [g_bz]. apply keys_set. auto.
  - unfold gen_bz. rewrite Ee. cbn [option_map]. eexists. split; [reflexivity|]. split; [|split; [easy|]].
    + split; cbn [g_tl g_bz]; intros n Hn; [assumption|apply keys_set; auto].
    + intros _ _. cbn [g_bz]. apply keys_set. auto.
  - assert (E : exists i, gen_bz h cls (g_bz st) e = Some i).
    { assert (R : forall c, In c (nchildren (h e)) -> exists i, dict_get (g_bz st) c = Some i).
      { intros c Hin. apply Rb; auto; [discriminate|]. rewrite Forall_forall in A. auto. }
      unfold gen_bz. rewrite Ee.
      destruct (nchildren (h e)) as [|x [|y [|w l]]].
      - eexists; reflexivity.
      - destruct (R x ltac:(cbn; auto)) as [i ->]. eexists; reflexivity.
      - destruct (R x ltac:(cbn; auto)) as [i ->], (R y ltac:(cbn; auto)) as [j ->]. eexists; reflexivity.
      - eexists; reflexivity. }
    destruct E as [i ->]. cbn [option_map]. eexists. split; [reflexivity|]. split; [|split; [easy|]].
    + split; cbn [g_tl g_bz]; intros n Hn; [assumption|apply keys_set; auto].
    + intros _ _. cbn [g_bz]. apply keys_set. auto.
Qed.

Lemma gen_nodes_total code offset :
  (forall p, In p nodes -> assemblable h cls ft_code p \/ assemblable h cls pt_code p) ->
  forall es done st,
  (forall e, In e es -> In e nodes /\ assemblable h cls code e) ->
  (forall l1 e l2, done ++ es = l1 ++ e :: l2 -> forall c, In c (nchildren (h e)) -> In c l1) ->
  (forall n, In n done -> ready st n) ->
  exists st', gen_nodes h cls size nodes code offset es st = Some st'.
Proof.
  intros Hall. induction es as [|e es IH]; intros done st Hes Ho Hd; [eexists; reflexivity|].
  destruct (Hes e ltac:(left; reflexivity)) as [H1 H2].
  destruct (gen_node_total code offset st e Hall H1 H2) as (st1 & E1 & X & R).
  { intros c Hc. apply Hd. eapply (Ho done e es); [reflexivity|assumption]. }
  cbn [gen_nodes]. rewrite E1. apply (IH (done ++ [e])).
  - intros x Hx. apply Hes. right. assumption.
  - intros l1 x l2 El. apply (Ho l1 x l2). rewrite <- El, <- app_assoc. reflexivity.
  - intros n Hn. apply in_app_iff in Hn as [Hn|[<-|[]]]; [|assumption]. eapply ready_mono; [exact X|auto].
Qed.
End Total.

Lemma gen_assembly_of_total h cls size fts pts :
  tl_shaped h cls -> children_first h fts -> children_first h pts ->
  (forall n, In n fts -> assemblable h cls ft_code n) -> (forall n, In n pts -> assemblable h cls pt_code n) ->
  exists asm, gen_assembly_of h cls size fts pts = Some asm.
Proof.
  intros Hs O1 O2 A1 A2. unfold gen_assembly_of.
  assert (Hall : forall p, In p (fts ++ pts) -> assemblable h cls ft_code p \/ assemblable h cls pt_code p)
    by (intros p Hp; apply in_app_iff in Hp as [Hp|Hp]; auto).
  destruct (gen_nodes_total h cls size Hs (fts ++ pts) ft_code 0 Hall fts [] (Gen [] [] [] 0)) as [st ->].
  { intros e He. split; [apply in_app_iff; auto|auto]. }
  { exact O1. }
  { intros n []. }
  destruct (gen_nodes_total h cls size Hs (fts ++ pts) pt_code (g_scqs st) Hall pts []
              (Gen (g_bz st) [] (g_cg st) (g_scqs st))) as [st' ->].
  { intros e He. split; [apply in_app_iff; auto|auto]. }
  { exact O2. }
  { intros n []. }
  eexists; reflexivity.
Qed.

(** Everything at once, for a program graph. *)
Lemma assembly_correct h T cls wpd bpd const ft pt :
  denotes h T -> tl_shaped h cls ->
  (forall n, reachable h [ft] n -> assemblable h cls ft_code n) ->
  (forall n, reachable h [pt] n -> assemblable h cls pt_code n) ->
  (forall n, reachable h [ft] n -> reachable h [pt] n -> owns (cls n) = false) ->
  exists fuel0 nodes nft owners asm,
    (forall fuel, (fuel0 <= fuel)%nat -> gen_assembly fuel h cls wpd bpd const ft pt = Some asm) /\
    (forall n, In n nodes <-> reachable h [ft] n \/ reachable h [pt] n) /\
    (forall n, In n (firstn nft owners) <-> reachable h [ft] n /\ owns (cls n) = true) /\
    (forall n, In n (skipn nft owners) <-> reachable h [pt] n /\ owns (cls n) = true) /\
    well_formed h cls (scq_size h cls wpd bpd const nodes) nft owners asm.
Proof.
  intros HT Hs A1 A2 Hd.
  destruct (postorder_correct h T [ft] HT) as (f1 & fts & E1 & N1 & I1 & O1).
  destruct (postorder_correct h T [pt] HT) as (f2 & pts & E2 & N2 & I2 & O2).
  assert (A1' : forall n, In n fts -> assemblable h cls ft_code n) by (intros n Hn; apply A1, I1, Hn).
  assert (A2' : forall n, In n pts -> assemblable h cls pt_code n) by (intros n Hn; apply A2, I2, Hn).
  set (size := scq_size h cls wpd bpd const (fts ++ pts)).
  destruct (gen_assembly_of_total h cls size fts pts Hs O1 O2 A1' A2') as [asm Ea].
  exists (Nat.max f1 f2), (fts ++ pts), (length (filter (fun n => owns (cls n)) fts)),
    (filter (fun n => owns (cls n)) fts ++ filter (fun n => owns (cls n)) pts), asm.
  split; [|split; [|split; [|split]]].
  - intros fuel Hf. unfold gen_assembly. rewrite E1, E2 by lia. exact Ea.
  - intros n. rewrite in_app_iff, I1, I2. tauto.
  - intros n. rewrite firstn_app, firstn_all, Nat.sub_diag. cbn [firstn]. rewrite app_nil_r, filter_In, I1. tauto.
  - intros n. rewrite skipn_app, skipn_all, Nat.sub_diag. cbn [skipn app]. rewrite filter_In, I2. tauto.
  - apply gen_assembly_well_formed; auto. intros n H1 H2. apply Hd; [apply I1|apply I2]; assumption.
Qed.
