(** * Proofs about "push" and "pop" *)
From Coq Require Import List Arith Bool String Lia.
From Verif Require Import Snapshot SnapshotSpec.
Import ListNotations.
Local Open Scope string_scope.
Local Open Scope list_scope.

Lemma among_in l f : among l f = true <-> In f l.
Proof.
  unfold among. rewrite existsb_exists. split.
  - intros (g & Hin & E). apply String.eqb_eq in E. subst g. exact Hin.
  - intros Hin. exists f. split; [exact Hin|apply String.eqb_refl].
Qed.
Definition covers (all lost copied : list string) : bool := forallb (fun f => among lost f || among copied f) all.
Lemma covers_in all lost copied f : covers all lost copied = true -> In f all -> ~ In f lost -> among copied f = true.
Proof.
  unfold covers. rewrite forallb_forall. intros H Hin Hn. specialize (H f Hin). apply orb_prop in H.
  destruct H as [H|H]; [|exact H]. apply among_in in H. contradiction.
Qed.
Lemma tables_same f : among declared_fields f = true <-> In f program_tables.
Proof.
  split.
  - intros H. apply among_in in H. apply among_in.
    apply (covers_in declared_fields [] program_tables); [vm_compute; reflexivity|exact H|intros []].
  - intros H. apply (covers_in program_tables [] declared_fields); [vm_compute; reflexivity|exact H|intros []].
Qed.

Section Proofs.
Variables (decl spec value : Type) (declare : list (section decl spec) -> (string -> value) -> string -> value)
  (fresh_field fresh_stat : string -> value) (no_assembly : value).
Notation run := (run decl spec value declare fresh_field fresh_stat no_assembly).
Notation step := (step decl spec value declare fresh_field fresh_stat no_assembly).
Notation copy := (copy value fresh_field fresh_stat).
Notation action := (action decl spec value).
Notation console := (console decl spec value).
Notation declared := (declared decl spec value declare).
Notation copy_program := (copy_program decl spec value).
Implicit Types (k : console) (l : list action).

Lemma run_app k l l' : run k (l ++ l') = run (run k l) l'.
Proof. apply fold_left_app. Qed.
Lemma apply_saved k e : saved (apply decl spec value k e) = saved k.
Proof. unfold apply. destruct (new_assembly _ _ _ e); reflexivity. Qed.
Lemma pop_pushed k p c st : saved k = st ++ [(p, c)] ->
  step k Pop = Console p c st (heap k) (next k).
Proof. intros E. cbn [Snapshot.step]. rewrite E, rev_app_distr. cbn. rewrite rev_involutive. reflexivity. Qed.

Lemma balanced_saved l : balanced l -> forall k, saved (run k l) = saved k.
Proof.
  induction 1 as [|f l Hb IH|f l Hb IH|l l' Hb IH Hb' IH']; intros k; [reflexivity| | |].
  - change (run k (Read f :: l)) with (run (step k (Read f)) l). rewrite IH. cbn [Snapshot.step]. rewrite apply_saved. reflexivity.
  - change (run k (Command f :: l)) with (run (step k (Command f)) l). rewrite IH. cbn [Snapshot.step]. rewrite apply_saved. reflexivity.
  - change (run k (Push :: l ++ Pop :: l')) with (run (step k Push) (l ++ Pop :: l')).
    rewrite run_app. change (Pop :: l') with ([Pop] ++ l'). rewrite run_app, IH'.
    change (run (run (step k Push) l) [Pop]) with (step (run (step k Push) l) Pop).
    erewrite pop_pushed by (rewrite IH; reflexivity). reflexivity.
Qed.
Lemma push_pop k l : balanced l -> exists h n,
  run k (Push :: l ++ [Pop]) = Console (copy_program (prog k)) (copy (declared (prog k) (ctx k))) (saved k) h n /\
  h = heap (run (step k Push) l).
Proof.
  intros Hb. change (run k (Push :: l ++ [Pop])) with (run (step k Push) (l ++ [Pop])). rewrite run_app.
  change (run (run (step k Push) l) [Pop]) with (step (run (step k Push) l) Pop).
  erewrite pop_pushed by (rewrite balanced_saved by exact Hb; reflexivity). eauto.
Qed.

Lemma restored k l : balanced l -> let k' := run k (Push :: l ++ [Pop]) in
  sections (prog k') = sections (prog k) /\ flags (prog k') = flags (prog k) /\
  (as_written (prog k) -> prog k' = prog k) /\ saved k' = saved k /\
  (forall f, In f context_fields -> ~ In f lost_fields ->
     In f program_tables -> declare (sections (prog k)) (field (ctx k)) f = field (ctx k) f ->
     field (ctx k') f = field (ctx k) f) /\
  (forall f, In f context_fields -> ~ In f lost_fields -> ~ In f program_tables -> field (ctx k') f = field (ctx k) f) /\
  (forall f, In f stats_fields -> ~ In f lost_stats -> stat (ctx k') f = stat (ctx k) f).
Proof.
  intros Hb. destruct (push_pop k l Hb) as (h & n & -> & _).
  cbn [prog ctx saved field stat Snapshot.copy Snapshot.declared Snapshot.copy_program sections flags].
  split; [reflexivity|]. split; [reflexivity|]. split.
  { intros [H1 H2]. unfold Snapshot.copy_program. destruct (prog k) as [ss ft pt fl]. cbn in H1, H2 |- *. now rewrite H1, H2. }
  split; [reflexivity|].
  assert (Hc : forall f, In f context_fields -> ~ In f lost_fields -> among copied_fields f = true).
  { intros f. apply covers_in. vm_compute. reflexivity. }
  split; [|split]; intros f Hin Hn.
  - intros Hd E. rewrite (Hc f Hin Hn). apply tables_same in Hd. rewrite Hd. exact E.
  - intros Hd. rewrite (Hc f Hin Hn). destruct (among declared_fields f) eqn:E; [|reflexivity].
    apply tables_same in E. contradiction.
  - rewrite (covers_in stats_fields lost_stats copied_stats f); [reflexivity|vm_compute; reflexivity|assumption|assumption].
Qed.
Lemma specs_lost k : ~ as_written (prog k) -> prog (run k [Push; Pop]) <> prog k.
Proof.
  intros H E. apply H. destruct (push_pop k [] balanced_nil) as (h & n & E' & _). cbn [app] in E'.
  rewrite E' in E. cbn [prog] in E. unfold as_written. rewrite <- E. split; reflexivity.
Qed.
Lemma push_keeps k : let k' := run k [Push] in
  prog k' = prog k /\ assembly k' = assembly k /\ (forall f, stat (ctx k') f = stat (ctx k) f) /\
  (forall f, ~ In f program_tables -> field (ctx k') f = field (ctx k) f).
Proof.
  split; [reflexivity|]. split; [reflexivity|]. split; [reflexivity|]. intros f H.
  change (field (ctx (run k [Push])) f) with
    (if among declared_fields f then declare (sections (prog k)) (field (ctx k)) f else field (ctx k) f).
  destruct (among declared_fields f) eqn:E; [|reflexivity]. apply tables_same in E. contradiction.
Qed.
Lemma push_declares k f : In f program_tables ->
  field (ctx (run k [Push])) f = declare (sections (prog k)) (field (ctx k)) f.
Proof.
  intros H. apply tables_same in H.
  change (field (ctx (run k [Push])) f) with
    (if among declared_fields f then declare (sections (prog k)) (field (ctx k)) f else field (ctx k) f).
  now rewrite H.
Qed.

(** Without reading, list objects are only made. *)
Lemma store_other h a (v : value) b : b <> a -> store value h a v b = h b.
Proof. intros H. unfold store. destruct (Nat.eqb_spec b a); [contradiction|reflexivity]. Qed.
Lemma heap_kept l : Forall (fun a => ~ reads a) l -> forall k a, a < next k ->
  heap (run k l) a = heap k a /\ next k <= next (run k l).
Proof.
  induction 1 as [|x l Hx Hl IH]; intros k a Ha; [split; [reflexivity|apply Nat.le_refl]|].
  change (run k (x :: l)) with (run (step k x) l).
  assert (H : heap (step k x) a = heap k a /\ next k <= next (step k x)).
  { destruct x as [| |f|f]; cbn [Snapshot.step].
    - auto.
    - destruct (rev (saved k)) as [|[p c] rest]; auto.
    - exfalso. apply Hx. exact I.
    - unfold apply. destruct (new_assembly _ _ _ _); cbn; [|auto]. rewrite store_other by lia. auto. }
  destruct H as [H1 H2]. destruct (IH (step k x) a ltac:(lia)) as [H3 H4]. split; [congruence|lia].
Qed.
Lemma assembly_kept k l : valid k -> balanced l -> Forall (fun a => ~ reads a) l ->
  assembly (run k (Push :: l ++ [Pop])) = assembly k.
Proof.
  intros Hv Hb Hl. destruct (push_pop k l Hb) as (h & n & -> & ->). unfold assembly. cbn [ctx heap cell Snapshot.copy Snapshot.declared].
  apply (heap_kept l Hl (step k Push)). exact Hv.
Qed.
Lemma run_valid l : forall k, valid k -> Forall (fun pc => cell (snd pc) < next k) (saved k) ->
  valid (run k l) /\ Forall (fun pc => cell (snd pc) < next (run k l)) (saved (run k l)).
Proof.
  unfold valid. induction l as [|x l IH]; intros k Hv Hs; [auto|]. change (run k (x :: l)) with (run (step k x) l). apply IH.
  - destruct x as [| |f|f]; cbn [Snapshot.step]; [exact Hv| | |].
    + destruct (rev (saved k)) as [|[p c] rest] eqn:E; [exact Hv|]. cbn. rewrite Forall_forall in Hs.
      apply (Hs (p, c)). apply in_rev. rewrite E. left. reflexivity.
    + unfold apply. destruct (new_assembly _ _ _ _); cbn; [lia|exact Hv].
    + unfold apply. destruct (new_assembly _ _ _ _); cbn; [lia|exact Hv].
  - destruct x as [| |f|f]; cbn [Snapshot.step].
    + cbn. apply Forall_app. split; [exact Hs|]. constructor; [exact Hv|constructor].
    + destruct (rev (saved k)) as [|[p c] rest] eqn:E; [exact Hs|]. cbn. rewrite Forall_forall in *. intros pc Hin.
      apply Hs. apply in_rev. rewrite E. right. apply in_rev. exact Hin.
    + unfold apply. destruct (new_assembly _ _ _ _); cbn; [|exact Hs]. eapply Forall_impl; [|exact Hs]. cbn. lia.
    + unfold apply. destruct (new_assembly _ _ _ _); cbn; [|exact Hs]. eapply Forall_impl; [|exact Hs]. cbn. lia.
Qed.

(** ** Losses *)
Lemma fields_lost k f : In f lost_fields -> In f context_fields /\ field (ctx (run k [Push; Pop])) f = fresh_field f.
Proof.
  intros H. destruct (push_pop k [] balanced_nil) as (h & n & E & _). cbn [app] in E. rewrite E. cbn [ctx field Snapshot.copy].
  destruct H as [<-|[<-|[<-|[<-|[]]]]]; (split; [cbn; auto 40|reflexivity]).
Qed.
Lemma stats_lost k f : In f lost_stats -> In f stats_fields /\ stat (ctx (run k [Push; Pop])) f = fresh_stat f.
Proof.
  intros H. destruct (push_pop k [] balanced_nil) as (h & n & E & _). cbn [app] in E. rewrite E. cbn [ctx stat Snapshot.copy].
  destruct H as [<-|[<-|[<-|[]]]]; (split; [cbn; auto 40|reflexivity]).
Qed.
Lemma assembly_lost k f : valid k -> assembly (run k [Push; Read f; Pop]) = no_assembly.
Proof.
  intros Hv. unfold valid in Hv. destruct (push_pop k [Read f] (balanced_read f [] balanced_nil)) as (h & n & E & Eh).
  cbn [app] in E. rewrite E. unfold assembly. cbn [ctx heap cell Snapshot.copy Snapshot.declared]. rewrite Eh. cbn.
  unfold apply. destruct (new_assembly _ _ _ _); cbn.
  - rewrite store_other by lia. unfold store. now rewrite Nat.eqb_refl.
  - unfold store. now rewrite Nat.eqb_refl.
Qed.

(** ** Reading *)
Lemma tables_cleared k f : In f symbol_tables -> f <> "enums" ->
  field (ctx (run k [look])) f = fresh_field f.
Proof.
  intros Hin Hn.
  change (field (ctx (run k [look])) f) with (if among cleared_fields f then fresh_field f else field (ctx k) f). rewrite (covers_in symbol_tables ["enums"] cleared_fields f); [reflexivity|vm_compute; reflexivity|exact Hin|].
  cbn. intuition.
Qed.
Lemma stats_cleared k f : stat (ctx (run k [look])) f = fresh_stat f.
Proof. reflexivity. Qed.
Lemma enums_stay k : field (ctx (run k [look])) "enums" = field (ctx k) "enums".
Proof. reflexivity. Qed.
End Proofs.
