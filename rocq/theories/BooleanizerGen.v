(** * The booleanizer instructions of an assembled program (proofs) *)
From Coq Require Import List Arith ZArith Bool Lia.
Require Import Verif.Graph Verif.GraphSpec Verif.Binary Verif.BinarySpec Verif.BinaryProofs.
Require Import Verif.Layout Verif.Booleanizer Verif.Assembly Verif.AssemblySpec Verif.AssemblyProofs.
Import ListNotations.
Local Open Scope Z_scope.

Section Gen.
Variable h : heap.
Variable cls : nat -> nclass.
Variable size : nat -> Z.
Variable nodes : list nat.

(** Nodes with an instruction of the booleanizer. *)
Definition bz_owner (n : nat) : bool :=
  match engine_of (cls n) with EngBz => negb (is_constant (cls n) && only_tl_parents h cls nodes n) | _ => false end.

Definition refers (owners : list nat) (k j c : nat) : Prop := (j < k)%nat /\ nth_error owners j = Some c.
(** Instruction [i] at position [k] belongs to node [n]. *)
Definition encodes (owners : list nat) (k n : nat) (i : bz_instruction) : Prop :=
  bz_id i = Z.of_nat k /\
  match cls n, nchildren (h n) with
  | CBzLoad code sid, _ => bz_operator i = code /\ bz_operand1 i = BzInt sid
  | CBzConst code v, _ => bz_operator i = code /\ bz_operand1 i = v
  | CTimestamp, _ => bz_operator i = op_ts
  | CAtomic aid, c :: _ => bz_operator i = op_store /\ bz_operand2 i = aid /\
      exists j, refers owners k j c /\ bz_operand1 i = BzInt (Z.of_nat j)
  | Assembly.CBz code, [c] => bz_operator i = code /\ exists j, refers owners k j c /\ bz_operand1 i = BzInt (Z.of_nat j)
  | Assembly.CBz code, [c1; c2] => bz_operator i = code /\ exists j1 j2, refers owners k j1 c1 /\ refers owners k j2 c2 /\
      bz_operand1 i = BzInt (Z.of_nat j1) /\ bz_operand2 i = Z.of_nat j2
  | Assembly.CBz code, _ => bz_operator i = code
  | _, _ => False
  end.

Lemma refers_mono owners more k j c : refers owners k j c -> refers (owners ++ more) k j c.
Proof. intros [H1 H2]. split; [assumption|]. rewrite nth_error_app1; [assumption|]. apply nth_error_Some. congruence. Qed.
Lemma encodes_mono owners more k n i : encodes owners k n i -> encodes (owners ++ more) k n i.
Proof.
  intros [H1 H2]. split; [assumption|]. destruct (cls n); auto.
  - destruct (nchildren (h n)); [assumption|]. destruct H2 as (A & B & j & R & O). eauto 7 using refers_mono.
  - destruct (nchildren (h n)) as [|c1 [|c2 [|]]]; auto.
    + destruct H2 as (A & j & R & O). eauto 7 using refers_mono.
    + destruct H2 as (A & j1 & j2 & R1 & R2 & O). split; [assumption|]. exists j1, j2. auto using refers_mono.
Qed.

Record bz_ok (done : list nat) (d : dict bz_instruction) : Prop := BzOk {
  bo_keys : map fst d = filter bz_owner done;
  bo_enc : forall k n i, nth_error d k = Some (n, i) -> encodes (map fst d) k n i
}.

Lemma dict_get_refers done d c i : bz_ok done d -> dict_get d c = Some i ->
  exists j, refers (map fst d) (length d) j c /\ bz_id i = Z.of_nat j.
Proof.
  intros [K E] G. apply dict_get_in in G. apply In_nth_error in G as [j Gj]. exists j. split.
  - split; [apply nth_error_Some; congruence|]. erewrite map_nth_error by eassumption. reflexivity.
  - apply (E j c i Gj).
Qed.
Lemma gen_bz_encodes done d e i : bz_ok done d -> gen_bz h cls d e = Some i -> encodes (map fst d) (length d) e i.
Proof.
  intros B G. unfold gen_bz in G. unfold encodes, size_of in *.
  destruct (cls e) eqn:Ec; try discriminate.
  - destruct (nchildren (h e)) as [|c l]; [discriminate|]. destruct (dict_get d c) as [r|] eqn:Er; [|discriminate].
    cbn in G. injection G as <-. cbn. destruct (dict_get_refers done d c r B Er) as (j & R & ->). eauto 8.
  - injection G as <-. cbn. auto.
  - injection G as <-. cbn. auto.
  - injection G as <-. cbn. auto.
  - destruct (nchildren (h e)) as [|c1 [|c2 [|c3 l]]].
    + injection G as <-. cbn. auto.
    + destruct (dict_get d c1) as [r|] eqn:Er; [|discriminate]. cbn in G. injection G as <-. cbn.
      destruct (dict_get_refers done d c1 r B Er) as (j & R & ->). eauto 8.
    + destruct (dict_get d c1) as [r1|] eqn:Er1; [|discriminate]. destruct (dict_get d c2) as [r2|] eqn:Er2; [|discriminate].
      cbn in G. injection G as <-. cbn. destruct (dict_get_refers done d c1 r1 B Er1) as (j1 & R1 & ->).
      destruct (dict_get_refers done d c2 r2 B Er2) as (j2 & R2 & ->). eauto 12.
    + injection G as <-. cbn. auto.
Qed.
Lemma bz_snoc done d e i : bz_ok done d -> bz_owner e = true -> ~ In e done -> gen_bz h cls d e = Some i ->
  bz_ok (done ++ [e]) (dict_set d e i).
Proof.
  intros B O N G. pose proof (gen_bz_encodes done d e i B G) as En. destruct B as [K E].
  rewrite dict_set_new by (rewrite K, filter_In; tauto). constructor.
  - rewrite map_app, filter_app, K. cbn. rewrite O. reflexivity.
  - intros k n j H. rewrite map_app. apply encodes_mono. apply nth_error_snoc in H as [H|[-> H]]; [auto|].
    injection H as <- <-. exact En.
Qed.
Lemma bz_skip done d e : bz_ok done d -> bz_owner e = false -> bz_ok (done ++ [e]) d.
Proof.
  intros [K E] O. constructor; [|assumption]. rewrite filter_app. cbn. rewrite O, app_nil_r. exact K.
Qed.
Lemma gen_node_bz code offset done st e st' : bz_ok done (g_bz st) -> (bz_owner e = true -> ~ In e done) ->
  gen_node h cls size nodes code offset st e = Some st' -> bz_ok (done ++ [e]) (g_bz st').
Proof.
  intros B N E. unfold gen_node in E.
  assert (NO : engine_of (cls e) <> EngBz -> bz_owner e = false).
  { intros H. unfold bz_owner. destruct (engine_of (cls e)); try reflexivity. congruence. }
  assert (BO : engine_of (cls e) = EngBz -> is_constant (cls e) && only_tl_parents h cls nodes e = false -> bz_owner e = true).
  { intros H1 H2. unfold bz_owner. rewrite H1, H2. reflexivity. }
  destruct (cls e) eqn:Ec; cbn [atomic_id is_constant engine_of andb g_bz g_tl g_cg g_scqs] in E, NO, BO.
  1,2,3,4,5,6: assert (Eb : g_bz st' = g_bz st);
    [ first [ injection E as <-; reflexivity
            | destruct (only_tl_parents h cls nodes e); [injection E as <-; reflexivity|];
              destruct (gen_tl h cls code offset (g_tl st) e); [|discriminate]; injection E as <-; reflexivity
            | destruct (gen_tl h cls code offset (g_tl st) e); [|discriminate]; injection E as <-; reflexivity ]
    | rewrite Eb; apply bz_skip; [assumption|apply NO; discriminate] ].
  1,2,4,5: destruct (gen_bz h cls (g_bz st) e) as [i|] eqn:G; [|discriminate]; injection E as <-; cbn [g_bz];
     apply bz_snoc; auto.
  destruct (only_tl_parents h cls nodes e) eqn:Ot.
  - injection E as <-. apply bz_skip; [assumption|]. unfold bz_owner. rewrite Ec, Ot. reflexivity.
  - destruct (gen_bz h cls (g_bz st) e) as [i|] eqn:G; [|discriminate]. injection E as <-. cbn [g_bz]. apply bz_snoc; auto.
Qed.
Lemma gen_nodes_bz code offset : forall es done st st', bz_ok done (g_bz st) ->
  NoDup (filter bz_owner (done ++ es)) ->
  gen_nodes h cls size nodes code offset es st = Some st' -> bz_ok (done ++ es) (g_bz st').
Proof.
  induction es as [|e es IH]; intros done st st' B N E; cbn in E.
  - injection E as <-. rewrite app_nil_r. exact B.
  - destruct (gen_node h cls size nodes code offset st e) as [st1|] eqn:E1; [|discriminate].
    replace (done ++ e :: es) with ((done ++ [e]) ++ es) in * by (rewrite <- app_assoc; reflexivity).
    apply (IH (done ++ [e]) st1 st'); auto.
    eapply gen_node_bz; [exact B| |exact E1]. intros O Hin.
    rewrite <- app_assoc, filter_app in N. cbn in N. rewrite O in N. apply NoDup_remove_2 in N. apply N, in_app_iff.
    left. apply filter_In. auto.
Qed.
End Gen.

(** ** PREV instructions come last *)
Definition is_prev (p : nat * bz_instruction) : bool := bz_operator (snd p) =? op_prev.
Definition prev_last (d : dict bz_instruction) : dict bz_instruction :=
  filter (fun p => negb (is_prev p)) d ++ filter is_prev d.

Lemma dict_get_app_new {V} (d1 d2 : dict V) k v : ~ In k (map fst d1) -> dict_get (d1 ++ (k, v) :: d2) k = Some v.
Proof.
  induction d1 as [|[j w] d1 IH]; cbn; [rewrite Nat.eqb_refl; reflexivity|].
  intros H. destruct (Nat.eqb_spec j k) as [->|]; [tauto|]. apply IH. tauto.
Qed.
Lemma dict_pop_app_new {V} (d1 d2 : dict V) k v : ~ In k (map fst d1) -> ~ In k (map fst d2) ->
  dict_pop (d1 ++ (k, v) :: d2) k = d1 ++ d2.
Proof.
  assert (F : forall d : dict V, ~ In k (map fst d) -> dict_pop d k = d).
  { induction d as [|[j w] d IH]; cbn; [reflexivity|]. intros H. destruct (Nat.eqb_spec j k) as [->|]; [tauto|].
    cbn. f_equal. apply IH. tauto. }
  intros H1 H2. unfold dict_pop. rewrite filter_app. cbn. rewrite Nat.eqb_refl. cbn.
  fold (dict_pop d1 k) (dict_pop d2 k). rewrite !F by assumption. reflexivity.
Qed.
Lemma filter_keys {V} (p : nat * V -> bool) (d : dict V) k : In k (map fst (filter p d)) -> In k (map fst d).
Proof. rewrite !in_map_iff. intros (q & H1 & H2). apply filter_In in H2. exists q. tauto. Qed.

Lemma move_prev_last d : NoDup (map fst d) -> move_prev d = prev_last d.
Proof.
  intros N. unfold move_prev, prev_last.
  set (step := fun d0 k => match dict_get d0 k with
      | Some i => if bz_operator i =? op_prev then dict_set (dict_pop d0 k) k i else d0 | None => d0 end).
  assert (G : forall post pre, d = pre ++ post ->
    fold_left step (map fst post) (filter (fun p => negb (is_prev p)) pre ++ post ++ filter is_prev pre) =
    filter (fun p => negb (is_prev p)) d ++ filter is_prev d).
  { induction post as [|[k i] post IH]; intros pre E; cbn [map fst fold_left].
    - rewrite app_nil_r in E. subst pre. reflexivity.
    - assert (Nk : ~ In k (map fst pre) /\ ~ In k (map fst post)).
      { rewrite E, map_app in N. cbn in N. apply NoDup_remove_2 in N. rewrite in_app_iff in N. tauto. }
      destruct Nk as [N1 N2].
      assert (N1' : ~ In k (map fst (filter (fun p => negb (is_prev p)) pre))) by (intros H; apply N1, (filter_keys _ _ _ H)).
      specialize (IH (pre ++ [(k, i)])). rewrite <- app_assoc in IH. specialize (IH E).
      rewrite !filter_app in IH. cbn [filter] in IH. unfold is_prev at 2 4 in IH. cbn [snd] in IH.
      unfold step at 2. cbn [app]. rewrite dict_get_app_new by assumption.
      destruct (bz_operator i =? op_prev) eqn:Ep; cbn [negb] in IH.
      + rewrite dict_pop_app_new; [|assumption|].
        2: { rewrite map_app, in_app_iff. intros [H|H]; [tauto|]. apply N1, (filter_keys _ _ _ H). }
        rewrite dict_set_new.
        2: { rewrite !map_app, !in_app_iff. intros [H|[H|H]]; [tauto|tauto|]. apply N1, (filter_keys _ _ _ H). }
        rewrite app_nil_r in IH. rewrite <- !app_assoc. exact IH.
      + rewrite app_nil_r, <- app_assoc in IH. exact IH. }
  pose proof (G d [] eq_refl) as H. cbn [filter app] in H. rewrite app_nil_r in H. exact H.
Qed.

(** ** The booleanizer part of an assembled program *)
Lemma gen_assembly_bz h cls size fts pts asm :
  NoDup (filter (bz_owner h cls (fts ++ pts)) (fts ++ pts)) ->
  gen_assembly_of h cls size fts pts = Some asm ->
  exists d rest, bz_ok h cls (fts ++ pts) (fts ++ pts) d /\ asm = map IBz (values (prev_last d)) ++ rest /\
    forall b, ~ In (IBz b) rest.
Proof.
  intros N E. unfold gen_assembly_of in E.
  destruct (gen_nodes h cls size (fts ++ pts) ft_code 0 fts (Gen [] [] [] 0)) as [st|] eqn:E1; [|discriminate].
  destruct (gen_nodes h cls size (fts ++ pts) pt_code (g_scqs st) pts (Gen (g_bz st) [] (g_cg st) (g_scqs st)))
    as [st'|] eqn:E2; [|discriminate].
  assert (B1 : bz_ok h cls (fts ++ pts) ([] ++ fts) (g_bz st)).
  { eapply gen_nodes_bz; [| |exact E1].
    - constructor; [reflexivity|]. intros [|k] n i H; discriminate.
    - rewrite filter_app in N. cbn [app]. revert N. generalize (filter (bz_owner h cls (fts ++ pts)) pts).
      induction (filter (bz_owner h cls (fts ++ pts)) fts) as [|x l IH]; intros l2 N; [constructor|].
      cbn in N. inversion N as [|? ? N1 N2]; subst. constructor; [rewrite in_app_iff in N1; tauto|exact (IH _ N2)]. }
  cbn [app] in B1.
  assert (B2 : bz_ok h cls (fts ++ pts) (fts ++ pts) (g_bz st')) by (refine (gen_nodes_bz _ _ _ _ _ _ _ _ _ _ _ N E2); exact B1).
  injection E as <-. exists (g_bz st'). eexists. split; [exact B2|]. rewrite move_prev_last.
  - split; [reflexivity|]. intros b. rewrite !in_app_iff, !in_map_iff.
    intros [(x & H & _)|[(x & H & _)|(x & H & _)]]; discriminate.
  - rewrite (bo_keys _ _ _ _ _ B2). exact N.
Qed.
