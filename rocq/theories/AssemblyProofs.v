(** * Assembly generation (proofs) *)
From Coq Require Import List Arith ZArith Bool Lia.
Require Import Verif.Graph Verif.GraphSpec Verif.GraphProofs Verif.Binary Verif.Assembly Verif.AssemblySpec.
Import ListNotations.
Local Open Scope Z_scope.

Lemma dict_get_in {V} (d : dict V) n v : dict_get d n = Some v -> In (n, v) d.
Proof.
  induction d as [|[k w] d IH]; cbn; [discriminate|]. destruct (Nat.eqb_spec k n) as [->|].
  - intros E; injection E as ->. auto.
  - auto.
Qed.
Lemma dict_get_key {V} (d : dict V) n : In n (map fst d) -> exists v, dict_get d n = Some v.
Proof.
  induction d as [|[k w] d IH]; cbn; [easy|]. destruct (Nat.eqb_spec k n) as [->|]; [eauto|].
  intros [->|H]; [congruence|auto].
Qed.
Lemma dict_set_new {V} (d : dict V) n v : ~ In n (map fst d) -> dict_set d n v = d ++ [(n, v)].
Proof.
  induction d as [|[k w] d IH]; cbn; [reflexivity|]. destruct (Nat.eqb_spec k n) as [->|]; [tauto|].
  intros H. rewrite IH by tauto. reflexivity.
Qed.

(** ** Moving the bounds commands behind the size commands *)
Definition is_temp (c : cg_instruction) : bool := match fst c with TEMP => true | SCQ => false end.
Lemma move_temp_spec : forall todo front back,
  Forall (fun c => is_temp c = false) front ->
  move_temp (length todo) (length front) (front ++ todo ++ back) =
  front ++ filter (fun c => negb (is_temp c)) todo ++ back ++ filter is_temp todo.
Proof.
  induction todo as [|[[|] i] todo IH]; intros front back Hf; cbn [length move_temp].
  - cbn. rewrite app_nil_r. reflexivity.
  - rewrite nth_error_app2 by lia. rewrite Nat.sub_diag. cbn [app nth_error].
    replace (S (length front)) with (length (front ++ [(SCQ, i)])) by (rewrite app_length; cbn; lia).
    replace (front ++ (SCQ, i) :: todo ++ back) with ((front ++ [(SCQ, i)]) ++ todo ++ back)
      by (rewrite <- app_assoc; reflexivity).
    rewrite IH by (apply Forall_app; split; [assumption|constructor; [reflexivity|constructor]]).
    rewrite <- app_assoc. reflexivity.
  - rewrite nth_error_app2 by lia. rewrite Nat.sub_diag. cbn [app nth_error].
    rewrite firstn_app, Nat.sub_diag, firstn_all. cbn [firstn]. rewrite app_nil_r.
    replace (skipn (S (length front)) (front ++ (TEMP, i) :: todo ++ back)) with (todo ++ back).
    2: { assert (Ea : front ++ (TEMP, i) :: todo ++ back = (front ++ [(TEMP, i)]) ++ todo ++ back)
           by (rewrite <- app_assoc; reflexivity).
         rewrite Ea, skipn_app, skipn_all2 by (rewrite app_length; cbn; lia).
         replace (S (length front) - length (front ++ [(TEMP, i)]))%nat with O by (rewrite app_length; cbn [length]; lia).
         reflexivity. }
    rewrite <- app_assoc. rewrite IH by assumption. cbn [filter is_temp fst negb].
    rewrite <- !app_assoc. reflexivity.
Qed.
Lemma move_temp_all l : move_temp (length l) 0 l = filter (fun c => negb (is_temp c)) l ++ filter is_temp l.
Proof.
  pose proof (move_temp_spec l [] [] ltac:(constructor)) as H. cbn [app length] in H. rewrite app_nil_r in H. exact H.
Qed.

Section Gen.
Variable h : heap.
Variable cls : nat -> nclass.
Variable size : nat -> Z.
Hypothesis shaped : tl_shaped h cls.

Lemma slot_mono owners more k c t v : (k <= length owners)%nat ->
  slot_holds cls owners k c t v -> slot_holds cls (owners ++ more) k c t v.
Proof.
  unfold slot_holds. intros Hk. destruct c as [c|]; [|auto].
  destruct (cls c); auto; intros (H1 & j & -> & Hj & Ho); (split; [assumption|]); exists j;
    (split; [reflexivity|split; [assumption|]]); rewrite nth_error_app1; (assumption || lia).
Qed.
Lemma computes_mono code owners more k n i : (k <= length owners)%nat ->
  computes h cls code owners k n i -> computes h cls code (owners ++ more) k n i.
Proof.
  unfold computes. intros Hk. destruct (cls n); auto.
  - intros (H1 & H2 & H3 & H4). repeat split; auto using slot_mono.
  - intros (H1 & H2 & H3 & H4). repeat split; auto using slot_mono.
  - intros (H1 & H2 & H3). repeat split; try tauto. auto using slot_mono.
Qed.
Lemma slot_shift owners before k c t v : slot_holds cls owners k c t v ->
  forall t' v', (t' = t /\ v' = match c with Some n => match cls n with CBool _ => v | _ => v + Z.of_nat (length before) end | None => v end) ->
  slot_holds cls (before ++ owners) (length before + k) c t' v'.
Proof.
  unfold slot_holds. intros H t' v' [-> ->]. destruct c as [c|]; [|auto].
  destruct (cls c); auto; destruct H as (H1 & j & -> & Hj & Ho); (split; [assumption|]); exists (length before + j)%nat;
    (split; [lia|split; [lia|]]); rewrite nth_error_app2 by lia;
    (replace (length before + j - length before)%nat with j by lia); assumption.
Qed.

(** ** The loop *)
(** The temporal instructions made so far: one per node that needs one, with
    consecutive identifiers. *)
Definition ids_from (offset : Z) (d : dict tl_instruction) : Prop :=
  forall k n i, nth_error d k = Some (n, i) -> tl_id i = Z.of_nat k + offset.

Record loop_ok (before : list nat) (code : opkind -> option Z) (cg0 : dict (list cg_instruction)) (done : list nat) (st : gen)
  : Prop := LoopOk {
  lo_keys : map fst (g_tl st) = filter (fun n => owns (cls n)) done;
  lo_ids : ids_from (Z.of_nat (length before)) (g_tl st);
  lo_computes : forall k n i, nth_error (g_tl st) k = Some (n, i) ->
    computes h cls code (before ++ map fst (g_tl st)) (length before + k) n i;
  lo_cg : g_cg st = cg0 ++ map (fun p => (fst p, gen_cg cls size (fst p) (tl_id (snd p)))) (g_tl st)
}.

Lemma nth_error_snoc {A} (l : list A) x k y : nth_error (l ++ [x]) k = Some y ->
  nth_error l k = Some y \/ (k = length l /\ x = y).
Proof.
  destruct (lt_eq_lt_dec k (length l)) as [[H| ->]|H]; intros E.
  - left. rewrite nth_error_app1 in E; assumption.
  - right. rewrite nth_error_app2, Nat.sub_diag in E by lia. cbn in E. split; congruence.
  - rewrite nth_error_app2 in E by lia. destruct (k - length l)%nat eqn:K; [lia|]. destruct n; discriminate.
Qed.

Lemma loop_snoc before code cg0 done st e i bz scqs :
  loop_ok before code cg0 done st -> owns (cls e) = true -> ~ In e done -> ~ In e (map fst cg0) ->
  tl_id i = size_of (g_tl st) + Z.of_nat (length before) ->
  computes h cls code (before ++ map fst (g_tl st)) (length before + length (g_tl st)) e i ->
  loop_ok before code cg0 (done ++ [e])
    (Gen bz (dict_set (g_tl st) e i) (dict_set (g_cg st) e (gen_cg cls size e (tl_id i))) scqs).
Proof.
  intros [K I C G] Ho Hn Hc Hid Hcomp.
  assert (N1 : ~ In e (map fst (g_tl st))) by (rewrite K, filter_In; tauto).
  assert (N2 : ~ In e (map fst (g_cg st))).
  { rewrite G, map_app, map_map, in_app_iff. cbn. intros [H|H]; [tauto|]. apply N1. exact H. }
  rewrite (dict_set_new _ _ _ N1), (dict_set_new _ _ _ N2).
  constructor; cbn [g_tl g_cg].
  - rewrite map_app, filter_app, K. cbn. rewrite Ho. reflexivity.
  - intros k n j E. apply nth_error_snoc in E as [E|[-> E]]; [exact (I k n j E)|].
    injection E as -> ->. rewrite Hid. unfold size_of. reflexivity.
  - intros k n j E. rewrite map_app, app_assoc. apply nth_error_snoc in E as [E|[-> E]].
    + apply computes_mono; [|apply C; assumption]. rewrite app_length, map_length.
      assert (k < length (g_tl st))%nat by (apply nth_error_Some; congruence). lia.
    + injection E as -> ->. apply computes_mono; [|assumption]. rewrite app_length, map_length. lia.
  - rewrite G, map_app, app_assoc. reflexivity.
Qed.

Lemma loop_skip before code cg0 done st e bz scqs :
  loop_ok before code cg0 done st -> owns (cls e) = false ->
  loop_ok before code cg0 (done ++ [e]) (Gen bz (g_tl st) (g_cg st) scqs).
Proof.
  intros [K I C G] Ho. constructor; cbn [g_tl g_cg]; auto.
  rewrite filter_app. cbn. rewrite Ho, app_nil_r. exact K.
Qed.

Lemma operand_holds before code cg0 done st c :
  loop_ok before code cg0 done st -> value_class (cls c) -> In c done ->
  slot_holds cls (before ++ map fst (g_tl st)) (length before + length (g_tl st)) (Some c)
    (fst (gen_operand cls (g_tl st) (Some c))) (snd (gen_operand cls (g_tl st) (Some c))).
Proof.
  intros L Hv Hin. unfold gen_operand, slot_holds.
  assert (A : owns (cls c) = true -> exists i, dict_get (g_tl st) c = Some i /\
     exists j, tl_id i = Z.of_nat j /\ (j < length before + length (g_tl st))%nat /\
               nth_error (before ++ map fst (g_tl st)) j = Some c).
  { intros Ho. destruct (dict_get_key (g_tl st) c) as [i Ei].
    { rewrite (lo_keys _ _ _ _ _ L). apply filter_In. auto. }
    exists i. split; [assumption|]. apply dict_get_in in Ei. apply In_nth_error in Ei as [k Ek].
    exists (length before + k)%nat. split; [rewrite (lo_ids _ _ _ _ _ L k c i Ek); lia|].
    split; [assert (k < length (g_tl st))%nat by (apply nth_error_Some; congruence); lia|].
    rewrite nth_error_app2 by lia. replace (length before + k - length before)%nat with k by lia.
    erewrite map_nth_error by eassumption. reflexivity. }
  destruct (cls c) eqn:Ec; try contradiction.
  1,3-5: destruct (A eq_refl) as (i & -> & j & H1 & H2 & H3); cbn; rewrite H1; eauto 6.
  cbn. auto.
Qed.

Lemma gen_node_ok nodes before code cg0 done st e st' :
  loop_ok before code cg0 done st -> ~ In e done -> ~ In e (map fst cg0) ->
  (forall c, In c (nchildren (h e)) -> In c done) ->
  gen_node h cls size nodes code (Z.of_nat (length before)) st e = Some st' ->
  loop_ok before code cg0 (done ++ [e]) st'.
Proof.
  intros L Hn Hc Hch E. unfold gen_node in E.
  assert (OP : forall o, (cls e = COp o \/ exists lb ub, cls e = CTemporal o lb ub) -> forall i,
    gen_tl h cls code (Z.of_nat (length before)) (g_tl st) e = Some i ->
    tl_id i = size_of (g_tl st) + Z.of_nat (length before) /\
    computes h cls code (before ++ map fst (g_tl st)) (length before + length (g_tl st)) e i).
  { intros o Ho i Ei. unfold gen_tl in Ei. unfold computes.
    pose proof (shaped e) as Hs.
    assert (Hv : Forall (fun c => value_class (cls c)) (nchildren (h e)))
      by (destruct Ho as [Ho|(lb & ub & Ho)]; rewrite Ho in Hs; exact Hs).
    assert (Ei' : match code o, nchildren (h e) with
      | None, _ => None
      | Some c, [] => Some (TlInstruction c type_none 0 type_none 0 (size_of (g_tl st) + Z.of_nat (length before)))
      | Some c, [x] => let '(t1, v1) := gen_operand cls (g_tl st) (Some x) in
           Some (TlInstruction c t1 v1 type_none 0 (size_of (g_tl st) + Z.of_nat (length before)))
      | Some c, [x; y] => let '(t1, v1) := gen_operand cls (g_tl st) (Some x) in
           let '(t2, v2) := gen_operand cls (g_tl st) (Some y) in
           Some (TlInstruction c t1 v1 t2 v2 (size_of (g_tl st) + Z.of_nat (length before)))
      | Some c, _ => None end = Some i)
      by (destruct Ho as [Ho|(lb & ub & Ho)]; rewrite Ho in Ei; exact Ei).
    clear Ei. destruct (code o) as [cd|] eqn:Ecode; [|discriminate].
    assert (G : tl_id i = size_of (g_tl st) + Z.of_nat (length before) /\
      code o = Some (tl_operator i) /\ (length (nchildren (h e)) <= 2)%nat /\
      slot_holds cls (before ++ map fst (g_tl st)) (length before + length (g_tl st)) (nth_error (nchildren (h e)) 0) (tl_type1 i) (tl_value1 i) /\
      slot_holds cls (before ++ map fst (g_tl st)) (length before + length (g_tl st)) (nth_error (nchildren (h e)) 1) (tl_type2 i) (tl_value2 i)).
    { rewrite Ecode. destruct (nchildren (h e)) as [|x [|y [|z l]]] eqn:Ech; [| | |discriminate].
      - injection Ei' as <-. cbn. repeat split; auto.
      - pose proof (operand_holds _ _ _ _ _ x L ltac:(inversion Hv; assumption) (Hch x ltac:(cbn; auto))) as O1.
        destruct (gen_operand cls (g_tl st) (Some x)) as [t1 v1]. injection Ei' as <-. cbn [tl_id tl_operator tl_type1 tl_value1 tl_type2 tl_value2].
        cbn [fst snd] in O1. cbn [nth_error length].
        split; [reflexivity|]. split; [reflexivity|]. split; [lia|]. split; [exact O1|reflexivity].
      - inversion Hv as [|? ? V1 Hv']; subst. inversion Hv' as [|? ? V2 _]; subst.
        pose proof (operand_holds _ _ _ _ _ x L V1 (Hch x ltac:(cbn; auto))) as O1.
        pose proof (operand_holds _ _ _ _ _ y L V2 (Hch y ltac:(cbn; auto))) as O2.
        destruct (gen_operand cls (g_tl st) (Some x)) as [t1 v1]. destruct (gen_operand cls (g_tl st) (Some y)) as [t2 v2].
        injection Ei' as <-. cbn [tl_id tl_operator tl_type1 tl_value1 tl_type2 tl_value2]. cbn [fst snd] in O1, O2.
        cbn [nth_error length].
        split; [reflexivity|]. split; [reflexivity|]. split; [lia|]. split; [exact O1|exact O2]. }
    destruct G as [G1 G2]. split; [exact G1|]. destruct Ho as [Ho|(lb & ub & Ho)]; rewrite Ho; exact G2. }
  destruct (cls e) eqn:Ec; cbn [atomic_id is_constant engine_of andb] in E.
  - (* CSignal *) injection E as <-.
    set (i := TlInstruction op_load type_atomic aid type_none 0 (size_of (g_tl st) + Z.of_nat (length before))).
    apply (loop_snoc before code cg0 done st e i); auto; [rewrite Ec; reflexivity|].
    unfold computes. rewrite Ec. cbn. auto.
  - (* CBool *)
    destruct (only_tl_parents h cls nodes e).
    + injection E as <-. destruct st. apply (loop_skip _ _ _ _ _ _ g_bz g_scqs L). rewrite Ec. reflexivity.
    + unfold gen_tl in E. rewrite Ec in E. discriminate.
  - destruct (gen_tl h cls code (Z.of_nat (length before)) (g_tl st) e) as [i|] eqn:Ei; [|discriminate].
    injection E as <-. destruct (OP o ltac:(auto) i eq_refl) as [P1 P2].
    apply loop_snoc; auto. rewrite Ec. reflexivity.
  - destruct (gen_tl h cls code (Z.of_nat (length before)) (g_tl st) e) as [i|] eqn:Ei; [|discriminate].
    injection E as <-. destruct (OP o ltac:(eauto) i eq_refl) as [P1 P2].
    apply loop_snoc; auto. rewrite Ec. reflexivity.
  - (* CFormula *)
    destruct (gen_tl h cls code (Z.of_nat (length before)) (g_tl st) e) as [i|] eqn:Ei; [|discriminate].
    injection E as <-.
    pose proof (shaped e) as Hs. rewrite Ec in Hs. destruct Hs as (x & Ex & Hx).
    pose proof (operand_holds _ _ _ _ _ x L Hx (Hch x ltac:(rewrite Ex; cbn; auto))) as O1.
    unfold gen_tl in Ei. rewrite Ec, Ex in Ei. unfold gen_operand in O1.
    assert (Hi : exists j, dict_get (g_tl st) x = Some j /\
                 i = TlInstruction op_return type_sub (tl_id j) type_direct number (size_of (g_tl st) + Z.of_nat (length before)) /\
                 match cls x with CBool _ => False | _ => True end).
    { destruct (cls x); try discriminate; destruct (dict_get (g_tl st) x) as [j|]; try discriminate; injection Ei as <-; eauto. }
    destruct Hi as (j & Ej & -> & Hx'). rewrite Ej in O1.
    apply loop_snoc; auto; [rewrite Ec; reflexivity|].
    unfold computes. rewrite Ec, Ex. cbn [nth_error tl_operator tl_type1 tl_value1 tl_type2 tl_value2].
    split; [reflexivity|]. split; [|auto]. destruct (cls x) eqn:Ecx; try contradiction; exact O1.
  - (* CSet *) injection E as <-. destruct st. apply (loop_skip _ _ _ _ _ _ g_bz g_scqs L). rewrite Ec. reflexivity.
  - (* CAtomic *)
    cbn [g_bz g_tl g_cg g_scqs] in E.
    destruct (gen_bz h cls (g_bz st) e) as [b|]; [|discriminate]. injection E as <-.
    set (i := TlInstruction op_load type_atomic aid type_none 0 (size_of (g_tl st) + Z.of_nat (length before))).
    apply (loop_snoc before code cg0 done st e i); auto; [rewrite Ec; reflexivity|].
    unfold computes. rewrite Ec. cbn. auto.
  - destruct (gen_bz h cls (g_bz st) e) as [b|]; [|discriminate]. injection E as <-.
    apply loop_skip; [assumption|rewrite Ec; reflexivity].
  - destruct (only_tl_parents h cls nodes e); [|destruct (gen_bz h cls (g_bz st) e) as [b|]; [|discriminate]]; injection E as <-.
    + destruct st. apply (loop_skip _ _ _ _ _ _ g_bz g_scqs L). rewrite Ec. reflexivity.
    + apply loop_skip; [assumption|rewrite Ec; reflexivity].
  - destruct (gen_bz h cls (g_bz st) e) as [b|]; [|discriminate]. injection E as <-.
    apply loop_skip; [assumption|rewrite Ec; reflexivity].
  - destruct (gen_bz h cls (g_bz st) e) as [b|]; [|discriminate]. injection E as <-.
    apply loop_skip; [assumption|rewrite Ec; reflexivity].
Qed.

Lemma gen_nodes_ok nodes before code cg0 : forall es done st st',
  loop_ok before code cg0 done st -> NoDup (done ++ es) ->
  (forall e, In e es -> owns (cls e) = true -> ~ In e (map fst cg0)) ->
  (forall l1 e l2, done ++ es = l1 ++ e :: l2 -> forall c, In c (nchildren (h e)) -> In c l1) ->
  gen_nodes h cls size nodes code (Z.of_nat (length before)) es st = Some st' ->
  loop_ok before code cg0 (done ++ es) st'.
Proof.
  induction es as [|e es IH]; intros done st st' L Hnd Hc Hord E; cbn in E.
  - injection E as <-. rewrite app_nil_r. exact L.
  - destruct (gen_node h cls size nodes code (Z.of_nat (length before)) st e) as [st1|] eqn:E1; [|discriminate].
    assert (Hn : ~ In e done).
    { apply NoDup_remove_2 in Hnd. intros H. apply Hnd. apply in_app_iff. auto. }
    replace (done ++ e :: es) with ((done ++ [e]) ++ es) in * by (rewrite <- app_assoc; reflexivity).
    apply (IH (done ++ [e]) st1 st'); auto.
    + destruct (owns (cls e)) eqn:Ho.
      * eapply gen_node_ok; eauto.
        -- apply Hc; cbn; auto.
        -- intros c Hin. apply (Hord done e es); [rewrite <- app_assoc; reflexivity|assumption].
      * (* a node without instruction leaves the temporal part alone *)
        assert (St : g_tl st1 = g_tl st /\ g_cg st1 = g_cg st).
        { unfold gen_node in E1. destruct (cls e) eqn:Ec; cbn [atomic_id is_constant engine_of andb owns] in E1, Ho; try discriminate.
          - destruct (only_tl_parents h cls nodes e); [injection E1 as <-; auto|].
            unfold gen_tl in E1. rewrite Ec in E1. discriminate.
          - injection E1 as <-; auto.
          - destruct (gen_bz h cls (g_bz st) e); [|discriminate]. injection E1 as <-; auto.
          - destruct (only_tl_parents h cls nodes e); [injection E1 as <-; auto|].
            destruct (gen_bz h cls (g_bz st) e); [|discriminate]. injection E1 as <-; auto.
          - destruct (gen_bz h cls (g_bz st) e); [|discriminate]. injection E1 as <-; auto.
          - destruct (gen_bz h cls (g_bz st) e); [|discriminate]. injection E1 as <-; auto. }
        destruct St as [S1 S2]. destruct st1 as [b1 t1 c1 s1]. cbn in S1, S2. subst. apply loop_skip; assumption.
    + intros x Hx. apply Hc. cbn. auto.
Qed.

Lemma loop_start before code cg0 bz scqs : loop_ok before code cg0 [] (Gen bz [] cg0 scqs).
Proof.
  constructor; cbn; auto.
  - intros [|k] n i E; discriminate.
  - intros [|k] n i E; discriminate.
  - rewrite app_nil_r. reflexivity.
Qed.

(** The counter of queues is the number of instructions. *)
Lemma gen_nodes_scqs nodes code offset : forall es st st',
  NoDup (map fst (g_tl st) ++ es) -> g_scqs st = size_of (g_tl st) ->
  gen_nodes h cls size nodes code offset es st = Some st' -> g_scqs st' = size_of (g_tl st').
Proof.
  induction es as [|e es IH]; intros st st' Hnd Hs E; cbn in E; [injection E as <-; assumption|].
  destruct (gen_node h cls size nodes code offset st e) as [st1|] eqn:E1; [|discriminate].
  assert (Hn : ~ In e (map fst (g_tl st))).
  { apply NoDup_remove_2 in Hnd. rewrite in_app_iff in Hnd. tauto. }
  assert (G : (g_tl st1 = g_tl st /\ g_scqs st1 = g_scqs st) \/
              (exists i, g_tl st1 = dict_set (g_tl st) e i /\ g_scqs st1 = g_scqs st + 1)).
  { unfold gen_node in E1. destruct (cls e) eqn:Ec; cbn [atomic_id is_constant engine_of andb g_bz g_tl g_cg g_scqs] in E1.
    - injection E1 as <-. right. eexists; split; reflexivity.
    - destruct (only_tl_parents h cls nodes e); [injection E1 as <-; auto|].
      destruct (gen_tl h cls code offset (g_tl st) e); [|discriminate]. injection E1 as <-. right; eexists; split; reflexivity.
    - destruct (gen_tl h cls code offset (g_tl st) e); [|discriminate]. injection E1 as <-. right; eexists; split; reflexivity.
    - destruct (gen_tl h cls code offset (g_tl st) e); [|discriminate]. injection E1 as <-. right; eexists; split; reflexivity.
    - destruct (gen_tl h cls code offset (g_tl st) e); [|discriminate]. injection E1 as <-. right; eexists; split; reflexivity.
    - injection E1 as <-; auto.
    - destruct (gen_bz h cls (g_bz st) e); [|discriminate]. injection E1 as <-. right; eexists; split; reflexivity.
    - destruct (gen_bz h cls (g_bz st) e); [|discriminate]. injection E1 as <-; auto.
    - destruct (only_tl_parents h cls nodes e); [injection E1 as <-; auto|].
      destruct (gen_bz h cls (g_bz st) e); [|discriminate]. injection E1 as <-; auto.
    - destruct (gen_bz h cls (g_bz st) e); [|discriminate]. injection E1 as <-; auto.
    - destruct (gen_bz h cls (g_bz st) e); [|discriminate]. injection E1 as <-; auto. }
  apply (IH st1 st'); [| |assumption].
  - destruct G as [[-> _]|(i & -> & _)].
    + apply NoDup_remove_1 in Hnd. exact Hnd.
    + rewrite dict_set_new by assumption. rewrite map_app, <- app_assoc. exact Hnd.
  - destruct G as [[-> ->]|(i & -> & ->)]; [assumption|].
    rewrite dict_set_new by assumption. rewrite Hs. unfold size_of. rewrite app_length. cbn [length]. lia.
Qed.
End Gen.

(** ** The whole function *)
Lemma enum_map {A B C} (f : A -> Z -> C) (id : B -> Z) : forall (l : list (A * B)) s,
  (forall k p, nth_error l k = Some p -> id (snd p) = Z.of_nat (s + k)) ->
  map (fun p => f (fst p) (id (snd p))) l =
  map (fun q => f (snd q) (Z.of_nat (fst q))) (combine (seq s (length l)) (map fst l)).
Proof.
  induction l as [|[a b] l IH]; intros s H; [reflexivity|].
  cbn [map length seq combine fst snd]. f_equal.
  - pose proof (H 0%nat (a, b) eq_refl) as E. cbn in E. rewrite E. f_equal. f_equal. lia.
  - apply IH. intros k p E. replace (S s + k)%nat with (s + S k)%nat by lia. apply H. exact E.
Qed.
Lemma temporal_part_app a b : temporal_part (a ++ b) = temporal_part a ++ temporal_part b.
Proof. apply flat_map_app. Qed.
Lemma config_part_app a b : config_part (a ++ b) = config_part a ++ config_part b.
Proof. apply flat_map_app. Qed.
Lemma temporal_bz l : temporal_part (map IBz l) = [].
Proof. induction l; auto. Qed.
Lemma temporal_tl l : temporal_part (map ITl l) = l.
Proof. induction l; cbn; [reflexivity|]. unfold temporal_part in IHl. rewrite IHl. reflexivity. Qed.
Lemma temporal_cg (l : list cg_instruction) : temporal_part (map (fun c => ICg (snd c)) l) = [].
Proof. induction l; auto. Qed.
Lemma config_bz l : config_part (map IBz l) = [].
Proof. induction l; auto. Qed.
Lemma config_tl l : config_part (map ITl l) = [].
Proof. induction l; auto. Qed.
Lemma config_cg (l : list cg_instruction) : config_part (map (fun c => ICg (snd c)) l) = map snd l.
Proof. induction l; cbn; [reflexivity|]. unfold config_part in IHl. rewrite IHl. reflexivity. Qed.

Lemma filter_concat {A} (p : A -> bool) l : filter p (concat l) = concat (map (filter p) l).
Proof. induction l; cbn; [reflexivity|]. rewrite filter_app, IHl. reflexivity. Qed.
Lemma concat_singletons {A B} (f : A -> B) l : concat (map (fun x => [f x]) l) = map f l.
Proof. induction l; cbn; [reflexivity|]. rewrite IHl. reflexivity. Qed.
Lemma nth_error_app_cases {A} (l1 l2 : list A) k x : nth_error (l1 ++ l2) k = Some x ->
  (k < length l1)%nat /\ nth_error l1 k = Some x \/
  exists j, k = (length l1 + j)%nat /\ nth_error l2 j = Some x.
Proof.
  intros E. destruct (Nat.lt_ge_cases k (length l1)).
  - left. rewrite nth_error_app1 in E; auto.
  - right. exists (k - length l1)%nat. rewrite nth_error_app2 in E by assumption. split; [lia|assumption].
Qed.
Lemma NoDup_filter_app {A} (p : A -> bool) l1 l2 : NoDup l1 -> NoDup l2 ->
  (forall x, In x l1 -> In x l2 -> p x = false) -> NoDup (filter p l1 ++ filter p l2).
Proof.
  intros H1 H2 Hd. induction H1 as [|x l1 Hx H1 IH]; cbn; [apply NoDup_filter; assumption|].
  assert (IH' : NoDup (filter p l1 ++ filter p l2)) by (apply IH; intros; apply Hd; cbn; auto).
  destruct (p x) eqn:E; [|assumption]. cbn. constructor; [|assumption].
  rewrite in_app_iff, !filter_In. intros [[H _]|[H _]]; [tauto|]. rewrite Hd in E; cbn; auto; discriminate.
Qed.

Definition children_first (h : heap) (l : list nat) : Prop :=
  forall l1 n l2, l = l1 ++ n :: l2 -> forall c, In c (nchildren (h n)) -> In c l1.

Lemma gen_assembly_well_formed h cls size fts pts asm :
  tl_shaped h cls -> NoDup fts -> NoDup pts -> children_first h fts -> children_first h pts ->
  (forall n, In n fts -> In n pts -> owns (cls n) = false) ->
  gen_assembly_of h cls size fts pts = Some asm ->
  well_formed h cls size (length (filter (fun n => owns (cls n)) fts))
    (filter (fun n => owns (cls n)) fts ++ filter (fun n => owns (cls n)) pts) asm.
Proof.
  intros Hs N1 N2 O1 O2 Hd E. unfold gen_assembly_of in E.
  destruct (gen_nodes h cls size (fts ++ pts) ft_code 0 fts (Gen [] [] [] 0)) as [st|] eqn:E1; [|discriminate].
  pose proof (gen_nodes_ok h cls size Hs (fts ++ pts) [] ft_code [] fts [] _ st
                (loop_start h cls size [] ft_code [] [] 0) N1 ltac:(auto) O1 E1) as L1.
  pose proof (gen_nodes_scqs h cls size (fts ++ pts) ft_code 0 fts (Gen [] [] [] 0) st N1 eq_refl E1) as Sc.
  cbn [app] in L1. set (p := fun n => owns (cls n)) in *.
  pose proof (lo_keys _ _ _ _ _ _ _ _ L1) as K1. fold p in K1.
  assert (Len1 : length (g_tl st) = length (filter p fts)) by (rewrite <- K1, map_length; reflexivity).
  destruct (gen_nodes h cls size (fts ++ pts) pt_code (g_scqs st) pts (Gen (g_bz st) [] (g_cg st) (g_scqs st)))
    as [st'|] eqn:E2; [|discriminate].
  rewrite Sc in E2. unfold size_of in E2. rewrite Len1 in E2.
  assert (Kc : map fst (g_cg st) = filter p fts).
  { rewrite (lo_cg _ _ _ _ _ _ _ _ L1). cbn [app]. rewrite map_map. cbn. exact K1. }
  pose proof (gen_nodes_ok h cls size Hs (fts ++ pts) (filter p fts) pt_code (g_cg st) pts [] _ st'
                (loop_start h cls size (filter p fts) pt_code (g_cg st) (g_bz st) _) N2
                ltac:(intros e He Ho; rewrite Kc, filter_In; intros [Hf _]; rewrite (Hd e Hf He) in Ho; discriminate)
                O2 E2) as L2.
  cbn [app] in L2.
  pose proof (lo_keys _ _ _ _ _ _ _ _ L2) as K2. fold p in K2.
  injection E as <-.
  set (all := g_tl st ++ g_tl st').
  assert (Ka : map fst all = filter p fts ++ filter p pts) by (unfold all; rewrite map_app, K1, K2; reflexivity).
  assert (Ia : forall k q, nth_error all k = Some q -> tl_id (snd q) = Z.of_nat (0 + k)).
  { intros k [n i] Ek. cbn. unfold all in Ek. apply nth_error_app_cases in Ek as [[_ Ek]|(j & -> & Ek)].
    - pose proof (lo_ids _ _ _ _ _ _ _ _ L1 k n i Ek) as H. cbn in H. lia.
    - pose proof (lo_ids _ _ _ _ _ _ _ _ L2 j n i Ek) as H. lia. }
  assert (T : temporal_part (map IBz (values (move_prev (g_bz st'))) ++ map ITl (values (g_tl st)) ++
      map ITl (values (g_tl st')) ++ map (fun c : cg_instruction => ICg (snd c))
        (move_temp (length (concat (values (g_cg st')))) 0 (concat (values (g_cg st'))))) = map snd all).
  { rewrite !temporal_part_app, temporal_bz, !temporal_tl, temporal_cg. cbn [app]. rewrite app_nil_r.
    unfold all, values. rewrite map_app. reflexivity. }
  unfold well_formed. rewrite T. split; [|split; [|split]].
  - apply NoDup_filter_app; assumption.
  - rewrite map_length. rewrite <- Ka, map_length. reflexivity.
  - intros k n i Hk Hi. rewrite <- Ka in Hk.
    assert (Hp : nth_error all k = Some (n, i)).
    { destruct (nth_error all k) as [[n' i']|] eqn:Ek.
      - erewrite map_nth_error in Hk by eassumption. erewrite map_nth_error in Hi by eassumption. cbn in *. congruence.
      - apply nth_error_None in Ek. assert (k < length (map fst all))%nat by (apply nth_error_Some; congruence).
        rewrite map_length in *. lia. }
    split; [rewrite <- (Nat.add_0_l k); apply (Ia k (n, i) Hp)|].
    unfold all in Hp. apply nth_error_app_cases in Hp as [[Hlt Hp]|(j & -> & Hp)].
    + replace (k <? length (filter p fts))%nat with true by (symmetry; apply Nat.ltb_lt; lia).
      pose proof (lo_computes _ _ _ _ _ _ _ _ L1 k n i Hp) as C. cbn [app length Nat.add] in C. rewrite K1 in C.
      assert (Hle : (k <= length (filter p fts))%nat) by lia. exact (computes_mono h cls size ft_code (filter p fts) (filter p pts) k n i Hle C).
    + replace (length (g_tl st) + j <? length (filter p fts))%nat with false by (symmetry; apply Nat.ltb_ge; lia).
      pose proof (lo_computes _ _ _ _ _ _ _ _ L2 j n i Hp) as C. rewrite K2, <- Len1 in C. exact C.
  - rewrite !config_part_app, config_bz, !config_tl, config_cg. cbn [app].
    rewrite move_temp_all, map_app, !filter_concat.
    assert (V : values (g_cg st') = map (fun q => gen_cg cls size (snd q) (Z.of_nat (fst q)))
                                        (combine (seq 0 (length all)) (map fst all))).
    { rewrite (lo_cg _ _ _ _ _ _ _ _ L2), (lo_cg _ _ _ _ _ _ _ _ L1). unfold values. cbn [app].
      rewrite map_app, !map_map. cbn [snd]. rewrite <- map_app. fold all.
      apply (enum_map (gen_cg cls size) tl_id). exact Ia. }
    rewrite V, !map_map. rewrite <- Ka, map_length.
    f_equal.
    + rewrite (map_ext _ (fun q => [(SCQ, size_command cls size (fst q) (snd q))])).
      * rewrite concat_singletons, map_map. reflexivity.
      * intros [k n]. unfold gen_cg, size_command. cbn [fst snd]. destruct (cls n); reflexivity.
    + rewrite flat_map_concat_map, concat_map, map_map. f_equal. apply map_ext.
      intros [k n]. unfold gen_cg, bounds_command. cbn [fst snd]. destruct (cls n); reflexivity.
Qed.
