(** * From assembly to the loaded monitor (proofs) *)
From Coq Require Import List Arith ZArith Bool Lia.
Require Import Verif.Graph Verif.Binary Verif.BinarySpec Verif.BinaryProofs.
Require Import Verif.Assembly Verif.Layout Verif.AssemblySpec Verif.LayoutSpec Verif.LayoutProofs.
Require Verif.GraphSpec Verif.AssembleTotal.
Import ListNotations.
Local Open Scope Z_scope.

Lemma configs_result asm : configs (map result asm) = map c_of (config_part asm).
Proof.
  induction asm as [|[b|t|t] asm IH]; cbn [map]; [reflexivity| | |].
  - change (configs (result (IBz b) :: map result asm)) with
      ((match result (IBz b) with Configure i => [i] | _ => [] end) ++ configs (map result asm)).
    unfold config_part. cbn [flat_map app]. rewrite IH. unfold result.
    destruct (bz_operator b =? op_iconst); [reflexivity|]. destruct (bz_operator b =? op_fconst); reflexivity.
  - exact IH.
  - unfold config_part. cbn [flat_map app map]. unfold configs. cbn [flat_map result app]. f_equal. exact IH.
Qed.
Lemma table_result asm : table (map result asm) = map c_of (temporal_part asm).
Proof.
  induction asm as [|[b|t|t] asm IH]; cbn [map]; [reflexivity| | |].
  - change (table (result (IBz b) :: map result asm)) with
      ((match result (IBz b) with StoreTl i => [i] | _ => [] end) ++ table (map result asm)).
    unfold temporal_part. cbn [flat_map app]. rewrite IH. unfold result.
    destruct (bz_operator b =? op_iconst); [reflexivity|]. destruct (bz_operator b =? op_fconst); reflexivity.
  - unfold temporal_part. cbn [flat_map app map]. unfold table. cbn [flat_map result app]. f_equal. exact IH.
  - exact IH.
Qed.

Section Boot.
Variable h : heap.
Variable cls : nat -> nclass.
Variable size : nat -> Z.

Definition q_of (n : nat) : qspec := (size n, match cls n with CTemporal _ lb ub => Some (lb, ub) | _ => None end).
Lemma width_q_of n : width (q_of n) = size n + block_slots (cls n).
Proof. unfold width, q_of, block_slots. cbn [fst snd]. destruct (cls n); reflexivity. Qed.

Lemma commands_match : forall owners s,
  map c_of (map (fun p => size_command cls size (fst p) (snd p)) (combine (seq s (length owners)) owners)) =
  map (fun p => scq_cmd (fst p) (snd p)) (combine (seq s (length (map q_of owners))) (map q_of owners)) /\
  map c_of (flat_map (fun p => bounds_command cls (fst p) (snd p)) (combine (seq s (length owners)) owners)) =
  flat_map (fun p => temp_cmd (fst p) (snd p)) (combine (seq s (length (map q_of owners))) (map q_of owners)).
Proof.
  induction owners as [|n owners IH]; intros s; [split; reflexivity|].
  destruct (IH (S s)) as [I1 I2].
  cbn [length seq combine map flat_map fst snd]. rewrite map_app. split.
  - rewrite I1. f_equal. unfold size_command, scq_cmd, c_of, q_of. cbn [fst snd tl_value1 tl_value2 tl_id tl_type1 tl_type2 tl_operator].
    destruct (cls n); reflexivity.
  - rewrite I2. f_equal. unfold bounds_command, temp_cmd, q_of. cbn [snd]. destruct (cls n); reflexivity.
Qed.
Lemma slots_sizes : forall owners s,
  fold_right (fun i n => (if tl_type1 i =? type_atomic then tl_value1 i else 0) + n) 0
    (map (fun p => size_command cls size (fst p) (snd p)) (combine (seq s (length owners)) owners)) =
  fold_right (fun n z => size n + z) 0 owners /\
  fold_right (fun i n => (if tl_type1 i =? type_atomic then tl_value1 i else 0) + n) 0
    (flat_map (fun p => bounds_command cls (fst p) (snd p)) (combine (seq s (length owners)) owners)) = 0 /\
  filter (fun i => tl_type1 i =? type_sub)
    (map (fun p => size_command cls size (fst p) (snd p)) (combine (seq s (length owners)) owners)) = [] /\
  Z.of_nat (length (filter (fun i => tl_type1 i =? type_sub)
    (flat_map (fun p => bounds_command cls (fst p) (snd p)) (combine (seq s (length owners)) owners)))) * 4 =
  fold_right (fun n z => block_slots (cls n) + z) 0 owners.
Proof.
  induction owners as [|n owners IH]; intros s; [repeat split; reflexivity|].
  destruct (IH (S s)) as (I1 & I2 & I3 & I4).
  cbn [length seq combine map flat_map fst snd fold_right]. rewrite fold_right_app, filter_app, app_length.
  rewrite I1, I2. cbn [filter]. rewrite I3.
  split; [reflexivity|]. split; [unfold bounds_command; destruct (cls n); reflexivity|]. split; [reflexivity|].
  rewrite Nat2Z.inj_add, Z.mul_add_distr_r, I4. f_equal.
  unfold bounds_command, block_slots. destruct (cls n); reflexivity.
Qed.

Lemma total_slots nft owners asm : well_formed h cls size nft owners asm -> total (map q_of owners) = arena_slots asm.
Proof.
  intros (_ & _ & _ & Ec). unfold arena_slots, max_queue_slots, max_temporal, metadata_size. rewrite Ec.
  rewrite fold_right_app, filter_app, app_length. destruct (slots_sizes owners 0) as (I1 & I2 & I3 & I4).
  rewrite I2, I1, I3. cbn [length Nat.add]. rewrite I4. clear.
  unfold total. induction owners as [|n owners IH]; [reflexivity|]. cbn [map fold_right]. rewrite IH, width_q_of. lia.
Qed.

Lemma load_arena_of nft owners asm : well_formed h cls size nft owners asm ->
  load_arena (map result asm) = arena_of (map q_of owners).
Proof.
  intros (_ & _ & _ & Ec). unfold load_arena, arena_of, commands. rewrite configs_result, Ec, map_app.
  destruct (commands_match owners 0) as [-> ->]. reflexivity.
Qed.

Lemma loaded_queues nft owners asm :
  well_formed h cls size nft owners asm -> Forall (fun n => 1 <= size n) owners -> arena_slots asm < 2 ^ 32 ->
  forall k n, nth_error owners k = Some n ->
    queue_at cls size (arena_slots asm) owners (load_arena (map result asm)) k n.
Proof.
  intros W Hs Ht k n Ek. rewrite (load_arena_of nft owners asm W). rewrite <- (total_slots nft owners asm W) in *.
  assert (Hpos : Forall (fun q => 1 <= fst q) (map q_of owners)).
  { apply Forall_map. eapply Forall_impl; [|exact Hs]. intros x Hx. exact Hx. }
  destruct (arena_bounds _ Hpos Ht) as [B M].
  set (qs := map q_of owners) in *.
  assert (Eq : forall j m, nth_error owners j = Some m -> nth_error qs j = Some (q_of m)).
  { intros j m E. unfold qs. apply map_nth_error. exact E. }
  assert (Blk : forall j m, nth_error owners j = Some m -> a_blocks (arena_of qs) (Z.of_nat j) = Block (size m) (offset qs j)).
  { intros j m E. destruct (B j _ (Eq j m E)) as [_ B2]. unfold q_of in B2. cbn [fst snd] in B2.
    assert (Hlt : (j <? length qs)%nat = true) by (apply Nat.ltb_lt, nth_error_Some; rewrite (Eq j m E); discriminate).
    destruct (cls m); try exact B2. rewrite Hlt in B2. exact (proj1 B2). }
  destruct (B k _ (Eq k n Ek)) as [B1 B2].
  pose proof (offset_inside qs k _ Hpos (Eq k n Ek)) as [In1 In2]. rewrite width_q_of in In2.
  assert (Hn : 1 <= size n) by (rewrite Forall_forall in Hs; apply Hs; eapply nth_error_In; exact Ek).
  assert (Zero : forall x, offset qs k < x < offset qs k + size n + block_slots (cls n) ->
            ~ (x = offset qs k + size n + 2) -> ~ (x = offset qs k + size n + 3) -> a_mem (arena_of qs) x = 0).
  { intros x Hx Hx2 Hx3. apply M. intros j q Ej.
    assert (Em : exists m, nth_error owners j = Some m /\ q = q_of m).
    { unfold qs in Ej. rewrite nth_error_map in Ej. destruct (nth_error owners j) as [m|]; [|discriminate].
      exists m. split; [reflexivity|]. cbn in Ej. congruence. }
    destruct Em as (m & Em & ->).
    assert (Hm : 1 <= size m) by (rewrite Forall_forall in Hs; apply Hs; eapply nth_error_In; exact Em).
    assert (Hb : snd (q_of m) <> None -> block_slots (cls m) = 4) by (unfold q_of, block_slots; cbn; destruct (cls m); congruence).
    assert (Hb0 : 0 <= block_slots (cls m)) by (unfold block_slots; destruct (cls m); lia).
    change (fst (q_of m)) with (size m).
    destruct (lt_eq_lt_dec j k) as [[L|L]|L].
    - pose proof (offset_apart qs j k _ Hpos L Ej) as Ap. rewrite width_q_of in Ap.
      split; [lia|]. intros Hne. specialize (Hb Hne). split; lia.
    - subst j. replace m with n in * by congruence. split; [lia|]. intros Hne. split; assumption.
    - pose proof (offset_apart qs k j _ Hpos L (Eq k n Ek)) as Ap. rewrite width_q_of in Ap.
      split; [lia|]. intros Hne. split; lia. }
  unfold queue_at. rewrite (Blk k n Ek). cbn [b_queue b_length].
  split; [reflexivity|]. split; [assumption|]. split; [rewrite Z.add_assoc in In2; exact In2|]. split; [|split; [|split]].
  - intros j n' Hj Ej. rewrite (Blk j n' Ej). cbn [b_queue].
    pose proof (offset_apart qs k j _ Hpos Hj (Eq k n Ek)) as Ap. rewrite width_q_of in Ap. rewrite Z.add_assoc in Ap. exact Ap.
  - exact B1.
  - intros x Hx. assert (0 <= block_slots (cls n)) by (unfold block_slots; destruct (cls n); lia). apply Zero; lia.
  - unfold q_of in B2. cbn [fst snd] in B2.
    assert (Hlt : (k <? length qs)%nat = true) by (apply Nat.ltb_lt, nth_error_Some; rewrite (Eq k n Ek); discriminate).
    destruct (cls n) eqn:Ec; try exact I. rewrite Hlt in B2. destruct B2 as (_ & B3 & B4).
    cbn [block_slots] in Zero. repeat split; [apply Zero; lia|apply Zero; lia|assumption|assumption].
Qed.
End Boot.

Lemma scq_size_pos h cls wpd bpd const nodes n : 0 <= const -> owns (cls n) = true -> 1 <= scq_size h cls wpd bpd const nodes n.
Proof. intros Hc Ho. unfold scq_size. destruct (cls n); try discriminate; lia. Qed.

Lemma graph_queues h T cls wpd bpd const ft pt aux :
  GraphSpec.denotes h T -> tl_shaped h cls ->
  (forall n, GraphSpec.reachable h [ft] n -> assemblable h cls ft_code n) ->
  (forall n, GraphSpec.reachable h [pt] n -> assemblable h cls pt_code n) ->
  (forall n, GraphSpec.reachable h [ft] n -> GraphSpec.reachable h [pt] n -> owns (cls n) = false) ->
  0 <= const ->
  exists fuel0 nodes owners asm,
    (forall fuel, (fuel0 <= fuel)%nat -> gen_assembly fuel h cls wpd bpd const ft pt = Some asm) /\
    (forall n, In n owners <-> (GraphSpec.reachable h [ft] n \/ GraphSpec.reachable h [pt] n) /\ owns (cls n) = true) /\
    (forall bytes, Forall fits asm -> arena_slots asm < 2 ^ 32 -> assemble_binary asm aux = Some bytes ->
     exists acts, load bytes = Some acts /\
       forall k n, nth_error owners k = Some n ->
         queue_at cls (scq_size h cls wpd bpd const nodes) (arena_slots asm) owners (load_arena acts) k n).
Proof.
  intros HT Hs A1 A2 Hd Hc.
  destruct (AssembleTotal.assembly_correct h T cls wpd bpd const ft pt HT Hs A1 A2 Hd)
    as (fuel0 & nodes & nft & owners & asm & E & Hn & I1 & I2 & W).
  exists fuel0, nodes, owners, asm. split; [exact E|].
  assert (Io : forall n, In n owners <-> (GraphSpec.reachable h [ft] n \/ GraphSpec.reachable h [pt] n) /\ owns (cls n) = true).
  { intros n. rewrite <- (firstn_skipn nft owners), in_app_iff, I1, I2. tauto. }
  split; [exact Io|]. intros bytes Hf Ha Eb. exists (map result asm). split; [eapply load_value; eassumption|].
  eapply loaded_queues; [exact W| |exact Ha]. apply Forall_forall. intros n Hin. apply scq_size_pos; [assumption|]. apply Io, Hin.
Qed.

Lemma slot_bound cls owners k c t v : (k < length owners)%nat ->
  slot_holds cls owners k c t v -> t = type_sub -> 0 <= v < Z.of_nat (length owners).
Proof.
  intros Hk H ->. unfold slot_holds in H. destruct c as [c|]; [|discriminate].
  destruct (cls c); try (destruct H as (_ & j & -> & Hj & _); lia). destruct H as [H _]. discriminate.
Qed.
Lemma well_formed_bounds h cls size nft owners asm :
  well_formed h cls size nft owners asm ->
  forall i, In i (temporal_part asm) ->
    0 <= tl_id i < max_tl asm /\
    (tl_type1 i = type_sub -> 0 <= tl_value1 i < max_tl asm) /\
    (tl_type2 i = type_sub -> 0 <= tl_value2 i < max_tl asm).
Proof.
  intros (_ & El & H & _) i Hi. apply In_nth_error in Hi as [k Ek].
  assert (Hk : (k < length (temporal_part asm))%nat) by (apply nth_error_Some; congruence).
  destruct (nth_error owners k) as [n|] eqn:En; [|apply nth_error_None in En; lia].
  destruct (H k n i En Ek) as [Hid Hc]. unfold max_tl. rewrite El. rewrite Hid.
  split; [lia|]. assert (Hk' : (k < length owners)%nat) by lia. unfold computes in Hc.
  destruct (cls n); try contradiction.
  - destruct Hc as (_ & -> & _ & ->). split; discriminate.
  - destruct Hc as (_ & _ & S1 & S2). split; eapply slot_bound; eassumption.
  - destruct Hc as (_ & _ & S1 & S2). split; eapply slot_bound; eassumption.
  - destruct Hc as (_ & S1 & -> & _). split; [eapply slot_bound; eassumption|discriminate].
  - destruct Hc as (_ & -> & _ & ->). split; discriminate.
Qed.
