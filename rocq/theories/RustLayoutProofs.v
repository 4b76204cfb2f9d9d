(** * Queue configuration of the Rust monitor (proofs) *)
From Coq Require Import List Arith ZArith Bool Lia.
Require Import Verif.Graph Verif.GraphSpec Verif.Binary Verif.BinarySpec Verif.BinaryProofs Verif.Engine.
Require Import Verif.Assembly Verif.Layout Verif.AssemblySpec Verif.LayoutSpec Verif.LayoutProofs Verif.BootProofs Verif.AssembleTotal.
Require Import Verif.RustBooleanizer Verif.RustBzSpec Verif.RustBzOps Verif.RustLayout Verif.RustLayoutSpec.
Import ListNotations.
Local Open Scope Z_scope.

(** Where queue [k] starts: the queues before it, without parameter blocks. *)
Definition bare (qs : list qspec) : list qspec := map (fun q => (fst q, None)) qs.
Definition rust_offset (qs : list qspec) (k : nat) : Z := offset (bare qs) k.
Definition bounds_of (q : qspec) : Z * Z := match snd q with Some b => b | None => (infinity_word, infinity_word) end.
Definition sized (qs : list qspec) (n m : nat) (b : Z -> rust_block) : Prop :=
  forall k q, (k < n)%nat -> nth_error qs k = Some q ->
    b (Z.of_nat k) = RustBlock (fst q) (rust_offset qs k)
      (if (k <? m)%nat then fst (bounds_of q) else infinity_word) (if (k <? m)%nat then snd (bounds_of q) else infinity_word).
Definition fresh (n : nat) (b : Z -> rust_block) : Prop := forall k, Z.of_nat n <= k -> b k = default_block.

Lemma bare_pos qs : Forall (fun q : qspec => 1 <= fst q) qs -> Forall (fun q : qspec => 1 <= fst q) (bare qs).
Proof. intros H. apply Forall_map. eapply Forall_impl; [|exact H]. intros q Hq. exact Hq. Qed.
Lemma bare_nth qs k q : nth_error qs k = Some q -> nth_error (bare qs) k = Some (fst q, None).
Proof. intros E. unfold bare. apply (map_nth_error (fun q : qspec => (fst q, None)) k qs E). Qed.
Lemma width_bare (q : qspec) : width (fst q, None) = fst q.
Proof. unfold width. cbn. lia. Qed.

Lemma rust_sizes qs : Forall (fun q => 1 <= fst q) qs -> total (bare qs) < 2 ^ 32 ->
  forall post pre b, qs = pre ++ post -> sized qs (length pre) 0 b -> fresh (length pre) b ->
  exists b', rust_configures (map (fun p => scq_cmd (fst p) (snd p)) (combine (seq (length pre) (length post)) post)) b = Some b' /\
    sized qs (length qs) 0 b'.
Proof.
  intros Hpos Htot. induction post as [|q post IH]; intros pre b Hq Hs Hf.
  - exists b. rewrite app_nil_r in Hq. subst pre. split; [reflexivity|exact Hs].
  - cbn [length seq combine map fst snd rust_configures].
    assert (Eq : nth_error qs (length pre) = Some q) by (rewrite Hq, nth_error_app2, Nat.sub_diag by lia; reflexivity).
    pose proof (offset_inside (bare qs) _ _ (bare_pos _ Hpos) (bare_nth _ _ _ Eq)) as [In1 In2]. rewrite width_bare in In2.
    assert (Hq1 : 1 <= fst q) by (rewrite Forall_forall in Hpos; apply Hpos; eapply nth_error_In; eassumption).
    assert (Ec : rust_configure b (scq_cmd (length pre) q) =
      Some (update b (Z.of_nat (length pre)) (RustBlock (fst q) (rust_offset qs (length pre)) infinity_word infinity_word))).
    { unfold rust_configure, scq_cmd. cbn [c_memref c_op1_type c_op1_value]. change (0 =? 0) with true. cbv iota.
      rewrite (Hf (Z.of_nat (length pre))) by lia. cbn [rb_lb rb_ub default_block].
      assert (E1 : (if 0 <? Z.of_nat (length pre)
                    then rb_queue (b (Z.of_nat (length pre) - 1)) + rb_length (b (Z.of_nat (length pre) - 1)) else 0)
                   = rust_offset qs (length pre)).
      { destruct (length pre) as [|n] eqn:En; [reflexivity|].
        replace (0 <? Z.of_nat (S n)) with true by (symmetry; apply Z.ltb_lt; lia).
        replace (Z.of_nat (S n) - 1) with (Z.of_nat n) by lia.
        destruct (nth_error qs n) as [q'|] eqn:Eq'.
        - rewrite (Hs n q' ltac:(lia) Eq'). cbn [rb_queue rb_length]. unfold rust_offset.
          rewrite (offset_step (bare qs) n _ (bare_nth _ _ _ Eq')), width_bare. lia.
        - apply nth_error_None in Eq'. assert (S n < length qs)%nat by (apply nth_error_Some; congruence). lia. }
      rewrite E1. replace (rust_offset qs (length pre) <? 2 ^ 32) with true by (symmetry; apply Z.ltb_lt; unfold rust_offset; lia). reflexivity. }
    rewrite Ec. replace (S (length pre)) with (length (pre ++ [q])) by (rewrite app_length; cbn; lia).
    apply IH; [rewrite Hq, <- app_assoc; reflexivity| |]; rewrite app_length; cbn [length].
    + intros k q' Hk Ek. unfold update. destruct (Z.eqb_spec (Z.of_nat k) (Z.of_nat (length pre))) as [E|E].
      * apply Nat2Z.inj in E. subst k. replace q' with q by congruence. reflexivity.
      * apply Hs; [lia|exact Ek].
    + intros k Hk. unfold update. destruct (Z.eqb_spec k (Z.of_nat (length pre))) as [E|E]; [lia|]. apply Hf. lia.
Qed.
Lemma rust_bounds qs : forall post pre b, qs = pre ++ post -> sized qs (length qs) (length pre) b ->
  exists b', rust_configures (flat_map (fun p => temp_cmd (fst p) (snd p)) (combine (seq (length pre) (length post)) post)) b = Some b' /\
    sized qs (length qs) (length qs) b'.
Proof.
  induction post as [|q post IH]; intros pre b Hq Hs.
  - exists b. rewrite app_nil_r in Hq. subst pre. split; [reflexivity|exact Hs].
  - cbn [length seq combine flat_map fst snd].
    assert (Eq : nth_error qs (length pre) = Some q) by (rewrite Hq, nth_error_app2, Nat.sub_diag by lia; reflexivity).
    assert (Lp : (length pre < length qs)%nat) by (apply nth_error_Some; congruence).
    assert (Next : forall b', sized qs (length qs) (S (length pre)) b' ->
      exists b'', rust_configures (flat_map (fun p => temp_cmd (fst p) (snd p)) (combine (seq (S (length pre)) (length post)) post)) b' = Some b'' /\
        sized qs (length qs) (length qs) b'').
    { intros b' H. replace (S (length pre)) with (length (pre ++ [q])) in * by (rewrite app_length; cbn; lia).
      apply IH; [rewrite Hq, <- app_assoc; reflexivity|exact H]. }
    unfold temp_cmd at 1. cbn [snd]. destruct (snd q) as [[lb ub]|] eqn:Es; cbn [app rust_configures].
    + unfold rust_configure at 1. cbn [c_memref c_op1_type c_op1_value c_op2_value]. change (2 =? 0) with false. change (2 =? 2) with true. cbv iota.
      apply Next. intros k q' Hk Ek. unfold update. destruct (Z.eqb_spec (Z.of_nat k) (Z.of_nat (length pre))) as [E|E].
      * apply Nat2Z.inj in E. subst k. assert (q' = q) by congruence. subst q'. rewrite (Hs _ _ Lp Eq). cbn [rb_length rb_queue].
        replace (length pre <? S (length pre))%nat with true by (symmetry; apply Nat.ltb_lt; lia).
        unfold bounds_of. rewrite Es. reflexivity.
      * rewrite (Hs k q' Hk Ek). assert (k <> length pre) by lia.
        replace (k <? S (length pre))%nat with (k <? length pre)%nat; [reflexivity|].
        destruct (Nat.ltb_spec k (length pre)), (Nat.ltb_spec k (S (length pre))); lia.
    + apply Next. intros k q' Hk Ek. rewrite (Hs k q' Hk Ek). destruct (Nat.eq_dec k (length pre)) as [->|Ne].
      * assert (q' = q) by congruence. subst q'. unfold bounds_of. rewrite Es. cbn [fst snd].
        destruct (length pre <? length pre)%nat, (length pre <? S (length pre))%nat; reflexivity.
      * replace (k <? S (length pre))%nat with (k <? length pre)%nat; [reflexivity|].
        destruct (Nat.ltb_spec k (length pre)), (Nat.ltb_spec k (S (length pre))); lia.
Qed.
Lemma rust_configures_app l1 : forall l2 b,
  rust_configures (l1 ++ l2) b = match rust_configures l1 b with Some b => rust_configures l2 b | None => None end.
Proof. induction l1 as [|i l1 IH]; intros l2 b; [reflexivity|]. cbn. destruct (rust_configure b i); [apply IH|reflexivity]. Qed.
Lemma rust_configured qs : Forall (fun q => 1 <= fst q) qs -> total (bare qs) < 2 ^ 32 ->
  exists b, rust_configures (commands qs) (fun _ => default_block) = Some b /\ sized qs (length qs) (length qs) b.
Proof.
  intros Hpos Htot. unfold commands. rewrite rust_configures_app.
  destruct (rust_sizes qs Hpos Htot qs [] (fun _ => default_block) eq_refl) as (b & E & Hs).
  { intros k q Hk. cbn in Hk. lia. }
  { intros k _. reflexivity. }
  cbn [length] in E. rewrite E. apply (rust_bounds qs qs [] b eq_refl Hs).
Qed.

Lemma repaired_parts acts : configs (map repaired acts) = configs acts /\ table (map repaired acts) = table acts.
Proof.
  induction acts as [|a acts [IH1 IH2]]; [split; reflexivity|].
  unfold configs, table in *. cbn [map flat_map]. rewrite IH1, IH2. split; f_equal; destruct a; reflexivity.
Qed.

(** In the loaded monitor queue [k] of node [n] is the right one. *)
Section Boot.
Variables (h : heap) (cls : nat -> nclass) (size : nat -> Z) (nft : nat) (owners : list nat) (asm : list instruction).
Hypothesis W : well_formed h cls size nft owners asm.
Hypothesis Hs : Forall (fun n => 1 <= size n) owners.

Lemma bare_total : total (bare (map (q_of cls size) owners)) = max_queue_slots asm.
Proof using W.
  destruct W as (_ & _ & _ & Ec). unfold max_queue_slots. rewrite Ec, fold_right_app.
  destruct (slots_sizes cls size owners 0) as (I1 & I2 & _). rewrite I2, I1. clear.
  unfold total, bare. rewrite map_map. induction owners as [|n l IH]; [reflexivity|]. cbn [map fold_right]. rewrite IH. f_equal.
  unfold width, q_of. cbn [fst snd]. lia.
Qed.
Lemma rust_loaded_queues : max_queue_slots asm < 2 ^ 32 -> exists b, rust_blocks (map result asm) = Some b /\
  forall k n, nth_error owners k = Some n -> rust_queue_at cls size (max_queue_slots asm) owners b k n.
Proof using W Hs.
  intros Ht. assert (Hpos : Forall (fun q => 1 <= fst q) (map (q_of cls size) owners)).
  { apply Forall_map. eapply Forall_impl; [|exact Hs]. intros x Hx. exact Hx. }
  rewrite <- bare_total in Ht. destruct (rust_configured _ Hpos Ht) as (b & E & S1).
  exists b. split.
  { unfold rust_blocks. rewrite configs_result. destruct W as (_ & _ & _ & Ec). rewrite Ec, map_app.
    destruct (commands_match cls size owners 0) as [-> ->]. exact E. }
  set (qs := map (q_of cls size) owners) in *.
  assert (Eq : forall j m, nth_error owners j = Some m -> nth_error qs j = Some (q_of cls size m)).
  { intros j m E'. unfold qs. apply map_nth_error. exact E'. }
  assert (Blk : forall j m, nth_error owners j = Some m -> b (Z.of_nat j) =
    RustBlock (size m) (rust_offset qs j) (fst (bounds_of (q_of cls size m))) (snd (bounds_of (q_of cls size m)))).
  { intros j m E'. assert (Hlt : (j < length qs)%nat) by (apply nth_error_Some; rewrite (Eq j m E'); discriminate).
    rewrite (S1 j _ Hlt (Eq j m E')). replace (j <? length qs)%nat with true by (symmetry; apply Nat.ltb_lt; exact Hlt). reflexivity. }
  intros k n Ek. unfold rust_queue_at. rewrite (Blk k n Ek). cbn [rb_length rb_queue rb_lb rb_ub].
  pose proof (offset_inside (bare qs) k _ (bare_pos _ Hpos) (bare_nth _ _ _ (Eq k n Ek))) as [In1 In2]. rewrite width_bare in In2.
  pose proof bare_total as BT. fold qs in BT. rewrite BT in In2. cbn [fst q_of] in In2.
  split; [reflexivity|]. split; [exact In1|]. split; [exact In2|]. split.
  - intros j n' Hj Ej. rewrite (Blk j n' Ej). cbn [rb_queue].
    pose proof (offset_apart (bare qs) k j _ (bare_pos _ Hpos) Hj (bare_nth _ _ _ (Eq k n Ek))) as Ap. rewrite width_bare in Ap. exact Ap.
  - unfold bounds_of, q_of. cbn [snd]. destruct (cls n); try exact Logic.I. split; reflexivity.
Qed.
End Boot.
