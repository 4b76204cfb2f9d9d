(** * Queue memory after loading (proofs) *)
From Coq Require Import List Arith ZArith Bool Lia.
Require Import Verif.Binary Verif.Layout.
Import ListNotations.
Local Open Scope Z_scope.

Local Ltac neq := symmetry; apply Z.eqb_neq; lia.

(** A queue to be configured: its size, and the bounds of a temporal operator. *)
Notation qspec := (Z * option (Z * Z))%type.
Definition width (q : qspec) : Z := fst q + match snd q with Some _ => 4 | None => 0 end.
Definition total (qs : list qspec) : Z := fold_right (fun q n => width q + n) 0 qs.
Definition offset (qs : list qspec) (k : nat) : Z := total (firstn k qs).

Definition scq_cmd (k : nat) (q : qspec) : c_tl :=
  CTl (fst q) 0 (Z.of_nat k) 0 (match snd q with Some _ => 0 | None => 3 end) 30.
Definition temp_cmd (k : nat) (q : qspec) : list c_tl :=
  match snd q with Some (lb, ub) => [CTl lb ub (Z.of_nat k) 2 2 30] | None => [] end.

Lemma total_app a b : total (a ++ b) = total a + total b.
Proof. unfold total. induction a as [|q a IH]; cbn [app fold_right]; [reflexivity|]. rewrite IH. lia. Qed.
Lemma width_pos q : 1 <= fst q -> 1 <= width q.
Proof. unfold width. destruct (snd q); lia. Qed.
Lemma total_nonneg qs : Forall (fun q => 1 <= fst q) qs -> 0 <= total qs.
Proof. unfold total. induction 1 as [|q qs Hq H IH]; cbn [fold_right]; [lia|]. pose proof (width_pos q Hq). lia. Qed.
Lemma offset_step qs k q : nth_error qs k = Some q -> offset qs (S k) = offset qs k + width q.
Proof.
  unfold offset. revert k; induction qs as [|x qs IH]; intros [|k] E; try discriminate; cbn in *.
  - injection E as ->. lia.
  - specialize (IH k E). unfold total in *. lia.
Qed.
Lemma offset_mono qs j k : Forall (fun q => 1 <= fst q) qs -> (j <= k)%nat -> offset qs j <= offset qs k.
Proof.
  intros H. unfold offset. revert j k; induction H as [|q qs Hq H IH]; intros j k Hjk.
  - rewrite !firstn_nil. lia.
  - destruct j as [|j], k as [|k]; cbn [firstn]; try lia.
    + apply (total_nonneg (q :: firstn k qs)). constructor; [assumption|].
      apply Forall_forall. intros x Hx. rewrite Forall_forall in H. apply H. rewrite <- (firstn_skipn k qs). apply in_app_iff. auto.
    + cbn [total fold_right]. specialize (IH j k ltac:(lia)). unfold total in IH. lia.
Qed.
Lemma offset_all qs k : (length qs <= k)%nat -> offset qs k = total qs.
Proof. intros H. unfold offset. rewrite firstn_all2 by assumption. reflexivity. Qed.
(** Regions do not overlap. *)
Lemma offset_apart qs j k q : Forall (fun q => 1 <= fst q) qs -> (j < k)%nat -> nth_error qs j = Some q ->
  offset qs j + width q <= offset qs k.
Proof. intros H Hjk E. rewrite <- (offset_step qs j q E). apply offset_mono; [assumption|lia]. Qed.
Lemma offset_inside qs j q : Forall (fun q => 1 <= fst q) qs -> nth_error qs j = Some q ->
  0 <= offset qs j /\ offset qs j + width q <= total qs.
Proof.
  intros H E. split.
  - replace 0 with (offset qs 0) by reflexivity. apply offset_mono; [assumption|lia].
  - rewrite <- (offset_all qs (length qs)) by apply le_n. apply offset_apart; [assumption| |assumption].
    apply nth_error_Some. congruence.
Qed.

(** ** First the sizes *)
Definition sized_ok (qs : list qspec) (n : nat) (a : arena) : Prop :=
  (forall k q, (k < n)%nat -> nth_error qs k = Some q ->
     a_blocks a (Z.of_nat k) = Block (width q) (offset qs k) /\ a_mem a (offset qs k) = infinity_word) /\
  (forall x, (forall k, (k < n)%nat -> (k < length qs)%nat -> x <> offset qs k) -> a_mem a x = 0).
Lemma configure_sizes qs : Forall (fun q => 1 <= fst q) qs -> total qs < 2 ^ 32 ->
  forall post pre a, qs = pre ++ post -> sized_ok qs (length pre) a ->
  sized_ok qs (length qs)
    (fold_left configure (map (fun p => scq_cmd (fst p) (snd p)) (combine (seq (length pre) (length post)) post)) a).
Proof.
  intros Hpos Htot. induction post as [|q post IH]; intros pre a Hq [Hb Hm].
  - cbn. rewrite app_nil_r in Hq. subst pre. split; assumption.
  - cbn [length seq combine map fold_left fst snd].
    assert (Eq : nth_error qs (length pre) = Some q) by (rewrite Hq, nth_error_app2, Nat.sub_diag by lia; reflexivity).
    pose proof (offset_inside qs _ q Hpos Eq) as [In1 In2].
    assert (Hq1 : 1 <= fst q) by (rewrite Forall_forall in Hpos; apply Hpos; eapply nth_error_In; eassumption).
    pose proof (width_pos q Hq1) as Hw.
    assert (Ec : configure a (scq_cmd (length pre) q) =
      Arena (update (a_blocks a) (Z.of_nat (length pre)) (Block (width q) (offset qs (length pre))))
            (update (a_mem a) (offset qs (length pre)) infinity_word)).
    { unfold configure, scq_cmd. cbn [c_memref c_op1_type c_op2_type c_op1_value]. change (0 =? 0) with true. cbv iota.
      assert (E1 : (if Z.of_nat (length pre) =? 0 then 0
                    else b_queue (a_blocks a (Z.of_nat (length pre) - 1)) + b_length (a_blocks a (Z.of_nat (length pre) - 1)))
                   = offset qs (length pre)).
      { destruct (length pre) as [|n] eqn:En; [reflexivity|]. replace (Z.of_nat (S n) =? 0) with false by neq.
        replace (Z.of_nat (S n) - 1) with (Z.of_nat n) by lia.
        destruct (nth_error qs n) as [q'|] eqn:Eq'.
        - destruct (Hb n q' ltac:(lia) Eq') as [-> _]. cbn [b_queue b_length]. rewrite (offset_step qs n q' Eq'). lia.
        - apply nth_error_None in Eq'. assert (S n < length qs)%nat by (apply nth_error_Some; congruence). lia. }
      rewrite E1. do 2 f_equal. unfold width. destruct (snd q) as [[lb ub]|] eqn:Es.
      - change (0 =? 0) with true. cbv iota. unfold metadata_size. rewrite Z.mod_small; [reflexivity|].
        unfold width in *. rewrite Es in *. lia.
      - change (3 =? 0) with false. cbv iota. f_equal. lia. }
    rewrite Ec.
    replace (S (length pre)) with (length (pre ++ [q])) by (rewrite app_length; cbn; lia).
    apply IH; [rewrite Hq, <- app_assoc; reflexivity|].
    rewrite app_length. cbn [length]. split; cbn [a_blocks a_mem].
    + intros k q' Hk Ek. unfold update.
      destruct (Nat.eq_dec k (length pre)) as [->|Hne].
      * rewrite !Z.eqb_refl. replace q' with q by congruence. auto.
      * assert (Hlt : (k < length pre)%nat) by lia. destruct (Hb k q' Hlt Ek) as [B1 B2].
        replace (Z.of_nat k =? Z.of_nat (length pre)) with false by neq. split; [assumption|].
        pose proof (offset_apart qs k (length pre) q' Hpos Hlt Ek).
        assert (1 <= width q') by (apply width_pos; rewrite Forall_forall in Hpos; apply Hpos; eapply nth_error_In; eassumption).
        replace (offset qs k =? offset qs (length pre)) with false by neq. assumption.
    + intros x Hx. unfold update.
      assert (x <> offset qs (length pre)) by (apply Hx; [lia|apply nth_error_Some; congruence]).
      replace (x =? offset qs (length pre)) with false by neq. apply Hm. intros k Hk1 Hk2. apply Hx; lia.
Qed.

(** ** then the bounds *)
Definition bounds_ok (qs : list qspec) (n : nat) (a : arena) : Prop :=
  (forall k q, nth_error qs k = Some q ->
     a_mem a (offset qs k) = infinity_word /\
     match snd q with
     | None => a_blocks a (Z.of_nat k) = Block (fst q) (offset qs k)
     | Some (lb, ub) =>
         if (k <? n)%nat
         then a_blocks a (Z.of_nat k) = Block (fst q) (offset qs k) /\
              a_mem a (offset qs k + fst q + 2) = lb /\ a_mem a (offset qs k + fst q + 3) = ub
         else a_blocks a (Z.of_nat k) = Block (width q) (offset qs k)
     end) /\
  (forall x, (forall k q, nth_error qs k = Some q -> x <> offset qs k /\
        (snd q <> None -> x <> offset qs k + fst q + 2 /\ x <> offset qs k + fst q + 3)) -> a_mem a x = 0).
Lemma configure_bounds qs : Forall (fun q => 1 <= fst q) qs -> total qs < 2 ^ 32 ->
  forall post pre a, qs = pre ++ post -> bounds_ok qs (length pre) a ->
  bounds_ok qs (length qs)
    (fold_left configure (flat_map (fun p => temp_cmd (fst p) (snd p)) (combine (seq (length pre) (length post)) post)) a).
Proof.
  intros Hpos Htot. induction post as [|q post IH]; intros pre a Hq [Hb Hm].
  - cbn. rewrite app_nil_r in Hq. subst pre. split; assumption.
  - cbn [length seq combine flat_map fst snd]. rewrite fold_left_app.
    assert (Eq : nth_error qs (length pre) = Some q) by (rewrite Hq, nth_error_app2, Nat.sub_diag by lia; reflexivity).
    pose proof (offset_inside qs _ q Hpos Eq) as [In1 In2].
    assert (Hq1 : forall k q', nth_error qs k = Some q' -> 1 <= fst q')
      by (intros k q' E; rewrite Forall_forall in Hpos; apply Hpos; eapply nth_error_In; eassumption).
    replace (S (length pre)) with (length (pre ++ [q])) by (rewrite app_length; cbn; lia).
    apply IH; [rewrite Hq, <- app_assoc; reflexivity|]. rewrite app_length. cbn [length].
    destruct (snd q) as [[lb ub]|] eqn:Es; unfold temp_cmd; rewrite Es; cbn [fold_left].
    + assert (Ec : configure a (CTl lb ub (Z.of_nat (length pre)) 2 2 30) =
        Arena (update (a_blocks a) (Z.of_nat (length pre)) (Block (fst q) (offset qs (length pre))))
              (update (update (a_mem a) (offset qs (length pre) + fst q + 2) lb) (offset qs (length pre) + fst q + 3) ub)).
      { unfold configure. cbn [c_memref c_op1_type c_op2_type c_op1_value c_op2_value]. change (2 =? 0) with false. change (2 =? 2) with true. cbv iota.
        destruct (Hb _ _ Eq) as [_ B]. rewrite Es in B. rewrite Nat.ltb_irrefl in B. rewrite B. cbn [b_length b_queue].
        assert (W : (width q - metadata_size) mod 2 ^ 32 = fst q).
        { unfold width, metadata_size in *. rewrite Es in *. specialize (Hq1 _ _ Eq). rewrite Z.mod_small; lia. }
        rewrite W. reflexivity. }
      rewrite Ec. split; cbn [a_blocks a_mem].
      * intros k q' Ek. unfold update. destruct (Hb k q' Ek) as [B1 B2].
        pose proof (offset_inside qs k q' Hpos Ek) as [In1' In2']. pose proof (Hq1 _ _ Ek). pose proof (Hq1 _ _ Eq).
        destruct (Nat.eq_dec k (length pre)) as [->|Hne].
        -- assert (q' = q) by congruence. subst q'. rewrite Es.
           replace (length pre <? length pre + 1)%nat with true by (symmetry; apply Nat.ltb_lt; lia).
           rewrite !Z.eqb_refl.
           replace (offset qs (length pre) =? offset qs (length pre) + fst q + 3) with false by neq.
           replace (offset qs (length pre) =? offset qs (length pre) + fst q + 2) with false by neq.
           replace (offset qs (length pre) + fst q + 2 =? offset qs (length pre) + fst q + 3) with false by neq.
           auto.
        -- assert (Ap : offset qs k + width q' <= offset qs (length pre) \/ offset qs (length pre) + width q <= offset qs k).
           { destruct (Nat.lt_ge_cases k (length pre)); [left|right]; apply offset_apart; auto; lia. }
           assert (Wq : width q = fst q + 4) by (unfold width; rewrite Es; reflexivity).
           assert (Wq' : width q' = fst q' + match snd q' with Some _ => 4 | None => 0 end) by reflexivity.
           replace (Z.of_nat k =? Z.of_nat (length pre)) with false by neq.
           replace (offset qs k =? offset qs (length pre) + fst q + 3) with false by (destruct (snd q'); neq).
           replace (offset qs k =? offset qs (length pre) + fst q + 2) with false by (destruct (snd q'); neq).
           split; [assumption|]. destruct (snd q') as [[lb' ub']|]; [|assumption].
           replace (k <? length pre + 1)%nat with (k <? length pre)%nat
             by (destruct (Nat.ltb_spec k (length pre)), (Nat.ltb_spec k (length pre + 1)); lia).
           destruct (k <? length pre)%nat; [|assumption]. destruct B2 as (B2 & B3 & B4).
           replace (offset qs k + fst q' + 2 =? offset qs (length pre) + fst q + 3) with false by neq.
           replace (offset qs k + fst q' + 2 =? offset qs (length pre) + fst q + 2) with false by neq.
           replace (offset qs k + fst q' + 3 =? offset qs (length pre) + fst q + 3) with false by neq.
           replace (offset qs k + fst q' + 3 =? offset qs (length pre) + fst q + 2) with false by neq. auto.
      * intros x Hx. unfold update. destruct (Hx _ _ Eq) as [X1 X2]. rewrite Es in X2.
        destruct (X2 ltac:(discriminate)) as [X3 X4].
        replace (x =? offset qs (length pre) + fst q + 3) with false by neq.
        replace (x =? offset qs (length pre) + fst q + 2) with false by neq. apply Hm. exact Hx.
    + split; [|exact Hm]. intros k q' Ek. destruct (Hb k q' Ek) as [B1 B2]. split; [assumption|].
      destruct (snd q') as [[lb' ub']|] eqn:Es'; [|assumption].
      replace (k <? length pre + 1)%nat with (k <? length pre)%nat; [assumption|].
      destruct (Nat.eq_dec k (length pre)) as [->|]; [congruence|].
      destruct (Nat.ltb_spec k (length pre)), (Nat.ltb_spec k (length pre + 1)); lia.
Qed.

(** ** The loaded arena *)
Definition commands (qs : list qspec) : list c_tl :=
  map (fun p => scq_cmd (fst p) (snd p)) (combine (seq 0 (length qs)) qs) ++
  flat_map (fun p => temp_cmd (fst p) (snd p)) (combine (seq 0 (length qs)) qs).
Definition arena_of (qs : list qspec) : arena := fold_left configure (commands qs) empty_arena.

Lemma arena_bounds qs : Forall (fun q => 1 <= fst q) qs -> total qs < 2 ^ 32 -> bounds_ok qs (length qs) (arena_of qs).
Proof.
  intros Hpos Htot. unfold arena_of, commands. rewrite fold_left_app.
  apply (configure_bounds qs Hpos Htot qs [] _ eq_refl).
  destruct (configure_sizes qs Hpos Htot qs [] empty_arena eq_refl) as [S1 S2].
  { split; [intros; cbn in *; lia|reflexivity]. }
  cbn [length] in S1, S2.
  split.
  - intros k q E. destruct (S1 k q ltac:(apply nth_error_Some; congruence) E) as [B1 B2]. split; [assumption|].
    destruct (snd q) as [[lb ub]|] eqn:Es; cbn [Nat.ltb Nat.leb]; [exact B1|].
    rewrite B1. unfold width. rewrite Es. f_equal. lia.
  - intros x Hx. apply S2. intros k _ Hk. destruct (nth_error qs k) as [q|] eqn:E; [|apply nth_error_None in E; lia].
    apply (Hx k q E).
Qed.
