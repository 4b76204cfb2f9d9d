(** * Verdict words (proof infrastructure) *)
From Coq Require Import List Arith NArith Bool Lia.
Require Import Verif.Scq Verif.Verdict.
Import ListNotations.
Local Existing Instance C_monitor.
Local Open Scope N_scope.

Lemma tnt_time_ones : tnt_time = N.ones 31.
Proof. reflexivity. Qed.
Lemma tnt_true_pow : tnt_true = 2 ^ 31.
Proof. reflexivity. Qed.
Lemma time_mod w : get_verdict_time w = w mod 2 ^ 31.
Proof. unfold get_verdict_time. rewrite tnt_time_ones. apply N.land_ones. Qed.
Lemma false_mod w : set_verdict_false w = w mod 2 ^ 31.
Proof. apply time_mod. Qed.
Lemma truth_bit w : get_verdict_truth w = N.testbit w 31.
Proof.
  unfold get_verdict_truth. rewrite tnt_true_pow.
  destruct (N.testbit w 31) eqn:E.
  - apply negb_true_iff, N.eqb_neq. intros H.
    assert (N.testbit (N.land w (2 ^ 31)) 31 = false) by (rewrite H; apply N.bits_0).
    rewrite N.land_spec, E in H0. cbn in H0. discriminate.
  - apply negb_false_iff, N.eqb_eq. apply N.bits_inj. intros i. rewrite N.land_spec, N.bits_0, N.pow2_bits_eqb.
    destruct (N.eqb_spec 31 i) as [<-|]; [rewrite E; reflexivity|apply andb_false_r].
Qed.
Lemma testbit_31 w : w < 2 ^ 32 -> N.testbit w 31 = (2 ^ 31 <=? w).
Proof.
  intros H. rewrite N.testbit_eqb.
  assert (w / 2 ^ 31 < 2) by (apply N.div_lt_upper_bound; [discriminate|]; exact H).
  destruct (N.leb_spec (2 ^ 31) w) as [Hl|Hl].
  - assert (1 <= w / 2 ^ 31) by (apply N.div_le_lower_bound; [discriminate|]; lia).
    replace (w / 2 ^ 31) with 1 by lia. reflexivity.
  - rewrite N.div_small by assumption. reflexivity.
Qed.
Lemma word_truth w : w < word_size -> get_verdict_truth w = (2 ^ 31 <=? w).
Proof. intros H. rewrite truth_bit. apply testbit_31. exact H. Qed.
Lemma true_small t : t < 2 ^ 31 -> set_verdict_true t = 2 ^ 31 + t.
Proof.
  intros H. unfold set_verdict_true. rewrite tnt_true_pow.
  assert (E : N.land t (2 ^ 31) = 0).
  { apply N.bits_inj. intros i. rewrite N.land_spec, N.bits_0, N.pow2_bits_eqb.
    destruct (N.eqb_spec 31 i) as [<-|]; [|apply andb_false_r].
    rewrite testbit_31 by lia. apply andb_false_iff. left. apply N.leb_gt. assumption. }
  rewrite <- N.lxor_lor by assumption. rewrite <- N.add_nocarry_lxor by assumption. lia.
Qed.

Definition pack (b : bool) (t : N) : N := if b then set_verdict_true t else set_verdict_false t.
Lemma pack_value b t : t < 2 ^ 31 -> pack b t = (if b then 2 ^ 31 else 0) + t.
Proof.
  intros H. unfold pack. destruct b; [apply true_small; assumption|].
  rewrite false_mod, N.mod_small by assumption. reflexivity.
Qed.
Lemma pack_lt b t : t < 2 ^ 31 -> pack b t < word_size.
Proof.
  intros H. rewrite pack_value by assumption. change word_size with (2 ^ 31 + 2 ^ 31).
  destruct b; lia.
Qed.
Lemma pack_truth b t : t < 2 ^ 31 -> get_verdict_truth (pack b t) = b.
Proof.
  intros H. rewrite word_truth by (apply pack_lt; assumption). rewrite pack_value by assumption.
  destruct b; [apply N.leb_le|apply N.leb_gt]; lia.
Qed.
Lemma pack_time b t : t < 2 ^ 31 -> get_verdict_time (pack b t) = t.
Proof.
  intros H. rewrite time_mod, pack_value by assumption. destruct b.
  - replace (2 ^ 31 + t) with (t + 1 * 2 ^ 31) by lia. rewrite N.mod_add by discriminate. apply N.mod_small; assumption.
  - apply N.mod_small. assumption.
Qed.
Lemma unpack w : w < word_size -> pack (get_verdict_truth w) (get_verdict_time w) = w.
Proof.
  intros H. rewrite pack_value by (rewrite time_mod; apply N.mod_lt; discriminate).
  rewrite word_truth, time_mod by assumption.
  pose proof (N.div_mod w (2 ^ 31) ltac:(discriminate)) as D.
  destruct (N.leb_spec (2 ^ 31) w) as [Hl|Hl].
  - assert (w / 2 ^ 31 = 1); [|lia].
    assert (w / 2 ^ 31 < 2) by (apply N.div_lt_upper_bound; [discriminate|]; exact H).
    assert (1 <= w / 2 ^ 31) by (apply N.div_le_lower_bound; [discriminate|]; lia). lia.
  - rewrite N.mod_small by assumption. reflexivity.
Qed.
Lemma set_true_word w : w < word_size -> set_verdict_true w = pack true (get_verdict_time w).
Proof.
  intros H. unfold pack, set_verdict_true, get_verdict_time. apply N.bits_inj. intros i.
  rewrite !N.lor_spec, N.land_spec, tnt_true_pow, tnt_time_ones, N.pow2_bits_eqb.
  destruct (N.eqb_spec 31 i) as [<-|Hi]; [rewrite !orb_true_r; reflexivity|]. rewrite !orb_false_r.
  destruct (N.lt_ge_cases i 31) as [Hl|Hl].
  - rewrite N.ones_spec_low by assumption. rewrite andb_true_r. reflexivity.
  - rewrite N.ones_spec_high by assumption. rewrite andb_false_r.
    apply N.bits_above_log2. destruct (N.eq_dec w 0) as [->|Hw]; [cbn; lia|].
    assert (N.log2 w < 32) by (apply N.log2_lt_pow2; [lia|exact H]). lia.
Qed.
Lemma set_false_word w : set_verdict_false w = pack false (get_verdict_time w).
Proof.
  unfold pack. rewrite !false_mod, ?time_mod. symmetry. apply N.mod_small, N.mod_lt. discriminate.
Qed.

(** ** Words represent slots *)
Definition enc_verdict (v : verdict) : N := pack (fst v) (N.of_nat (snd v)).
Definition enc (s : slot) : N := match s with None => infinity | Some v => enc_verdict v end.
(** Timestamps that fit: 2^31 - 1 with truth true would be the infinity word. *)
Definition fits (v : verdict) : Prop := N.of_nat (snd v) < 2 ^ 31 - 1.
Definition slot_fits (s : slot) : Prop := match s with None => True | Some v => fits v end.

Lemma fits_31 v : fits v -> N.of_nat (snd v) < 2 ^ 31.
Proof. unfold fits. lia. Qed.
Lemma enc_truth s : slot_fits s -> get_verdict_truth (enc s) = slot_truth s.
Proof.
  destruct s as [v|]; [|reflexivity]. intros H. apply fits_31 in H. apply pack_truth. assumption.
Qed.
Lemma enc_time v : fits v -> get_verdict_time (enc_verdict v) = N.of_nat (snd v).
Proof. intros H. apply pack_time, fits_31, H. Qed.
Lemma enc_inj s t : slot_fits s -> slot_fits t -> (enc s =? enc t) = slot_eqb s t.
Proof.
  assert (I : forall v, fits v -> enc_verdict v <> infinity).
  { intros v H E. unfold enc_verdict in E. rewrite pack_value in E by (apply fits_31; assumption).
    unfold fits in H. change infinity with (2 ^ 31 + (2 ^ 31 - 1)) in E. destruct (fst v); lia. }
  destruct s as [[b t1]|], t as [[b' t2]|]; cbn [enc slot_eqb slot_fits]; intros H1 H2.
  - unfold verdict_eqb. cbn [fst snd].
    destruct (N.eqb_spec (enc_verdict (b, t1)) (enc_verdict (b', t2))) as [E|E].
    + unfold enc_verdict in E. cbn [fst snd] in E.
      assert (Hb : b = b').
      { rewrite <- (pack_truth b (N.of_nat t1)) by apply (fits_31 _ H1).
        rewrite E. apply pack_truth. apply (fits_31 _ H2). }
      assert (Ht : N.of_nat t1 = N.of_nat t2).
      { rewrite <- (pack_time b (N.of_nat t1)) by apply (fits_31 _ H1).
        rewrite E. apply pack_time. apply (fits_31 _ H2). }
      apply Nat2N.inj in Ht. subst. rewrite eqb_reflx, Nat.eqb_refl. reflexivity.
    + symmetry. apply andb_false_iff. destruct (Bool.eqb b b') eqn:Eb; [right|left; reflexivity].
      apply eqb_prop in Eb as ->. apply Nat.eqb_neq. intros ->. apply E. reflexivity.
  - apply N.eqb_neq, I, H1.
  - apply N.eqb_neq. intros E. symmetry in E. revert E. apply I, H2.
  - reflexivity.
Qed.

Lemma get_enc slots i : get_word (map enc slots) i = enc (get_slot slots i).
Proof. unfold get_word, get_slot. change 0 with (enc (Some (false, 0%nat))). apply map_nth. Qed.
Lemma set_enc slots i s : set_word (map enc slots) i (enc s) = map enc (set_slot slots i s).
Proof.
  revert i; induction slots as [|x l IH]; intros [|i]; cbn; try reflexivity. rewrite IH. reflexivity.
Qed.
Lemma get_fits slots i : Forall slot_fits slots -> slot_fits (get_slot slots i).
Proof.
  intros H. unfold get_slot. destruct (Nat.lt_ge_cases i (length slots)) as [Hl|Hl].
  - rewrite Forall_forall in H. apply H. apply nth_In. assumption.
  - rewrite nth_overflow by assumption. cbn. unfold fits. cbn. lia.
Qed.

Lemma write_words slots write v :
  Forall slot_fits slots -> fits v ->
  word_write (map enc slots) write (enc_verdict v) =
  (map enc (fst (scq_write slots write v)), snd (scq_write slots write v)).
Proof.
  intros H Hv. unfold word_write, scq_write. rewrite map_length, !get_enc.
  change (enc_verdict v) with (enc (Some v)).
  change infinity with (enc None).
  rewrite !enc_truth by (try apply get_fits; assumption).
  rewrite !enc_inj by (try apply get_fits; cbn; auto).
  change (word_back (length slots) write) with (step_back (length slots) write).
  cbn [slot_truth fst snd]. rewrite set_enc, <- andb_assoc. reflexivity.
Qed.


Lemma read_loop_words slots write next : forall fuel read,
  Forall slot_fits slots -> (forall i, get_slot slots i <> None) ->
  word_read_loop fuel (map enc slots) write (N.of_nat next) read =
  (fst (read_loop fuel slots write next read), option_map enc_verdict (snd (read_loop fuel slots write next read))).
Proof.
  induction fuel as [|fuel IH]; intros read Hf Hne; [reflexivity|]. cbn [word_read_loop read_loop].
  rewrite !get_enc, map_length. pose proof (get_fits slots read Hf) as Hr. pose proof (Hne read) as Hs.
  destruct (get_slot slots read) as [v|]; [|congruence]. cbn [enc]. rewrite enc_time by exact Hr.
  replace (N.of_nat next <=? N.of_nat (snd v)) with (next <=? snd v)%nat.
  2:{ destruct (Nat.leb_spec next (snd v)) as [H|H]; symmetry; [apply N.leb_le|apply N.leb_gt]; lia. }
  destruct (next <=? snd v)%nat; [reflexivity|].
  change (word_back (length slots)) with (step_back (length slots)).
  destruct (_ =? write)%nat; [reflexivity|]. apply IH; assumption.
Qed.
Lemma read_words slots write next read :
  Forall slot_fits slots -> (get_slot slots read = None \/ forall i, get_slot slots i <> None) ->
  word_read (map enc slots) write (N.of_nat next) read =
  (fst (scq_read slots write next read), option_map enc_verdict (snd (scq_read slots write next read))).
Proof.
  intros Hf H. unfold word_read, scq_read. rewrite get_enc, map_length. change infinity with (enc None).
  rewrite enc_inj by (try apply get_fits; cbn; auto).
  destruct (get_slot slots read) as [v|] eqn:E; [|reflexivity]. cbn [slot_eqb].
  destruct H as [H|H]; [discriminate|]. apply read_loop_words; assumption.
Qed.

Lemma set_keeps w : w < word_size ->
  get_verdict_time (set_verdict_true w) = get_verdict_time w /\
  get_verdict_truth (set_verdict_true w) = true /\
  get_verdict_time (set_verdict_false w) = get_verdict_time w /\
  get_verdict_truth (set_verdict_false w) = false.
Proof.
  intros H. assert (get_verdict_time w < 2 ^ 31) by (rewrite time_mod; apply N.mod_lt; discriminate).
  pose proof (set_true_word w H) as E1. pose proof (set_false_word w) as E2.
  split; [rewrite E1; apply pack_time; assumption|]. split; [rewrite E1; apply pack_truth; assumption|].
  split; [rewrite E2; apply pack_time; assumption|]. rewrite E2; apply pack_truth; assumption.
Qed.
Lemma pack_infinity b t : t < 2 ^ 31 -> pack b t = infinity <-> b = true /\ t = 2 ^ 31 - 1.
Proof.
  intros H. rewrite pack_value by assumption. unfold infinity, word_size.
  change (2 ^ 32) with (2 ^ 31 + 2 ^ 31). destruct b; split; intros; [|destruct H0; subst; reflexivity| |destruct H0; discriminate].
  - split; [reflexivity|lia].
  - lia.
Qed.
