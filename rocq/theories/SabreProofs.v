(** * The word-level operators compute windows (proofs) *)
From Coq Require Import List Arith NArith ZArith Bool Lia.
From Verif Require Import Mltl Sabre SabreSpec.
Import ListNotations.

Lemma ascend_spec {A} (f : (nat -> A) -> nat -> A) n buf :
  (forall b b' i, (forall k, i <= k -> b k = b' k) -> f b i = f b' i) ->
  forall i, ascend f n buf i = if i <? n then f buf i else buf i.
Proof.
  intros Hf. induction n as [|n IH]; intros i; [reflexivity|].
  cbn [ascend]. unfold put. destruct (Nat.eqb_spec i n) as [->|Hne].
  - replace (n <? S n) with true by (symmetry; apply Nat.ltb_lt; lia).
    apply Hf. intros k Hk. rewrite IH. replace (k <? n) with false; [reflexivity|].
    symmetry. apply Nat.ltb_ge. lia.
  - rewrite IH. destruct (Nat.ltb_spec i n), (Nat.ltb_spec i (S n)); try reflexivity; lia.
Qed.

Lemma half_power e : 1 <= e -> 2 ^ e / 2 = 2 ^ (e - 1).
Proof.
  intros He. replace e with (S (e - 1)) at 1 by lia. rewrite Nat.pow_succ_r', Nat.mul_comm. apply Nat.div_mul. lia.
Qed.

Section Bits.
Variable w : nat.
Hypothesis Hw : 0 < w.

Lemma trunc_word x : a_word w (trunc w x).
Proof.
  unfold a_word, trunc. rewrite N.land_ones. apply N.mod_lt. apply N.pow_nonzero. discriminate.
Qed.
Lemma trunc_bit x p : p < w -> position w (trunc w x) p = position w x p.
Proof.
  intros Hp. unfold position, trunc. rewrite N.land_spec, N.ones_spec_low by lia. apply andb_true_r.
Qed.
Lemma word_high x n : a_word w x -> (N.of_nat w <= n)%N -> N.testbit x n = false.
Proof.
  intros Hx Hn. unfold a_word in Hx. rewrite <- (N.mod_small _ _ Hx). apply N.mod_pow2_bits_high. exact Hn.
Qed.
Lemma lor_bit x y p : position w (N.lor x y) p = position w x p || position w y p.
Proof. apply N.lor_spec. Qed.
Lemma land_bit x y p : position w (N.land x y) p = position w x p && position w y p.
Proof. apply N.land_spec. Qed.
Lemma lxor_bit x y p : position w (N.lxor x y) p = xorb (position w x p) (position w y p).
Proof. apply N.lxor_spec. Qed.
Lemma lnot_bit x p : p < w -> position w (N.lnot x (N.of_nat w)) p = negb (position w x p).
Proof. intros Hp. apply N.lnot_spec_low. lia. Qed.
Lemma shl_bit x s p : p < w -> position w (shl x s) p = if p + s <? w then position w x (p + s) else false.
Proof.
  intros Hp. unfold position, shl. destruct (Nat.ltb_spec (p + s) w) as [Hlt|Hge].
  - rewrite N.shiftl_spec_high' by lia. f_equal. lia.
  - apply N.shiftl_spec_low. lia.
Qed.
Lemma shr_bit x s p :
  a_word w x -> p < w -> position w (shr x s) p = if p <? s then false else position w x (p - s).
Proof.
  intros Hx Hp. unfold position, shr. rewrite N.shiftr_spec'. destruct (Nat.ltb_spec p s) as [Hlt|Hge].
  - apply word_high; [exact Hx|lia].
  - f_equal. lia.
Qed.
Lemma shifted_bit x y s p :
  a_word w y -> 0 < s < w -> p < w ->
  position w (shifted w x y s) p = if p + s <? w then position w x (p + s) else position w y (p + s - w).
Proof.
  intros Hy Hs Hp. unfold shifted. rewrite lor_bit, shl_bit, shr_bit by (assumption || lia).
  destruct (Nat.ltb_spec (p + s) w), (Nat.ltb_spec p (w - s)); try lia.
  - apply orb_false_r.
  - replace (p - (w - s)) with (p + s - w) by lia. reflexivity.
Qed.

(** A buffer as one sequence of bits. *)
Definition stream (b : nat -> N) (t : nat) : bool := position w (b (t / w)) (t mod w).
Definition words (b : nat -> N) : Prop := forall i, a_word w (b i).

Lemma stream_at b i p : p < w -> stream b (i * w + p) = position w (b i) p.
Proof.
  intros Hp. unfold stream.
  replace ((i * w + p) / w) with i by (apply (Nat.div_unique _ _ _ p); lia).
  replace ((i * w + p) mod w) with p by (apply (Nat.mod_unique _ _ i); lia).
  reflexivity.
Qed.
Lemma split_time t : exists i p, p < w /\ t = i * w + p.
Proof.
  exists (t / w), (t mod w). split; [apply Nat.mod_upper_bound; lia|].
  rewrite (Nat.div_mod t w) at 1 by lia. lia.
Qed.
Lemma shifted_stream b i p s :
  words b -> 0 < s < w -> p < w -> position w (shifted w (b i) (b (S i)) s) p = stream b (i * w + p + s).
Proof.
  intros Hb Hs Hp. rewrite shifted_bit by (try apply Hb; lia).
  destruct (Nat.ltb_spec (p + s) w) as [Hlt|Hge].
  - rewrite <- stream_at by assumption. f_equal. lia.
  - rewrite <- stream_at by lia. f_equal. lia.
Qed.

(** ** Loading *)
Definition operand (a : nat -> N) (size W d u : nat) : bool := position w (a (slot size W d (u / w))) (u mod w).
Lemma load_stream a size W d lb i p :
  words a -> p < w -> position w (load_word w a size W d lb i) p = operand a size W d (i * w + p + lb).
Proof.
  intros Ha Hp. unfold load_word.
  set (b := fun k => a (slot size W d k)).
  assert (Hb : words b) by (intros k; apply Ha).
  change (operand a size W d (i * w + p + lb)) with (stream b (i * w + p + lb)).
  pose proof (Nat.mod_upper_bound lb w ltac:(lia)) as Hm.
  pose proof (Nat.div_mod lb w ltac:(lia)) as Hd.
  destruct (Nat.eqb_spec (lb mod w) 0) as [H0|H0].
  - rewrite trunc_bit by assumption.
    replace (i * w + p + lb) with ((i + lb / w) * w + p) by nia.
    rewrite stream_at by assumption. reflexivity.
  - rewrite trunc_bit by assumption.
    change (position w (shifted w (b (i + lb / w)) (b (i + lb / w + 1)) (lb mod w)) p = stream b (i * w + p + lb)).
    rewrite Nat.add_1_r, shifted_stream by (assumption || lia). f_equal. nia.
Qed.

(** ** future and global *)
Section Unary.
Variable op : N -> N -> N.
Variable u : bool.
Hypothesis Hop : forall x y p, position w (op x y) p = u <-> position w x p = u \/ position w y p = u.
Variable L : nat.
Hypothesis HL : w = 2 ^ L.
Hypothesis HL1 : 1 <= L.
Variable s : nat -> bool.
Variable nbuf : nat.
Hypothesis Hn : 0 < nbuf.

(** Each bit tells whether [u] occurs in the next [j] ones. *)
Definition covers (j : nat) (b : nat -> N) : Prop :=
  words b /\ forall t, t + j <= nbuf * w -> (stream b t = u <-> exists k, k < j /\ s (t + k) = u).

Lemma widen j j' m b b' :
  0 < m <= j -> j' = j + m -> covers j b -> words b' ->
  (forall t, t + m < nbuf * w -> (stream b' t = u <-> stream b t = u \/ stream b (t + m) = u)) ->
  covers j' b'.
Proof.
  intros Hm -> [Hw1 Hc] Hw2 Hs. split; [exact Hw2|]. intros t Ht.
  rewrite Hs, !Hc by lia. split.
  - intros [(k & Hk & Hx)|(k & Hk & Hx)].
    + exists k. split; [lia|exact Hx].
    + exists (m + k). split; [lia|]. rewrite Nat.add_assoc. exact Hx.
  - intros (k & Hk & Hx). destruct (Nat.ltb_spec k j) as [Hl|Hg].
    + left. exists k. split; assumption.
    + right. exists (k - m). split; [lia|]. replace (t + m + (k - m)) with (t + k) by lia. exact Hx.
Qed.

Lemma short_local j :
  forall (b b' : nat -> N) i, (forall k, i <= k -> b k = b' k) ->
  trunc w (op (b i) (shifted w (b i) (b (S i)) j)) = trunc w (op (b' i) (shifted w (b' i) (b' (S i)) j)).
Proof. intros b b' i H. rewrite (H i), (H (S i)) by lia. reflexivity. Qed.
Lemma long_local m :
  forall (b b' : nat -> N) i, (forall k, i <= k -> b k = b' k) ->
  trunc w (op (b i) (b (i + m))) = trunc w (op (b' i) (b' (i + m))).
Proof. intros b b' i H. rewrite (H i), (H (i + m)) by lia. reflexivity. Qed.

Lemma short_round_covers j b : 0 < j < w -> covers j b -> covers (2 * j) (short_round w op nbuf j b).
Proof.
  intros Hj Hc. pose proof Hc as [Hb _].
  assert (Hval : forall i, short_round w op nbuf j b i =
    if i =? nbuf - 1 then trunc w (op (b i) (shl (b i) j))
    else if i <? nbuf - 1 then trunc w (op (b i) (shifted w (b i) (b (S i)) j)) else b i).
  { intros i. unfold short_round, put. rewrite !ascend_spec by apply short_local.
    rewrite Nat.ltb_irrefl. destruct (Nat.eqb_spec i (nbuf - 1)) as [->|]; reflexivity. }
  apply (widen j (2 * j) j b); [lia|lia|exact Hc| |].
  - intros i. rewrite Hval. destruct (i =? nbuf - 1); [apply trunc_word|].
    destruct (i <? nbuf - 1); [apply trunc_word|apply Hb].
  - intros t Ht. destruct (split_time t) as (i & p & Hp & ->).
    rewrite !stream_at by assumption. rewrite Hval.
    destruct (Nat.eqb_spec i (nbuf - 1)) as [Hi|Hi].
    + rewrite trunc_bit, Hop by assumption.
      rewrite shl_bit by assumption.
      assert (Hlt : p + j < w) by nia.
      destruct (Nat.ltb_spec (p + j) w) as [_|]; [|lia].
      replace (i * w + p + j) with (i * w + (p + j)) by lia. rewrite stream_at by assumption. reflexivity.
    + destruct (Nat.ltb_spec i (nbuf - 1)) as [_|Hge].
      * rewrite trunc_bit, Hop by assumption. rewrite shifted_stream by assumption. reflexivity.
      * exfalso. assert (nbuf <= i) by lia. nia.
Qed.

Lemma long_round_covers m b : 0 < m -> covers (m * w) b -> covers (2 * (m * w)) (long_round w op nbuf (m * w) b).
Proof.
  intros Hm Hc. pose proof Hc as [Hb _].
  assert (Hdiv : m * w / w = m) by (apply Nat.div_mul; lia).
  assert (Hval : forall i, long_round w op nbuf (m * w) b i =
    if i <? nbuf - m then trunc w (op (b i) (b (i + m))) else b i).
  { intros i. unfold long_round. rewrite Hdiv. rewrite ascend_spec by apply long_local. reflexivity. }
  apply (widen (m * w) _ (m * w) b); [nia|lia|exact Hc| |].
  - intros i. rewrite Hval. destruct (i <? nbuf - m); [apply trunc_word|apply Hb].
  - intros t Ht. destruct (split_time t) as (i & p & Hp & ->).
    rewrite stream_at by assumption. rewrite Hval.
    destruct (Nat.ltb_spec i (nbuf - m)) as [Hlt|Hge]; [|exfalso; nia].
    rewrite trunc_bit, Hop by assumption. rewrite stream_at by assumption.
    replace (i * w + p + m * w) with ((i + m) * w + p) by lia. rewrite stream_at by assumption. reflexivity.
Qed.

Lemma short_rounds_covers n fuel : forall e b,
  n / 2 < 2 ^ e * 2 ^ fuel -> e <= L -> 2 ^ e <= n -> covers (2 ^ e) b ->
  exists e' b', short_rounds w op fuel n nbuf (2 ^ e) b = (2 ^ e', b') /\
    e' <= L /\ 2 ^ e' <= n /\ covers (2 ^ e') b' /\ (n / 2 < 2 ^ e' \/ e' = L).
Proof.
  induction fuel as [|fuel IH]; intros e b Hf He Hen Hc; cbn [short_rounds].
  - exists e, b. rewrite Nat.pow_0_r, Nat.mul_1_r in Hf. refine (conj eq_refl (conj He (conj Hen (conj Hc _)))). left. exact Hf.
  - destruct (Nat.leb_spec (2 ^ e) (if w / 2 <? n / 2 then w / 2 else n / 2)) as [Hle|Hgt].
    + assert (Hboth : 2 ^ e <= w / 2 /\ 2 ^ e <= n / 2) by (destruct (Nat.ltb_spec (w / 2) (n / 2)); lia).
      destruct Hboth as [H1 H2].
      assert (H1' : e < L).
      { rewrite HL, half_power in H1 by assumption. apply Nat.pow_le_mono_r_iff in H1; lia. }
      assert (Hew : 2 ^ S e <= w) by (rewrite HL; apply Nat.pow_le_mono_r; lia).
      pose proof (Nat.pow_nonzero 2 e ltac:(lia)) as Hne.
      pose proof (Nat.mul_div_le n 2 ltac:(lia)) as Hhalf.
      assert (Hdbl : 2 ^ S e = 2 * 2 ^ e) by apply Nat.pow_succ_r'.
      rewrite <- Hdbl.
      apply IH.
      * rewrite Nat.pow_succ_r' in Hf. rewrite Hdbl. nia.
      * lia.
      * lia.
      * rewrite Hdbl. apply short_round_covers; [lia|exact Hc].
    + exists e, b. refine (conj eq_refl (conj He (conj Hen (conj Hc _)))).
      destruct (Nat.ltb_spec (w / 2) (n / 2)) as [Hlt|Hge]; [|left; exact Hgt].
      right. rewrite HL, half_power in Hgt by assumption.
      assert (L - 1 < e) by (apply (Nat.pow_lt_mono_r_iff 2); lia). lia.
Qed.
Lemma long_rounds_covers n fuel : forall e b,
  n / 2 < 2 ^ e * 2 ^ fuel -> (n / 2 < 2 ^ e \/ L <= e) -> 2 ^ e <= n -> covers (2 ^ e) b ->
  exists e' b', long_rounds w op fuel n nbuf (2 ^ e) b = (2 ^ e', b') /\
    2 ^ e' <= n /\ covers (2 ^ e') b' /\ n / 2 < 2 ^ e'.
Proof.
  induction fuel as [|fuel IH]; intros e b Hf He Hen Hc; cbn [long_rounds].
  - exists e, b. rewrite Nat.pow_0_r, Nat.mul_1_r in Hf. exact (conj eq_refl (conj Hen (conj Hc Hf))).
  - destruct (Nat.leb_spec (2 ^ e) (n / 2)) as [Hle|Hgt].
    + assert (HLe : L <= e) by lia.
      pose proof (Nat.mul_div_le n 2 ltac:(lia)) as Hhalf.
      assert (Hdbl : 2 ^ S e = 2 * 2 ^ e) by apply Nat.pow_succ_r'.
      rewrite <- Hdbl. apply IH.
      * rewrite Nat.pow_succ_r' in Hf. rewrite Hdbl. nia.
      * right. lia.
      * lia.
      * rewrite Hdbl. assert (Hm : 2 ^ e = 2 ^ (e - L) * w).
        { rewrite HL, <- Nat.pow_add_r. f_equal. lia. }
        rewrite Hm in Hc |- *. apply long_round_covers; [|exact Hc].
        pose proof (Nat.pow_nonzero 2 (e - L) ltac:(lia)). lia.
    + exists e, b. exact (conj eq_refl (conj Hen (conj Hc Hgt))).
Qed.

Lemma leftover_covers n e b :
  2 ^ e <= n -> n / 2 < 2 ^ e -> rest_fits w n -> covers (2 ^ e) b ->
  exists b', leftover_round w op n nbuf (2 ^ e) b = Some b' /\ covers n b'.
Proof.
  intros Hle Hgt Hfit Hc. pose proof Hc as [Hb _].
  assert (Hn2 : n < 2 * 2 ^ e).
  { pose proof (Nat.div_mod n 2 ltac:(lia)). pose proof (Nat.mod_upper_bound n 2 ltac:(lia)). lia. }
  assert (Hlog : Nat.log2 n = e) by (apply Nat.log2_unique; [lia|rewrite Nat.pow_succ_r'; lia]).
  unfold rest_fits in Hfit. rewrite Hlog in Hfit. unfold leftover_round.
  assert (Hmod : n mod 2 ^ e = n - 2 ^ e).
  { symmetry. apply (Nat.mod_unique _ _ 1); lia. }
  rewrite Hmod. set (m := n - 2 ^ e) in *.
  destruct (Nat.eqb_spec m 0) as [H0|H0].
  - exists b. split; [reflexivity|]. replace n with (2 ^ e) by lia. exact Hc.
  - destruct (Nat.eqb_spec (m mod w) 0) as [Hal|Hal].
    + eexists. split; [reflexivity|].
      assert (Hval : forall i, ascend (fun b i => trunc w (op (b i) (b (i + m / w)))) nbuf b i =
        if i <? nbuf then trunc w (op (b i) (b (i + m / w))) else b i).
      { intros i. rewrite ascend_spec by apply long_local. reflexivity. }
      apply (widen (2 ^ e) _ m b); [lia|lia|exact Hc| |].
      * intros i. rewrite Hval. destruct (i <? nbuf); [apply trunc_word|apply Hb].
      * intros t Ht. destruct (split_time t) as (i & p & Hp & ->).
        rewrite stream_at by assumption. rewrite Hval.
        destruct (Nat.ltb_spec i nbuf) as [Hlt|Hge]; [|exfalso; nia].
        rewrite trunc_bit, Hop by assumption. rewrite stream_at by assumption.
        pose proof (Nat.div_mod m w ltac:(lia)) as Hdm.
        replace (i * w + p + m) with ((i + m / w) * w + p) by nia. rewrite stream_at by assumption. reflexivity.
    + assert (Hmw : m < w) by (destruct Hfit; lia).
      destruct (Nat.ltb_spec m w) as [_|]; [|lia].
      eexists. split; [reflexivity|].
      assert (Hval : forall i, ascend (fun b i => trunc w (op (b i) (shifted w (b i) (b (S i)) m))) nbuf b i =
        if i <? nbuf then trunc w (op (b i) (shifted w (b i) (b (S i)) m)) else b i).
      { intros i. rewrite ascend_spec by apply short_local. reflexivity. }
      apply (widen (2 ^ e) _ m b); [lia|lia|exact Hc| |].
      * intros i. rewrite Hval. destruct (i <? nbuf); [apply trunc_word|apply Hb].
      * intros t Ht. destruct (split_time t) as (i & p & Hp & ->).
        rewrite stream_at by assumption. rewrite Hval.
        destruct (Nat.ltb_spec i nbuf) as [Hlt|Hge]; [|exfalso; nia].
        rewrite trunc_bit, Hop by assumption. rewrite shifted_stream by lia || assumption.
        rewrite stream_at by assumption. reflexivity.
Qed.
End Unary.

Lemma div2_lt_pow n e : n / 2 < 2 ^ e * 2 ^ n.
Proof.
  pose proof (Nat.pow_gt_lin_r 2 n ltac:(lia)). pose proof (Nat.div_le_upper_bound n 2 n ltac:(lia) ltac:(lia)).
  pose proof (Nat.pow_nonzero 2 e ltac:(lia)). nia.
Qed.

Lemma window_spec op u L a junk nbuf size W d lb ub :
  (forall x y p, position w (op x y) p = u <-> position w x p = u \/ position w y p = u) ->
  w = 2 ^ L -> 1 <= L -> 0 < nbuf -> lb <= ub -> rest_fits w (ub - lb + 1) ->
  w + (ub - lb) <= nbuf * w -> words a -> words junk ->
  exists x, window w op a junk nbuf size W d lb ub = Some x /\ a_word w x /\
    forall p, p < w -> (position w x p = u <-> exists k, lb <= k <= ub /\ operand a size W d (p + k) = u).
Proof.
  intros Hop HL HL1 Hn Hlu Hfit Hsize Ha Hj. unfold window. set (n := ub - lb + 1) in *.
  set (s := fun t => operand a size W d (t + lb)).
  set (b0 := ascend (fun _ i => load_word w a size W d lb i) nbuf junk).
  assert (Hval : forall i, b0 i = if i <? nbuf then load_word w a size W d lb i else junk i).
  { intros i. unfold b0. rewrite ascend_spec by reflexivity. reflexivity. }
  assert (Hc0 : covers u s nbuf (2 ^ 0) b0).
  { split.
    - intros i. rewrite Hval. destruct (i <? nbuf); [|apply Hj].
      unfold load_word. destruct (lb mod w =? 0); [apply trunc_word|apply trunc_word].
    - intros t Ht. destruct (split_time t) as (i & p & Hp & ->). rewrite stream_at by assumption.
      rewrite Hval. cbn [Nat.pow] in Ht. destruct (Nat.ltb_spec i nbuf) as [Hlt|Hge]; [|exfalso; nia].
      rewrite load_stream by assumption. unfold s. split.
      + intros H. exists 0. split; [apply Nat.lt_0_1|]. rewrite Nat.add_0_r. exact H.
      + intros (k & Hk & H). replace k with 0 in H by (cbn [Nat.pow] in Hk; lia). rewrite Nat.add_0_r in H. exact H. }
  destruct (short_rounds_covers op u Hop L HL HL1 s nbuf Hn n n 0 b0) as (e1 & b1 & E1 & _ & Hle1 & Hc1 & Hend1);
    [apply div2_lt_pow|lia|cbn [Nat.pow]; lia|exact Hc0|].
  change (2 ^ 0) with 1 in E1. rewrite E1.
  destruct (long_rounds_covers op u Hop L HL HL1 s nbuf Hn n n e1 b1) as (e2 & b2 & E2 & Hle2 & Hc2 & Hend2);
    [apply div2_lt_pow|destruct Hend1; [left; assumption|right; lia]|exact Hle1|exact Hc1|].
  rewrite E2.
  destruct (leftover_covers op u Hop L HL HL1 s nbuf Hn n e2 b2 Hle2 Hend2 Hfit Hc2) as (b3 & E3 & Hb3 & Hc3).
  rewrite E3. exists (b3 0). split; [reflexivity|]. split; [apply Hb3|]. intros p Hp.
  rewrite <- (stream_at b3 0 p Hp). cbn [Nat.mul Nat.add]. rewrite Hc3 by (unfold n; lia).
  unfold s. split.
  - intros (k & Hk & H). exists (k + lb). split; [unfold n in Hk; lia|]. rewrite Nat.add_assoc. exact H.
  - intros (k & Hk & H). exists (k - lb). split; [unfold n; lia|].
    replace (p + (k - lb) + lb) with (p + k) by lia. exact H.
Qed.

(** ** until *)
Section Until.
Variable L : nat.
Hypothesis HL : w = 2 ^ L.
Hypothesis HL1 : 1 <= L.
Variable s1 s2 : nat -> bool.
Variable nbuf : nat.
Hypothesis Hn : 0 < nbuf.

Definition first_of (b : nat -> N * N) : nat -> N := fun i => fst (b i).
Definition second_of (b : nat -> N * N) : nat -> N := fun i => snd (b i).
(** The first buffer tells whether [s1] holds throughout the next [j] steps, the
    second whether [s2] is reached within them, [s1] holding before. *)
Definition tracks (j : nat) (b : nat -> N * N) : Prop :=
  words (first_of b) /\ words (second_of b) /\
  forall t, t + j <= nbuf * w ->
    (stream (first_of b) t = true <-> forall k, k < j -> s1 (t + k) = true) /\
    (stream (second_of b) t = true <->
       exists k, k < j /\ s2 (t + k) = true /\ forall i, i < k -> s1 (t + i) = true).

Lemma track_more j j' m b b' :
  0 < m <= j -> j' = j + m -> tracks j b -> words (first_of b') -> words (second_of b') ->
  (forall t, t + m < nbuf * w ->
     stream (first_of b') t = stream (first_of b) t && stream (first_of b) (t + m) /\
     stream (second_of b') t = stream (second_of b) t || (stream (first_of b) t && stream (second_of b) (t + m))) ->
  tracks j' b'.
Proof.
  intros Hm -> (Hw1 & Hw2 & Hc) Hv1 Hv2 Hs. split; [exact Hv1|]. split; [exact Hv2|]. intros t Ht.
  destruct (Hs t ltac:(lia)) as [E1 E2]. rewrite E1, E2, orb_true_iff, !andb_true_iff.
  destruct (Hc t ltac:(lia)) as [F1 F2]. destruct (Hc (t + m) ltac:(lia)) as [G1 G2].
  rewrite F1, F2, G1, G2. split; split.
  - intros [H1 H2] k Hk. destruct (Nat.ltb_spec k j) as [Hl|Hg]; [apply H1; exact Hl|].
    replace (t + k) with (t + m + (k - m)) by lia. apply H2. lia.
  - intros H. split; intros k Hk; [apply H; lia|]. rewrite <- Nat.add_assoc. apply H. lia.
  - intros [(k & Hk & Hx & Hy)|[H1 (k & Hk & Hx & Hy)]].
    + exists k. split; [lia|]. split; assumption.
    + exists (m + k). split; [lia|]. split; [rewrite Nat.add_assoc; exact Hx|].
      intros i Hi. destruct (Nat.ltb_spec i j) as [Hl|Hg]; [apply H1; exact Hl|].
      replace (t + i) with (t + m + (i - m)) by lia. apply Hy. lia.
  - intros (k & Hk & Hx & Hy). destruct (Nat.ltb_spec k j) as [Hl|Hg].
    + left. exists k. split; [lia|]. split; assumption.
    + right. split; [intros i Hi; apply Hy; lia|]. exists (k - m). split; [lia|].
      split; [replace (t + m + (k - m)) with (t + k) by lia; exact Hx|].
      intros i Hi. rewrite <- Nat.add_assoc. apply Hy. lia.
Qed.

Definition near (j : nat) (b : nat -> N * N) (i : nat) : N * N :=
  (trunc w (N.land (fst (b i)) (shifted w (fst (b i)) (fst (b (S i))) j)),
   trunc w (N.lor (snd (b i)) (N.land (fst (b i)) (shifted w (snd (b i)) (snd (b (S i))) j)))).
Definition far (m : nat) (b : nat -> N * N) (i : nat) : N * N :=
  (trunc w (N.land (fst (b i)) (fst (b (i + m)))), trunc w (N.lor (snd (b i)) (N.land (fst (b i)) (snd (b (i + m)))))).
Lemma near_local j b b' i : (forall k, i <= k -> b k = b' k) -> near j b i = near j b' i.
Proof. intros H. unfold near. rewrite (H i), (H (S i)) by lia. reflexivity. Qed.
Lemma far_local m b b' i : (forall k, i <= k -> b k = b' k) -> far m b i = far m b' i.
Proof. intros H. unfold far. rewrite (H i), (H (i + m)) by lia. reflexivity. Qed.

Lemma near_bits j b i p :
  words (first_of b) -> words (second_of b) -> 0 < j < w -> p < w ->
  position w (fst (near j b i)) p = stream (first_of b) (i * w + p) && stream (first_of b) (i * w + p + j) /\
  position w (snd (near j b i)) p =
    stream (second_of b) (i * w + p) || (stream (first_of b) (i * w + p) && stream (second_of b) (i * w + p + j)).
Proof using Hw.
  intros H1 H2 Hj Hp. unfold near. cbn [fst snd]. rewrite !trunc_bit by assumption.
  rewrite lor_bit, !land_bit, !stream_at by assumption.
  rewrite <- (shifted_stream (first_of b) i p j H1 Hj Hp), <- (shifted_stream (second_of b) i p j H2 Hj Hp).
  split; reflexivity.
Qed.
Lemma far_bits m b i p :
  p < w ->
  position w (fst (far m b i)) p = stream (first_of b) (i * w + p) && stream (first_of b) (i * w + p + m * w) /\
  position w (snd (far m b i)) p =
    stream (second_of b) (i * w + p) || (stream (first_of b) (i * w + p) && stream (second_of b) (i * w + p + m * w)).
Proof using Hw.
  intros Hp. unfold far. cbn [fst snd]. rewrite !trunc_bit by assumption.
  replace (i * w + p + m * w) with ((i + m) * w + p) by (rewrite Nat.mul_add_distr_r, <- !Nat.add_assoc; f_equal; apply Nat.add_comm).
  rewrite lor_bit, !land_bit, !stream_at by assumption. split; reflexivity.
Qed.

Lemma until_short_tracks j b : 0 < j < w -> tracks j b -> tracks (2 * j) (until_short_round w nbuf j b).
Proof.
  intros Hj Hc. pose proof Hc as (Hb1 & Hb2 & _).
  assert (Hval : forall i, until_short_round w nbuf j b i =
    if i =? nbuf - 1
    then (trunc w (N.land (fst (b i)) (shl (fst (b i)) j)),
          trunc w (N.lor (snd (b i)) (N.land (fst (b i)) (shl (snd (b i)) j))))
    else if i <? nbuf - 1 then near j b i else b i).
  { intros i. unfold until_short_round, put. fold (near j).
    rewrite !(ascend_spec (near j)) by apply near_local.
    rewrite Nat.ltb_irrefl. destruct (Nat.eqb_spec i (nbuf - 1)) as [->|]; reflexivity. }
  apply (track_more j (2 * j) j b); [lia|lia|exact Hc| | |].
  - intros i. unfold first_of. rewrite Hval. destruct (i =? nbuf - 1); [apply trunc_word|].
    destruct (i <? nbuf - 1); [apply trunc_word|apply Hb1].
  - intros i. unfold second_of. rewrite Hval. destruct (i =? nbuf - 1); [apply trunc_word|].
    destruct (i <? nbuf - 1); [apply trunc_word|apply Hb2].
  - intros t Ht. destruct (split_time t) as (i & p & Hp & ->).
    rewrite (stream_at (first_of (until_short_round w nbuf j b)) i p Hp),
      (stream_at (second_of (until_short_round w nbuf j b)) i p Hp).
    unfold first_of at 1, second_of at 1. rewrite Hval.
    destruct (Nat.eqb_spec i (nbuf - 1)) as [Hi|Hi].
    + cbn [fst snd]. rewrite !trunc_bit by assumption. rewrite lor_bit, !land_bit, !shl_bit by assumption.
      assert (Hlt : p + j < w) by nia.
      destruct (Nat.ltb_spec (p + j) w) as [_|]; [|lia].
      replace (i * w + p + j) with (i * w + (p + j)) by lia. rewrite !stream_at by assumption. split; reflexivity.
    + destruct (Nat.ltb_spec i (nbuf - 1)) as [_|Hge].
      * apply near_bits; assumption.
      * exfalso. assert (nbuf <= i) by lia. nia.
Qed.
Lemma until_long_tracks m b :
  0 < m -> tracks (m * w) b -> tracks (2 * (m * w)) (until_long_round w nbuf (m * w) b).
Proof.
  intros Hm Hc. pose proof Hc as (Hb1 & Hb2 & _).
  assert (Hdiv : m * w / w = m) by (apply Nat.div_mul; lia).
  assert (Hval : forall i, until_long_round w nbuf (m * w) b i = if i <? nbuf - m then far m b i else b i).
  { intros i. unfold until_long_round. rewrite Hdiv. fold (far m). rewrite (ascend_spec (far m)) by apply far_local. reflexivity. }
  apply (track_more (m * w) _ (m * w) b); [nia|lia|exact Hc| | |].
  - intros i. unfold first_of. rewrite Hval. destruct (i <? nbuf - m); [apply trunc_word|apply Hb1].
  - intros i. unfold second_of. rewrite Hval. destruct (i <? nbuf - m); [apply trunc_word|apply Hb2].
  - intros t Ht. destruct (split_time t) as (i & p & Hp & ->).
    rewrite (stream_at (first_of (until_long_round w nbuf (m * w) b)) i p Hp),
      (stream_at (second_of (until_long_round w nbuf (m * w) b)) i p Hp).
    unfold first_of at 1, second_of at 1. rewrite Hval.
    destruct (Nat.ltb_spec i (nbuf - m)) as [Hlt|Hge]; [|exfalso; nia].
    apply far_bits. assumption.
Qed.

Lemma until_short_rounds_track n fuel : forall e b,
  n / 2 < 2 ^ e * 2 ^ fuel -> e <= L -> 2 ^ e <= n -> tracks (2 ^ e) b ->
  exists e' b', until_short_rounds w fuel n nbuf (2 ^ e) b = (2 ^ e', b') /\
    e' <= L /\ 2 ^ e' <= n /\ tracks (2 ^ e') b' /\ (n / 2 < 2 ^ e' \/ e' = L).
Proof.
  induction fuel as [|fuel IH]; intros e b Hf He Hen Hc; cbn [until_short_rounds].
  - exists e, b. rewrite Nat.pow_0_r, Nat.mul_1_r in Hf.
    refine (conj eq_refl (conj He (conj Hen (conj Hc _)))). left. exact Hf.
  - destruct (Nat.leb_spec (2 ^ e) (if w / 2 <? n / 2 then w / 2 else n / 2)) as [Hle|Hgt].
    + assert (Hboth : 2 ^ e <= w / 2 /\ 2 ^ e <= n / 2) by (destruct (Nat.ltb_spec (w / 2) (n / 2)); lia).
      destruct Hboth as [H1 H2].
      assert (H1' : e < L).
      { rewrite HL, half_power in H1 by assumption. apply Nat.pow_le_mono_r_iff in H1; lia. }
      assert (Hew : 2 ^ S e <= w) by (rewrite HL; apply Nat.pow_le_mono_r; lia).
      pose proof (Nat.pow_nonzero 2 e ltac:(lia)) as Hne.
      pose proof (Nat.mul_div_le n 2 ltac:(lia)) as Hhalf.
      assert (Hdbl : 2 ^ S e = 2 * 2 ^ e) by apply Nat.pow_succ_r'.
      rewrite <- Hdbl.
      apply IH.
      * rewrite Nat.pow_succ_r' in Hf. rewrite Hdbl. nia.
      * lia.
      * lia.
      * rewrite Hdbl. apply until_short_tracks; [lia|exact Hc].
    + exists e, b. refine (conj eq_refl (conj He (conj Hen (conj Hc _)))).
      destruct (Nat.ltb_spec (w / 2) (n / 2)) as [Hlt|Hge]; [|left; exact Hgt].
      right. rewrite HL, half_power in Hgt by assumption.
      assert (L - 1 < e) by (apply (Nat.pow_lt_mono_r_iff 2); lia). lia.
Qed.
Lemma until_long_rounds_track n fuel : forall e b,
  n / 2 < 2 ^ e * 2 ^ fuel -> (n / 2 < 2 ^ e \/ L <= e) -> 2 ^ e <= n -> tracks (2 ^ e) b ->
  exists e' b', until_long_rounds w fuel n nbuf (2 ^ e) b = (2 ^ e', b') /\
    2 ^ e' <= n /\ tracks (2 ^ e') b' /\ n / 2 < 2 ^ e'.
Proof.
  induction fuel as [|fuel IH]; intros e b Hf He Hen Hc; cbn [until_long_rounds].
  - exists e, b. rewrite Nat.pow_0_r, Nat.mul_1_r in Hf. exact (conj eq_refl (conj Hen (conj Hc Hf))).
  - destruct (Nat.leb_spec (2 ^ e) (n / 2)) as [Hle|Hgt].
    + assert (HLe : L <= e) by lia.
      pose proof (Nat.mul_div_le n 2 ltac:(lia)) as Hhalf.
      assert (Hdbl : 2 ^ S e = 2 * 2 ^ e) by apply Nat.pow_succ_r'.
      rewrite <- Hdbl. apply IH.
      * rewrite Nat.pow_succ_r' in Hf. rewrite Hdbl. nia.
      * right. lia.
      * lia.
      * rewrite Hdbl. assert (Hm : 2 ^ e = 2 ^ (e - L) * w).
        { rewrite HL, <- Nat.pow_add_r. f_equal. lia. }
        rewrite Hm in Hc |- *. apply until_long_tracks; [|exact Hc].
        pose proof (Nat.pow_nonzero 2 (e - L) ltac:(lia)). lia.
    + exists e, b. exact (conj eq_refl (conj Hen (conj Hc Hgt))).
Qed.
Lemma until_leftover_tracks n e b :
  2 ^ e <= n -> n < 2 * 2 ^ e -> rest_fits w n -> tracks (2 ^ e) b ->
  exists b', until_leftover_round w n nbuf (2 ^ e) b = Some b' /\ tracks n b'.
Proof.
  intros Hle Hn2 Hfit Hc. pose proof Hc as (Hb1 & Hb2 & _).
  assert (Hlog : Nat.log2 n = e) by (apply Nat.log2_unique; [lia|rewrite Nat.pow_succ_r'; lia]).
  unfold rest_fits in Hfit. rewrite Hlog in Hfit. unfold until_leftover_round.
  assert (Hmod : n mod 2 ^ e = n - 2 ^ e).
  { symmetry. apply (Nat.mod_unique _ _ 1); lia. }
  rewrite Hmod. set (m := n - 2 ^ e) in *.
  destruct (Nat.eqb_spec m 0) as [H0|H0].
  - exists b. split; [reflexivity|]. replace n with (2 ^ e) by lia. exact Hc.
  - destruct (Nat.eqb_spec (m mod w) 0) as [Hal|Hal].
    + fold (far (m / w)). eexists. split; [reflexivity|].
      assert (Hval : forall i, ascend (far (m / w)) nbuf b i = if i <? nbuf then far (m / w) b i else b i).
      { intros i. rewrite ascend_spec by apply far_local. reflexivity. }
      apply (track_more (2 ^ e) _ m b); [lia|lia|exact Hc| | |].
      * intros i. unfold first_of. rewrite Hval. destruct (i <? nbuf); [apply trunc_word|apply Hb1].
      * intros i. unfold second_of. rewrite Hval. destruct (i <? nbuf); [apply trunc_word|apply Hb2].
      * intros t Ht. destruct (split_time t) as (i & p & Hp & ->).
        rewrite (stream_at (first_of (ascend (far (m / w)) nbuf b)) i p Hp),
          (stream_at (second_of (ascend (far (m / w)) nbuf b)) i p Hp).
        unfold first_of at 1, second_of at 1. rewrite Hval.
        destruct (Nat.ltb_spec i nbuf) as [Hlt|Hge]; [|exfalso; nia].
        assert (Hdm : m / w * w = m) by (pose proof (Nat.div_mod m w ltac:(lia)) as Hdm; lia).
        destruct (far_bits (m / w) b i p Hp) as [E1 E2]. rewrite Hdm in E1, E2. split; assumption.
    + assert (Hmw : m < w) by (destruct Hfit; lia).
      destruct (Nat.ltb_spec m w) as [_|]; [|lia].
      fold (near m). eexists. split; [reflexivity|].
      assert (Hval : forall i, ascend (near m) nbuf b i = if i <? nbuf then near m b i else b i).
      { intros i. rewrite ascend_spec by apply near_local. reflexivity. }
      apply (track_more (2 ^ e) _ m b); [lia|lia|exact Hc| | |].
      * intros i. unfold first_of. rewrite Hval. destruct (i <? nbuf); [apply trunc_word|apply Hb1].
      * intros i. unfold second_of. rewrite Hval. destruct (i <? nbuf); [apply trunc_word|apply Hb2].
      * intros t Ht. destruct (split_time t) as (i & p & Hp & ->).
        rewrite (stream_at (first_of (ascend (near m) nbuf b)) i p Hp),
          (stream_at (second_of (ascend (near m) nbuf b)) i p Hp).
        unfold first_of at 1, second_of at 1. rewrite Hval.
        destruct (Nat.ltb_spec i nbuf) as [Hlt|Hge]; [|exfalso; nia].
        apply near_bits; try assumption. lia.
Qed.
End Until.

Lemma until_window_spec L a1 a2 junk nbuf size W d lb ub :
  w = 2 ^ L -> 1 <= L -> 0 < nbuf -> lb <= ub -> rest_fits w (ub - lb + 1) ->
  2 ^ Nat.log2 (ub + 1) <= ub - lb + 1 ->
  w + (ub - lb) <= nbuf * w -> words a1 -> words a2 -> words (first_of junk) -> words (second_of junk) ->
  exists x, until_window w a1 a2 junk nbuf size W d lb ub = Some x /\ a_word w x /\
    forall p, p < w -> (position w x p = true <->
      exists k, lb <= k <= ub /\ operand a2 size W d (p + k) = true /\
        forall i, lb <= i < k -> operand a1 size W d (p + i) = true).
Proof.
  intros HL HL1 Hn Hlu Hfit Hpow Hsize Ha1 Ha2 Hj1 Hj2. unfold until_window. set (n := ub - lb + 1) in *.
  set (s1 := fun t => operand a1 size W d (t + lb)). set (s2 := fun t => operand a2 size W d (t + lb)).
  set (b0 := ascend (fun _ i => (load_word w a1 size W d lb i, load_word w a2 size W d lb i)) nbuf junk).
  assert (Hval : forall i, b0 i = if i <? nbuf then (load_word w a1 size W d lb i, load_word w a2 size W d lb i) else junk i).
  { intros i. unfold b0. rewrite ascend_spec by reflexivity. reflexivity. }
  assert (Hlw : forall a i, a_word w (load_word w a size W d lb i)).
  { intros a i. unfold load_word. destruct (lb mod w =? 0); [apply trunc_word|apply trunc_word]. }
  assert (Hc0 : tracks s1 s2 nbuf (2 ^ 0) b0).
  { split; [|split].
    - intros i. unfold first_of. rewrite Hval. destruct (i <? nbuf); [apply Hlw|apply Hj1].
    - intros i. unfold second_of. rewrite Hval. destruct (i <? nbuf); [apply Hlw|apply Hj2].
    - intros t Ht. destruct (split_time t) as (i & p & Hp & ->). rewrite !stream_at by assumption.
      unfold first_of, second_of. rewrite Hval. cbn [Nat.pow] in Ht |- *.
      destruct (Nat.ltb_spec i nbuf) as [Hlt|Hge]; [|exfalso; nia]. cbn [fst snd].
      rewrite !load_stream by assumption. unfold s1, s2. split; split.
      + intros H k Hk. replace k with 0 by lia. rewrite Nat.add_0_r. exact H.
      + intros H. specialize (H 0 ltac:(lia)). rewrite Nat.add_0_r in H. exact H.
      + intros H. exists 0. split; [lia|]. rewrite Nat.add_0_r. split; [exact H|]. intros; lia.
      + intros (k & Hk & H & _). replace k with 0 in H by lia. rewrite Nat.add_0_r in H. exact H. }
  destruct (until_short_rounds_track L HL HL1 s1 s2 nbuf Hn (ub + 1) (ub + 1) 0 b0) as (e1 & b1 & E1 & _ & Hle1 & Hc1 & Hend1);
    [apply div2_lt_pow|lia|cbn [Nat.pow]; lia|exact Hc0|].
  change (2 ^ 0) with 1 in E1. rewrite E1.
  destruct (until_long_rounds_track L HL HL1 s1 s2 nbuf Hn (ub + 1) (ub + 1) e1 b1) as (e2 & b2 & E2 & Hle2 & Hc2 & Hend2);
    [apply div2_lt_pow|destruct Hend1; [left; assumption|right; lia]|exact Hle1|exact Hc1|].
  rewrite E2.
  assert (Hub2 : ub + 1 < 2 * 2 ^ e2).
  { pose proof (Nat.div_mod (ub + 1) 2 ltac:(lia)). pose proof (Nat.mod_upper_bound (ub + 1) 2 ltac:(lia)). lia. }
  assert (Hlog : Nat.log2 (ub + 1) = e2) by (apply Nat.log2_unique; [lia|rewrite Nat.pow_succ_r'; lia]).
  rewrite Hlog in Hpow.
  destruct (until_leftover_tracks L HL HL1 s1 s2 nbuf Hn n e2 b2 Hpow ltac:(lia) Hfit Hc2) as (b3 & E3 & Hb31 & Hb32 & Hc3).
  rewrite E3. exists (snd (b3 0)). split; [reflexivity|]. split; [apply Hb32|]. intros p Hp.
  change (position w (snd (b3 0)) p) with (position w (second_of b3 0) p).
  rewrite <- (stream_at (second_of b3) 0 p Hp). cbn [Nat.mul Nat.add].
  destruct (Hc3 p ltac:(unfold n; lia)) as [_ H2]. rewrite H2.
  unfold s1, s2. split.
  - intros (k & Hk & H & H'). exists (k + lb). split; [unfold n in Hk; lia|]. rewrite Nat.add_assoc.
    split; [exact H|]. intros i Hi. replace (p + i) with (p + (i - lb) + lb) by lia. apply H'. lia.
  - intros (k & Hk & H & H'). exists (k - lb). split; [unfold n; lia|].
    replace (p + (k - lb) + lb) with (p + k) by lia. split; [exact H|].
    intros i Hi. replace (p + i + lb) with (p + (i + lb)) by lia. apply H'. lia.
Qed.
End Bits.
