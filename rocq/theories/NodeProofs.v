(** * What one visit of an instruction achieves (proof infrastructure) *)
From Coq Require Import List Arith Bool Lia.
Require Import Verif.MltlEval Verif.Scq Verif.Engine Verif.EngineLocal.
Import ListNotations.

(** [r] is what a reader at time [n] gets from a producer of the stream [p]
    that has decided the times below [K]. *)
Definition view (p : nat -> bool) (K n : nat) (r : option verdict) : Prop :=
  match r with
  | Some (b, t) => n <= t < K /\ forall s, n <= s <= t -> p s = b
  | None => K <= n
  end.
(** ... and the verdict it gets cannot be extended. *)
Definition maximal (p : nat -> bool) (K : nat) (r : option verdict) : Prop :=
  match r with
  | Some (b, t) => S t < K -> p (S t) = negb b
  | None => True
  end.

Definition prev_ok (K : nat) (prev : verdict) : Prop :=
  (K = 0 /\ prev = (false, 0)) \/ (0 < K /\ prev = (true, K - 1)).

Lemma fresh_ok K prev t : prev_ok K prev -> fresh t prev = true <-> K <= t.
Proof.
  unfold fresh. rewrite orb_true_iff, andb_true_iff, Nat.ltb_lt, Nat.eqb_eq, negb_true_iff.
  intros [[-> ->]|[H ->]]; cbn; split; try lia; intuition (lia || discriminate).
Qed.

(** Until (u = true) and release (u = false) in one formulation. *)
Definition until_like (u : bool) (lb ub : nat) (p q val : nat -> bool) : Prop :=
  forall i, val i = u <->
    exists j, i + lb <= j <= i + ub /\ q j = u /\ forall k, i + lb <= k < j -> p k = u.
Lemma until_like_U lb ub p q : until_like true lb ub p q (opU lb ub p q).
Proof. intros i. apply opU_true. Qed.
Lemma until_like_R lb ub p q : until_like false lb ub p q (opR lb ub p q).
Proof. intros i. apply opR_false. Qed.

Lemma neq_negb (a u : bool) : a <> u <-> a = negb u.
Proof. destruct a, u; cbn; intuition congruence. Qed.
Lemma eqb_cases (b u : bool) : (Bool.eqb b u = true /\ b = u) \/ (Bool.eqb b u = false /\ b = negb u).
Proof. destruct b, u; cbn; auto. Qed.

Section Until.
  Variables (u : bool) (lb ub : nat) (p q val : nat -> bool).
  Hypothesis Hval : until_like u lb ub p q val.

  Record uinv (K n : nat) (prev : verdict) : Prop := {
    ui_bounds : lb <= ub;
    ui_lo : K + lb <= n;
    ui_hi : n <= K + ub;
    ui_open : forall s, K + lb <= s < n -> p s = u /\ q s = negb u;
    ui_prev : prev_ok K prev
  }.

  Lemma uinv_init : lb <= ub -> uinv 0 lb (false, 0).
  Proof. intros H. constructor; auto; try lia. left; auto. Qed.

  Lemma val_negb i : (forall j, i + lb <= j <= i + ub -> q j = u ->
                       exists k, i + lb <= k < j /\ p k <> u) -> val i = negb u.
  Proof.
    intros H. apply neq_negb. intros E0. apply (proj1 (Hval i)) in E0 as (j & Hj & Eq & Ep).
    destruct (H j Hj Eq) as (k & Hk & E). apply E. apply Ep. assumption.
  Qed.

  (** One visit. *)
  Lemma until_visit K n prev Kp Kq r0 r1 :
    uinv K n prev -> view q Kq n r1 -> (r1 = None \/ view p Kp n r0) ->
    let l := until_local u lb ub n prev r0 r1 in
    n <= l_next l /\ l_out l = None /\
    match l_push l with
    | None => uinv K (l_next l) (l_prev l)
    | Some (b, t) => K <= t < Kq /\ (forall s, K <= s <= t -> val s = b) /\ uinv (S t) (l_next l) (l_prev l)
    end.
  Proof.
    intros HU Hq Hp. pose proof HU as [Hb Hlo Hhi Hop Hprev].
    destruct r1 as [[b1 t1]|]; [|cbn; auto]. destruct Hp as [Hp|Hp]; [discriminate|].
    cbn in Hq. destruct Hq as [Ht1 Hq].
    unfold until_local.
    destruct (eqb_cases b1 u) as [[-> ->]|[-> ->]].
    { (* the right operand decides *)
      cbn. split; [lia|]. split; [reflexivity|]. split; [lia|]. split.
      - intros s Hs. apply Hval. destruct (Nat.le_gt_cases n (s + lb)) as [Hn|Hn].
        + exists (s + lb). split; [lia|]. split; [apply Hq; lia|]. intros; lia.
        + exists n. split; [lia|]. split; [apply Hq; lia|].
          intros k Hk. apply Hop; lia.
      - constructor; auto; try lia. right. split; [lia|]. f_equal. lia. }
    cbn zeta.
    assert (Hel : forall n', n <= n' <= t1 + 1 -> (forall s, K + lb <= s < n' -> p s = u /\ q s = negb u) ->
      let l := if (snd prev + ub <=? t1) && fresh (t1 - ub) prev
               then Local (Some (negb u, t1 - ub)) None (Nat.max n' (t1 - ub + lb + 1)) (true, t1 - ub)
               else Local None None n' prev in
      n <= l_next l /\ l_out l = None /\
      match l_push l with
      | None => n' <= K + ub -> uinv K (l_next l) (l_prev l)
      | Some (b, t) => K <= t < Kq /\ (forall s, K <= s <= t -> val s = b) /\ uinv (S t) (l_next l) (l_prev l)
      end /\ (l_push l = None -> t1 < K + ub)).
    { intros n' Hn' Hop'.
      assert (Hfr := fresh_ok K prev (t1 - ub) Hprev).
      assert (Hpv : snd prev = K - 1) by (destruct Hprev as [[-> ->]|[_ ->]]; reflexivity).
      destruct (snd prev + ub <=? t1) eqn:E1.
      - apply Nat.leb_le in E1. destruct (fresh (t1 - ub) prev) eqn:E2; cbn.
        + assert (Hk : K <= t1 - ub) by (apply Hfr; reflexivity).
          assert (Hub : ub <= t1) by lia.
          split; [lia|]. split; [reflexivity|]. split; [|discriminate]. split; [lia|]. split.
          * intros s Hs. apply val_negb. intros j Hj Eq. exfalso.
            assert (q j = negb u); [|rewrite Eq in H; destruct u; discriminate].
            destruct (Nat.lt_ge_cases j n) as [Hjn|Hjn]; [apply Hop; lia|]. apply Hq. lia.
          * constructor; auto; try lia.
            -- intros s Hs. apply Hop'. lia.
            -- right. split; [lia|]. f_equal. lia.
        + split; [lia|]. split; [reflexivity|]. split.
          * intros Hx. constructor; auto; lia.
          * intros _. assert (~ K <= t1 - ub) by (rewrite <- Hfr; discriminate). lia.
      - apply Nat.leb_gt in E1. cbn. split; [lia|]. split; [reflexivity|]. split.
        + intros Hx. constructor; auto; lia.
        + intros _. destruct Hprev as [[-> ->]|[Hk ->]]; cbn in E1; lia. }
    destruct r0 as [[b0 t0]|].
    - cbn in Hp. destruct Hp as [Ht0 Hp].
      destruct (eqb_cases b0 u) as [[-> ->]|[-> ->]].
      + destruct (Hel (Nat.min t0 t1 + 1) ltac:(lia)) as (R1 & R2 & R3 & R4).
        { intros s Hs. destruct (Nat.lt_ge_cases s n) as [Hsn|Hsn]; [apply Hop; lia|].
          split; [apply Hp; lia|apply Hq; lia]. }
        split; [assumption|]. split; [assumption|].
        destruct (l_push _) as [[b t]|]; [assumption|]. apply R3. specialize (R4 eq_refl). lia.
      + cbn. split; [lia|]. split; [reflexivity|]. split; [lia|]. split.
        * intros s Hs. apply val_negb. intros j Hj Eq.
          assert (Hne : forall x, n <= x <= t1 -> q x <> u).
          { intros x Hx. rewrite (Hq x Hx). destruct u; discriminate. }
          assert (Hne' : forall x, K + lb <= x < n -> q x <> u).
          { intros x Hx. rewrite (proj2 (Hop x Hx)). destruct u; discriminate. }
          assert (Hpn : forall x, n <= x <= t0 -> p x <> u).
          { intros x Hx. rewrite (Hp x Hx). destruct u; discriminate. }
          destruct (Nat.lt_ge_cases j n) as [Hjn|Hjn]; [exfalso; apply (Hne' j); [lia|assumption]|].
          destruct (Nat.le_gt_cases n (s + lb)) as [Hn|Hn].
          -- destruct (Nat.eq_dec j (s + lb)) as [->|]; [exfalso; apply (Hne (s + lb)); [lia|assumption]|].
             exists (s + lb). split; [lia|]. apply Hpn. lia.
          -- destruct (Nat.eq_dec j n) as [->|]; [exfalso; apply (Hne n); [lia|assumption]|].
             exists n. split; [lia|]. apply Hpn. lia.
        * constructor; auto; try lia. right. split; [lia|]. f_equal. lia.
    - destruct (Hel n ltac:(lia)) as (R1 & R2 & R3 & R4); [assumption|].
      split; [assumption|]. split; [assumption|].
      destruct (l_push _) as [[b t]|]; [assumption|]. apply R3. assumption.
  Qed.

  (** With both operands available, a visit moves on. *)
  Lemma until_moves K n prev Kp Kq b0 t0 b1 t1 :
    uinv K n prev -> view q Kq n (Some (b1, t1)) -> view p Kp n (Some (b0, t0)) ->
    1 <= l_next (until_local u lb ub n prev (Some (b0, t0)) (Some (b1, t1))).
  Proof.
    intros _ _ _. unfold until_local.
    destruct (Bool.eqb b1 u); [cbn; lia|]. destruct (Bool.eqb b0 u); [|cbn; lia].
    destruct (_ && _); cbn; lia.
  Qed.

  (** Two visits without output, seeing the same data: then the window of the
      next output is not complete yet. *)
  Lemma until_timely K n prev Kp Kq r0 r1 r0' r1' :
    uinv K n prev ->
    view q Kq n r1 -> maximal q Kq r1 -> view p Kp n r0 -> maximal p Kp r0 ->
    let l := until_local u lb ub n prev r0 r1 in
    l_push l = None ->
    view q Kq (l_next l) r1' -> view p Kp (l_next l) r0' ->
    l_push (until_local u lb ub (l_next l) (l_prev l) r0' r1') = None ->
    Kp <= K + ub \/ Kq <= K + ub.
  Proof.
    intros HU Hq Mq Hp Mp l Hl Hq' Hp' Hl'.
    destruct (Nat.le_gt_cases Kp (K + ub)) as [|HKp]; [auto|].
    destruct (Nat.le_gt_cases Kq (K + ub)) as [|HKq]; [auto|]. exfalso.
    pose proof HU as [Hb Hlo Hhi Hop Hprev].
    assert (Hpv : snd prev = K - 1) by (destruct Hprev as [[-> ->]|[_ ->]]; reflexivity).
    assert (Hpush : forall t, K + ub <= t -> (snd prev + ub <=? t) && fresh (t - ub) prev = true).
    { intros t Ht. rewrite (proj2 (fresh_ok K prev (t - ub) Hprev)) by lia.
      rewrite andb_true_r. apply Nat.leb_le. lia. }
    destruct r1 as [[b1 t1]|]; [|cbn in Hq; lia].
    destruct r0 as [[b0 t0]|]; [|cbn in Hp; lia].
    cbn in Hq, Mq, Hp, Mp. destruct Hq as [Ht1 Hq]. destruct Hp as [Ht0 Hp].
    subst l. unfold until_local in *.
    destruct (eqb_cases b1 u) as [[E ->]|[E ->]]; rewrite E in *; [discriminate|].
    destruct (eqb_cases b0 u) as [[E0 ->]|[E0 ->]]; rewrite E0 in *; [|discriminate].
    cbn zeta in *.
    destruct ((snd prev + ub <=? t1) && fresh (t1 - ub) prev) eqn:E1; [discriminate|].
    cbn [l_next l_prev l_push] in *.
    assert (Hlt : t1 < K + ub).
    { destruct (Nat.lt_ge_cases t1 (K + ub)) as [|Hge]; [assumption|].
      rewrite (Hpush t1 Hge) in E1. discriminate. }
    specialize (Mq ltac:(lia)). rewrite negb_involutive in Mq.
    destruct (Nat.le_gt_cases t1 t0) as [Hle|Hgt].
    - replace (Nat.min t0 t1) with t1 in * by lia.
      destruct r1' as [[b1' t1']|]; [|cbn in Hq'; lia].
      destruct Hq' as [Ht1' Hq']. assert (Eb : b1' = u).
      { rewrite <- Mq. symmetry. apply Hq'. lia. }
      subst b1'. rewrite eqb_reflx in Hl'. discriminate.
    - replace (Nat.min t0 t1) with t0 in * by lia.
      specialize (Mp ltac:(lia)).
      destruct r1' as [[b1' t1']|]; [|cbn in Hq'; lia].
      destruct (Bool.eqb b1' u); [discriminate|].
      destruct r0' as [[b0' t0']|]; [|cbn in Hp'; lia].
      destruct Hp' as [Ht0' Hp']. assert (Eb : b0' = negb u).
      { rewrite <- Mp. symmetry. apply Hp'. lia. }
      subst b0'. replace (Bool.eqb (negb u) u) with false in Hl' by (destruct u; reflexivity). discriminate.
  Qed.
End Until.

(** ** Boolean connectives *)
Lemma not_visit p K Kp prev r0 :
  view p Kp K r0 -> forall lb ub,
  let l := local_of NOT lb ub K prev r0 None in
  l_out l = None /\ l_prev l = prev /\
  match l_push l with
  | None => l_next l = K /\ Kp <= K
  | Some (b, t) => K <= t < Kp /\ (forall s, K <= s <= t -> negb (p s) = b) /\ l_next l = S t
  end.
Proof.
  intros Hp lb ub. destruct r0 as [[b0 t0]|]; cbn in *; [|auto].
  destruct Hp as [Ht Hp]. repeat split; try lia. intros s Hs. rewrite Hp by lia. reflexivity.
Qed.
Lemma and_visit p q K Kp Kq prev r0 r1 :
  view p Kp K r0 -> view q Kq K r1 -> forall lb ub,
  let l := local_of AND lb ub K prev r0 r1 in
  l_out l = None /\ l_prev l = prev /\
  match l_push l with
  | None => l_next l = K /\ (Kp <= K \/ Kq <= K)
  | Some (b, t) => K <= t < Nat.max Kp Kq /\ (forall s, K <= s <= t -> p s && q s = b) /\ l_next l = S t
  end.
Proof.
  intros Hp Hq lb ub. destruct r0 as [[[|] t0]|], r1 as [[[|] t1]|]; cbn in *;
    try (destruct Hp as [Ht0 Hp]); try (destruct Hq as [Ht1 Hq]);
    split; try reflexivity; split; try reflexivity; try (split; [lia|]); try (split; [|lia]); auto;
    intros s Hs.
  - rewrite Hp, Hq by lia. reflexivity.
  - rewrite Hq by lia. apply andb_false_r.
  - rewrite Hp by lia. reflexivity.
  - destruct (Nat.le_gt_cases s t0); [rewrite Hp by lia; reflexivity|].
    rewrite Hq by lia. apply andb_false_r.
  - rewrite Hp by lia. reflexivity.
  - rewrite Hq by lia. apply andb_false_r.
Qed.
Lemma or_visit p q K Kp Kq prev r0 r1 :
  view p Kp K r0 -> view q Kq K r1 -> forall lb ub,
  let l := local_of OR lb ub K prev r0 r1 in
  l_out l = None /\ l_prev l = prev /\
  match l_push l with
  | None => l_next l = K /\ (Kp <= K \/ Kq <= K)
  | Some (b, t) => K <= t < Nat.max Kp Kq /\ (forall s, K <= s <= t -> p s || q s = b) /\ l_next l = S t
  end.
Proof.
  intros Hp Hq lb ub. destruct r0 as [[[|] t0]|], r1 as [[[|] t1]|]; cbn in *;
    try (destruct Hp as [Ht0 Hp]); try (destruct Hq as [Ht1 Hq]);
    split; try reflexivity; split; try reflexivity; try (split; [lia|]); try (split; [|lia]); auto;
    intros s Hs.
  - destruct (Nat.le_gt_cases s t0); [rewrite Hp by lia; reflexivity|].
    rewrite Hq by lia. apply orb_true_r.
  - rewrite Hp by lia. reflexivity.
  - rewrite Hp by lia. reflexivity.
  - rewrite Hq by lia. apply orb_true_r.
  - rewrite Hp, Hq by lia. reflexivity.
  - rewrite Hq by lia. apply orb_true_r.
Qed.
Lemma equiv_visit p q K Kp Kq prev r0 r1 :
  view p Kp K r0 -> view q Kq K r1 -> forall lb ub,
  let l := local_of EQUIV lb ub K prev r0 r1 in
  l_out l = None /\ l_prev l = prev /\
  match l_push l with
  | None => l_next l = K /\ (Kp <= K \/ Kq <= K)
  | Some (b, t) => K <= t < Nat.max Kp Kq /\ (forall s, K <= s <= t -> Bool.eqb (p s) (q s) = b) /\ l_next l = S t
  end.
Proof.
  intros Hp Hq lb ub. destruct r0 as [[b0 t0]|], r1 as [[b1 t1]|]; cbn in *;
    try (destruct Hp as [Ht0 Hp]); try (destruct Hq as [Ht1 Hq]);
    split; try reflexivity; split; try reflexivity; try (split; [lia|]); try (split; [|lia]); auto.
  intros s Hs. rewrite Hp, Hq by lia. reflexivity.
Qed.
