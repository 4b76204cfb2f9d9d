(** * The queries over uninterpreted functions (proofs) *)
From Coq Require Import List Arith ZArith NArith Bool Lia.
From Verif Require Import Mltl MltlShape MltlEval Transform Window DelayProofs.
From Verif Require Import Smt SmtSpec SmtQueries.
Import ListNotations.
Local Open Scope nat_scope.

Lemma sat_later s tr e : all_nodes future_op e -> forall i, sat tr e (i + s) <-> sat (later s tr) e i.
Proof.
  intros H i. pose proof (wpd_nonneg e H). set (len := i + Z.to_nat (wpd e) + 1).
  rewrite <- (tsat_long tr e H (len + s)) by (unfold len; lia).
  rewrite <- (tsat_long _ e H len) by (unfold len; lia). apply tsat_later.
Qed.
Lemma sat_decidable tr e i : sat tr e i \/ ~ sat tr e i.
Proof. destruct (den tr e i) eqn:E; [left; apply den_sat, E|right; apply den_false_sat, E]. Qed.
Lemma differ_satisfiable e1 e2 : all_nodes future_op e1 -> all_nodes future_op e2 ->
  (~ satisfiable (differ e1 e2) <-> equivalent e1 e2).
Proof.
  intros H1 H2. split.
  - intros H tr i. change i with (0 + i). rewrite (sat_later i tr e1 H1), (sat_later i tr e2 H2).
    destruct (sat_decidable (later i tr) (differ e1 e2) 0) as [Hd|Hd].
    + exfalso. apply H. eexists. exact Hd.
    + cbn [differ sat] in Hd.
      destruct (sat_decidable (later i tr) e1 0), (sat_decidable (later i tr) e2 0); tauto.
  - intros H (tr & Hd). apply Hd. apply H.
Qed.

(** ** QF_UFLIA *)
Lemma qf_supported_spec e : qf_supported e = true <-> all_nodes function_op e.
Proof.
  induction e as [b|a|e IH|es IH|es IH|p q IHp IHq|p q IHp IHq|p q IHp IHq|p q IHp IHq
                 |lb ub e IH|lb ub e IH|lb ub p q IHp IHq|lb ub p q IHp IHq| | | |] using expr_ind';
    cbn [qf_supported all_nodes function_op]; try tauto; try (intuition discriminate);
    try (rewrite andb_true_iff, IHp, IHq; tauto).
  all: rewrite forallb_forall, conj_in; rewrite Forall_forall in IH; split;
    [intros H; split; [exact Logic.I|]; intros x Hx; apply IH; auto|intros [_ H] x Hx; apply IH; auto].
Qed.
Lemma uf_supported_spec e : uf_supported e = true <-> all_nodes quantified_op e.
Proof.
  induction e as [b|a|e IH|es IH|es IH|p q IHp IHq|p q IHp IHq|p q IHp IHq|p q IHp IHq
                 |lb ub e IH|lb ub e IH|lb ub p q IHp IHq|lb ub p q IHp IHq| | | |] using expr_ind';
    cbn [uf_supported all_nodes quantified_op function_op]; try tauto; try (intuition discriminate);
    try (rewrite andb_true_iff, IHp, IHq; tauto).
  all: rewrite andb_true_iff, Nat.leb_le, forallb_forall, conj_in; rewrite Forall_forall in IH; split;
    (intros [H1 H2]; split; [exact H1|]; intros x Hx; apply IH; auto).
Qed.
Lemma function_future e : all_nodes function_op e -> all_nodes future_op e.
Proof.
  induction e as [b|a|e IH|es IH|es IH|p q IHp IHq|p q IHp IHq|p q IHp IHq|p q IHp IHq
                 |lb ub e IH|lb ub e IH|lb ub p q IHp IHq|lb ub p q IHp IHq| | | |] using expr_ind';
    intros [Hop H]; try (cbn in Hop; contradiction); try (split; cbn; auto; fail);
    try (destruct H; split; cbn; auto; fail).
  all: split; [exact Logic.I|]; rewrite conj_in in *; rewrite Forall_forall in IH; auto.
Qed.

Lemma qf_unroll_spec (p q : Z -> Prop) k n : forall i,
  qf_unroll p q k i n <->
  exists j, i <= j <= i + n /\ q (Z.of_nat j + k)%Z /\ forall m, i <= m < j -> p (Z.of_nat m + k)%Z.
Proof.
  induction n as [|n IH]; intros i; cbn [qf_unroll].
  - split.
    + intros H. exists i. split; [lia|]. split; [exact H|]. intros; lia.
    + intros (j & Hj & H & _). replace i with j by lia. exact H.
  - rewrite IH. split.
    + intros [H|(Hp & j & Hj & H & HA)].
      * exists i. split; [lia|]. split; [exact H|]. intros; lia.
      * exists j. split; [lia|]. split; [exact H|]. intros m Hm.
        destruct (Nat.eq_dec m i) as [->|]; [exact Hp|apply HA; lia].
    + intros (j & Hj & H & HA). destruct (Nat.eq_dec j i) as [->|]; [left; exact H|right].
      split; [apply HA; lia|]. exists j. split; [lia|]. split; [exact H|]. intros m Hm. apply HA. lia.
Qed.

Definition trace_of (f : nat -> Z -> bool) : trace := fun t a => f a (Z.of_nat t).
Definition function_of (tr : trace) : nat -> Z -> bool := fun a k => tr (Z.to_nat k) a.
Lemma trace_of_function tr t a : trace_of (function_of tr) t a = tr t a.
Proof. unfold trace_of, function_of. rewrite Nat2Z.id. reflexivity. Qed.

(** Beyond the end of the trace nothing but a constant is true. *)
Lemma qf_beyond f len e k : (len <= k)%Z -> qf_term f len e k -> e = EConst true.
Proof.
  intros Hk. destruct e; cbn [qf_term]; try tauto; try (intros H; exfalso; lia).
  intros ->. reflexivity.
Qed.

Lemma qf_truncated f e : legal e -> all_nodes function_op e -> forall len i, i < len ->
  (qf_term f (Z.of_nat len) e (Z.of_nat i) <-> tsat len (trace_of f) e i).
Proof.
  induction e as [b|a|e IH|es IH|es IH|p q IHp IHq|p q IHp IHq|p q IHp IHq|p q IHp IHq
                 |lb ub e IH|lb ub e IH|lb ub p q IHp IHq|lb ub p q IHp IHq| | | |] using expr_ind';
    intros Hl [Hop Hn] len i Hi; try (cbn in Hop; contradiction); cbn [qf_term tsat]; try reflexivity;
    assert (Hg : (Z.of_nat len > Z.of_nat i)%Z) by lia.
  - tauto.
  - rewrite (IH Hl Hn len i Hi). tauto.
  - rewrite conj_in in Hn. apply legal_conj in Hl. rewrite Forall_forall in *.
    enough (fold_right (fun p P => qf_term f (Z.of_nat len) p (Z.of_nat i) /\ P) True es <->
            fold_right (fun p P => tsat len (trace_of f) p i /\ P) True es) by tauto.
    apply conj_ext. rewrite Forall_forall. intros x Hx. exact (IH x Hx (Hl x Hx) (Hn x Hx) len i Hi).
  - rewrite conj_in in Hn. apply legal_conj in Hl. rewrite Forall_forall in *.
    enough (fold_right (fun p P => qf_term f (Z.of_nat len) p (Z.of_nat i) \/ P) False es <->
            fold_right (fun p P => tsat len (trace_of f) p i \/ P) False es) by tauto.
    apply disj_ext. rewrite Forall_forall. intros x Hx. exact (IH x Hx (Hl x Hx) (Hn x Hx) len i Hi).
  - destruct Hl, Hn. rewrite (IHp H H1 len i Hi), (IHq H0 H2 len i Hi). tauto.
  - destruct Hl, Hn. rewrite (IHp H H1 len i Hi), (IHq H0 H2 len i Hi). tauto.
  - destruct Hl, Hn. rewrite (IHp H H1 len i Hi), (IHq H0 H2 len i Hi). tauto.
  - destruct Hl as [Hle Hl]. split.
    + intros [Hlen (j & Hj & H)]. destruct (le_lt_dec len (i + j)) as [Hb|Hb].
      * apply qf_beyond in H; [|lia]. exists (i + lb). split; [lia|]. split; [lia|]. rewrite H. reflexivity.
      * exists (i + j). split; [lia|]. split; [lia|]. apply (IH Hl Hn len (i + j) Hb). rewrite Nat2Z.inj_add. exact H.
    + intros (j & Hj & Hw & H). split; [lia|]. exists (j - i). split; [lia|].
      replace (Z.of_nat i + Z.of_nat (j - i))%Z with (Z.of_nat j) by lia. apply (IH Hl Hn len j Hw). exact H.
  - destruct Hl as [Hle Hl]. split.
    + intros [_ H] j Hj Hw. destruct H as [H|H]; [lia|]. apply (IH Hl Hn len j Hw).
      specialize (H (j - i) ltac:(lia)). replace (Z.of_nat i + Z.of_nat (j - i))%Z with (Z.of_nat j) in H by lia. apply H. lia.
    + intros H. split; [lia|]. right. intros j Hj Hw. rewrite <- Nat2Z.inj_add. apply (IH Hl Hn len (i + j)); [lia|].
      apply H; lia.
  - destruct Hl as (Hle & Hl1 & Hl2), Hn as [Hn1 Hn2]. rewrite qf_unroll_spec. split.
    + intros [Hlen (j & Hj & H & HA)]. destruct (le_lt_dec len (j + i)) as [Hb|Hb].
      * apply qf_beyond in H; [|lia]. exists (i + lb). split; [lia|]. split; [lia|].
        split; [rewrite H; reflexivity|]. intros; lia.
      * exists (i + j). split; [lia|]. split; [lia|]. split.
        -- apply (IHq Hl2 Hn2 len (i + j)); [lia|]. rewrite Nat2Z.inj_add, Z.add_comm. exact H.
        -- intros k Hk. apply (IHp Hl1 Hn1 len k); [lia|]. specialize (HA (k - i) ltac:(lia)).
           replace (Z.of_nat (k - i) + Z.of_nat i)%Z with (Z.of_nat k) in HA by lia. exact HA.
    + intros (j & Hj & Hw & H & HA). split; [lia|]. exists (j - i). split; [lia|]. split.
      * replace (Z.of_nat (j - i) + Z.of_nat i)%Z with (Z.of_nat j) by lia. apply (IHq Hl2 Hn2 len j Hw). exact H.
      * intros m Hm. rewrite <- Nat2Z.inj_add. apply (IHp Hl1 Hn1 len (m + i)); [lia|]. apply HA. lia.
Qed.

Lemma qf_strict e q : legal e -> qf_query true e = Some q ->
  ((exists f, q f) <-> exists len tr, 0 < len /\ tsat len tr e 0).
Proof.
  intros Hl E. unfold qf_query in E. destruct (qf_supported e) eqn:Hs; [|discriminate].
  injection E as <-. apply qf_supported_spec in Hs. split.
  - intros (f & len & H). destruct (Z_le_gt_dec len 0) as [Hb|Hb].
    + apply qf_beyond in H; [|exact Hb]. exists 1, (trace_of f). split; [lia|]. rewrite H. reflexivity.
    + exists (Z.to_nat len), (trace_of f). split; [lia|]. apply (qf_truncated f e Hl Hs); [lia|].
      rewrite Z2Nat.id by lia. exact H.
  - intros (len & tr & Hlen & H). exists (function_of tr), (Z.of_nat len).
    apply (qf_truncated _ e Hl Hs len 0 Hlen). apply (tsat_ext e len tr); [|exact H].
    intros t a. symmetry. apply trace_of_function.
Qed.
Lemma qf_short e q : legal e -> (0 < wpd e)%Z -> qf_query false e = Some q ->
  ((exists f, q f) <-> exists tr, tsat (Z.to_nat (wpd e)) tr e 0).
Proof.
  intros Hl H0 E. unfold qf_query in E. destruct (qf_supported e) eqn:Hs; [|discriminate].
  injection E as <-. apply qf_supported_spec in Hs.
  assert (HZ : wpd e = Z.of_nat (Z.to_nat (wpd e))) by lia. split.
  - intros (f & H). exists (trace_of f). apply (qf_truncated f e Hl Hs); [lia|]. rewrite <- HZ. exact H.
  - intros (tr & H). exists (function_of tr). rewrite HZ at 1.
    apply (qf_truncated _ e Hl Hs (Z.to_nat (wpd e)) 0); [lia|]. apply (tsat_ext e _ tr); [|exact H].
    intros t a. symmetry. apply trace_of_function.
Qed.
Lemma satisfiable_truncated e : all_nodes future_op e -> satisfiable e -> exists len tr, 0 < len /\ tsat len tr e 0.
Proof.
  intros Hf (tr & H). pose proof (wpd_nonneg e Hf). exists (Z.to_nat (wpd e) + 1), tr. split; [lia|].
  apply (tsat_long tr e Hf); [lia|exact H].
Qed.

(** ** UFLIA, traces of any length *)
Lemma bounded_exists_dec (P : nat -> Prop) n : (forall j, P j \/ ~ P j) -> (exists j, j < n /\ P j) \/ ~ exists j, j < n /\ P j.
Proof.
  intros HP. induction n as [|n IH].
  - right. intros (j & Hj & _). lia.
  - destruct IH as [(j & Hj & H)|IH]; [left; exists j; split; [lia|exact H]|].
    destruct (HP n) as [H|H]; [left; exists n; split; [lia|exact H]|]. right. intros (j & Hj & H').
    destruct (Nat.eq_dec j n) as [->|]; [tauto|]. apply IH. exists j. split; [lia|exact H'].
Qed.
Lemma range_exists_dec (P : nat -> Prop) lo hi :
  (forall j, P j \/ ~ P j) -> (exists j, lo <= j <= hi /\ P j) \/ ~ exists j, lo <= j <= hi /\ P j.
Proof.
  intros HP. destruct (bounded_exists_dec (fun j => lo <= j /\ P j) (S hi)) as [(j & Hj & H1 & H2)|H].
  - intros j. destruct (le_lt_dec lo j), (HP j); intuition lia.
  - left. exists j. split; [lia|exact H2].
  - right. intros (j & Hj & H'). apply H. exists j. split; [lia|]. split; [lia|exact H'].
Qed.
Lemma range_forall_dec (P : nat -> Prop) lo hi :
  (forall j, P j \/ ~ P j) -> (forall j, lo <= j <= hi -> P j) \/ ~ forall j, lo <= j <= hi -> P j.
Proof.
  intros HP. destruct (range_exists_dec (fun j => ~ P j) lo hi) as [(j & Hj & H)|H].
  - intros j. destruct (HP j); tauto.
  - right. intros H'. apply H. apply H'. exact Hj.
  - left. intros j Hj. destruct (HP j) as [Hp|Hp]; [exact Hp|]. exfalso. apply H. exists j. auto.
Qed.
Lemma fsat_dec len tr e : forall i, fsat len tr e i \/ ~ fsat len tr e i.
Proof.
  induction e as [b|a|e IH|es IH|es IH|p q IHp IHq|p q IHp IHq|p q IHp IHq|p q IHp IHq
                 |lb ub e IH|lb ub e IH|lb ub p q IHp IHq|lb ub p q IHp IHq| | | |] using expr_ind';
    intros i; cbn [fsat]; try tauto.
  - destruct b; [left; reflexivity|right; discriminate].
  - destruct (lt_dec i len), (tr i a); try (left; split; [assumption|reflexivity]); right; intros [H1 H2]; auto; discriminate.
  - destruct (IH i); tauto.
  - induction IH as [|x es Hx Hes IHes]; cbn [fold_right]; [auto|]. destruct (Hx i); tauto.
  - induction IH as [|x es Hx Hes IHes]; cbn [fold_right]; [auto|]. destruct (Hx i); tauto.
  - destruct (IHp i), (IHq i); tauto.
  - destruct (IHp i), (IHq i); tauto.
  - destruct (IHp i), (IHq i); tauto.
  - destruct (IHp i), (IHq i); tauto.
  - destruct (range_exists_dec (fsat len tr e) (i + lb) (i + ub) IH), (lt_dec (i + lb) len); tauto.
  - destruct (range_forall_dec (fsat len tr e) (i + lb) (i + ub) IH), (le_dec len (i + lb)); tauto.
  - destruct (range_exists_dec (fun j => fsat len tr q j /\ forall k, i + lb <= k < j -> fsat len tr p k) (i + lb) (i + ub)).
    + intros j. destruct (IHq j) as [Hq|Hq]; [|tauto]. destruct j as [|j]; [left; split; [exact Hq|intros; lia]|].
      destruct (range_forall_dec (fsat len tr p) (i + lb) j IHp) as [H|H].
      * left. split; [exact Hq|]. intros k Hk. apply H. lia.
      * right. intros [_ H']. apply H. intros k Hk. apply H'. lia.
    + destruct (lt_dec (i + lb) len); tauto.
    + right. tauto.
  - destruct (range_forall_dec (fun j => ~ fsat len tr q j -> exists k, i + lb <= k < j /\ fsat len tr p k) (i + lb) (i + ub)).
    + intros j. destruct (IHq j) as [Hq|Hq]; [left; tauto|]. destruct j as [|j].
      * right. intros H. destruct (H Hq) as (k & Hk & _). lia.
      * destruct (range_exists_dec (fsat len tr p) (i + lb) j IHp) as [(k & Hk & H)|H].
        -- left. intros _. exists k. split; [lia|exact H].
        -- right. intros H'. destruct (H' Hq) as (k & Hk & H2). apply H. exists k. split; [lia|exact H2].
    + left. tauto.
    + destruct (le_dec len (i + lb)); tauto.
Qed.

Lemma uf_finite f e : all_nodes quantified_op e -> all_nodes plain_future_op e -> legal e -> forall len i,
  uf_term f len e (Z.of_nat i) <-> fsat (Z.to_nat len) (trace_of f) e i.
Proof.
  induction e as [b|a|e IH|es IH|es IH|p q IHp IHq|p q IHp IHq|p q IHp IHq|p q IHp IHq
                 |lb ub e IH|lb ub e IH|lb ub p q IHp IHq|lb ub p q IHp IHq| | | |] using expr_ind';
    intros [Hop Hn] [Hpl Hm] Hl len i; try (cbn in Hop; contradiction); cbn [uf_term fsat]; try reflexivity.
  - unfold trace_of. split; intros [H1 H2]; (split; [lia|exact H2]).
  - rewrite (IH Hn Hm Hl len i). reflexivity.
  - apply conj_ext. rewrite conj_in in Hn, Hm. apply legal_conj in Hl. rewrite Forall_forall in *. auto.
  - apply disj_ext. rewrite conj_in in Hn, Hm. apply legal_conj in Hl. rewrite Forall_forall in *. auto.
  - destruct Hn, Hm, Hl. rewrite IHp, IHq by assumption. reflexivity.
  - destruct Hn, Hm, Hl. rewrite IHp, IHq by assumption. reflexivity.
  - destruct Hn, Hm, Hl. rewrite IHp, IHq by assumption. reflexivity.
  - destruct Hl as [Hle Hl]. cbn in Hpl.
    destruct ((lb =? 0) && (ub =? 0))%nat eqn:E0.
    { exfalso. apply andb_prop in E0. destruct E0 as [E1 E2]. apply Nat.eqb_eq in E1, E2. apply Hpl. lia. }
    destruct ((lb =? 1) && (ub =? 1))%nat eqn:E1.
    { exfalso. apply andb_prop in E1. destruct E1 as [E1 E2]. apply Nat.eqb_eq in E1, E2. apply Hpl. lia. }
    split.
    + intros [Hlen (j & Hj & H)]. split; [lia|]. exists (Z.to_nat j). split; [lia|].
      apply (IH Hn Hm Hl len). rewrite Z2Nat.id by lia. exact H.
    + intros [Hlen (j & Hj & H)]. split; [lia|]. exists (Z.of_nat j). split; [lia|]. apply (IH Hn Hm Hl len). exact H.
  - destruct Hl as [Hle Hl].
    assert (Hgen : (len <= Z.of_nat lb + Z.of_nat i \/ (forall j, Z.of_nat lb + Z.of_nat i <= j <= Z.of_nat ub + Z.of_nat i -> uf_term f len e j))%Z
                   <-> (Z.to_nat len <= i + lb \/ (forall j, i + lb <= j <= i + ub -> fsat (Z.to_nat len) (trace_of f) e j))).
    { split.
      - intros [H|H]; [left; lia|right]. intros j Hj. apply (IH Hn Hm Hl len). apply H. lia.
      - intros [H|H]; [left; lia|right]. intros j Hj.
        rewrite <- (Z2Nat.id j) by lia. apply (IH Hn Hm Hl len). apply H. lia. }
    destruct ((lb =? 0) && (ub =? 0))%nat eqn:E0; [|destruct ((lb =? 1) && (ub =? 1))%nat eqn:E1; [|exact Hgen]].
    + apply andb_prop in E0. destruct E0 as [E1 E2]. apply Nat.eqb_eq in E1, E2. subst. rewrite <- Hgen. split.
      * intros [H|H]; [left; lia|right]. intros j Hj. replace j with (Z.of_nat i) by lia. exact H.
      * intros [H|H]; [left; lia|right]. apply H. lia.
    + apply andb_prop in E1. destruct E1 as [E1 E2]. apply Nat.eqb_eq in E1, E2. subst. rewrite <- Hgen. split.
      * intros [H|H]; [left; lia|right]. intros j Hj. replace j with (1 + Z.of_nat i)%Z by lia. exact H.
      * intros [H|H]; [left; lia|right]. apply H. lia.
  - destruct Hl as (Hle & Hl1 & Hl2), Hn as [Hn1 Hn2], Hm as [Hm1 Hm2]. split.
    + intros [Hlen (j & Hj & H & HA)]. split; [lia|]. exists (Z.to_nat j). split; [lia|]. split.
      * apply (IHq Hn2 Hm2 Hl2 len). rewrite Z2Nat.id by lia. exact H.
      * intros k Hk. apply (IHp Hn1 Hm1 Hl1 len). apply HA. lia.
    + intros [Hlen (j & Hj & H & HA)]. split; [lia|]. exists (Z.of_nat j). split; [lia|]. split.
      * apply (IHq Hn2 Hm2 Hl2 len). exact H.
      * intros k Hk. rewrite <- (Z2Nat.id k) by lia. apply (IHp Hn1 Hm1 Hl1 len). apply HA. lia.
  - destruct Hl as (Hle & Hl1 & Hl2), Hn as [Hn1 Hn2], Hm as [Hm1 Hm2]. split.
    + intros [H|H]; [left; lia|right]. intros j Hj Hq. destruct (H (Z.of_nat j)) as [H'|(k & Hk & H')]; [lia| |].
      * exfalso. apply Hq. apply (IHq Hn2 Hm2 Hl2 len). exact H'.
      * exists (Z.to_nat k). split; [lia|]. apply (IHp Hn1 Hm1 Hl1 len). rewrite Z2Nat.id by lia. exact H'.
    + intros [H|H]; [left; lia|right]. intros j Hj.
      destruct (fsat_dec (Z.to_nat len) (trace_of f) q (Z.to_nat j)) as [Hq|Hq].
      * left. rewrite <- (Z2Nat.id j) by lia. apply (IHq Hn2 Hm2 Hl2 len). exact Hq.
      * right. destruct (H (Z.to_nat j) ltac:(lia) Hq) as (k & Hk & H'). exists (Z.of_nat k). split; [lia|].
        apply (IHp Hn1 Hm1 Hl1 len). exact H'.
Qed.
Lemma fsat_ext e : forall len tr tr' i,
  (forall t a, tr t a = tr' t a) -> (fsat len tr e i <-> fsat len tr' e i).
Proof.
  induction e as [b|a|e IH|es IH|es IH|p q IHp IHq|p q IHp IHq|p q IHp IHq|p q IHp IHq
                 |lb ub e IH|lb ub e IH|lb ub p q IHp IHq|lb ub p q IHp IHq| | | |] using expr_ind';
    intros len tr tr' i E; cbn [fsat]; try reflexivity.
  - rewrite E. reflexivity.
  - rewrite (IH len tr tr' i E). reflexivity.
  - apply conj_ext. eapply Forall_impl; [|exact IH]. cbn. auto.
  - apply disj_ext. eapply Forall_impl; [|exact IH]. cbn. auto.
  - rewrite (IHp len tr tr' i E), (IHq len tr tr' i E). reflexivity.
  - rewrite (IHp len tr tr' i E), (IHq len tr tr' i E). reflexivity.
  - rewrite (IHp len tr tr' i E), (IHq len tr tr' i E). reflexivity.
  - rewrite (IHp len tr tr' i E), (IHq len tr tr' i E). reflexivity.
  - split; intros [Hw (j & Hj & H)]; (split; [exact Hw|]); exists j; (split; [exact Hj|]); apply (IH len tr tr' j E); exact H.
  - split; (intros [H|H]; [left; exact H|right]); intros j Hj; apply (IH len tr tr' j E); apply H; assumption.
  - split; intros [Hw (j & Hj & H & HA)]; (split; [exact Hw|]); exists j; (split; [exact Hj|]);
      (split; [apply (IHq len tr tr' j E); exact H|]); intros k Hk; apply (IHp len tr tr' k E); apply HA; exact Hk.
  - split; (intros [H|H]; [left; exact H|right]); intros j Hj Hq.
    + destruct (H j Hj) as (k & Hk & H'); [intros Hc; apply Hq; apply (IHq len tr tr' j E); exact Hc|].
      exists k. split; [exact Hk|]. apply (IHp len tr tr' k E); exact H'.
    + destruct (H j Hj) as (k & Hk & H'); [intros Hc; apply Hq; apply (IHq len tr tr' j E); exact Hc|].
      exists k. split; [exact Hk|]. apply (IHp len tr tr' k E); exact H'.
Qed.
Lemma uf_strict e q : legal e -> all_nodes plain_future_op e -> uf_query true e = Some q ->
  ((exists f, q f) <-> exists len tr, fsat len tr e 0).
Proof.
  intros Hl Hp E. unfold uf_query in E. destruct (uf_supported e) eqn:Hs; [|discriminate].
  injection E as <-. apply uf_supported_spec in Hs. split.
  - intros (f & len & H). exists (Z.to_nat len), (trace_of f). apply (uf_finite f e Hs Hp Hl len 0). exact H.
  - intros (len & tr & H). exists (function_of tr), (Z.of_nat len). apply (uf_finite _ e Hs Hp Hl _ 0).
    rewrite Nat2Z.id. apply (fsat_ext e len tr); [|exact H]. intros t a. symmetry. apply trace_of_function.
Qed.

(** ** UFLIA, the computation length *)
Lemma cplen_pos e : (1 <= cplen e)%Z.
Proof.
  induction e as [b|a|e IH|es IH|es IH|p q IHp IHq|p q IHp IHq|p q IHp IHq|p q IHp IHq
                 |lb ub e IH|lb ub e IH|lb ub p q IHp IHq|lb ub p q IHp IHq| | | |] using expr_ind';
    cbn [cplen]; try lia.
  - destruct IH as [|x es Hx [|y es' Hy Hes]]; cbn [map]; try lia. destruct (Z.leb_spec (cplen y) (cplen x)); lia.
  - destruct IH as [|x es Hx [|y es' Hy Hes]]; cbn [map]; try lia. destruct (Z.leb_spec (cplen y) (cplen x)); lia.
  - destruct (Z.leb_spec (cplen q) (cplen p)); lia.
  - destruct (Z.leb_spec (cplen q) (cplen p)); lia.
  - destruct (Z.ltb_spec (cplen q) (cplen p - 1)); lia.
  - destruct (Z.ltb_spec (cplen q) (cplen p - 1)); lia.
Qed.
Lemma temporal_free_cplen e : all_nodes temporal_free_op e -> cplen e = 1%Z.
Proof.
  induction e as [b|a|e IH|es IH|es IH|p q IHp IHq|p q IHp IHq|p q IHp IHq|p q IHp IHq
                 |lb ub e IH|lb ub e IH|lb ub p q IHp IHq|lb ub p q IHp IHq| | | |] using expr_ind';
    intros [Hop Hn]; try (cbn in Hop; contradiction); cbn [cplen]; try reflexivity.
  - exact (IH Hn).
  - destruct IH as [|x es Hx [|y es' Hy Hes]]; cbn [map]; try reflexivity. destruct Hn as (H1 & H2 & _).
    rewrite (Hx H1), (Hy H2). reflexivity.
  - destruct IH as [|x es Hx [|y es' Hy Hes]]; cbn [map]; try reflexivity. destruct Hn as (H1 & H2 & _).
    rewrite (Hx H1), (Hy H2). reflexivity.
  - destruct Hn as [H1 H2]. rewrite (IHp H1), (IHq H2). reflexivity.
  - destruct Hn as [H1 H2]. rewrite (IHp H1), (IHq H2). reflexivity.
Qed.

Lemma uf_long f e : all_nodes quantified_op e -> all_nodes measured_op e -> legal e -> forall len i,
  (Z.of_nat i + cplen e <= len)%Z -> (uf_term f len e (Z.of_nat i) <-> sat (trace_of f) e i).
Proof.
  induction e as [b|a|e IH|es IH|es IH|p q IHp IHq|p q IHp IHq|p q IHp IHq|p q IHp IHq
                 |lb ub e IH|lb ub e IH|lb ub p q IHp IHq|lb ub p q IHp IHq| | | |] using expr_ind';
    intros [Hop Hn] [Hme Hm] Hl len i Hi; try (cbn in Hop; contradiction); cbn [cplen] in Hi; cbn [uf_term sat]; try reflexivity.
  - unfold trace_of. split; [tauto|]. intros H. split; [lia|exact H].
  - rewrite (IH Hn Hm Hl len i Hi). reflexivity.
  - apply conj_ext. cbn in Hme. destruct es as [|x [|y [|z es]]]; try discriminate.
    cbn [map] in Hi. destruct Hl as (Hl1 & Hl2 & _), Hn as (Hn1 & Hn2 & _), Hm as (Hm1 & Hm2 & _).
    inversion IH as [|? ? Hx H]; subst. inversion H as [|? ? Hy _]; subst.
    destruct (Z.leb_spec (cplen y) (cplen x)); constructor;
      [apply Hx|constructor; [apply Hy|constructor]|apply Hx|constructor; [apply Hy|constructor]]; auto; lia.
  - apply disj_ext. cbn in Hme. destruct es as [|x [|y [|z es]]]; try discriminate.
    cbn [map] in Hi. destruct Hl as (Hl1 & Hl2 & _), Hn as (Hn1 & Hn2 & _), Hm as (Hm1 & Hm2 & _).
    inversion IH as [|? ? Hx H]; subst. inversion H as [|? ? Hy _]; subst.
    destruct (Z.leb_spec (cplen y) (cplen x)); constructor;
      [apply Hx|constructor; [apply Hy|constructor]|apply Hx|constructor; [apply Hy|constructor]]; auto; lia.
  - destruct Hn, Hm, Hl. destruct (Z.leb_spec (cplen q) (cplen p)); (rewrite (IHp H H1 H3 len i), (IHq H0 H2 H4 len i) by lia); reflexivity.
  - destruct Hn, Hm, Hl. destruct (Z.leb_spec (cplen q) (cplen p)); (rewrite (IHp H H1 H3 len i), (IHq H0 H2 H4 len i) by lia); reflexivity.
  - destruct Hn, Hm, Hl, Hme as [Hp Hq]. pose proof (temporal_free_cplen p Hp). pose proof (temporal_free_cplen q Hq).
    rewrite (IHp H H1 H3 len i), (IHq H0 H2 H4 len i) by lia. reflexivity.
  - destruct Hl as [Hle Hl]. pose proof (cplen_pos e) as Hc.
    assert (Hgen : (len > Z.of_nat lb + Z.of_nat i /\ (exists j, Z.of_nat lb + Z.of_nat i <= j <= Z.of_nat ub + Z.of_nat i /\ uf_term f len e j))%Z
                   <-> (exists j, i + lb <= j <= i + ub /\ sat (trace_of f) e j)).
    { split.
      - intros [_ (j & Hj & H)]. exists (Z.to_nat j). split; [lia|]. apply (IH Hn Hm Hl len); [lia|].
        rewrite Z2Nat.id by lia. exact H.
      - intros (j & Hj & H). split; [lia|]. exists (Z.of_nat j). split; [lia|]. apply (IH Hn Hm Hl len); [lia|exact H]. }
    destruct ((lb =? 0) && (ub =? 0))%nat eqn:E0; [|destruct ((lb =? 1) && (ub =? 1))%nat eqn:E1; [|exact Hgen]].
    + apply andb_prop in E0. destruct E0 as [E1 E2]. apply Nat.eqb_eq in E1, E2. subst. rewrite <- Hgen. split.
      * intros [H|H]; [lia|]. split; [lia|]. exists (Z.of_nat i). split; [lia|exact H].
      * intros [_ (j & Hj & H)]. right. replace (Z.of_nat i) with j by lia. exact H.
    + apply andb_prop in E1. destruct E1 as [E1 E2]. apply Nat.eqb_eq in E1, E2. subst. rewrite <- Hgen. split.
      * intros [H|H]; [lia|]. split; [lia|]. exists (1 + Z.of_nat i)%Z. split; [lia|exact H].
      * intros [_ (j & Hj & H)]. right. replace (1 + Z.of_nat i)%Z with j by lia. exact H.
  - destruct Hl as [Hle Hl]. pose proof (cplen_pos e) as Hc.
    assert (Hgen : (len <= Z.of_nat lb + Z.of_nat i \/ (forall j, Z.of_nat lb + Z.of_nat i <= j <= Z.of_nat ub + Z.of_nat i -> uf_term f len e j))%Z
                   <-> (forall j, i + lb <= j <= i + ub -> sat (trace_of f) e j)).
    { split.
      - intros [H|H] j Hj; [lia|]. apply (IH Hn Hm Hl len); [lia|]. apply H. lia.
      - intros H. right. intros j Hj. rewrite <- (Z2Nat.id j) by lia. apply (IH Hn Hm Hl len); [lia|]. apply H. lia. }
    destruct ((lb =? 0) && (ub =? 0))%nat eqn:E0; [|destruct ((lb =? 1) && (ub =? 1))%nat eqn:E1; [|exact Hgen]].
    + apply andb_prop in E0. destruct E0 as [E1 E2]. apply Nat.eqb_eq in E1, E2. subst. rewrite <- Hgen. split.
      * intros [H|H]; [left; lia|right]. intros j Hj. replace j with (Z.of_nat i) by lia. exact H.
      * intros [H|H]; [left; lia|right]. apply H. lia.
    + apply andb_prop in E1. destruct E1 as [E1 E2]. apply Nat.eqb_eq in E1, E2. subst. rewrite <- Hgen. split.
      * intros [H|H]; [left; lia|right]. intros j Hj. replace j with (1 + Z.of_nat i)%Z by lia. exact H.
      * intros [H|H]; [left; lia|right]. apply H. lia.
  - destruct Hl as (Hle & Hl1 & Hl2), Hn as [Hn1 Hn2], Hm as [Hm1 Hm2].
    pose proof (cplen_pos p) as Hc1. pose proof (cplen_pos q) as Hc2.
    assert (Hb : (Z.of_nat i + Z.of_nat ub + cplen q <= len /\ Z.of_nat i + Z.of_nat ub + cplen p - 1 <= len)%Z)
      by (destruct (Z.ltb_spec (cplen q) (cplen p - 1)); lia).
    split.
    + intros [_ (j & Hj & H & HA)]. exists (Z.to_nat j). split; [lia|]. split.
      * apply (IHq Hn2 Hm2 Hl2 len); [lia|]. rewrite Z2Nat.id by lia. exact H.
      * intros k Hk. apply (IHp Hn1 Hm1 Hl1 len); [lia|]. apply HA. lia.
    + intros (j & Hj & H & HA). split; [lia|]. exists (Z.of_nat j). split; [lia|]. split.
      * apply (IHq Hn2 Hm2 Hl2 len); [lia|exact H].
      * intros k Hk. rewrite <- (Z2Nat.id k) by lia. apply (IHp Hn1 Hm1 Hl1 len); [lia|]. apply HA. lia.
  - destruct Hl as (Hle & Hl1 & Hl2), Hn as [Hn1 Hn2], Hm as [Hm1 Hm2].
    pose proof (cplen_pos p) as Hc1. pose proof (cplen_pos q) as Hc2.
    assert (Hb : (Z.of_nat i + Z.of_nat ub + cplen q <= len /\ Z.of_nat i + Z.of_nat ub + cplen p - 1 <= len)%Z)
      by (destruct (Z.ltb_spec (cplen q) (cplen p - 1)); lia).
    split.
    + intros [H|H] j Hj Hq; [lia|]. destruct (H (Z.of_nat j)) as [H'|(k & Hk & H')]; [lia| |].
      * exfalso. apply Hq. apply (IHq Hn2 Hm2 Hl2 len); [lia|exact H'].
      * exists (Z.to_nat k). split; [lia|]. apply (IHp Hn1 Hm1 Hl1 len); [lia|]. rewrite Z2Nat.id by lia. exact H'.
    + intros H. right. intros j Hj. destruct (sat_decidable (trace_of f) q (Z.to_nat j)) as [Hq|Hq].
      * left. rewrite <- (Z2Nat.id j) by lia. apply (IHq Hn2 Hm2 Hl2 len); [lia|exact Hq].
      * right. destruct (H (Z.to_nat j) ltac:(lia) Hq) as (k & Hk & H'). exists (Z.of_nat k). split; [lia|].
        apply (IHp Hn1 Hm1 Hl1 len); [lia|exact H'].
Qed.
Lemma sat_ext tr tr' e i : all_nodes future_op e -> (forall t a, tr t a = tr' t a) -> sat tr e i -> sat tr' e i.
Proof.
  intros Hf E H. pose proof (wpd_nonneg e Hf). set (len := i + Z.to_nat (wpd e) + 1).
  apply (tsat_long tr' e Hf len); [unfold len; lia|]. apply (tsat_ext e len tr tr' i E).
  apply (tsat_long tr e Hf len); [unfold len; lia|exact H].
Qed.
Lemma quantified_future e : all_nodes quantified_op e -> all_nodes future_op e.
Proof.
  induction e as [b|a|e IH|es IH|es IH|p q IHp IHq|p q IHp IHq|p q IHp IHq|p q IHp IHq
                 |lb ub e IH|lb ub e IH|lb ub p q IHp IHq|lb ub p q IHp IHq| | | |] using expr_ind';
    intros [Hop H]; try (cbn in Hop; contradiction); try (split; cbn; auto; fail);
    try (destruct H; split; cbn; auto; fail).
  all: split; [exact Logic.I|]; rewrite conj_in in *; rewrite Forall_forall in IH; auto.
Qed.
Lemma uf_exact e q : legal e -> all_nodes measured_op e -> uf_query false e = Some q ->
  ((exists f, q f) <-> satisfiable e).
Proof.
  intros Hl Hm E. unfold uf_query in E. destruct (uf_supported e) eqn:Hs; [|discriminate].
  injection E as <-. apply uf_supported_spec in Hs. split.
  - intros (f & H). exists (trace_of f). apply (uf_long f e Hs Hm Hl (cplen e) 0); [lia|exact H].
  - intros (tr & H). exists (function_of tr). apply (uf_long _ e Hs Hm Hl (cplen e) 0); [lia|].
    apply (sat_ext tr); [apply quantified_future; exact Hs| |exact H].
    intros t a. symmetry. apply trace_of_function.
Qed.
(** Whatever the computation length, the strict query covers every formula that
    some (infinite) trace satisfies. *)
Fixpoint enough (e : expr) : nat :=
  match e with
  | EConst _ | EAtom _ => 1
  | ENot p => enough p
  | EAnd es | EOr es => fold_right (fun p n => Nat.max (enough p) n) 1 es
  | EXor p q | EImpl p q | EEquiv p q | EBeq p q => Nat.max (enough p) (enough q)
  | EF _ ub p | EG _ ub p | EO _ ub p | EH _ ub p => enough p + ub
  | EU _ ub p q | ER _ ub p q | ES _ ub p q | ET _ ub p q => Nat.max (enough p) (enough q) + ub
  end.
Lemma enough_pos e : 1 <= enough e.
Proof. induction e as [| | |es IH|es IH| | | | | | | | | | | |] using expr_ind'; cbn [enough]; try lia; induction IH; cbn [fold_right]; lia. Qed.
Lemma enough_in es x : In x es -> enough x <= fold_right (fun p n => Nat.max (enough p) n) 1 es.
Proof. induction es as [|y es IH]; [intros []|]. cbn [fold_right]. intros [->|Hx]; [lia|]. specialize (IH Hx). lia. Qed.
Lemma uf_enough f e : all_nodes quantified_op e -> legal e -> forall len i,
  (Z.of_nat (i + enough e) <= len)%Z -> (uf_term f len e (Z.of_nat i) <-> sat (trace_of f) e i).
Proof.
  induction e as [b|a|e IH|es IH|es IH|p q IHp IHq|p q IHp IHq|p q IHp IHq|p q IHp IHq
                 |lb ub e IH|lb ub e IH|lb ub p q IHp IHq|lb ub p q IHp IHq| | | |] using expr_ind';
    intros [Hop Hn] Hl len i Hi; try (cbn in Hop; contradiction); cbn [enough] in Hi; cbn [uf_term sat]; try reflexivity.
  - unfold trace_of. split; [tauto|]. intros H. split; [lia|exact H].
  - rewrite (IH Hn Hl len i Hi). reflexivity.
  - apply conj_ext. rewrite conj_in in Hn. apply legal_conj in Hl. rewrite Forall_forall in *. intros x Hx.
    pose proof (enough_in es x Hx). apply (IH x Hx (Hn x Hx) (Hl x Hx)). lia.
  - apply disj_ext. rewrite conj_in in Hn. apply legal_conj in Hl. rewrite Forall_forall in *. intros x Hx.
    pose proof (enough_in es x Hx). apply (IH x Hx (Hn x Hx) (Hl x Hx)). lia.
  - destruct Hn, Hl. rewrite (IHp H H1 len i), (IHq H0 H2 len i) by lia. reflexivity.
  - destruct Hn, Hl. rewrite (IHp H H1 len i), (IHq H0 H2 len i) by lia. reflexivity.
  - destruct Hn, Hl. rewrite (IHp H H1 len i), (IHq H0 H2 len i) by lia. reflexivity.
  - destruct Hl as [Hle Hl]. pose proof (enough_pos e) as Hc.
    assert (Hgen : (len > Z.of_nat lb + Z.of_nat i /\ (exists j, Z.of_nat lb + Z.of_nat i <= j <= Z.of_nat ub + Z.of_nat i /\ uf_term f len e j))%Z
                   <-> (exists j, i + lb <= j <= i + ub /\ sat (trace_of f) e j)).
    { split.
      - intros [_ (j & Hj & H)]. exists (Z.to_nat j). split; [lia|]. apply (IH Hn Hl len); [lia|].
        rewrite Z2Nat.id by lia. exact H.
      - intros (j & Hj & H). split; [lia|]. exists (Z.of_nat j). split; [lia|]. apply (IH Hn Hl len); [lia|exact H]. }
    destruct ((lb =? 0) && (ub =? 0))%nat eqn:E0; [|destruct ((lb =? 1) && (ub =? 1))%nat eqn:E1; [|exact Hgen]].
    + apply andb_prop in E0. destruct E0 as [E1 E2]. apply Nat.eqb_eq in E1, E2. subst. rewrite <- Hgen. split.
      * intros [H|H]; [lia|]. split; [lia|]. exists (Z.of_nat i). split; [lia|exact H].
      * intros [_ (j & Hj & H)]. right. replace (Z.of_nat i) with j by lia. exact H.
    + apply andb_prop in E1. destruct E1 as [E1 E2]. apply Nat.eqb_eq in E1, E2. subst. rewrite <- Hgen. split.
      * intros [H|H]; [lia|]. split; [lia|]. exists (1 + Z.of_nat i)%Z. split; [lia|exact H].
      * intros [_ (j & Hj & H)]. right. replace (1 + Z.of_nat i)%Z with j by lia. exact H.
  - destruct Hl as [Hle Hl]. pose proof (enough_pos e) as Hc.
    assert (Hgen : (len <= Z.of_nat lb + Z.of_nat i \/ (forall j, Z.of_nat lb + Z.of_nat i <= j <= Z.of_nat ub + Z.of_nat i -> uf_term f len e j))%Z
                   <-> (forall j, i + lb <= j <= i + ub -> sat (trace_of f) e j)).
    { split.
      - intros [H|H] j Hj; [lia|]. apply (IH Hn Hl len); [lia|]. apply H. lia.
      - intros H. right. intros j Hj. rewrite <- (Z2Nat.id j) by lia. apply (IH Hn Hl len); [lia|]. apply H. lia. }
    destruct ((lb =? 0) && (ub =? 0))%nat eqn:E0; [|destruct ((lb =? 1) && (ub =? 1))%nat eqn:E1; [|exact Hgen]].
    + apply andb_prop in E0. destruct E0 as [E1 E2]. apply Nat.eqb_eq in E1, E2. subst. rewrite <- Hgen. split.
      * intros [H|H]; [left; lia|right]. intros j Hj. replace j with (Z.of_nat i) by lia. exact H.
      * intros [H|H]; [left; lia|right]. apply H. lia.
    + apply andb_prop in E1. destruct E1 as [E1 E2]. apply Nat.eqb_eq in E1, E2. subst. rewrite <- Hgen. split.
      * intros [H|H]; [left; lia|right]. intros j Hj. replace j with (1 + Z.of_nat i)%Z by lia. exact H.
      * intros [H|H]; [left; lia|right]. apply H. lia.
  - destruct Hl as (Hle & Hl1 & Hl2), Hn as [Hn1 Hn2].
    pose proof (enough_pos p) as Hc1. pose proof (enough_pos q) as Hc2. split.
    + intros [_ (j & Hj & H & HA)]. exists (Z.to_nat j). split; [lia|]. split.
      * apply (IHq Hn2 Hl2 len); [lia|]. rewrite Z2Nat.id by lia. exact H.
      * intros k Hk. apply (IHp Hn1 Hl1 len); [lia|]. apply HA. lia.
    + intros (j & Hj & H & HA). split; [lia|]. exists (Z.of_nat j). split; [lia|]. split.
      * apply (IHq Hn2 Hl2 len); [lia|exact H].
      * intros k Hk. rewrite <- (Z2Nat.id k) by lia. apply (IHp Hn1 Hl1 len); [lia|]. apply HA. lia.
  - destruct Hl as (Hle & Hl1 & Hl2), Hn as [Hn1 Hn2].
    pose proof (enough_pos p) as Hc1. pose proof (enough_pos q) as Hc2. split.
    + intros [H|H] j Hj Hq; [lia|]. destruct (H (Z.of_nat j)) as [H'|(k & Hk & H')]; [lia| |].
      * exfalso. apply Hq. apply (IHq Hn2 Hl2 len); [lia|exact H'].
      * exists (Z.to_nat k). split; [lia|]. apply (IHp Hn1 Hl1 len); [lia|]. rewrite Z2Nat.id by lia. exact H'.
    + intros H. right. intros j Hj. destruct (sat_decidable (trace_of f) q (Z.to_nat j)) as [Hq|Hq].
      * left. rewrite <- (Z2Nat.id j) by lia. apply (IHq Hn2 Hl2 len); [lia|exact Hq].
      * right. destruct (H (Z.to_nat j) ltac:(lia) Hq) as (k & Hk & H'). exists (Z.of_nat k). split; [lia|].
        apply (IHp Hn1 Hl1 len); [lia|exact H'].
Qed.
Lemma uf_strict_complete e q : legal e -> uf_query true e = Some q -> satisfiable e -> exists f, q f.
Proof.
  intros Hl E (tr & H). unfold uf_query in E. destruct (uf_supported e) eqn:Hs; [|discriminate].
  injection E as <-. apply uf_supported_spec in Hs. exists (function_of tr), (Z.of_nat (0 + enough e)).
  apply (uf_enough _ e Hs Hl _ 0); [lia|]. apply (sat_ext tr); [apply quantified_future; exact Hs| |exact H].
  intros t a. symmetry. apply trace_of_function.
Qed.

(** ** Equivalence queries *)
Lemma bv_equivalence e1 e2 q : legal e1 -> legal e2 -> bv_query false (differ e1 e2) = Some q ->
  (~ bv_satisfiable q (differ e1 e2) <-> equivalent e1 e2).
Proof.
  intros H1 H2 E. assert (Hl : legal (differ e1 e2)) by (split; assumption).
  rewrite (bv_exact _ q Hl E). pose proof (bv_query_some _ _ _ Hl E) as Hs. cbn [differ all_nodes] in Hs.
  apply differ_satisfiable; apply bit_vector_future; tauto.
Qed.
Lemma uf_equivalence e1 e2 q : legal e1 -> legal e2 -> all_nodes measured_op e1 -> all_nodes measured_op e2 ->
  uf_query false (differ e1 e2) = Some q -> ((~ exists f, q f) <-> equivalent e1 e2).
Proof.
  intros H1 H2 Hm1 Hm2 E. assert (Hl : legal (differ e1 e2)) by (split; assumption).
  rewrite (uf_exact _ q Hl) by (try exact E; cbn; auto).
  unfold uf_query in E. destruct (uf_supported (differ e1 e2)) eqn:Hs; [|discriminate].
  apply uf_supported_spec, quantified_future in Hs. cbn [differ all_nodes] in Hs.
  apply differ_satisfiable; tauto.
Qed.
Lemma qf_query_supported strict e : qf_query strict e <> None <-> all_nodes function_op e.
Proof. unfold qf_query. rewrite <- qf_supported_spec. destruct (qf_supported e); intuition discriminate. Qed.
Lemma uf_query_supported strict e : uf_query strict e <> None <-> all_nodes quantified_op e.
Proof. unfold uf_query. rewrite <- uf_supported_spec. destruct (uf_supported e); intuition discriminate. Qed.
Lemma bv_strict_complete e q : legal e -> bv_query true e = Some q -> satisfiable e -> bv_satisfiable q e.
Proof.
  intros Hl E H. apply (bv_strict e q Hl E). apply satisfiable_truncated; [|exact H].
  apply bit_vector_future. exact (bv_query_some _ _ _ Hl E).
Qed.
Lemma qf_strict_complete e q : legal e -> qf_query true e = Some q -> satisfiable e -> exists f, q f.
Proof.
  intros Hl E H. apply (qf_strict e q Hl E). apply satisfiable_truncated; [|exact H].
  apply function_future. apply (qf_query_supported true). rewrite E. discriminate.
Qed.

(** ** Where the queries go wrong *)
Ltac no_more := cbn in *; intuition (try discriminate; try lia).
(** p *)
Lemma qf_atom_unsat : exists e q, legal e /\ qf_query false e = Some q /\ satisfiable e /\ ~ exists f, q f.
Proof.
  exists (EAtom 0). eexists. split; [exact Logic.I|]. split; [reflexivity|]. split.
  - exists (fun _ _ => true). reflexivity.
  - intros (f & H). cbn in H. lia.
Qed.
(** G[1,1] false *)
Lemma qf_false_sat : exists e q, legal e /\ qf_query false e = Some q /\ ~ satisfiable e /\ exists f, q f.
Proof.
  exists (EG 1 1 (EConst false)). eexists. split; [split; [lia|exact Logic.I]|]. split; [reflexivity|]. split.
  - intros (tr & H). specialize (H 1 ltac:(lia)). discriminate H.
  - exists (fun _ _ => true). change (wpd (EG 1 1 (EConst false))) with 1%Z. cbn [qf_term]. split; [lia|]. left. lia.
Qed.
(** p && p && F[1,2] r *)
Lemma uf_nary_unsat : exists e q, legal e /\ uf_query false e = Some q /\ satisfiable e /\ ~ exists f, q f.
Proof.
  exists (EAnd [EAtom 0; EAtom 0; EF 1 2 (EAtom 1)]). eexists. split; [no_more|]. split; [reflexivity|]. split.
  - exists (fun _ _ => true). cbn. repeat split. exists 1. split; [lia|reflexivity].
  - intros (f & H). cbn in H. lia.
Qed.
(** p && q && G[1,1] false *)
Lemma uf_nary_sat : exists e q, legal e /\ uf_query false e = Some q /\ ~ satisfiable e /\ exists f, q f.
Proof.
  exists (EAnd [EAtom 0; EAtom 1; EG 1 1 (EConst false)]). eexists. split; [no_more|]. split; [reflexivity|]. split.
  - intros (tr & H). cbn in H. destruct H as (_ & _ & H & _). specialize (H 1 ltac:(lia)). discriminate H.
  - exists (fun _ _ => true). cbn. repeat split; try lia. 
Qed.
(** F[1,2] p == q, both at once: compared at length 1. *)
Lemma uf_comparison_unsat : exists e q, all_nodes binary_op e /\ legal e /\ uf_query false e = Some q /\ satisfiable e /\ ~ exists f, q f.
Proof.
  exists (EBeq (EF 1 2 (EAtom 0)) (EConst true)). eexists. split; [no_more|]. split; [no_more|]. split; [reflexivity|]. split.
  - exists (fun _ _ => true). cbn. split; [reflexivity|]. intros _. exists 1. split; [lia|reflexivity].
  - intros (f & H). cbn in H. destruct H as [_ H]. specialize (H eq_refl). lia.
Qed.
(** F[1,1] false: holds on the empty trace. *)
Lemma uf_future_sat : exists e q, legal e /\ uf_query true e = Some q /\ (forall len tr, ~ fsat len tr e 0) /\ exists f, q f.
Proof.
  exists (EF 1 1 (EConst false)). eexists. split; [no_more|]. split; [reflexivity|]. split.
  - intros len tr [_ (j & _ & H)]. discriminate H.
  - exists (fun _ _ => true), 0%Z. cbn. left. lia.
Qed.
(** G[0,1] p && !(F[1,2] true): the trace of length one. *)
Lemma strict_disagree : exists e qb qf qu,
  legal e /\ all_nodes plain_future_op e /\
  bv_query true e = Some qb /\ qf_query true e = Some qf /\ uf_query true e = Some qu /\
  (forall len tr, 0 < len -> ~ fsat len tr e 0) /\
  bv_satisfiable qb e /\ (exists f, qf f).
Proof.
  set (e := EAnd [EG 0 1 (EAtom 0); ENot (EF 1 2 (EConst true)); EAtom 0]).
  assert (Hl : legal e) by (unfold e; no_more).
  assert (Ht : tsat 1 (fun _ _ => true) e 0).
  { cbn. repeat split. intros (j & Hj & Hw & _). lia. }
  exists e. do 3 eexists. split; [exact Hl|]. split; [unfold e; no_more|].
  split; [reflexivity|]. split; [reflexivity|]. split; [reflexivity|].
  split.
  - intros len tr Hlen H. cbn in H. destruct H as ([H|H] & H2 & _); [lia|].
    apply H2. destruct (H 1 ltac:(lia)) as [H1 _]. split; [lia|]. exists 1. split; [lia|reflexivity].
  - split.
    + apply (bv_strict e _ Hl eq_refl). exists 1, (fun _ _ => true). split; [lia|exact Ht].
    + apply (qf_strict e _ Hl eq_refl). exists 1, (fun _ _ => true). split; [lia|exact Ht].
Qed.
