(** * What the satisfiability queries decide (proofs) *)
From Coq Require Import List Arith ZArith NArith Bool Lia.
From Verif Require Import Mltl MltlShape MltlEval Transform Decompose DecomposeProofs Window DelayProofs.
From Verif Require Import SabreSpec SabreProofs Smt SmtSpec SmtProofs.
Import ListNotations.
Local Open Scope nat_scope.

(** ** Lists of operands *)
Lemma conj_iff {A B} (P : A -> Prop) (Q : B -> Prop) (g : A -> B) l :
  Forall (fun x => P x <-> Q (g x)) l ->
  (fold_right (fun x R => P x /\ R) True l <-> fold_right (fun y R => Q y /\ R) True (map g l)).
Proof. induction 1 as [|x l Hx Hl IH]; cbn; tauto. Qed.
Lemma disj_iff {A B} (P : A -> Prop) (Q : B -> Prop) (g : A -> B) l :
  Forall (fun x => P x <-> Q (g x)) l ->
  (fold_right (fun x R => P x \/ R) False l <-> fold_right (fun y R => Q y \/ R) False (map g l)).
Proof. induction 1 as [|x l Hx Hl IH]; cbn; tauto. Qed.
Lemma conj_ext {A} (P Q : A -> Prop) l :
  Forall (fun x => P x <-> Q x) l ->
  (fold_right (fun x R => P x /\ R) True l <-> fold_right (fun y R => Q y /\ R) True l).
Proof. induction 1 as [|x l Hx Hl IH]; cbn; tauto. Qed.
Lemma disj_ext {A} (P Q : A -> Prop) l :
  Forall (fun x => P x <-> Q x) l ->
  (fold_right (fun x R => P x \/ R) False l <-> fold_right (fun y R => Q y \/ R) False l).
Proof. induction 1 as [|x l Hx Hl IH]; cbn; tauto. Qed.
Lemma conj_in {A} (P : A -> Prop) l : fold_right (fun x R => P x /\ R) True l <-> forall x, In x l -> P x.
Proof.
  induction l as [|x l IH]; cbn; [intuition|]. rewrite IH. split.
  - intros [H1 H2] y [->|Hy]; auto.
  - intros H. split; [apply H; auto|]. intros y Hy. apply H; auto.
Qed.

(** ** Decomposing intervals keeps the truncated reading *)
Section Truncated.
Variables (len : nat) (tr : trace).

Lemma tsat_fold_F p l : forall i, i < len ->
  (tsat len tr (fold_right (fun a r => EF 0 a r) p l) i <-> tsat len tr (EF 0 (list_sum l) p) i).
Proof.
  induction l as [|a l IH]; intros i Hi.
  - cbn. split.
    + intros H. exists i. repeat split; auto; lia.
    + intros (j & Hj & _ & H). replace i with j by lia. exact H.
  - cbn [fold_right list_sum]. change (tsat len tr (EF 0 a ?r) i) with (exists j, i + 0 <= j <= i + a /\ j < len /\ tsat len tr r j).
    split.
    + intros (j & Hj & Hw & H). apply (IH j Hw) in H. destruct H as (k & Hk & Hw' & H).
      exists k. split; [|auto]. unfold list_sum in *. cbn [fold_right]. lia.
    + intros (k & Hk & Hw & H). unfold list_sum in Hk. cbn [fold_right] in Hk. fold (list_sum l) in Hk.
      exists (Nat.min k (i + a)). split; [lia|]. split; [lia|]. apply IH; [lia|].
      exists k. split; [lia|auto].
Qed.
Lemma tsat_fold_G p l : forall i, i < len ->
  (tsat len tr (fold_right (fun a r => EG 0 a r) p l) i <-> tsat len tr (EG 0 (list_sum l) p) i).
Proof.
  induction l as [|a l IH]; intros i Hi.
  - cbn. split.
    + intros H j Hj _. replace j with i by lia. exact H.
    + intros H. apply H; lia.
  - cbn [fold_right]. split.
    + intros H k Hk Hw. unfold list_sum in Hk. cbn [fold_right] in Hk. fold (list_sum l) in Hk.
      assert (H' := H (Nat.min k (i + a)) ltac:(lia) ltac:(lia)). apply IH in H'; [|lia].
      apply (H' k); [lia|exact Hw].
    + intros H j Hj Hw. apply (IH j Hw). intros k Hk Hw'. apply H; [|exact Hw'].
      unfold list_sum in *. cbn [fold_right]. lia.
Qed.
Lemma tsat_fold_U p q l : forall i, i < len ->
  (tsat len tr (fold_right (fun a r => EU 0 a p r) q l) i <-> tsat len tr (EU 0 (list_sum l) p q) i).
Proof.
  induction l as [|a l IH]; intros i Hi.
  - cbn. split.
    + intros H. exists i. repeat split; auto; lia.
    + intros (j & Hj & _ & H & _). replace i with j by lia. exact H.
  - cbn [fold_right]. split.
    + intros (j & Hj & Hw & H & HA). apply (IH j Hw) in H. destruct H as (k & Hk & Hw' & H & HB).
      exists k. unfold list_sum in *. cbn [fold_right]. split; [lia|]. split; [exact Hw'|]. split; [exact H|].
      intros m Hm. destruct (le_lt_dec j m); [apply HB; lia|apply HA; lia].
    + intros (k & Hk & Hw & H & HA). unfold list_sum in Hk. cbn [fold_right] in Hk. fold (list_sum l) in Hk.
      exists (Nat.min k (i + a)). split; [lia|]. split; [lia|]. split.
      * apply IH; [lia|]. exists k. split; [lia|]. split; [exact Hw|]. split; [exact H|]. intros m Hm. apply HA. lia.
      * intros m Hm. apply HA. lia.
Qed.

Lemma tsat_decompose_node e i : legal e -> i < len -> (tsat len tr (decompose_node e) i <-> tsat len tr e i).
Proof.
  intros Hl Hi. destruct e as [| | | | | | | | |lb ub p|lb ub p|lb ub p q| | | | |]; try reflexivity;
    cbn [decompose_node]; destruct (Nat.eqb_spec lb ub) as [|Hne]; try reflexivity;
    destruct Hl as [Hle _]; pose proof (interval_amounts_sum lb ub ltac:(lia)) as Hsum;
    destruct (Nat.ltb_spec 0 lb).
  - cbn [tsat]. split.
    + intros (j & Hj & Hw & H'). apply (tsat_fold_F _ _ j Hw) in H'. rewrite Hsum in H'.
      destruct H' as (k & Hk & H'). exists k. split; [lia|exact H'].
    + intros (k & Hk & Hw & H'). exists (i + lb). split; [lia|]. split; [lia|].
      apply (tsat_fold_F _ _ (i + lb) ltac:(lia)). rewrite Hsum. exists k. split; [lia|auto].
  - rewrite (tsat_fold_F _ _ i Hi), Hsum. replace lb with 0 by lia. rewrite Nat.sub_0_r. reflexivity.
  - cbn [tsat]. split.
    + intros H' k Hk Hw. assert (H2 := H' (i + lb) ltac:(lia) ltac:(lia)).
      apply (tsat_fold_G _ _ (i + lb) ltac:(lia)) in H2. rewrite Hsum in H2. apply (H2 k); [lia|exact Hw].
    + intros H' j Hj Hw. apply (tsat_fold_G _ _ j Hw). rewrite Hsum. intros k Hk Hw'. apply H'; [lia|exact Hw'].
  - rewrite (tsat_fold_G _ _ i Hi), Hsum. replace lb with 0 by lia. rewrite Nat.sub_0_r. reflexivity.
  - cbn [tsat]. split.
    + intros (j & Hj & Hw & H' & _). apply (tsat_fold_U _ _ _ j Hw) in H'. rewrite Hsum in H'.
      destruct H' as (k & Hk & Hw' & H' & HA). exists k. split; [lia|]. split; [exact Hw'|]. split; [exact H'|].
      intros m Hm. apply HA. lia.
    + intros (k & Hk & Hw & H' & HA). exists (i + lb). split; [lia|]. split; [lia|]. split; [|intros; lia].
      apply (tsat_fold_U _ _ _ (i + lb) ltac:(lia)). rewrite Hsum. exists k. split; [lia|]. split; [exact Hw|].
      split; [exact H'|]. intros m Hm. apply HA. lia.
  - rewrite (tsat_fold_U _ _ _ i Hi), Hsum. replace lb with 0 by lia. rewrite Nat.sub_0_r. reflexivity.
Qed.

Lemma legal_conj es : fold_right (fun e P => legal e /\ P) True es -> Forall legal es.
Proof. induction es; cbn; [constructor|]. intros [H1 H2]. constructor; auto. Qed.

Lemma tsat_decompose e : legal e -> forall i, i < len -> (tsat len tr (decompose e) i <-> tsat len tr e i).
Proof.
  induction e as [b|a|e IH|es IH|es IH|p q IHp IHq|p q IHp IHq|p q IHp IHq|p q IHp IHq
                 |lb ub e IH|lb ub e IH|lb ub p q IHp IHq|lb ub p q IHp IHq| | | |] using expr_ind';
    intros Hl i Hi; unfold decompose; cbn [expr_map]; fold decompose; try reflexivity.
  - cbn [decompose_node tsat]. fold (decompose e). rewrite (IH Hl i Hi). reflexivity.
  - cbn [decompose_node tsat]. symmetry. apply conj_iff.
    apply legal_conj in Hl. rewrite Forall_forall in *. intros x Hx. symmetry. exact (IH x Hx (Hl x Hx) i Hi).
  - cbn [decompose_node tsat]. symmetry. apply disj_iff.
    apply legal_conj in Hl. rewrite Forall_forall in *. intros x Hx. symmetry. exact (IH x Hx (Hl x Hx) i Hi).
  - cbn [decompose_node tsat]. fold (decompose p) (decompose q). destruct Hl. rewrite IHp, IHq by assumption. reflexivity.
  - cbn [decompose_node tsat]. fold (decompose p) (decompose q). destruct Hl. rewrite IHp, IHq by assumption. reflexivity.
  - cbn [decompose_node tsat]. fold (decompose p) (decompose q). destruct Hl. rewrite IHp, IHq by assumption. reflexivity.
  - cbn [decompose_node tsat]. fold (decompose p) (decompose q). destruct Hl. rewrite IHp, IHq by assumption. reflexivity.
  - fold (decompose e). destruct Hl as [Hle Hl]. rewrite tsat_decompose_node by (try split; auto using decompose_legal).
    cbn [tsat]. split; intros (j & Hj & Hw & H); exists j; (split; [exact Hj|]); (split; [exact Hw|]); apply (IH Hl j Hw); exact H.
  - fold (decompose e). destruct Hl as [Hle Hl]. rewrite tsat_decompose_node by (try split; auto using decompose_legal).
    cbn [tsat]. split; intros H j Hj Hw; apply (IH Hl j Hw); apply H; assumption.
  - fold (decompose p) (decompose q). destruct Hl as (Hle & Hl1 & Hl2).
    rewrite tsat_decompose_node by (repeat split; auto using decompose_legal).
    cbn [tsat]. split; intros (j & Hj & Hw & H & HA); exists j; (split; [exact Hj|]); (split; [exact Hw|]);
      (split; [apply (IHq Hl2 j Hw); exact H|]); intros k Hk; (apply (IHp Hl1 k); [lia|]); apply HA; exact Hk.
  - fold (decompose p) (decompose q). destruct Hl as (Hle & Hl1 & Hl2). cbn [decompose_node tsat].
    split; intros H j Hj Hw Hq.
    + destruct (H j Hj Hw) as (k & Hk & H'); [intros Hc; apply Hq; apply (IHq Hl2 j Hw); exact Hc|].
      exists k. split; [exact Hk|]. apply (IHp Hl1 k); [lia|exact H'].
    + destruct (H j Hj Hw) as (k & Hk & H'); [intros Hc; apply Hq; apply (IHq Hl2 j Hw); exact Hc|].
      exists k. split; [exact Hk|]. apply (IHp Hl1 k); [lia|exact H'].
Qed.
End Truncated.

(** ** A long enough trace *)
Local Open Scope Z_scope.
Lemma wpd_nonneg e : all_nodes future_op e -> 0 <= wpd e.
Proof.
  induction e as [b|a|e IH|es IH|es IH|p q IHp IHq|p q IHp IHq|p q IHp IHq|p q IHp IHq
                 |lb ub e IH|lb ub e IH|lb ub p q IHp IHq|lb ub p q IHp IHq| | | |] using expr_ind';
    intros [Hop H]; cbn [wpd]; try (cbn in Hop; contradiction); try lia; auto;
    try (destruct H as [H1 H2]; specialize (IHp H1); specialize (IHq H2); lia);
    try (specialize (IH H); lia).
  all: destruct es as [|x es]; cbn [map zmax_list]; [lia|];
    inversion IH; subst; destruct H as [Hx _];
    pose proof (zmax_list_ge (map wpd (x :: es)) (wpd x) (or_introl eq_refl)) as Hm; cbn [map zmax_list] in Hm;
    specialize (H2 Hx); lia.
Qed.

Lemma tsat_long tr e : all_nodes future_op e -> forall len i,
  Z.of_nat i + wpd e < Z.of_nat len -> (tsat len tr e i <-> sat tr e i).
Proof.
  induction e as [b|a|e IH|es IH|es IH|p q IHp IHq|p q IHp IHq|p q IHp IHq|p q IHp IHq
                 |lb ub e IH|lb ub e IH|lb ub p q IHp IHq|lb ub p q IHp IHq| | | |] using expr_ind';
    intros [Hop Hn] len i Hi; cbn [wpd] in Hi; try (cbn in Hop; contradiction); cbn [tsat sat]; try reflexivity.
  - rewrite (IH Hn len i Hi). reflexivity.
  - apply conj_ext. rewrite conj_in in Hn. rewrite Forall_forall in *. intros x Hx.
    pose proof (zmax_list_ge (map wpd es) (wpd x) (in_map _ _ _ Hx)). apply (IH x Hx (Hn x Hx)). lia.
  - apply disj_ext. rewrite conj_in in Hn. rewrite Forall_forall in *. intros x Hx.
    pose proof (zmax_list_ge (map wpd es) (wpd x) (in_map _ _ _ Hx)). apply (IH x Hx (Hn x Hx)). lia.
  - destruct Hn as [H1 H2]. rewrite (IHp H1 len i), (IHq H2 len i) by lia. reflexivity.
  - destruct Hn as [H1 H2]. rewrite (IHp H1 len i), (IHq H2 len i) by lia. reflexivity.
  - destruct Hn as [H1 H2]. rewrite (IHp H1 len i), (IHq H2 len i) by lia. reflexivity.
  - destruct Hn as [H1 H2]. rewrite (IHp H1 len i), (IHq H2 len i) by lia. reflexivity.
  - pose proof (wpd_nonneg e Hn). split.
    + intros (j & Hj & Hw & H'). exists j. split; [exact Hj|]. apply (IH Hn len j); [lia|exact H'].
    + intros (j & Hj & H'). exists j. split; [exact Hj|]. split; [lia|]. apply (IH Hn len j); [lia|exact H'].
  - pose proof (wpd_nonneg e Hn). split.
    + intros H' j Hj. apply (IH Hn len j); [lia|]. apply H'; lia.
    + intros H' j Hj Hw. apply (IH Hn len j); [lia|]. apply H'; lia.
  - destruct Hn as [H1 H2]. pose proof (wpd_nonneg p H1). pose proof (wpd_nonneg q H2). split.
    + intros (j & Hj & Hw & H' & HA). exists j. split; [exact Hj|]. split; [apply (IHq H2 len j); [lia|exact H']|].
      intros k Hk. apply (IHp H1 len k); [lia|]. apply HA. exact Hk.
    + intros (j & Hj & H' & HA). exists j. split; [exact Hj|]. split; [lia|]. split; [apply (IHq H2 len j); [lia|exact H']|].
      intros k Hk. apply (IHp H1 len k); [lia|]. apply HA. exact Hk.
  - destruct Hn as [H1 H2]. pose proof (wpd_nonneg p H1). pose proof (wpd_nonneg q H2). split.
    + intros H' j Hj Hq. destruct (H' j Hj) as (k & Hk & Hp'); [lia|intros Hc; apply Hq; apply (IHq H2 len j); [lia|exact Hc]|].
      exists k. split; [exact Hk|]. apply (IHp H1 len k); [lia|exact Hp'].
    + intros H' j Hj Hw Hq. destruct (H' j Hj) as (k & Hk & Hp'); [intros Hc; apply Hq; apply (IHq H2 len j); [lia|exact Hc]|].
      exists k. split; [exact Hk|]. apply (IHp H1 len k); [lia|exact Hp'].
Qed.

(** ** Moving a trace in time *)
Local Open Scope nat_scope.
Definition later (s : nat) (tr : trace) : trace := fun t => tr (t + s).
Lemma tsat_later s tr e : forall len i, tsat (len + s) tr e (i + s) <-> tsat len (later s tr) e i.
Proof.
  induction e as [b|a|e IH|es IH|es IH|p q IHp IHq|p q IHp IHq|p q IHp IHq|p q IHp IHq
                 |lb ub e IH|lb ub e IH|lb ub p q IHp IHq|lb ub p q IHp IHq| | | |] using expr_ind';
    intros len i; cbn [tsat]; try reflexivity.
  - rewrite IH. reflexivity.
  - apply conj_ext. eapply Forall_impl; [|exact IH]. cbn. auto.
  - apply disj_ext. eapply Forall_impl; [|exact IH]. cbn. auto.
  - rewrite IHp, IHq. reflexivity.
  - rewrite IHp, IHq. reflexivity.
  - rewrite IHp, IHq. reflexivity.
  - rewrite IHp, IHq. reflexivity.
  - split.
    + intros (j & Hj & Hw & H). exists (j - s). split; [lia|]. split; [lia|]. apply IH. replace (j - s + s) with j by lia. exact H.
    + intros (j & Hj & Hw & H). exists (j + s). split; [lia|]. split; [lia|]. apply IH. exact H.
  - split.
    + intros H j Hj Hw. apply IH. apply H; lia.
    + intros H j Hj Hw. replace j with (j - s + s) by lia. apply IH. apply H; lia.
  - split.
    + intros (j & Hj & Hw & H & HA). exists (j - s). split; [lia|]. split; [lia|].
      split; [apply IHq; replace (j - s + s) with j by lia; exact H|].
      intros k Hk. apply IHp. apply HA. lia.
    + intros (j & Hj & Hw & H & HA). exists (j + s). split; [lia|]. split; [lia|]. split; [apply IHq; exact H|].
      intros k Hk. replace k with (k - s + s) by lia. apply IHp. apply HA. lia.
  - split.
    + intros H j Hj Hw Hq. destruct (H (j + s)) as (k & Hk & H'); [lia|lia|intros Hc; apply Hq, IHq; exact Hc|].
      exists (k - s). split; [lia|]. apply IHp. replace (k - s + s) with k by lia. exact H'.
    + intros H j Hj Hw Hq. destruct (H (j - s)) as (k & Hk & H');
        [lia|lia|intros Hc; apply Hq; apply IHq in Hc; replace (j - s + s) with j in Hc by lia; exact Hc|].
      exists (k + s). split; [lia|]. apply IHp. exact H'.
Qed.
Lemma tsat_ext e : forall len tr tr' i,
  (forall t a, tr t a = tr' t a) -> (tsat len tr e i <-> tsat len tr' e i).
Proof.
  induction e as [b|a|e IH|es IH|es IH|p q IHp IHq|p q IHp IHq|p q IHp IHq|p q IHp IHq
                 |lb ub e IH|lb ub e IH|lb ub p q IHp IHq|lb ub p q IHp IHq| | | |] using expr_ind';
    intros len tr tr' i E; cbn [tsat]; try reflexivity.
  - rewrite E. reflexivity.
  - rewrite (IH len tr tr' i E). reflexivity.
  - apply conj_ext. eapply Forall_impl; [|exact IH]. cbn. auto.
  - apply disj_ext. eapply Forall_impl; [|exact IH]. cbn. auto.
  - rewrite (IHp len tr tr' i E), (IHq len tr tr' i E). reflexivity.
  - rewrite (IHp len tr tr' i E), (IHq len tr tr' i E). reflexivity.
  - rewrite (IHp len tr tr' i E), (IHq len tr tr' i E). reflexivity.
  - rewrite (IHp len tr tr' i E), (IHq len tr tr' i E). reflexivity.
  - split; intros (j & Hj & Hw & H); exists j; (split; [exact Hj|]); (split; [exact Hw|]); apply (IH len tr tr' j E); exact H.
  - split; intros H j Hj Hw; apply (IH len tr tr' j E); apply H; assumption.
  - split; intros (j & Hj & Hw & H & HA); exists j; (split; [exact Hj|]); (split; [exact Hw|]);
      (split; [apply (IHq len tr tr' j E); exact H|]); intros k Hk; apply (IHp len tr tr' k E); apply HA; exact Hk.
  - split; intros H j Hj Hw Hq.
    + destruct (H j Hj Hw) as (k & Hk & H'); [intros Hc; apply Hq; apply (IHq len tr tr' j E); exact Hc|].
      exists k. split; [exact Hk|]. apply (IHp len tr tr' k E); exact H'.
    + destruct (H j Hj Hw) as (k & Hk & H'); [intros Hc; apply Hq; apply (IHq len tr tr' j E); exact Hc|].
      exists k. split; [exact Hk|]. apply (IHp len tr tr' k E); exact H'.
Qed.

(** ** Bit-vectors for a trace *)
Fixpoint bits (n : nat) (g : nat -> bool) : N :=
  match n with O => 0%N | S n => if g n then N.setbit (bits n g) (N.of_nat n) else bits n g end.
Lemma bits_spec n g : forall k, N.testbit (bits n g) (N.of_nat k) = (k <? n) && g k.
Proof.
  induction n as [|n IH]; intros k; cbn [bits]; [apply N.bits_0|].
  destruct (Nat.eq_dec k n) as [->|Hne].
  - replace (n <? S n) with true by (symmetry; apply Nat.ltb_lt; lia). destruct (g n) eqn:E.
    + rewrite N.setbit_eq. reflexivity.
    + rewrite IH, E. apply andb_false_r.
  - replace (k <? S n) with (k <? n) by (destruct (Nat.ltb_spec k n), (Nat.ltb_spec k (S n)); auto; lia).
    rewrite <- IH. destruct (g n); [|reflexivity]. apply N.setbit_neq. lia.
Qed.
Lemma bounded_by_bits x n : (forall k, n <= k -> N.testbit x (N.of_nat k) = false) -> (x < 2 ^ N.of_nat n)%N.
Proof.
  intros H. assert (E : (x mod 2 ^ N.of_nat n = x)%N).
  { apply N.bits_inj. intros m. destruct (N.lt_ge_cases m (N.of_nat n)) as [Hm|Hm].
    - apply N.mod_pow2_bits_low. exact Hm.
    - rewrite N.mod_pow2_bits_high by exact Hm. symmetry. rewrite <- (N2Nat.id m). apply H. lia. }
  rewrite <- E. apply N.mod_lt. apply N.pow_nonzero. discriminate.
Qed.
Lemma bits_bound n g : (bits n g < 2 ^ N.of_nat n)%N.
Proof.
  apply bounded_by_bits. intros k Hk. rewrite bits_spec. replace (k <? n) with false; [reflexivity|].
  symmetry. apply Nat.ltb_ge. exact Hk.
Qed.

Definition of_trace (w : nat) (tr : trace) (a : nat) : N := bits w (fun k => tr (w - 1 - k) a).
Lemma of_trace_spec w tr a p : p < w -> (position w (of_trace w tr a) p = true <-> tr p a = true).
Proof.
  intros Hp. unfold position, of_trace. rewrite bits_spec.
  replace (w - 1 - p <? w) with true by (symmetry; apply Nat.ltb_lt; lia).
  replace (w - 1 - (w - 1 - p)) with p by lia. reflexivity.
Qed.

(** ** Support *)
Lemma bv_supported_spec e : bv_supported e = true <-> all_nodes bit_vector_op e.
Proof.
  induction e as [b|a|e IH|es IH|es IH|p q IHp IHq|p q IHp IHq|p q IHp IHq|p q IHp IHq
                 |lb ub e IH|lb ub e IH|lb ub p q IHp IHq|lb ub p q IHp IHq| | | |] using expr_ind';
    cbn [bv_supported all_nodes bit_vector_op]; try tauto; try (intuition discriminate).
  - rewrite andb_true_iff, Nat.leb_le, forallb_forall, conj_in. rewrite Forall_forall in IH. split.
    + intros [H1 H2]. split; [exact H1|]. intros x Hx. apply IH; auto.
    + intros [H1 H2]. split; [exact H1|]. intros x Hx. apply IH; auto.
  - rewrite andb_true_iff, Nat.leb_le, forallb_forall, conj_in. rewrite Forall_forall in IH. split.
    + intros [H1 H2]. split; [exact H1|]. intros x Hx. apply IH; auto.
    + intros [H1 H2]. split; [exact H1|]. intros x Hx. apply IH; auto.
  - rewrite andb_true_iff, IHp, IHq. tauto.
  - rewrite andb_true_iff, IHp, IHq. tauto.
Qed.

Lemma fold_supported_1 (mk : nat -> expr -> expr) p l :
  (forall a r, bv_supported (mk a r) = bv_supported r) ->
  bv_supported (fold_right mk p l) = bv_supported p.
Proof. intros H. induction l as [|a l IH]; cbn [fold_right]; [reflexivity|]. rewrite H. exact IH. Qed.
Lemma fold_supported_2 p q l :
  bv_supported p && bv_supported (fold_right (fun a r => EU 0 a p r) q l) = bv_supported p && bv_supported q.
Proof.
  induction l as [|a l IH]; cbn [fold_right]; [reflexivity|]. cbn [bv_supported]. rewrite IH.
  destruct (bv_supported p); reflexivity.
Qed.
Lemma fold_U_supported p q l : l <> [] ->
  bv_supported (fold_right (fun a r => EU 0 a p r) q l) = bv_supported p && bv_supported q.
Proof. destruct l as [|a l]; [contradiction|]. intros _. cbn [fold_right bv_supported]. apply fold_supported_2. Qed.

Lemma decompose_supported e : legal e -> bv_supported (decompose e) = bv_supported e.
Proof.
  induction e as [b|a|e IH|es IH|es IH|p q IHp IHq|p q IHp IHq|p q IHp IHq|p q IHp IHq
                 |lb ub e IH|lb ub e IH|lb ub p q IHp IHq|lb ub p q IHp IHq| | | |] using expr_ind';
    intros Hl; unfold decompose; cbn [expr_map]; fold decompose; try reflexivity.
  - exact (IH Hl).
  - cbn [decompose_node bv_supported]. rewrite map_length. f_equal. apply legal_conj in Hl.
    induction es as [|x es IHes]; [reflexivity|]. inversion IH; inversion Hl; subst. cbn [map forallb].
    fold (decompose x). rewrite H1 by assumption. f_equal. apply IHes; assumption.
  - cbn [decompose_node bv_supported]. rewrite map_length. f_equal. apply legal_conj in Hl.
    induction es as [|x es IHes]; [reflexivity|]. inversion IH; inversion Hl; subst. cbn [map forallb].
    fold (decompose x). rewrite H1 by assumption. f_equal. apply IHes; assumption.
  - destruct Hl as [H1 H2]. cbn [decompose_node bv_supported]. fold (decompose p) (decompose q).
    rewrite (IHp H1), (IHq H2). reflexivity.
  - destruct Hl as [Hle Hl]. fold (decompose e). cbn [bv_supported]. rewrite <- (IH Hl). cbn [decompose_node].
    destruct (lb =? ub); [reflexivity|]. destruct (0 <? lb); cbn [bv_supported]; apply fold_supported_1; reflexivity.
  - destruct Hl as [Hle Hl]. fold (decompose e). cbn [bv_supported]. rewrite <- (IH Hl). cbn [decompose_node].
    destruct (lb =? ub); [reflexivity|]. destruct (0 <? lb); cbn [bv_supported]; apply fold_supported_1; reflexivity.
  - destruct Hl as (Hle & H1 & H2). fold (decompose p) (decompose q). cbn [bv_supported]. rewrite <- (IHp H1), <- (IHq H2).
    cbn [decompose_node]. destruct (Nat.eqb_spec lb ub); [reflexivity|].
    destruct (0 <? lb); cbn [bv_supported]; [apply fold_supported_2|].
    apply fold_U_supported. pose proof (interval_amounts_sum lb ub ltac:(lia)) as Hs.
    destruct (interval_amounts lb ub); [cbn in Hs; lia|discriminate].
Qed.
Lemma bit_vector_future e : all_nodes bit_vector_op e -> all_nodes future_op e.
Proof.
  induction e as [b|a|e IH|es IH|es IH|p q IHp IHq|p q IHp IHq|p q IHp IHq|p q IHp IHq
                 |lb ub e IH|lb ub e IH|lb ub p q IHp IHq|lb ub p q IHp IHq| | | |] using expr_ind';
    intros [Hop H]; try (cbn in Hop; contradiction); try (split; cbn; auto; fail);
    try (destruct H; split; cbn; auto; fail).
  all: split; [exact Logic.I|]; rewrite conj_in in *; rewrite Forall_forall in IH; auto.
Qed.

(** ** The bit-vector query *)
Lemma bv_term_meaning e f tr :
  legal e -> all_nodes bit_vector_op e ->
  (forall a p, p < Z.to_nat (wpd e) + 1 -> (position (Z.to_nat (wpd e) + 1) (f a) p = true <-> tr p a = true)) ->
  forall p, p < Z.to_nat (wpd e) + 1 ->
  (position (Z.to_nat (wpd e) + 1) (bv_term (Z.to_nat (wpd e)) f (decompose e)) p = true <->
   tsat (Z.to_nat (wpd e) + 1) tr e p).
Proof.
  intros Hl Hs Hf p Hp. rewrite <- (tsat_decompose _ tr e Hl p Hp).
  apply bv_term_truncated; auto using decompose_legal.
  - rewrite decompose_supported by exact Hl. apply bv_supported_spec. exact Hs.
  - exact (decompose_shape e).
Qed.

Lemma bv_query_supported strict e : legal e -> (bv_query strict e <> None <-> all_nodes bit_vector_op e).
Proof.
  intros Hl. unfold bv_query. rewrite decompose_supported by exact Hl. rewrite <- bv_supported_spec.
  destruct (bv_supported e); intuition discriminate.
Qed.
Lemma bv_query_some strict e q : legal e -> bv_query strict e = Some q -> all_nodes bit_vector_op e.
Proof. intros Hl E. apply (bv_query_supported strict e Hl). rewrite E. discriminate. Qed.

Lemma bv_exact e q : legal e -> bv_query false e = Some q -> (bv_satisfiable q e <-> satisfiable e).
Proof.
  intros Hl E. pose proof (bv_query_some _ _ _ Hl E) as Hs. unfold bv_query in E.
  rewrite decompose_supported in E by exact Hl. apply bv_supported_spec in Hs. rewrite Hs in E. injection E as <-.
  apply bv_supported_spec in Hs. pose proof (bit_vector_future e Hs) as Hfut. pose proof (wpd_nonneg e Hfut) as H0.
  set (W := Z.to_nat (wpd e)) in *.
  assert (Hpos : forall x, N.testbit x (N.of_nat W) = position (W + 1) x 0).
  { intros x. unfold position. f_equal. lia. }
  unfold bv_satisfiable, satisfiable. setoid_rewrite Hpos. split.
  - intros (f & Hi & H). exists (fun t a => position (W + 1) (f a) t).
    apply (tsat_long _ e Hfut (W + 1) 0); [lia|].
    apply (bv_term_meaning e f _ Hl Hs); [reflexivity|lia|exact H].
  - intros (tr & H). exists (of_trace (W + 1) tr). split.
    + intros a. apply bits_bound.
    + apply (bv_term_meaning e _ tr Hl Hs); [intros; apply of_trace_spec; assumption|lia|].
      apply (tsat_long _ e Hfut); [lia|exact H].
Qed.

(** The value of a term fits the width. *)
Definition fits (W : nat) (x : N) : Prop := forall n, W + 1 <= n -> N.testbit x (N.of_nat n) = false.
Lemma fits_lt W x : (x < 2 ^ N.of_nat (W + 1))%N -> fits W x.
Proof. intros H n Hn. apply (word_high (W + 1) x); [exact H|lia]. Qed.
Lemma fits_bvshl W x s : fits W (bvshl W x s).
Proof. apply fits_lt. unfold bvshl. apply N.mod_lt. apply N.pow_nonzero. discriminate. Qed.
Lemma fits_to_bv W v : fits W (to_bv W v).
Proof.
  apply fits_lt. unfold to_bv. change (N.of_nat (W + 1)) with (width W).
  assert (2 ^ width W <> 0)%N by (apply N.pow_nonzero; discriminate). lia.
Qed.
Lemma fits_land W x y : fits W y -> fits W (N.land x y).
Proof. intros H n Hn. rewrite N.land_spec, (H n Hn). apply andb_false_r. Qed.
Lemma fits_land_l W x y : fits W x -> fits W (N.land x y).
Proof. intros H n Hn. rewrite N.land_spec, (H n Hn). reflexivity. Qed.
Lemma fits_lor W x y : fits W x -> fits W y -> fits W (N.lor x y).
Proof. intros H H' n Hn. rewrite N.lor_spec, (H n Hn), (H' n Hn). reflexivity. Qed.
Lemma fits_bvnot W x : fits W x -> fits W (bvnot W x).
Proof.
  intros H n Hn. unfold bvnot. rewrite N.lnot_spec_high; [apply H; exact Hn|]. unfold width. lia.
Qed.
Lemma fits_lxor W x y : fits W x -> fits W y -> fits W (N.lxor x y).
Proof. intros H H' n Hn. rewrite N.lxor_spec, (H n Hn), (H' n Hn). reflexivity. Qed.
Lemma fits_zero W : fits W 0.
Proof. intros n _. apply N.bits_0. Qed.
Lemma fits_global_rounds W n : forall j x, fits W x -> fits W (global_rounds W n j x).
Proof. induction n; intros j x H; cbn [global_rounds]; [exact H|]. apply IHn, fits_land, H. Qed.
Lemma fits_future_rounds W n : forall j x, fits W x -> fits W (future_rounds W n j x).
Proof. induction n; intros j x H; cbn [future_rounds]; [exact H|]. apply IHn, fits_lor; [apply fits_bvshl|exact H]. Qed.
Lemma fits_until_rounds W n : forall j l r, fits W r -> fits W (until_rounds W n j l r).
Proof.
  induction n; intros j l r H; cbn [until_rounds]; [exact H|].
  apply IHn, fits_lor; [apply fits_land_l, fits_bvshl|exact H].
Qed.
Lemma fits_fold_land W xs : forall x, fits W x -> fits W (fold_left N.land xs x).
Proof. induction xs as [|y xs IH]; intros x H; cbn [fold_left]; [exact H|]. apply IH, fits_land_l, H. Qed.
Lemma fits_fold_lor W xs : Forall (fits W) xs -> forall x, fits W x -> fits W (fold_left N.lor xs x).
Proof. induction 1 as [|y xs Hy Hxs IH]; intros x H; cbn [fold_left]; [exact H|]. apply IH, fits_lor; assumption. Qed.
Lemma fits_term W f e : (forall a, fits W (f a)) -> fits W (bv_term W f e).
Proof.
  intros Hf. induction e as [b|a|e IH|es IH|es IH|p q IHp IHq|p q IHp IHq|p q IHp IHq|p q IHp IHq
                 |lb ub e IH|lb ub e IH|lb ub p q IHp IHq|lb ub p q IHp IHq| | | |] using expr_ind';
    cbn [bv_term]; try apply fits_zero.
  - destruct b; [|apply fits_zero]. unfold ones. apply fits_lt. change (N.of_nat (W + 1)) with (width W).
    assert (2 ^ width W <> 0)%N by (apply N.pow_nonzero; discriminate). lia.
  - apply Hf.
  - apply fits_bvnot, IH.
  - destruct IH as [|x es Hx Hes]; [apply fits_zero|]. cbn [map]. apply fits_fold_land, Hx.
  - destruct IH as [|x es Hx Hes]; [apply fits_zero|]. cbn [map]. apply fits_fold_lor; [|exact Hx].
    apply Forall_map. exact Hes.
  - apply fits_bvnot, fits_lxor; assumption.
  - unfold bv_future. destruct (ub =? 0); [exact IH|]. destruct (0 <? lb); apply fits_future_rounds; [apply fits_bvshl|exact IH].
  - unfold bv_global. destruct (ub =? 0); [exact IH|]. destruct (0 <? lb); apply fits_global_rounds; [|exact IH].
    apply fits_lor; [apply fits_bvshl|apply fits_to_bv].
  - unfold bv_until. destruct (ub =? 0); [exact IHq|]. destruct (0 <? lb); apply fits_until_rounds; [apply fits_bvshl|exact IHq].
Qed.
Lemma some_bit W x : fits W x -> ((0 <? x)%N = true <-> exists p, p < W + 1 /\ position (W + 1) x p = true).
Proof.
  intros Hx. rewrite N.ltb_lt. split.
  - intros H. exists (W - N.to_nat (N.log2 x)).
    assert (Hb : N.testbit x (N.log2 x) = true) by (apply N.bit_log2; lia).
    assert (N.to_nat (N.log2 x) < W + 1).
    { destruct (le_lt_dec (W + 1) (N.to_nat (N.log2 x))) as [Hc|Hc]; [|exact Hc].
      specialize (Hx _ Hc). rewrite N2Nat.id, Hb in Hx. discriminate. }
    split; [lia|]. unfold position. rewrite <- Hb. f_equal. lia.
  - intros (p & Hp & H). destruct (N.eq_0_gt_0_cases x) as [->|Hgt]; [|exact Hgt].
    unfold position in H. rewrite N.bits_0 in H. discriminate.
Qed.

(** The strict query: some truncated trace. *)
Lemma truncated_any e W : all_nodes future_op e -> W = Z.to_nat (wpd e) ->
  ((exists tr p, p < W + 1 /\ tsat (W + 1) tr e p) <-> exists len tr, 0 < len /\ tsat len tr e 0).
Proof.
  intros Hfut HW. pose proof (wpd_nonneg e Hfut). split.
  - intros (tr & p & Hp & H'). exists (W + 1 - p), (later p tr). split; [lia|].
    apply tsat_later. replace (W + 1 - p + p) with (W + 1) by lia. exact H'.
  - intros (len & tr & Hlen & H'). destruct (le_lt_dec len (W + 1)) as [Hle|Hgt].
    + exists (fun t => tr (t - (W + 1 - len))), (W + 1 - len). split; [lia|].
      assert (E := tsat_later (W + 1 - len) (fun t => tr (t - (W + 1 - len))) e len 0).
      replace (len + (W + 1 - len)) with (W + 1) in E by lia. cbn [Nat.add] in E. rewrite E.
      rewrite (tsat_ext e len _ tr); [exact H'|]. intros t a. unfold later.
      replace (t + (W + 1 - len) - (W + 1 - len)) with t by lia. reflexivity.
    + exists tr, 0. split; [lia|]. apply (tsat_long tr e Hfut); [lia|].
      apply (tsat_long tr e Hfut len); [lia|exact H'].
Qed.
Lemma bv_strict e q : legal e -> bv_query true e = Some q ->
  (bv_satisfiable q e <-> exists len tr, 0 < len /\ tsat len tr e 0).
Proof.
  intros Hl E. pose proof (bv_query_some _ _ _ Hl E) as Hs. unfold bv_query in E.
  rewrite decompose_supported in E by exact Hl. apply bv_supported_spec in Hs. rewrite Hs in E. injection E as <-.
  apply bv_supported_spec in Hs. pose proof (bit_vector_future e Hs) as Hfut.
  rewrite <- (truncated_any e _ Hfut eq_refl). unfold bv_satisfiable. split.
  - intros (f & Hi & H). apply (some_bit (Z.to_nat (wpd e))) in H; [|apply fits_term; intros a; apply fits_lt, Hi].
    destruct H as (p & Hp & H). exists (fun t a => position (Z.to_nat (wpd e) + 1) (f a) t), p.
    split; [exact Hp|]. apply (bv_term_meaning e f _ Hl Hs); [reflexivity|exact Hp|exact H].
  - intros (tr & p & Hp & H). exists (of_trace (Z.to_nat (wpd e) + 1) tr). split; [intros a; apply bits_bound|].
    apply (some_bit (Z.to_nat (wpd e))); [apply fits_term; intros a; apply fits_lt, bits_bound|].
    exists p. split; [exact Hp|]. apply (bv_term_meaning e _ tr Hl Hs); [intros; apply of_trace_spec; assumption|exact Hp|exact H].
Qed.
