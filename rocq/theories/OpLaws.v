(** * Laws of the temporal operators on truth streams

    Used by the rewrite optimiser, the equality-saturation rules and the
    interval decomposition. *)
From Coq Require Import List Arith Bool Lia.
Require Import Verif.MltlEval.

Definition band (p q : nat -> bool) : nat -> bool := fun j => p j && q j.
Definition bor (p q : nat -> bool) : nat -> bool := fun j => p j || q j.
Definition bneg (p : nat -> bool) : nat -> bool := fun j => negb (p j).

Lemma neg_bneg (p q : nat -> bool) : (forall i, negb (p i) = negb (q i)) -> forall i, p i = q i.
Proof. intros H i. rewrite <- (negb_involutive (p i)), H, negb_involutive; reflexivity. Qed.

(** F in terms of G: used to transfer laws by duality. *)
Lemma opF_neg lb ub p i : negb (opF lb ub p i) = opG lb ub (bneg p) i.
Proof. rewrite opF_dual, negb_involutive; reflexivity. Qed.
Lemma opG_neg lb ub p i : negb (opG lb ub p i) = opF lb ub (bneg p) i.
Proof. rewrite opG_dual, negb_involutive; reflexivity. Qed.
Lemma opU_neg lb ub p q i : negb (opU lb ub p q i) = opR lb ub (bneg p) (bneg q) i.
Proof. rewrite opU_dual, negb_involutive; reflexivity. Qed.
Lemma opR_neg lb ub p q i : negb (opR lb ub p q i) = opU lb ub (bneg p) (bneg q) i.
Proof. rewrite opR_dual, negb_involutive; reflexivity. Qed.

(** ** Single points *)
Lemma opF_point a p i : opF a a p i = p (i + a).
Proof.
  apply bool_ext. rewrite opF_true. split.
  - intros (j & Hj & H). replace (i + a) with j by lia. exact H.
  - intros H. exists (i + a). split; [lia | exact H].
Qed.
Lemma opG_point a p i : opG a a p i = p (i + a).
Proof.
  apply bool_ext. rewrite opG_true. split.
  - intros H. apply H; lia.
  - intros H j Hj. replace j with (i + a) by lia. exact H.
Qed.
Lemma opU_point a p q i : opU a a p q i = q (i + a).
Proof.
  apply bool_ext. rewrite opU_true. split.
  - intros (j & Hj & H & _). replace (i + a) with j by lia. exact H.
  - intros H. exists (i + a). repeat split; [lia | lia | exact H | intros; lia].
Qed.
Lemma opR_point a p q i : opR a a p q i = q (i + a).
Proof.
  apply bool_ext. rewrite opR_true. split.
  - intros H. destruct (q (i + a)) eqn:E; [reflexivity|].
    destruct (H (i + a) ltac:(lia) E) as (k & Hk & _). lia.
  - intros H j Hj E. replace j with (i + a) in E by lia. congruence.
Qed.

(** ** Nesting *)
Lemma opG_opG a b c d p i : a <= b -> c <= d ->
  opG a b (opG c d p) i = opG (a + c) (b + d) p i.
Proof.
  intros Hab Hcd. apply bool_ext. rewrite !opG_true. split.
  - intros H j Hj.
    (* choose the outer time so that j falls in its window *)
    set (k := if j <=? i + b + c then j - c else i + b).
    assert (Hk : i + a <= k <= i + b /\ k + c <= j <= k + d).
    { subst k. destruct (j <=? i + b + c) eqn:E.
      - apply Nat.leb_le in E. lia.
      - apply Nat.leb_gt in E. lia. }
    destruct Hk as [Hk1 Hk2]. specialize (H k Hk1). rewrite opG_true in H. apply H, Hk2.
  - intros H k Hk. apply opG_true. intros j Hj. apply H. lia.
Qed.
Lemma opF_opF a b c d p i : a <= b -> c <= d ->
  opF a b (opF c d p) i = opF (a + c) (b + d) p i.
Proof.
  intros Hab Hcd. revert i. apply neg_bneg. intros i. rewrite !opF_neg.
  rewrite <- opG_opG by assumption. apply opG_ext. intros j. unfold bneg at 1.
  apply opF_neg.
Qed.

Lemma opF_shift a l u p i : opF l u (fun j => p (j + a)) i = opF (l + a) (u + a) p i.
Proof.
  apply bool_ext. rewrite !opF_true. split.
  - intros (j & Hj & H). exists (j + a). split; [lia | exact H].
  - intros (j & Hj & H). exists (j - a). split; [lia|]. replace (j - a + a) with j by lia. exact H.
Qed.
Lemma opG_shift a l u p i : opG l u (fun j => p (j + a)) i = opG (l + a) (u + a) p i.
Proof.
  apply bool_ext. rewrite !opG_true. split.
  - intros H j Hj. specialize (H (j - a) ltac:(lia)). replace (j - a + a) with j in H by lia. exact H.
  - intros H j Hj. apply H. lia.
Qed.
Lemma opU_shift a l u p q i :
  opU l u (fun j => p (j + a)) (fun j => q (j + a)) i = opU (l + a) (u + a) p q i.
Proof.
  apply bool_ext. rewrite !opU_true. split.
  - intros (j & Hj & Hq & Hp). exists (j + a). repeat split; try lia; [exact Hq|].
    intros k Hk. specialize (Hp (k - a) ltac:(lia)). replace (k - a + a) with k in Hp by lia. exact Hp.
  - intros (j & Hj & Hq & Hp). exists (j - a). repeat split; try lia.
    + replace (j - a + a) with j by lia. exact Hq.
    + intros k Hk. apply Hp. lia.
Qed.

Lemma opG_opF_point_in l u a p i : opG l u (opF a a p) i = opG (l + a) (u + a) p i.
Proof.
  rewrite <- opG_shift. apply opG_ext. intros j. apply opF_point.
Qed.
Lemma opF_opG_point_in l u a p i : opF l u (opG a a p) i = opF (l + a) (u + a) p i.
Proof.
  rewrite <- opF_shift. apply opF_ext. intros j. apply opG_point.
Qed.
Lemma opG_opF_point_out a l u p i : opG a a (opF l u p) i = opF (a + l) (a + u) p i.
Proof.
  rewrite opG_point. apply bool_ext. rewrite !opF_true.
  split; intros (j & Hj & H); exists j; (split; [lia | exact H]).
Qed.
Lemma opF_opG_point_out a l u p i : opF a a (opG l u p) i = opG (a + l) (a + u) p i.
Proof.
  rewrite opF_point. apply bool_ext. rewrite !opG_true.
  split; intros H j Hj; apply H; lia.
Qed.
Lemma opF_opU_point_out a l u p q i : opF a a (opU l u p q) i = opU (l + a) (u + a) p q i.
Proof.
  rewrite opF_point. apply bool_ext. rewrite !opU_true. split.
  - intros (j & Hj & Hq & Hp). exists j. repeat split; try lia; [exact Hq|].
    intros k Hk; apply Hp; lia.
  - intros (j & Hj & Hq & Hp). exists j. repeat split; try lia; [exact Hq|].
    intros k Hk; apply Hp; lia.
Qed.

(** ** Conjunction / disjunction *)
Lemma opG_and a b p q i : opG a b (band p q) i = opG a b p i && opG a b q i.
Proof.
  apply bool_ext. rewrite andb_true_iff, !opG_true. unfold band. split.
  - intros H. split; intros j Hj; specialize (H j Hj); apply andb_true_iff in H; tauto.
  - intros [H1 H2] j Hj. rewrite H1, H2 by exact Hj. reflexivity.
Qed.
Lemma opF_or a b p q i : opF a b (bor p q) i = opF a b p i || opF a b q i.
Proof.
  apply bool_ext. rewrite orb_true_iff, !opF_true. unfold bor. split.
  - intros (j & Hj & H). apply orb_true_iff in H as [H|H]; [left|right]; exists j; auto.
  - intros [(j & Hj & H) | (j & Hj & H)]; exists j; (split; [exact Hj|]); rewrite H;
      [reflexivity | apply orb_true_r].
Qed.

(** Overlapping or adjacent windows. *)
Lemma opG_union a b c d p i : a <= c -> c <= b + 1 ->
  opG a b p i && opG c d p i = opG a (Nat.max b d) p i.
Proof.
  intros Hac Hcb. apply bool_ext. rewrite andb_true_iff, !opG_true. split.
  - intros [H1 H2] j Hj. destruct (le_lt_dec j (i + b)); [apply H1 | apply H2]; lia.
  - intros H. split; intros j Hj; apply H; lia.
Qed.
Lemma opF_union a b c d p i : a <= c -> c <= b + 1 ->
  opF a b p i || opF c d p i = opF a (Nat.max b d) p i.
Proof.
  intros Hac Hcb. apply bool_ext. rewrite orb_true_iff, !opF_true. split.
  - intros [(j & Hj & H) | (j & Hj & H)]; exists j; (split; [lia | exact H]).
  - intros (j & Hj & H). destruct (le_lt_dec j (i + b)); [left | right]; exists j;
      (split; [lia | exact H]).
Qed.
(** Containment. *)
Lemma opG_sub a b c d p i : a <= c -> d <= b -> opG a b p i && opG c d p i = opG a b p i.
Proof.
  intros Hac Hdb. apply bool_ext. rewrite andb_true_iff, !opG_true. split; [tauto|].
  intros H; split; [exact H|]. intros j Hj; apply H; lia.
Qed.
Lemma opG_sub_or a b c d p i : a <= c -> d <= b -> opG a b p i || opG c d p i = opG c d p i.
Proof.
  intros Hac Hdb. apply bool_ext. rewrite orb_true_iff, !opG_true. split; [|tauto].
  intros [H|H]; [|exact H]. intros j Hj; apply H; lia.
Qed.
Lemma opF_sub a b c d p i : a <= c -> d <= b -> opF a b p i || opF c d p i = opF a b p i.
Proof.
  intros Hac Hdb. apply bool_ext. rewrite orb_true_iff, !opF_true. split; [|tauto].
  intros [H | (j & Hj & H)]; [exact H|]. exists j; (split; [lia | exact H]).
Qed.
Lemma opF_sub_and a b c d p i : a <= c -> d <= b -> opF a b p i && opF c d p i = opF c d p i.
Proof.
  intros Hac Hdb. apply bool_ext. rewrite andb_true_iff, !opF_true. split; [tauto|].
  intros (j & Hj & H); split; exists j; (split; [lia | exact H]).
Qed.

(** Factoring two windows of different position. *)
Lemma opG_factor a b c d e f p q i :
  e = Nat.min a c -> f = e + Nat.min (b - a) (d - c) -> a <= b -> c <= d ->
  opG e f (band (opG (a - e) (b - f) p) (opG (c - e) (d - f) q)) i
  = opG a b p i && opG c d q i.
Proof.
  intros He Hf Hab Hcd. rewrite opG_and, !opG_opG by lia.
  replace (e + (a - e)) with a by lia. replace (f + (b - f)) with b by lia.
  replace (e + (c - e)) with c by lia. replace (f + (d - f)) with d by lia. reflexivity.
Qed.
Lemma opF_factor a b c d e f p q i :
  e = Nat.min a c -> f = e + Nat.min (b - a) (d - c) -> a <= b -> c <= d ->
  opF e f (bor (opF (a - e) (b - f) p) (opF (c - e) (d - f) q)) i
  = opF a b p i || opF c d q i.
Proof.
  intros He Hf Hab Hcd. rewrite opF_or, !opF_opF by lia.
  replace (e + (a - e)) with a by lia. replace (f + (b - f)) with b by lia.
  replace (e + (c - e)) with c by lia. replace (f + (d - f)) with d by lia. reflexivity.
Qed.

(** ** Until *)
Lemma opU_and l u1 u2 p q r i :
  opU l u1 p q i && opU l u2 r q i = opU l (Nat.min u1 u2) (band p r) q i.
Proof.
  apply bool_ext. rewrite andb_true_iff, !opU_true. unfold band. split.
  - intros [(j1 & Hj1 & Hq1 & Hp1) (j2 & Hj2 & Hq2 & Hp2)].
    exists (Nat.min j1 j2). split; [lia|]. split.
    + destruct (Nat.min_dec j1 j2) as [->| ->]; assumption.
    + intros k Hk. rewrite Hp1, Hp2 by lia. reflexivity.
  - intros (j & Hj & Hq & Hp). split; exists j; (split; [lia|]); (split; [exact Hq|]);
      intros k Hk; specialize (Hp k Hk); apply andb_true_iff in Hp; tauto.
Qed.
Lemma opU_opF l u a b p q i : l <= u -> a <= l -> u <= b ->
  opU l u p q i && opF a b q i = opU l u p q i.
Proof.
  intros Hlu Hal Hub. apply bool_ext. rewrite andb_true_iff, opU_true, opF_true. split; [tauto|].
  intros H; split; [exact H|]. destruct H as (j & Hj & Hq & _). exists j. split; [lia | exact Hq].
Qed.
Lemma opU_G l u b p i : l <= u -> opU l u p (opG 0 b p) i = opG l (l + b) p i.
Proof.
  intros Hlu. apply bool_ext. rewrite opU_true, opG_true. split.
  - intros (j & Hj & Hq & Hp) k Hk. rewrite opG_true in Hq.
    destruct (le_lt_dec j k); [apply Hq | apply Hp]; lia.
  - intros H. exists (i + l). split; [lia|]. split; [|intros; lia].
    apply opG_true. intros k Hk. apply H; lia.
Qed.
Lemma opU_F l u b p i : l <= u -> opU l u p (opF 0 b p) i = opF l (l + b) p i.
Proof.
  intros Hlu. apply bool_ext. rewrite opU_true, opF_true. split.
  - intros (j & Hj & Hq & Hp). destruct (Nat.eq_dec j (i + l)) as [->|Hne].
    + rewrite opF_true in Hq. destruct Hq as (k & Hk & H). exists k. split; [lia | exact H].
    + exists (i + l). split; [lia|]. apply Hp; lia.
  - intros (k & Hk & H). exists (i + l). split; [lia|]. split; [|intros; lia].
    apply opF_true. exists k. split; [lia | exact H].
Qed.

(** G or R with a longer window. *)
Lemma opG_opR a b c d p q i : a <= b -> b <= d -> c <= a ->
  opG a b p i || opR c d q p i = opG a b p i || opR c b q p i.
Proof.
  intros Hab Hbd Hca. apply bool_ext. rewrite !orb_true_iff, !opG_true, !opR_true. split.
  - intros [H|H]; [left; exact H|]. right. intros j Hj E. apply H; [lia | exact E].
  - intros [H|H]; [left; exact H|].
    destruct (opG c b p i) eqn:E.
    + left. rewrite opG_true in E. intros j Hj. apply E; lia.
    + right. rewrite opG_false in E. destruct E as (j & Hj & E).
      destruct (H j Hj E) as (k & Hk & Hq).
      intros j' Hj' E'. destruct (le_lt_dec j' (i + b)) as [Hle|Hgt].
      * apply H; [lia | exact E'].
      * exists k. split; [lia | exact Hq].
Qed.

(** Narrowing F next to a G of the negation. *)
Lemma opG_opF_narrow_low a b c d p i : a <= c -> c <= b + 1 -> b < d ->
  opG a b (bneg p) i && opF c d p i = opG a b (bneg p) i && opF (b + 1) d p i.
Proof.
  intros Hac Hcb Hbd. apply bool_ext. rewrite !andb_true_iff, !opG_true, !opF_true. split.
  - intros [H1 (j & Hj & H2)]. split; [exact H1|]. exists j. split; [|exact H2].
    destruct (le_lt_dec j (i + b)); [|lia].
    specialize (H1 j ltac:(lia)). unfold bneg in H1. rewrite H2 in H1. discriminate.
  - intros [H1 (j & Hj & H2)]. split; [exact H1|]. exists j. split; [lia | exact H2].
Qed.
Lemma opG_opF_narrow_high a b c d p i : c < a -> a <= d -> d <= b ->
  opG a b (bneg p) i && opF c d p i = opG a b (bneg p) i && opF c (a - 1) p i.
Proof.
  intros Hca Had Hdb. apply bool_ext. rewrite !andb_true_iff, !opG_true, !opF_true. split.
  - intros [H1 (j & Hj & H2)]. split; [exact H1|]. exists j. split; [|exact H2].
    destruct (le_lt_dec (i + a) j); [|lia].
    specialize (H1 j ltac:(lia)). unfold bneg in H1. rewrite H2 in H1. discriminate.
  - intros [H1 (j & Hj & H2)]. split; [exact H1|]. exists j. split; [lia | exact H2].
Qed.
Lemma opG_opF_contra a b c d p i : a <= c -> d <= b ->
  opG a b (bneg p) i && opF c d p i = false.
Proof.
  intros Hac Hdb. apply not_true_iff_false. rewrite andb_true_iff, opG_true, opF_true.
  intros [H1 (j & Hj & H2)]. specialize (H1 j ltac:(lia)). unfold bneg in H1.
  rewrite H2 in H1. discriminate.
Qed.
Lemma opF_const a b v i : a <= b -> opF a b (fun _ => v) i = v.
Proof.
  intros Hab. destruct v.
  - apply opF_true. exists (i + a). split; [lia | reflexivity].
  - apply opF_false. reflexivity.
Qed.
Lemma opG_const a b v i : a <= b -> opG a b (fun _ => v) i = v.
Proof.
  intros Hab. destruct v.
  - apply opG_true. reflexivity.
  - apply opG_false. exists (i + a). split; [lia | reflexivity].
Qed.
Lemma opF_and_factor a b c d p q i : a <= c ->
  opF a b p i && opF c d q i
  = opF a a (band (opF 0 (b - a) p) (opF (c - a) (d - a) q)) i \/ b < a \/ d < a.
Proof.
  intros Hac. destruct (le_lt_dec a b); [|right; left; assumption].
  destruct (le_lt_dec a d); [|right; right; assumption]. left.
  rewrite opF_point. unfold band. f_equal; apply bool_ext; rewrite !opF_true;
    split; intros (j & Hj & H); exists j; (split; [lia | exact H]).
Qed.
Lemma opG_or_factor a b c d p q i : a <= c ->
  opG a b p i || opG c d q i
  = opG a a (bor (opG 0 (b - a) p) (opG (c - a) (d - a) q)) i \/ b < a \/ d < a.
Proof.
  intros Hac. destruct (le_lt_dec a b); [|right; left; assumption].
  destruct (le_lt_dec a d); [|right; right; assumption]. left.
  rewrite opG_point. unfold bor. f_equal; apply bool_ext; rewrite !opG_true;
    split; intros H j Hj; apply H; lia.
Qed.
