(** * Enum declarations (proofs) *)
From Coq Require Import List Arith ZArith Lia.
Require Import Verif.Assembly Verif.Enums.
Import ListNotations.
Local Open Scope Z_scope.

Definition automatic (decl : list (nat * option Z)) : Z :=
  Z.of_nat (length (filter (fun m => match snd m with None => true | Some _ => false end) decl)).

Lemma get_set {V} (d : dict V) k v x : dict_get (dict_set d k v) x = if (k =? x)%nat then Some v else dict_get d x.
Proof.
  induction d as [|[k' v'] d IH]; cbn; [reflexivity|].
  destruct (Nat.eqb_spec k' k) as [->|N]; cbn.
  - destruct (k =? x)%nat; reflexivity.
  - destruct (Nat.eqb_spec k' x) as [->|N']; [|exact IH].
    destruct (Nat.eqb_spec k x); [congruence|reflexivity].
Qed.
Lemma members_from (l : list (nat * Z)) : forall d x v, dict_get (fold_left (fun d m => dict_set d (fst m) (snd m)) l d) x = Some v ->
  In (x, v) l \/ dict_get d x = Some v.
Proof.
  induction l as [|[k w] l IH]; intros d x v H; cbn in H; [auto|].
  apply IH in H as [H|H]; [left; right; exact H|]. rewrite get_set in H.
  destruct (Nat.eqb_spec k x) as [->|N]; [left; left; congruence|auto].
Qed.
Lemma value_in decl x v : member_value decl x = Some v -> In (x, v) (number 0 decl).
Proof. intros H. apply members_from in H as [H|H]; [exact H|discriminate]. Qed.

Lemma members_get (l : list (nat * Z)) : forall d x, (exists v, In (x, v) l) \/ (exists v, dict_get d x = Some v) ->
  exists v, dict_get (fold_left (fun d m => dict_set d (fst m) (snd m)) l d) x = Some v.
Proof.
  induction l as [|[k w] l IH]; intros d x H; cbn.
  - destruct H as [[v []]|H]; exact H.
  - apply IH. destruct H as [[v [H|H]]|[v H]].
    + injection H as -> ->. right. exists v. cbn. rewrite get_set, Nat.eqb_refl. reflexivity.
    + left. exists v. exact H.
    + right. cbn. rewrite get_set. destruct (k =? x)%nat; eexists; [reflexivity|exact H].
Qed.
Lemma number_names : forall decl i, map fst (number i decl) = map fst decl.
Proof. induction decl as [|[x [v|]] decl IH]; intros i; cbn; [reflexivity| |]; f_equal; apply IH. Qed.
Lemma value_total decl x : In x (map fst decl) <-> exists v, member_value decl x = Some v.
Proof.
  split.
  - intros H. apply members_get. left. rewrite <- (number_names decl 0) in H. apply in_map_iff in H as ([y v] & E & H).
    cbn in E. subst y. exists v. exact H.
  - intros [v H]. apply value_in, (in_map fst) in H. rewrite number_names in H. exact H.
Qed.

(** An automatic member has a number of its own. *)
Lemma number_in : forall decl i x v, In (x, v) (number i decl) ->
  In (x, Some v) decl \/ (In (x, None) decl /\ i <= v < i + automatic decl).
Proof.
  unfold automatic. induction decl as [|[y [w|]] decl IH]; intros i x v H; cbn in H; [destruct H| |].
  - destruct H as [E|H]; [injection E as -> ->; left; left; reflexivity|].
    apply IH in H as [H|[H R]]; [left; right; exact H|right; split; [right; exact H|exact R]].
  - cbn [filter snd length]. destruct H as [E|H]; [injection E as -> ->; right; split; [left; reflexivity|lia]|].
    apply IH in H as [H|[H R]]; [left; right; exact H|right; split; [right; exact H|lia]].
Qed.
Lemma number_auto : forall decl i x y v, (forall z w, In (z, Some w) decl -> ~ (i <= w < i + automatic decl)) ->
  In (x, v) (number i decl) -> In (y, v) (number i decl) -> x <> y -> In (x, Some v) decl /\ In (y, Some v) decl.
Proof.
  induction decl as [|[z [w|]] decl IH]; intros i x y v Hx H1 H2 N; cbn in H1, H2; [destruct H1| |].
  - assert (Hx' : forall z w, In (z, Some w) decl -> ~ (i <= w < i + automatic decl)) by (intros; apply (Hx z0); right; assumption).
    assert (Hw : ~ (i <= w < i + automatic decl)) by (apply (Hx z); left; reflexivity).
    destruct H1 as [E1|H1], H2 as [E2|H2].
    + congruence.
    + injection E1 as -> ->. apply number_in in H2 as [H2|[_ R]]; [|contradiction]. split; [left; reflexivity|right; exact H2].
    + injection E2 as -> ->. apply number_in in H1 as [H1|[_ R]]; [|contradiction]. split; [right; exact H1|left; reflexivity].
    + destruct (IH i x y v Hx' H1 H2 N). split; right; assumption.
  - assert (A : automatic ((z, None) :: decl) = 1 + automatic decl) by (unfold automatic; cbn [filter snd length]; lia).
    assert (P : 0 <= automatic decl) by (unfold automatic; lia).
    assert (Hx' : forall z w, In (z, Some w) decl -> ~ (i + 1 <= w < i + 1 + automatic decl)).
    { intros z0 w Hw R. apply (Hx z0 w); [right; exact Hw|lia]. }
    destruct H1 as [E1|H1], H2 as [E2|H2].
    + congruence.
    + injection E1 as -> ->. apply number_in in H2 as [H2|[_ R]]; [|lia].
      destruct (Hx y v); [right; exact H2|lia].
    + injection E2 as -> ->. apply number_in in H1 as [H1|[_ R]]; [|lia].
      destruct (Hx x v); [right; exact H1|lia].
    + destruct (IH (i + 1) x y v Hx' H1 H2 N). split; right; assumption.
Qed.
(** Every number below the count is given to an automatic member. *)
Lemma number_hits : forall decl i v, i <= v < i + automatic decl ->
  exists x, In (x, None) decl /\ In (x, v) (number i decl).
Proof.
  unfold automatic. induction decl as [|[y [w|]] decl IH]; intros i v H; cbn [filter snd length] in H.
  - cbn in H; lia.
  - destruct (IH i v H) as (x & H1 & H2). exists x. cbn. auto.
  - destruct (Z.eq_dec v i) as [->|N]; [exists y; cbn; auto|].
    destruct (IH (i + 1) v) as (x & H1 & H2); [lia|]. exists x. cbn. auto.
Qed.
Lemma value_nodup decl x v : NoDup (map fst decl) -> In (x, v) (number 0 decl) -> member_value decl x = Some v.
Proof.
  intros N H. destruct (proj1 (value_total decl x)) as [w Hw].
  { rewrite <- (number_names decl 0). apply (in_map fst) in H. exact H. }
  rewrite Hw. f_equal. apply value_in in Hw. rewrite <- (number_names decl 0) in N.
  revert N H Hw. generalize (number 0 decl) as l. induction l as [|[k u] l IH]; intros N H Hw; [destruct H|].
  cbn in N. inversion N as [|? ? N1 N2]; subst. destruct H as [E|H], Hw as [E'|Hw].
  - congruence.
  - injection E as -> ->. destruct N1. apply (in_map fst) in Hw. exact Hw.
  - injection E' as -> ->. destruct N1. apply (in_map fst) in H. exact H.
  - auto.
Qed.

(** The claim, and when it holds. *)
Definition distinct_members (decl : list (nat * option Z)) : Prop :=
  forall x y v, x <> y -> member_value decl x = Some v -> member_value decl y = Some v ->
    In (x, Some v) decl /\ In (y, Some v) decl.

Lemma distinct_if decl : (forall x v, In (x, Some v) decl -> ~ (0 <= v < automatic decl)) -> distinct_members decl.
Proof. intros H x y v N Hx Hy. apply value_in in Hx, Hy. apply (number_auto decl 0); auto. Qed.
Lemma distinct_iff decl : NoDup (map fst decl) ->
  (distinct_members decl <-> (forall x v, In (x, Some v) decl -> ~ (0 <= v < automatic decl))).
Proof.
  intros N. split; [|apply distinct_if]. intros C x v H R.
  destruct (number_hits decl 0 v R) as (y & H1 & H2).
  assert (U : forall (k : nat) a b, In (k, a) decl -> In (k, b) decl -> a = b).
  { clear -N. induction decl as [|[k u] l IH]; intros k' a b Ha Hb; [destruct Ha|]. cbn in N. inversion N as [|? ? N1 N2]; subst.
    destruct Ha as [E|Ha], Hb as [E'|Hb].
    - congruence.
    - injection E as -> ->. destruct N1. apply (in_map fst) in Hb. exact Hb.
    - injection E' as -> ->. destruct N1. apply (in_map fst) in Ha. exact Ha.
    - eauto. }
  assert (x <> y) by (intros ->; pose proof (U _ _ _ H H1); discriminate).
  assert (Hx : member_value decl x = Some v).
  { apply value_nodup; [exact N|]. clear -H. revert H. generalize 0. induction decl as [|[k [u|]] l IH]; intros i H; [destruct H| |]; cbn.
    - destruct H as [E|H]; [left; congruence|right; auto].
    - destruct H as [E|H]; [discriminate|right; auto]. }
  assert (Hy : member_value decl y = Some v) by (apply value_nodup; assumption).
  destruct (C x y v H0 Hx Hy) as [_ B]. pose proof (U _ _ _ B H1). discriminate.
Qed.
