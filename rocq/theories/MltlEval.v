(** * Executable evaluation of MLTL, and its agreement with [sat]

    The temporal operators are functions on truth streams [nat -> bool]; [den]
    is the resulting denotation.  [den_sat] ties it to the specification in
    Mltl.v.  Everything here is proof infrastructure. *)
From Coq Require Import List Arith Bool Lia.
Require Import Verif.Mltl.
Import ListNotations.

(** ** Bounded quantifiers: [lo, lo + n) *)
Fixpoint ex_from (f : nat -> bool) (lo n : nat) : bool :=
  match n with
  | 0 => false
  | S n => f lo || ex_from f (S lo) n
  end.

Definition all_from (f : nat -> bool) (lo n : nat) : bool :=
  negb (ex_from (fun j => negb (f j)) lo n).

Lemma ex_from_true f lo n :
  ex_from f lo n = true <-> exists j, lo <= j < lo + n /\ f j = true.
Proof.
  revert lo; induction n as [|n IH]; intros lo; cbn [ex_from].
  - split; [discriminate | intros (j & Hj & _); lia].
  - rewrite orb_true_iff, IH. split.
    + intros [H | (j & Hj & H)].
      * exists lo; split; [lia | exact H].
      * exists j; split; [lia | exact H].
    + intros (j & Hj & H). destruct (Nat.eq_dec j lo) as [->|Hne].
      * left; exact H.
      * right; exists j; split; [lia | exact H].
Qed.

Lemma ex_from_false f lo n :
  ex_from f lo n = false <-> forall j, lo <= j < lo + n -> f j = false.
Proof.
  rewrite <- not_true_iff_false, ex_from_true. split.
  - intros H j Hj. destruct (f j) eqn:E; [|reflexivity].
    exfalso; apply H; exists j; auto.
  - intros H (j & Hj & E). rewrite (H j Hj) in E; discriminate.
Qed.

Lemma all_from_true f lo n :
  all_from f lo n = true <-> forall j, lo <= j < lo + n -> f j = true.
Proof.
  unfold all_from. rewrite negb_true_iff, ex_from_false. split; intros H j Hj.
  - specialize (H j Hj). destruct (f j); [reflexivity | discriminate].
  - rewrite (H j Hj); reflexivity.
Qed.

Lemma all_from_false f lo n :
  all_from f lo n = false <-> exists j, lo <= j < lo + n /\ f j = false.
Proof.
  unfold all_from. rewrite negb_false_iff, ex_from_true.
  split; intros (j & Hj & E); exists j; split; auto.
  - destruct (f j); [discriminate | reflexivity].
  - rewrite E; reflexivity.
Qed.

Lemma ex_from_ext f g lo n :
  (forall j, lo <= j < lo + n -> f j = g j) -> ex_from f lo n = ex_from g lo n.
Proof.
  revert lo; induction n as [|n IH]; intros lo H; cbn [ex_from]; [reflexivity|].
  rewrite (H lo) by lia. rewrite (IH (S lo)); [reflexivity|].
  intros j Hj; apply H; lia.
Qed.

Lemma all_from_ext f g lo n :
  (forall j, lo <= j < lo + n -> f j = g j) -> all_from f lo n = all_from g lo n.
Proof.
  intros H. unfold all_from. f_equal. apply ex_from_ext.
  intros j Hj; rewrite (H j Hj); reflexivity.
Qed.

(** ** Temporal operators on truth streams *)
Definition opF lb ub (p : nat -> bool) (i : nat) : bool := ex_from p (i + lb) (S ub - lb).
Definition opG lb ub (p : nat -> bool) (i : nat) : bool := all_from p (i + lb) (S ub - lb).
Definition opU lb ub (p q : nat -> bool) (i : nat) : bool :=
  ex_from (fun j => q j && all_from p (i + lb) (j - (i + lb))) (i + lb) (S ub - lb).
Definition opR lb ub (p q : nat -> bool) (i : nat) : bool :=
  all_from (fun j => q j || ex_from p (i + lb) (j - (i + lb))) (i + lb) (S ub - lb).
(** past window [i-ub, i-lb] cut at 0; empty if [i < lb] *)
Definition pw_lo (ub i : nat) : nat := i - ub.
Definition pw_n (lb ub i : nat) : nat := if i <? lb then 0 else S (i - lb) - (i - ub).
Definition opO lb ub (p : nat -> bool) (i : nat) : bool := ex_from p (pw_lo ub i) (pw_n lb ub i).
Definition opH lb ub (p : nat -> bool) (i : nat) : bool := all_from p (pw_lo ub i) (pw_n lb ub i).
Definition opS lb ub (p q : nat -> bool) (i : nat) : bool :=
  ex_from (fun j => q j && all_from p (S j) (i - lb - j)) (pw_lo ub i) (pw_n lb ub i).
Definition opT lb ub (p q : nat -> bool) (i : nat) : bool :=
  all_from (fun j => q j || ex_from p (S j) (i - lb - j)) (pw_lo ub i) (pw_n lb ub i).

Lemma opF_true lb ub p i :
  opF lb ub p i = true <-> exists j, i + lb <= j <= i + ub /\ p j = true.
Proof.
  unfold opF. rewrite ex_from_true.
  split; intros (j & Hj & E); exists j; split; auto; lia.
Qed.
Lemma opF_false lb ub p i :
  opF lb ub p i = false <-> forall j, i + lb <= j <= i + ub -> p j = false.
Proof.
  unfold opF. rewrite ex_from_false. split; intros H j Hj; apply H; lia.
Qed.
Lemma opG_true lb ub p i :
  opG lb ub p i = true <-> forall j, i + lb <= j <= i + ub -> p j = true.
Proof.
  unfold opG. rewrite all_from_true. split; intros H j Hj; apply H; lia.
Qed.
Lemma opG_false lb ub p i :
  opG lb ub p i = false <-> exists j, i + lb <= j <= i + ub /\ p j = false.
Proof.
  unfold opG. rewrite all_from_false.
  split; intros (j & Hj & E); exists j; split; auto; lia.
Qed.
Lemma opU_true lb ub p q i :
  opU lb ub p q i = true <->
  exists j, i + lb <= j <= i + ub /\ q j = true /\ forall k, i + lb <= k < j -> p k = true.
Proof.
  unfold opU. rewrite ex_from_true. split.
  - intros (j & Hj & E). apply andb_true_iff in E as [Eq Ep].
    rewrite all_from_true in Ep. exists j; repeat split; auto; try lia.
    intros k Hk; apply Ep; lia.
  - intros (j & Hj & Eq & Ep). exists j; split; [lia|].
    rewrite Eq; cbn. apply all_from_true. intros k Hk; apply Ep; lia.
Qed.
Lemma opU_false lb ub p q i :
  opU lb ub p q i = false <->
  forall j, i + lb <= j <= i + ub -> q j = true -> exists k, i + lb <= k < j /\ p k = false.
Proof.
  unfold opU. rewrite ex_from_false. split.
  - intros H j Hj Eq. specialize (H j ltac:(lia)). rewrite Eq in H; cbn in H.
    apply all_from_false in H as (k & Hk & E). exists k; split; auto; lia.
  - intros H j Hj. destruct (q j) eqn:Eq; [|reflexivity]. cbn.
    destruct (H j ltac:(lia) Eq) as (k & Hk & E).
    apply all_from_false. exists k; split; auto; lia.
Qed.
Lemma opR_true lb ub p q i :
  opR lb ub p q i = true <->
  forall j, i + lb <= j <= i + ub -> q j = false -> exists k, i + lb <= k < j /\ p k = true.
Proof.
  unfold opR. rewrite all_from_true. split.
  - intros H j Hj Eq. specialize (H j ltac:(lia)). rewrite Eq in H; cbn in H.
    apply ex_from_true in H as (k & Hk & E). exists k; split; auto; lia.
  - intros H j Hj. destruct (q j) eqn:Eq; [reflexivity|]. cbn.
    destruct (H j ltac:(lia) Eq) as (k & Hk & E).
    apply ex_from_true. exists k; split; auto; lia.
Qed.
Lemma opR_false lb ub p q i :
  opR lb ub p q i = false <->
  exists j, i + lb <= j <= i + ub /\ q j = false /\ forall k, i + lb <= k < j -> p k = false.
Proof.
  unfold opR. rewrite all_from_false. split.
  - intros (j & Hj & E). apply orb_false_iff in E as [Eq Ep].
    rewrite ex_from_false in Ep. exists j; repeat split; auto; try lia.
    intros k Hk; apply Ep; lia.
  - intros (j & Hj & Eq & Ep). exists j; split; [lia|].
    rewrite Eq; cbn. apply ex_from_false. intros k Hk; apply Ep; lia.
Qed.

Lemma pw_iff lb ub i j :
  pw_lo ub i <= j < pw_lo ub i + pw_n lb ub i <-> i <= j + ub /\ j + lb <= i.
Proof.
  unfold pw_lo, pw_n. destruct (i <? lb) eqn:E.
  - apply Nat.ltb_lt in E; lia.
  - apply Nat.ltb_ge in E; lia.
Qed.

Lemma opO_true lb ub p i :
  opO lb ub p i = true <-> exists j, (i <= j + ub /\ j + lb <= i) /\ p j = true.
Proof.
  unfold opO. rewrite ex_from_true.
  split; intros (j & Hj & E); exists j; split; auto; apply pw_iff in Hj; exact Hj || lia.
Qed.
Lemma opO_false lb ub p i :
  opO lb ub p i = false <-> forall j, i <= j + ub /\ j + lb <= i -> p j = false.
Proof.
  unfold opO. rewrite ex_from_false.
  split; intros H j Hj; apply H; apply (pw_iff lb ub i j); exact Hj.
Qed.
Lemma opH_true lb ub p i :
  opH lb ub p i = true <-> forall j, i <= j + ub /\ j + lb <= i -> p j = true.
Proof.
  unfold opH. rewrite all_from_true.
  split; intros H j Hj; apply H; apply (pw_iff lb ub i j); exact Hj.
Qed.
Lemma opH_false lb ub p i :
  opH lb ub p i = false <-> exists j, (i <= j + ub /\ j + lb <= i) /\ p j = false.
Proof.
  unfold opH. rewrite all_from_false.
  split; intros (j & Hj & E); exists j; split; auto; apply (pw_iff lb ub i j); exact Hj.
Qed.
Lemma opS_true lb ub p q i :
  opS lb ub p q i = true <->
  exists j, (i <= j + ub /\ j + lb <= i) /\ q j = true /\
            forall k, j < k /\ k + lb <= i -> p k = true.
Proof.
  unfold opS. rewrite ex_from_true. split.
  - intros (j & Hj & E). apply pw_iff in Hj. apply andb_true_iff in E as [Eq Ep].
    rewrite all_from_true in Ep. exists j; repeat split; auto; try lia.
    intros k Hk; apply Ep; lia.
  - intros (j & Hj & Eq & Ep). exists j; split; [apply pw_iff; lia|].
    rewrite Eq; cbn. apply all_from_true. intros k Hk; apply Ep; lia.
Qed.
Lemma opS_false lb ub p q i :
  opS lb ub p q i = false <->
  forall j, (i <= j + ub /\ j + lb <= i) -> q j = true ->
            exists k, (j < k /\ k + lb <= i) /\ p k = false.
Proof.
  unfold opS. rewrite ex_from_false. split.
  - intros H j Hj Eq. specialize (H j (proj2 (pw_iff lb ub i j) Hj)).
    rewrite Eq in H; cbn in H.
    apply all_from_false in H as (k & Hk & E). exists k; split; auto; lia.
  - intros H j Hj. apply pw_iff in Hj. destruct (q j) eqn:Eq; [|reflexivity]. cbn.
    destruct (H j Hj Eq) as (k & Hk & E).
    apply all_from_false. exists k; split; auto; lia.
Qed.
Lemma opT_true lb ub p q i :
  opT lb ub p q i = true <->
  forall j, (i <= j + ub /\ j + lb <= i) -> q j = false ->
            exists k, (j < k /\ k + lb <= i) /\ p k = true.
Proof.
  unfold opT. rewrite all_from_true. split.
  - intros H j Hj Eq. specialize (H j (proj2 (pw_iff lb ub i j) Hj)).
    rewrite Eq in H; cbn in H.
    apply ex_from_true in H as (k & Hk & E). exists k; split; auto; lia.
  - intros H j Hj. apply pw_iff in Hj. destruct (q j) eqn:Eq; [reflexivity|]. cbn.
    destruct (H j Hj Eq) as (k & Hk & E).
    apply ex_from_true. exists k; split; auto; lia.
Qed.
Lemma opT_false lb ub p q i :
  opT lb ub p q i = false <->
  exists j, (i <= j + ub /\ j + lb <= i) /\ q j = false /\
            forall k, j < k /\ k + lb <= i -> p k = false.
Proof.
  unfold opT. rewrite all_from_false. split.
  - intros (j & Hj & E). apply pw_iff in Hj. apply orb_false_iff in E as [Eq Ep].
    rewrite ex_from_false in Ep. exists j; repeat split; auto; try lia.
    intros k Hk; apply Ep; lia.
  - intros (j & Hj & Eq & Ep). exists j; split; [apply pw_iff; lia|].
    rewrite Eq; cbn. apply ex_from_false. intros k Hk; apply Ep; lia.
Qed.

(** ** Denotation *)
Fixpoint den (tr : trace) (e : expr) {struct e} : nat -> bool :=
  match e with
  | EConst b => fun _ => b
  | EAtom a => fun i => tr i a
  | ENot e => fun i => negb (den tr e i)
  | EAnd es => fun i => fold_right (fun e b => den tr e i && b) true es
  | EOr es => fun i => fold_right (fun e b => den tr e i || b) false es
  | EXor p q => fun i => xorb (den tr p i) (den tr q i)
  | EImpl p q => fun i => implb (den tr p i) (den tr q i)
  | EEquiv p q => fun i => Bool.eqb (den tr p i) (den tr q i)
  | EBeq p q => fun i => Bool.eqb (den tr p i) (den tr q i)
  | EF lb ub p => opF lb ub (den tr p)
  | EG lb ub p => opG lb ub (den tr p)
  | EU lb ub p q => opU lb ub (den tr p) (den tr q)
  | ER lb ub p q => opR lb ub (den tr p) (den tr q)
  | EO lb ub p => opO lb ub (den tr p)
  | EH lb ub p => opH lb ub (den tr p)
  | ES lb ub p q => opS lb ub (den tr p) (den tr q)
  | ET lb ub p q => opT lb ub (den tr p) (den tr q)
  end.

Lemma eqb_iff (a b : bool) : Bool.eqb a b = true <-> (a = true <-> b = true).
Proof. destruct a, b; cbn; intuition congruence. Qed.

Lemma iff_not_false (b : bool) (P : Prop) : (b = true <-> P) -> (b = false <-> ~ P).
Proof. destruct b; intuition congruence. Qed.

Lemma den_sat tr e : forall i, den tr e i = true <-> sat tr e i.
Proof.
  induction e as [b|a|e IH|es IH|es IH|p q IHp IHq|p q IHp IHq|p q IHp IHq|p q IHp IHq
                 |lb ub p IHp|lb ub p IHp|lb ub p q IHp IHq|lb ub p q IHp IHq
                 |lb ub p IHp|lb ub p IHp|lb ub p q IHp IHq|lb ub p q IHp IHq] using expr_ind';
    intros i; cbn [den sat].
  - reflexivity.
  - reflexivity.
  - rewrite negb_true_iff, <- (iff_not_false _ _ (IH i)). reflexivity.
  - induction IH as [|e es He _ IHes]; cbn [fold_right]; [intuition|].
    rewrite andb_true_iff, (He i), IHes. reflexivity.
  - induction IH as [|e es He _ IHes]; cbn [fold_right]; [intuition congruence|].
    rewrite orb_true_iff, (He i), IHes. reflexivity.
  - rewrite <- (IHp i), <- (IHq i). destruct (den tr p i), (den tr q i); cbn; intuition congruence.
  - rewrite <- (IHp i), <- (IHq i). destruct (den tr p i), (den tr q i); cbn; intuition congruence.
  - rewrite eqb_iff, (IHp i), (IHq i). reflexivity.
  - rewrite eqb_iff, (IHp i), (IHq i). reflexivity.
  - rewrite opF_true. split; intros (j & Hj & H); exists j; split; auto; apply IHp; exact H.
  - rewrite opG_true. split; intros H j Hj; apply IHp; auto.
  - rewrite opU_true. split; intros (j & Hj & Hq & Hp); exists j; repeat split; try lia;
      try (apply IHq; exact Hq); intros k Hk; apply IHp; apply Hp; lia.
  - rewrite opR_true. split; intros H j Hj Hq.
    + destruct (H j Hj) as (k & Hk & E).
      * apply (iff_not_false _ _ (IHq j)); exact Hq.
      * exists k; split; auto; apply IHp; exact E.
    + destruct (H j Hj) as (k & Hk & E).
      * apply (iff_not_false _ _ (IHq j)); exact Hq.
      * exists k; split; auto; apply IHp; exact E.
  - rewrite opO_true. split; intros (j & Hj & H); exists j; split; auto; apply IHp; exact H.
  - rewrite opH_true. split; intros H j Hj; apply IHp; auto.
  - rewrite opS_true. split; intros (j & Hj & Hq & Hp); exists j; repeat split; try lia;
      try (apply IHq; exact Hq); intros k Hk; apply IHp; apply Hp; lia.
  - rewrite opT_true. split; intros H j Hj Hq.
    + destruct (H j Hj) as (k & Hk & E).
      * apply (iff_not_false _ _ (IHq j)); exact Hq.
      * exists k; split; auto; apply IHp; exact E.
    + destruct (H j Hj) as (k & Hk & E).
      * apply (iff_not_false _ _ (IHq j)); exact Hq.
      * exists k; split; auto; apply IHp; exact E.
Qed.

Lemma den_false_sat tr e i : den tr e i = false <-> ~ sat tr e i.
Proof. apply iff_not_false, den_sat. Qed.

(** Equivalence through the denotation. *)
Definition deq (e1 e2 : expr) : Prop := forall tr i, den tr e1 i = den tr e2 i.

Lemma deq_equivalent e1 e2 : deq e1 e2 <-> equivalent e1 e2.
Proof.
  unfold deq, equivalent. split; intros H tr i.
  - rewrite <- !den_sat, H. reflexivity.
  - specialize (H tr i). rewrite <- !den_sat in H.
    destruct (den tr e1 i), (den tr e2 i); intuition congruence.
Qed.

Lemma bool_ext (a b : bool) : (a = true <-> b = true) -> a = b.
Proof. destruct a, b; intuition congruence. Qed.

(** Extensionality of the operators. *)
Lemma opF_ext lb ub p p' : (forall j, p j = p' j) -> forall i, opF lb ub p i = opF lb ub p' i.
Proof. intros H i. apply ex_from_ext. intros; apply H. Qed.
Lemma opG_ext lb ub p p' : (forall j, p j = p' j) -> forall i, opG lb ub p i = opG lb ub p' i.
Proof. intros H i. apply all_from_ext. intros; apply H. Qed.
Lemma opU_ext lb ub p p' q q' : (forall j, p j = p' j) -> (forall j, q j = q' j) ->
  forall i, opU lb ub p q i = opU lb ub p' q' i.
Proof.
  intros Hp Hq i. apply ex_from_ext. intros j _. rewrite Hq. f_equal.
  apply all_from_ext. intros; apply Hp.
Qed.
Lemma opR_ext lb ub p p' q q' : (forall j, p j = p' j) -> (forall j, q j = q' j) ->
  forall i, opR lb ub p q i = opR lb ub p' q' i.
Proof.
  intros Hp Hq i. apply all_from_ext. intros j _. rewrite Hq. f_equal.
  apply ex_from_ext. intros; apply Hp.
Qed.
Lemma opO_ext lb ub p p' : (forall j, p j = p' j) -> forall i, opO lb ub p i = opO lb ub p' i.
Proof. intros H i. apply ex_from_ext. intros; apply H. Qed.
Lemma opH_ext lb ub p p' : (forall j, p j = p' j) -> forall i, opH lb ub p i = opH lb ub p' i.
Proof. intros H i. apply all_from_ext. intros; apply H. Qed.
Lemma opS_ext lb ub p p' q q' : (forall j, p j = p' j) -> (forall j, q j = q' j) ->
  forall i, opS lb ub p q i = opS lb ub p' q' i.
Proof.
  intros Hp Hq i. apply ex_from_ext. intros j _. rewrite Hq. f_equal.
  apply all_from_ext. intros; apply Hp.
Qed.
Lemma opT_ext lb ub p p' q q' : (forall j, p j = p' j) -> (forall j, q j = q' j) ->
  forall i, opT lb ub p q i = opT lb ub p' q' i.
Proof.
  intros Hp Hq i. apply all_from_ext. intros j _. rewrite Hq. f_equal.
  apply ex_from_ext. intros; apply Hp.
Qed.

(** Dualities. *)
Lemma opF_dual lb ub p i : opF lb ub p i = negb (opG lb ub (fun j => negb (p j)) i).
Proof.
  unfold opF, opG, all_from. rewrite negb_involutive. apply ex_from_ext.
  intros; rewrite negb_involutive; reflexivity.
Qed.
Lemma opG_dual lb ub p i : opG lb ub p i = negb (opF lb ub (fun j => negb (p j)) i).
Proof. reflexivity. Qed.
Lemma opR_dual lb ub p q i :
  opR lb ub p q i = negb (opU lb ub (fun j => negb (p j)) (fun j => negb (q j)) i).
Proof.
  unfold opR, opU, all_from. f_equal. apply ex_from_ext. intros j _.
  rewrite negb_orb. f_equal. f_equal. apply ex_from_ext. intros; rewrite negb_involutive; reflexivity.
Qed.
Lemma opU_dual lb ub p q i :
  opU lb ub p q i = negb (opR lb ub (fun j => negb (p j)) (fun j => negb (q j)) i).
Proof.
  rewrite opR_dual, negb_involutive. apply opU_ext; intros; rewrite negb_involutive; reflexivity.
Qed.
Lemma opO_dual lb ub p i : opO lb ub p i = negb (opH lb ub (fun j => negb (p j)) i).
Proof.
  unfold opO, opH, all_from. rewrite negb_involutive. apply ex_from_ext.
  intros; rewrite negb_involutive; reflexivity.
Qed.
Lemma opH_dual lb ub p i : opH lb ub p i = negb (opO lb ub (fun j => negb (p j)) i).
Proof. reflexivity. Qed.
Lemma opT_dual lb ub p q i :
  opT lb ub p q i = negb (opS lb ub (fun j => negb (p j)) (fun j => negb (q j)) i).
Proof.
  unfold opT, opS, all_from. f_equal. apply ex_from_ext. intros j _.
  rewrite negb_orb. f_equal. f_equal. apply ex_from_ext. intros; rewrite negb_involutive; reflexivity.
Qed.
Lemma opS_dual lb ub p q i :
  opS lb ub p q i = negb (opT lb ub (fun j => negb (p j)) (fun j => negb (q j)) i).
Proof.
  rewrite opT_dual, negb_involutive. apply opS_ext; intros; rewrite negb_involutive; reflexivity.
Qed.

(** Derived operators. *)
Lemma opU_const_true lb ub q i : opU lb ub (fun _ => true) q i = opF lb ub q i.
Proof.
  apply bool_ext. rewrite opU_true, opF_true. split; intros (j & Hj & H).
  - exists j; intuition.
  - exists j; intuition.
Qed.
Lemma opR_const_false lb ub q i : opR lb ub (fun _ => false) q i = opG lb ub q i.
Proof.
  rewrite opR_dual, opG_dual. f_equal. rewrite <- opU_const_true. reflexivity.
Qed.
Lemma opS_const_true lb ub q i : opS lb ub (fun _ => true) q i = opO lb ub q i.
Proof.
  apply bool_ext. rewrite opS_true, opO_true. split; intros (j & Hj & H).
  - exists j; intuition.
  - exists j; intuition.
Qed.
Lemma opT_const_false lb ub q i : opT lb ub (fun _ => false) q i = opH lb ub q i.
Proof.
  rewrite opT_dual, opH_dual. f_equal. rewrite <- opS_const_true. reflexivity.
Qed.
