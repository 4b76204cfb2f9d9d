(** * Extraction by integer programming (proofs) *)
From Coq Require Import List Arith ZArith Bool Lia.
Require Import Verif.Mltl Verif.OpLaws Verif.MltlEval Verif.Transform Verif.Egglog Verif.EgglogProofs Verif.Ilp Verif.IlpSpec.
Import ListNotations.
Local Open Scope list_scope.
Local Open Scope nat_scope.

(** ** Sums of binary values *)
Lemma node_in g c i n : node_at g c i = Some n -> In n (members g c).
Proof. apply nth_error_In. Qed.
Lemma node_class g c i n : node_at g c i = Some n -> c < length (classes g).
Proof.
  unfold node_at, members. intros E. destruct (Nat.ltb_spec c (length (classes g))) as [L|L]; [exact L|].
  rewrite nth_overflow in E by exact L. destruct i; discriminate.
Qed.
Lemma zsum_nonneg l : (forall x, In x l -> (0 <= x)%Z) -> (0 <= zsum l)%Z.
Proof.
  unfold zsum. induction l as [|a l IH]; cbn [fold_right]; intros H; [lia|].
  assert (0 <= a)%Z by (apply H; left; reflexivity). assert (0 <= fold_right Z.add 0 l)%Z by (apply IH; intros x I; apply H; right; exact I). lia.
Qed.
Lemma zsum_binary l : (forall x, In x l -> binary x) -> (zsum l <= Z.of_nat (length l))%Z /\
  (zsum l = Z.of_nat (length l) -> forall x, In x l -> x = 1%Z).
Proof.
  unfold zsum, binary. induction l as [|a l IH]; intros H; [cbn; split; [lia|intros _ x []]|].
  destruct (IH (fun x I => H x (or_intror I))) as [A B]. pose proof (H a (or_introl eq_refl)) as C.
  cbn [fold_right length]. rewrite Nat2Z.inj_succ. split; [lia|]. intros E x [->|I]; [lia|]. apply B; [lia|exact I].
Qed.
(** Among binary values with sum 1 exactly one is 1. *)
Lemma zsum_one l : (forall x, In x l -> binary x) -> zsum l = 1%Z -> exists i, nth_error l i = Some 1%Z.
Proof.
  unfold zsum, binary. induction l as [|a l IH]; intros H E; cbn [fold_right] in E; [lia|].
  destruct (H a (or_introl eq_refl)) as [->| ->].
  - destruct (IH (fun x I => H x (or_intror I)) E) as (i & Hi). exists (S i). exact Hi.
  - exists 0. reflexivity.
Qed.
Lemma nth_seq n i : nth_error (seq 0 n) i = if i <? n then Some i else None.
Proof.
  destruct (Nat.ltb_spec i n).
  - rewrite (nth_error_nth' _ 0) by (rewrite seq_length; exact H). rewrite seq_nth by exact H. reflexivity.
  - apply nth_error_None. rewrite seq_length. exact H.
Qed.
Lemma over_nth g c f i x : nth_error (over g c f) i = Some x -> x = f i /\ exists n, node_at g c i = Some n.
Proof.
  unfold over, node_at. rewrite nth_error_map, nth_seq. destruct (Nat.ltb_spec i (length (members g c))); [|discriminate].
  cbn. intros [= <-]. split; [reflexivity|]. destruct (nth_error (members g c) i) eqn:E; [eauto|]. apply nth_error_None in E. lia.
Qed.
Lemma over_in g c f x : In x (over g c f) -> exists i n, x = f i /\ node_at g c i = Some n.
Proof. intros I. apply In_nth_error in I as (i & I). apply over_nth in I as (-> & n & E). eauto. Qed.

(** ** The representatives of a feasible solution *)
Lemma first_chosen_sound f ns : forall i n, first_chosen f i ns = Some n ->
  exists j, nth_error ns j = Some n /\ f (i + j) = 1%Z.
Proof.
  induction ns as [|m ns IH]; intros i n E; cbn [first_chosen] in E; [discriminate|].
  destruct (f i =? 1)%Z eqn:F.
  - injection E as <-. exists 0. rewrite Nat.add_0_r. split; [reflexivity|apply Z.eqb_eq, F].
  - destruct (IH _ _ E) as (j & A & B). exists (S j). rewrite Nat.add_succ_r. split; assumption.
Qed.
Lemma first_chosen_some f ns : forall i j n, nth_error ns j = Some n -> f (i + j) = 1%Z -> exists m, first_chosen f i ns = Some m.
Proof.
  induction ns as [|m ns IH]; intros i j n E F; [destruct j; discriminate|]. cbn [first_chosen].
  destruct (f i =? 1)%Z eqn:G; [eauto|]. destruct j as [|j].
  - rewrite Nat.add_0_r in F. apply Z.eqb_neq in G. contradiction.
  - apply (IH (S i) j n E). rewrite Nat.add_succ_r in F. exact F.
Qed.

Section Feasible.
  Variables (g : graph) (ext : bool) (w : Z) (v : values).
  Hypothesis W : well_formed g.
  Hypothesis F : feasible g ext w v.
  Definition picked (c : nat) (n : enode) : Prop :=
    representative g v c = Some n /\ In n (members g c) /\ (ext = false -> is_extended (op_of n) = false) /\
    Forall (fun k => k < length (classes g) /\ eclass v k = 1%Z /\ (rank v k < rank v c)%Z) (kids n).
  Lemma class_picked c : c < length (classes g) -> eclass v c = 1%Z -> exists n, picked c n.
  Proof using W F.
    intros L E. pose proof (f_one _ _ _ _ F c L) as O. rewrite E in O. symmetry in O. apply zsum_one in O as (i & O).
    2: { intros x I. apply over_in in I as (j & n & -> & En). exact (proj1 (f_node _ _ _ _ F c j n En)). }
    apply over_nth in O as (Ci & n & En). symmetry in Ci.
    destruct (first_chosen_some (chosen v c) (members g c) 0 i n En Ci) as (m & M). exists m.
    pose proof (first_chosen_sound _ _ _ _ M) as (j & Ej & Cj). rewrite Nat.add_0_l in Cj. pose proof (node_in g c j m Ej) as Im.
    split; [|split; [exact Im|split]].
    - unfold representative. rewrite E, (proj2 (Nat.ltb_lt _ _) L). exact M.
    - intros X. destruct (is_extended (op_of m)) eqn:Y; [|reflexivity]. pose proof (f_extended _ _ _ _ F X c j m Ej Y). lia.
    - apply Forall_forall. intros k K. pose proof (proj2 W c m Im) as [_ B]. rewrite Forall_forall in B. specialize (B k K).
      split; [exact B|]. split.
      + pose proof (f_kids _ _ _ _ F c j m Ej) as S. rewrite Cj, !Z.mul_1_l in S.
        destruct (zsum_binary (map (eclass v) (kids m))) as [_ A].
        { intros x I. apply in_map_iff in I as (y & <- & Iy). pose proof (proj2 W c m Im) as [_ B']. rewrite Forall_forall in B'.
          exact (proj1 (f_class _ _ _ _ F y (B' y Iy))). }
        rewrite map_length in A. apply (A (eq_sym S)). apply in_map, K.
      + pose proof (f_order _ _ _ _ F c j m k Ej K) as R. rewrite Cj in R. lia.
  Qed.

  Fixpoint term_reads (t : eterm) (a : nat) : Prop :=
    match t with
    | TBool _ => False
    | TVar b => a = b
    | TNot p | TGlobal _ _ p | TFuture _ _ p => term_reads p a
    | TImplies p q | TEquiv p q | TAnd2 p q | TOr2 p q | TUntil _ _ p q | TRelease _ _ p q => term_reads p a \/ term_reads q a
    | TAnd3 p q r | TOr3 p q r => term_reads p a \/ term_reads q a \/ term_reads r a
    | TAnd4 p q r s | TOr4 p q r s => term_reads p a \/ term_reads q a \/ term_reads r a \/ term_reads s a
    end.
  Definition builds (n : enode) (t : eterm) (fuel : nat) : Prop :=
    forall known, (forall a, term_reads t a -> known a = true) -> forall more, fuel <= more -> build known (representative g v) more n = Some (of_eterm t).
  Definition built (c : nat) (t : eterm) (fuel : nat) : Prop :=
    holds_term g c t /\ allowed ext t /\ exists n, representative g v c = Some n /\ builds n t fuel.
  Lemma all_built (N : nat) : (forall c, c < length (classes g) -> eclass v c = 1%Z -> (rank v c < Z.of_nat N)%Z -> exists t, built c t N) ->
    forall ks, Forall (fun k => k < length (classes g) /\ eclass v k = 1%Z /\ (rank v k < Z.of_nat N)%Z) ks ->
    exists ts, Forall2 (fun k t => built k t N) ks ts.
  Proof using.
    intros IH ks A. induction A as [|k ks (L & E & R) A (ts & IHA)]; [exists []; constructor|].
    destruct (IH k L E R) as (t & T). exists (t :: ts). constructor; assumption.
  Qed.
  Lemma all_hold ks ts N : Forall2 (fun k t => built k t N) ks ts -> hold_terms g ks ts.
  Proof using. induction 1 as [|k t ks ts (H & _) A IH]; constructor; assumption. Qed.

  Ltac kid H := destruct H as (?Hh & ?Ha & ?m & ?R & ?B).
  Lemma build_rank N : forall c, c < length (classes g) -> eclass v c = 1%Z -> (rank v c < Z.of_nat N)%Z -> exists t, built c t N.
  Proof using W F.
    induction N as [|N IH]; intros c L E R.
    { pose proof (f_class _ _ _ _ F c L). lia. }
    destruct (class_picked c L E) as (n & P & Im & X & K).
    destruct (all_built N IH (kids n)) as (ts & T).
    { eapply Forall_impl; [|exact K]. cbn. intros k (A & B & C). repeat split; auto. lia. }
    pose proof (all_hold _ _ _ T) as Hts. pose proof (proj2 W c n Im) as [Ar _].
    assert (G : exists t, term_of (op_of n) ts = Some t /\ (allowed ext t) /\ builds n t (S N)).
    { unfold allowed. destruct n as [o ks]; cbn [op_of kids] in *.
      destruct o; cbn [arity_ok is_extended] in Ar, X;
        destruct ks as [|? [|? [|? [|? [|? ?]]]]]; cbn [length] in Ar; try (exfalso; lia);
        repeat match goal with
        | H : Forall2 _ [] _ |- _ => inversion H; subst; clear H
        | H : Forall2 _ (_ :: _) _ |- _ => inversion H; subst; clear H
        end;
        repeat match goal with H : built _ _ _ |- _ => kid H end;
        (eexists; split; [reflexivity|]);
        (split; [intros Q; try discriminate (X Q); cbn [core]; repeat split; auto|]);
        intros known Kn [|more] Le; try (exfalso; lia); apply le_S_n in Le; cbn [term_reads] in Kn; cbn -[collect];
        repeat match goal with Q : representative g v ?k = Some _ |- _ => rewrite Q; clear Q end;
        repeat match goal with B : builds ?m ?t N |- _ => rewrite (B known ltac:(intros; apply Kn; tauto) more Le); clear B end;
        try reflexivity.
      rewrite (Kn a eq_refl). reflexivity. }
    destruct G as (t & Et & At & Bt). exists t. split; [|split; [exact At|exists n; split; assumption]].
    exact (holds_node g c n ts t Im Hts Et).
  Qed.
  Lemma extraction : exists t fuel, holds_term g (root g) t /\ allowed ext t /\
    forall known more, (forall a, term_reads t a -> known a = true) -> fuel <= more -> extract known g v more = Some (of_eterm t).
  Proof using W F.
    pose proof (f_class _ _ _ _ F (root g) (proj1 W)) as Q.
    destruct (build_rank (S (Z.to_nat (rank v (root g)))) (root g) (proj1 W) (f_root _ _ _ _ F)) as (t & H & A & n & R & B); [lia|].
    exists t, (S (Z.to_nat (rank v (root g)))). split; [exact H|]. split; [exact A|].
    intros known more K L. unfold extract. rewrite R. exact (B known K more L).
  Qed.
End Feasible.
