(** * Soundness of the equality-saturation rules *)
From Coq Require Import List ZArith Bool Lia.
Require Import Verif.Mltl Verif.MltlEval Verif.OpLaws Verif.TransformProofs Verif.Egglog.
Import ListNotations.
Open Scope Z_scope.

Fixpoint tlegal (t : eterm) : Prop :=
  match t with
  | TBool _ | TVar _ => True
  | TNot p => tlegal p
  | TImplies p q | TEquiv p q | TAnd2 p q | TOr2 p q => tlegal p /\ tlegal q
  | TAnd3 p q r | TOr3 p q r => tlegal p /\ tlegal q /\ tlegal r
  | TAnd4 p q r s | TOr4 p q r s => tlegal p /\ tlegal q /\ tlegal r /\ tlegal s
  | TGlobal l u p | TFuture l u p => 0 <= l /\ l <= u /\ tlegal p
  | TUntil l u p q | TRelease l u p q => 0 <= l /\ l <= u /\ tlegal p /\ tlegal q
  end.

(** Point-free semantics. *)
Fixpoint tden (tr : trace) (t : eterm) : nat -> bool :=
  match t with
  | TBool b => fun _ => b
  | TVar a => fun i => tr i a
  | TNot p => bneg (tden tr p)
  | TImplies p q => bor (bneg (tden tr p)) (tden tr q)
  | TEquiv p q => fun i => Bool.eqb (tden tr p i) (tden tr q i)
  | TAnd2 p q => band (tden tr p) (tden tr q)
  | TAnd3 p q r => band (tden tr p) (band (tden tr q) (tden tr r))
  | TAnd4 p q r s => band (tden tr p) (band (tden tr q) (band (tden tr r) (tden tr s)))
  | TOr2 p q => bor (tden tr p) (tden tr q)
  | TOr3 p q r => bor (tden tr p) (bor (tden tr q) (tden tr r))
  | TOr4 p q r s => bor (tden tr p) (bor (tden tr q) (bor (tden tr r) (tden tr s)))
  | TGlobal l u p => opG (Z.to_nat l) (Z.to_nat u) (tden tr p)
  | TFuture l u p => opF (Z.to_nat l) (Z.to_nat u) (tden tr p)
  | TUntil l u p q => opU (Z.to_nat l) (Z.to_nat u) (tden tr p) (tden tr q)
  | TRelease l u p q => opR (Z.to_nat l) (Z.to_nat u) (tden tr p) (tden tr q)
  end.

Lemma tden_den tr t : forall i, den tr (of_eterm t) i = tden tr t i.
Proof.
  induction t; intros i; cbn [of_eterm den tden]; rewrite ?den_and, ?den_or; cbn [fold_right];
    unfold band, bor, bneg;
    repeat match goal with H : forall i, den _ _ i = _ |- _ => rewrite !H end;
    rewrite ?andb_true_r, ?orb_false_r; try reflexivity.
  - destruct (tden tr t1 i), (tden tr t2 i); reflexivity.
  - apply opG_ext; assumption.
  - apply opF_ext; assumption.
  - apply opU_ext; assumption.
  - apply opR_ext; assumption.
Qed.

Lemma tlegal_legal t : tlegal t -> legal (of_eterm t).
Proof.
  induction t; cbn [tlegal of_eterm legal fold_right]; intros H; try tauto;
    repeat match goal with H : _ /\ _ |- _ => destruct H end; repeat split; auto; lia.
Qed.

(** One rule: whenever the guards hold and the side(s) it matches on are legal,
    both sides are legal and mean the same. *)
Definition rule_sound (r : rule) : Prop :=
  forall sb st, Forall (gholds sb) (guards r) ->
    let l := tinst sb st (lhs r) in
    let r' := tinst sb st (rhs r) in
    tlegal l \/ (bidirectional r = true /\ tlegal r') ->
    tlegal l /\ tlegal r' /\ (forall tr i, tden tr l i = tden tr r' i).

(** Normalise natural-number bounds. *)
Ltac to_nat_norm :=
  repeat match goal with
  | |- context [Z.to_nat (?a + ?b)] =>
      replace (Z.to_nat (a + b)) with (Z.to_nat a + Z.to_nat b)%nat by lia
  | |- context [Z.to_nat (?a - ?b)] =>
      replace (Z.to_nat (a - b)) with (Z.to_nat a - Z.to_nat b)%nat by lia
  | |- context [Z.to_nat (Z.max ?a ?b)] =>
      replace (Z.to_nat (Z.max a b)) with (Nat.max (Z.to_nat a) (Z.to_nat b)) by lia
  | |- context [Z.to_nat (Z.min ?a ?b)] =>
      replace (Z.to_nat (Z.min a b)) with (Nat.min (Z.to_nat a) (Z.to_nat b)) by lia
  | |- context [Z.to_nat 0] => change (Z.to_nat 0) with 0%nat
  | |- context [Z.to_nat 1] => change (Z.to_nat 1) with 1%nat
  end.
Ltac guards_in H :=
  repeat match type of H with
  | Forall _ (_ :: _) => let G := fresh "G" in apply Forall_inv in H as G; apply Forall_inv_tail in H
  end; clear H.
Ltac ands := repeat match goal with H : _ /\ _ |- _ => destruct H end.
Ltac booleans :=
  unfold band, bor, bneg;
  repeat match goal with |- context [tden ?tr ?t ?i] => destruct (tden tr t i) end; reflexivity.
Ltac rstart :=
  let Hg := fresh "Hg" in
  intros sb st Hg; cbn [guards lhs rhs bidirectional tinst binst] in *;
  guards_in Hg; cbn [gholds binst] in *; cbn zeta; cbn [tlegal tden];
  intros Hl;
  assert (Hl' : tlegal (TBool true)) by exact I; clear Hl';
  destruct Hl as [Hl|[Hb Hl]]; [|try discriminate Hb]; ands;
  (split; [repeat split; first [assumption | exact I | lia]
          |split; [repeat split; first [assumption | exact I | lia]
                  |intros tr i; to_nat_norm]]).

Lemma Forall_app_intro {A} (P : A -> Prop) l l' : Forall P l -> Forall P l' -> Forall P (l ++ l').
Proof. intros H H'. apply Forall_app; split; assumption. Qed.

Lemma associative_sound : Forall rule_sound rules_associative.
Proof. repeat (apply Forall_cons); [..|apply Forall_nil]; rstart; booleans. Qed.
Lemma commutative_sound : Forall rule_sound rules_commutative.
Proof. repeat (apply Forall_cons); [..|apply Forall_nil]; rstart; booleans. Qed.
Lemma multi_arity_sound : Forall rule_sound rules_multi_arity.
Proof. repeat (apply Forall_cons); [..|apply Forall_nil]; rstart; booleans. Qed.

Ltac temporal := unfold bor at 1, band at 1; solve
  [ apply opG_const; lia | apply opF_const; lia
  | apply opG_opF_contra; lia ].

Lemma const_folding_sound : Forall rule_sound rules_const_folding.
Proof.
  repeat (apply Forall_cons); [..|apply Forall_nil]; rstart; try booleans; try (apply opG_const; lia); try (apply opF_const; lia).
  - unfold bor at 1. change (opG (Z.to_nat (sb 0%nat)) (Z.to_nat (sb 1%nat)) (bneg (tden tr (st 0%nat))) i)
      with (opG (Z.to_nat (sb 0%nat)) (Z.to_nat (sb 1%nat)) (bneg (tden tr (st 0%nat))) i).
    rewrite <- opF_neg. destruct (opF _ _ _ i); reflexivity.
  - unfold band at 1. apply opG_opF_contra; lia.
  - unfold band at 1.
    erewrite opG_ext; [apply opG_opF_contra; lia|]. intros j. unfold bneg. symmetry; apply negb_involutive.
Qed.

Ltac heads := repeat match goal with
  | |- context [band ?p ?q ?i] => change (band p q i) with (p i && q i)
  | |- context [bor ?p ?q ?i] => change (bor p q i) with (p i || q i)
  | |- context [bneg ?p ?i] => change (bneg p i) with (negb (p i))
  end.
Ltac arith := solve [assumption | reflexivity | lia].

Lemma opU_and_le l u1 u2 p q r i : (u1 <= u2)%nat ->
  opU l u1 p q i && opU l u2 r q i = opU l u1 (band p r) q i.
Proof. intros H. rewrite opU_and, Nat.min_l by exact H. reflexivity. Qed.

Lemma opF_and_factor' a b c d p q i : (a <= b)%nat -> (a <= c)%nat -> (c <= d)%nat ->
  opF a b p i && opF c d q i = opF a a (band (opF 0 (b - a) p) (opF (c - a) (d - a) q)) i.
Proof. intros H1 H2 H3. destruct (opF_and_factor a b c d p q i H2) as [E|[H|H]]; [exact E|lia|lia]. Qed.
Lemma opG_or_factor' a b c d p q i : (a <= b)%nat -> (a <= c)%nat -> (c <= d)%nat ->
  opG a b p i || opG c d q i = opG a a (bor (opG 0 (b - a) p) (opG (c - a) (d - a) q)) i.
Proof. intros H1 H2 H3. destruct (opG_or_factor a b c d p q i H2) as [E|[H|H]]; [exact E|lia|lia]. Qed.

(** (a && F q) -> (p U q || G p) against (a && F q) -> p U q. *)
Lemma implies_until l u a p q i :
  negb (a i && opF l u q i) || (opU l u p q i || opG l u p i)
  = negb (a i && opF l u q i) || opU l u p q i.
Proof.
  destruct (a i); [|reflexivity]. cbn [andb].
  destruct (opF l u q i) eqn:EF; [|reflexivity]. cbn [negb orb].
  destruct (opU l u p q i) eqn:EU; [reflexivity|]. cbn [orb].
  apply not_true_iff_false. intros EG. rewrite opG_true in EG.
  apply opF_true in EF as (j & Hj & Hq).
  assert (H : opU l u p q i = true); [|congruence].
  apply opU_true. exists j. split; [exact Hj|]. split; [exact Hq|].
  intros k Hk. apply EG. lia.
Qed.

Lemma temporal_sound : Forall rule_sound rules_temporal.
Proof.
  repeat (apply Forall_cons); [..|apply Forall_nil]; rstart; heads; try booleans.
  all: try (apply opU_neg).
  all: try (apply opR_neg).
  all: try (apply opU_const_true).
  all: try (apply opR_const_false).
  all: try (apply opF_neg).
  all: try (apply opG_neg).
  all: try (apply opU_and_le; lia).
  all: try (apply opG_opG; lia).
  all: try (apply opF_opF; lia).
  all: try (apply implies_until).
  all: try (rewrite opU_point, ?opF_point, ?Nat.add_0_r; reflexivity).
  all: try (rewrite opR_point, ?opF_point, ?Nat.add_0_r; reflexivity).
  all: try (rewrite ?opF_point, ?opG_point, ?Nat.add_0_r; reflexivity).
  all: try (rewrite (Nat.add_comm (Z.to_nat (sb 2%nat)) (Z.to_nat (sb 0%nat))),
                    (Nat.add_comm (Z.to_nat (sb 2%nat)) (Z.to_nat (sb 1%nat)));
            first [apply opG_opF_point_in | apply opF_opG_point_in]).
  all: try (apply opG_opF_point_out).
  all: try (apply opF_opG_point_out).
  all: try (apply opG_union; lia).
  all: try (apply opF_union; lia).
  all: try (apply opG_sub_or; lia).
  all: try (apply opF_sub_and; lia).
  all: try (apply opF_opU_point_out).
  all: try (apply opU_G; lia).
  all: try (apply opU_F; lia).
  all: try (apply opU_opF; lia).
  all: try (apply opG_opR; lia).
  all: try (apply opG_opF_narrow_low; lia).
  all: try (apply opG_opF_narrow_high; lia).
  all: try (apply opF_and_factor'; lia).
  all: try (apply opG_or_factor'; lia).
  all: try (symmetry; apply opG_factor; lia).
  all: try (symmetry; apply opF_factor; lia).
  rewrite <- opU_shift. apply opU_ext; intros j; apply opF_point.
Qed.

Lemma all_rules_sound : Forall rule_sound all_rules.
Proof.
  unfold all_rules. repeat apply Forall_app_intro.
  - exact associative_sound.
  - exact commutative_sound.
  - exact multi_arity_sound.
  - exact const_folding_sound.
  - exact temporal_sound.
Qed.

Lemma sub_legal t s : tlegal t -> In s (subterms t) -> tlegal s.
Proof.
  destruct t; cbn [tlegal subterms In]; intros H Hs; ands;
    repeat match goal with H : _ \/ _ |- _ => destruct H end; subst; try assumption; contradiction.
Qed.

(** Whatever the e-graph equates is legal and equivalent. *)
Lemma egraph_sound root : tlegal root -> forall s t, egraph all_rules root s t ->
  tlegal s /\ tlegal t /\ forall tr i, tden tr s i = tden tr t i.
Proof.
  intros Hroot s t H.
  induction H; ands;
    try (split; [assumption || (cbn [tlegal] in *; ands; repeat split; assumption)
           |split; [cbn [tlegal] in *; ands; repeat split; assumption
                   |intros tr i; cbn [tden]; unfold band, bor, bneg;
                    repeat match goal with H : forall tr i, tden tr ?a i = tden tr ?b i |- _ =>
                      rewrite (H tr i); clear H end; reflexivity]]).
  - assert (tlegal s) by (eapply sub_legal; eassumption). auto.
  - destruct (proj1 (Forall_forall _ _) all_rules_sound r H sb st H0) as (A & B & C); auto.
  - destruct (proj1 (Forall_forall _ _) all_rules_sound r H sb st H1) as (A & B & C); [right; auto|].
    split; [exact B|split; [exact A|intros; symmetry; apply C]].
  - cbn [tlegal] in *; ands. repeat split; auto. intros tr i. apply opG_ext; auto.
  - cbn [tlegal] in *; ands. repeat split; auto. intros tr i. apply opF_ext; auto.
  - cbn [tlegal] in *; ands. repeat split; auto. intros tr i. apply opU_ext; auto.
  - cbn [tlegal] in *; ands. repeat split; auto. intros tr i. apply opR_ext; auto.
Qed.

(** Encoding and decoding. *)
Lemma to_eterm_ok e : forall t, to_eterm e = Some t -> of_eterm t = e /\ (legal e -> tlegal t).
Proof.
  induction e as [b|a|e IH|es IH|es IH|p q IHp IHq|p q IHp IHq|p q IHp IHq|p q IHp IHq
                 |lb ub p IHp|lb ub p IHp|lb ub p q IHp IHq|lb ub p q IHp IHq
                 |lb ub p IHp|lb ub p IHp|lb ub p q IHp IHq|lb ub p q IHp IHq] using expr_ind';
    intros t E; cbn [to_eterm] in E; try discriminate E.
  - injection E as <-. split; [reflexivity|trivial].
  - injection E as <-. split; [reflexivity|trivial].
  - destruct (to_eterm e); [|discriminate]. injection E as <-.
    destruct (IH _ eq_refl) as [<- H]. split; [reflexivity|exact H].
  - destruct es as [|p [|q [|r [|s [|]]]]]; try discriminate E;
    repeat match goal with
    | H : Forall _ (_ :: _) |- _ =>
        let A := fresh "A" in apply Forall_inv in H as A; apply Forall_inv_tail in H
    end;
    repeat match type of E with context [to_eterm ?x] => destruct (to_eterm x); [|discriminate E] end;
    injection E as <-;
    repeat match goal with A : forall t, Some ?x = Some t -> _ |- _ =>
      destruct (A _ eq_refl) as [<- ?]; clear A end;
    (split; [reflexivity | cbn [legal fold_right tlegal]; tauto]).
  - destruct es as [|p [|q [|r [|s [|]]]]]; try discriminate E;
    repeat match goal with
    | H : Forall _ (_ :: _) |- _ =>
        let A := fresh "A" in apply Forall_inv in H as A; apply Forall_inv_tail in H
    end;
    repeat match type of E with context [to_eterm ?x] => destruct (to_eterm x); [|discriminate E] end;
    injection E as <-;
    repeat match goal with A : forall t, Some ?x = Some t -> _ |- _ =>
      destruct (A _ eq_refl) as [<- ?]; clear A end;
    (split; [reflexivity | cbn [legal fold_right tlegal]; tauto]).
  - destruct (to_eterm p); [|discriminate]. destruct (to_eterm q); [|discriminate]. injection E as <-.
    destruct (IHp _ eq_refl) as [<- ?], (IHq _ eq_refl) as [<- ?].
    split; [reflexivity | cbn [legal tlegal]; tauto].
  - destruct (to_eterm p); [|discriminate]. destruct (to_eterm q); [|discriminate]. injection E as <-.
    destruct (IHp _ eq_refl) as [<- ?], (IHq _ eq_refl) as [<- ?].
    split; [reflexivity | cbn [legal tlegal]; tauto].
  - destruct (to_eterm p); [|discriminate]. injection E as <-.
    destruct (IHp _ eq_refl) as [<- ?]. cbn [of_eterm]. rewrite !Nat2Z.id.
    split; [reflexivity | cbn [legal tlegal]; intros [? ?]; repeat split; auto; lia].
  - destruct (to_eterm p); [|discriminate]. injection E as <-.
    destruct (IHp _ eq_refl) as [<- ?]. cbn [of_eterm]. rewrite !Nat2Z.id.
    split; [reflexivity | cbn [legal tlegal]; intros [? ?]; repeat split; auto; lia].
  - destruct (to_eterm p); [|discriminate]. destruct (to_eterm q); [|discriminate]. injection E as <-.
    destruct (IHp _ eq_refl) as [<- ?], (IHq _ eq_refl) as [<- ?]. cbn [of_eterm]. rewrite !Nat2Z.id.
    split; [reflexivity | cbn [legal tlegal]; intros (? & ? & ?); repeat split; auto; lia].
  - destruct (to_eterm p); [|discriminate]. destruct (to_eterm q); [|discriminate]. injection E as <-.
    destruct (IHp _ eq_refl) as [<- ?], (IHq _ eq_refl) as [<- ?]. cbn [of_eterm]. rewrite !Nat2Z.id.
    split; [reflexivity | cbn [legal tlegal]; intros (? & ? & ?); repeat split; auto; lia].
Qed.

Lemma saturation_equivalent e t t' :
  legal e -> to_eterm e = Some t -> egraph all_rules t t t' ->
  equivalent (of_eterm t') e /\ legal (of_eterm t').
Proof.
  intros L E H. destruct (to_eterm_ok e t E) as [<- HL].
  destruct (egraph_sound t (HL L) t t' H) as (_ & L' & D).
  split; [|apply tlegal_legal, L'].
  apply deq_equivalent. intros tr i. rewrite !tden_den. symmetry; apply D.
Qed.

(** Each rule, read as formulas. *)
Lemma rules_equivalent r sb st :
  In r all_rules -> Forall (gholds sb) (guards r) -> tlegal (tinst sb st (lhs r)) ->
  legal (of_eterm (tinst sb st (rhs r))) /\
  equivalent (of_eterm (tinst sb st (lhs r))) (of_eterm (tinst sb st (rhs r))).
Proof.
  intros Hr Hg L.
  destruct (proj1 (Forall_forall _ _) all_rules_sound r Hr sb st Hg (or_introl L)) as (_ & L' & D).
  split; [apply tlegal_legal, L'|]. apply deq_equivalent. intros tr i. rewrite !tden_den. apply D.
Qed.
