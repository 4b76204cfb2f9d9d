(** * Proofs about n-ary arithmetic *)
From Coq Require Import List ZArith Arith Lia.
Require Import Verif.Transform Verif.TransformProofs Verif.ArithNary.
Import ListNotations.
Local Open Scope Z_scope.

Section AInd.
  Variable P : aexpr -> Prop.
  Hypothesis HInt : forall z, P (AInt z).
  Hypothesis HVar : forall x, P (AVar x).
  Hypothesis HNeg : forall e, P e -> P (ANeg e).
  Hypothesis HSub : forall p q, P p -> P q -> P (ASub p q).
  Hypothesis HAdd : forall es, Forall P es -> P (AAdd es).
  Hypothesis HMul : forall es, Forall P es -> P (AMul es).
  Fixpoint aexpr_ind' (e : aexpr) : P e :=
    let fix all (es : list aexpr) : Forall P es :=
      match es with
      | [] => Forall_nil P
      | e :: es => Forall_cons e (aexpr_ind' e) (all es)
      end in
    match e with
    | AInt z => HInt z
    | AVar x => HVar x
    | ANeg e => HNeg e (aexpr_ind' e)
    | ASub p q => HSub p q (aexpr_ind' p) (aexpr_ind' q)
    | AAdd es => HAdd es (all es)
    | AMul es => HMul es (all es)
    end.
End AInd.

Definition asum rho (es : list aexpr) : Z := fold_right (fun e s => aval rho e + s) 0 es.
Definition aprod rho (es : list aexpr) : Z := fold_right (fun e s => aval rho e * s) 1 es.

Lemma asum_cons rho a l : asum rho (a :: l) = aval rho a + asum rho l.
Proof. reflexivity. Qed.
Lemma aprod_cons rho a l : aprod rho (a :: l) = aval rho a * aprod rho l.
Proof. reflexivity. Qed.
Lemma asum_app rho l l' : asum rho (l ++ l') = asum rho l + asum rho l'.
Proof. induction l as [|a l IH]; cbn [app asum fold_right]; [reflexivity|]. fold (asum rho (l ++ l')).
  fold (asum rho l). rewrite IH. lia. Qed.
Lemma aprod_app rho l l' : aprod rho (l ++ l') = aprod rho l * aprod rho l'.
Proof. induction l as [|a l IH]; cbn [app aprod fold_right]; [fold (aprod rho l'); lia|].
  fold (aprod rho (l ++ l')). fold (aprod rho l). rewrite IH. apply Z.mul_assoc. Qed.
Lemma asum_map rho f l : Forall (fun e => aval rho (f e) = aval rho e) l ->
  asum rho (map f l) = asum rho l.
Proof. induction 1 as [|a l Ha _ IH]; cbn [map asum fold_right]; [reflexivity|].
  fold (asum rho (map f l)). fold (asum rho l). rewrite Ha, IH; reflexivity. Qed.
Lemma aprod_map rho f l : Forall (fun e => aval rho (f e) = aval rho e) l ->
  aprod rho (map f l) = aprod rho l.
Proof. induction 1 as [|a l Ha _ IH]; cbn [map aprod fold_right]; [reflexivity|].
  fold (aprod rho (map f l)). fold (aprod rho l). rewrite Ha, IH; reflexivity. Qed.

Lemma aexpr_map_val rho f : (forall e, aval rho (f e) = aval rho e) ->
  forall e, aval rho (aexpr_map f e) = aval rho e.
Proof.
  intros Hf e. induction e as [z|x|e IH|p q IHp IHq|es IH|es IH] using aexpr_ind';
    cbn [aexpr_map]; rewrite Hf; cbn [aval]; try congruence.
  - apply asum_map, IH.
  - apply aprod_map, IH.
Qed.

Lemma achain_add rho l acc :
  aval rho (fold_left (fun acc c => AAdd [acc; c]) l acc) = aval rho acc + asum rho l.
Proof.
  revert acc; induction l as [|c l IH]; intros acc; cbn [fold_left asum fold_right]; [lia|].
  rewrite IH. cbn [aval fold_right]. fold (asum rho l). lia.
Qed.
Lemma achain_mul rho l acc :
  aval rho (fold_left (fun acc c => AMul [acc; c]) l acc) = aval rho acc * aprod rho l.
Proof.
  revert acc; induction l as [|c l IH]; intros acc; cbn [fold_left aprod fold_right]; [lia|].
  rewrite IH. cbn [aval fold_right]. fold (aprod rho l). rewrite Z.mul_1_r, Z.mul_assoc; reflexivity.
Qed.

Lemma abinary_node_val rho e : aval rho (abinary_node e) = aval rho e.
Proof.
  destruct e as [| | | |es|es]; cbn [abinary_node]; try reflexivity;
    destruct es as [|a [|b [|c es]]]; try reflexivity; unfold achain.
  - rewrite achain_add. cbn [aval asum fold_right]. lia.
  - rewrite achain_mul. cbn [aval aprod fold_right].
    rewrite Z.mul_1_r, !Z.mul_assoc; reflexivity.
Qed.
Lemma arith_to_binary_val rho e : aval rho (arith_to_binary e) = aval rho e.
Proof. apply aexpr_map_val, abinary_node_val. Qed.

Lemma aflatten_add rho cs acc :
  asum rho (aflatten_children same_add acc cs) = asum rho acc + asum rho cs.
Proof.
  revert acc; induction cs as [|c cs IH]; intros acc; cbn [aflatten_children].
  - cbn. lia.
  - assert (Hc : asum rho (aflatten_children same_add (acc ++ [c]) cs) = asum rho acc + asum rho (c :: cs)).
    { rewrite IH, asum_app, !asum_cons. change (asum rho []) with 0. lia. }
    destruct (same_add c) as [ccs|] eqn:E; [|exact Hc].
    destruct (length acc <? MAX_ARITY)%nat; [|exact Hc].
    destruct c; try discriminate. injection E as ->.
    rewrite IH, asum_app, asum_cons. change (aval rho (AAdd ccs)) with (asum rho ccs). lia.
Qed.
Lemma aflatten_mul rho cs acc :
  aprod rho (aflatten_children same_mul acc cs) = aprod rho acc * aprod rho cs.
Proof.
  revert acc; induction cs as [|c cs IH]; intros acc; cbn [aflatten_children].
  - cbn. lia.
  - assert (Hc : aprod rho (aflatten_children same_mul (acc ++ [c]) cs) = aprod rho acc * aprod rho (c :: cs)).
    { rewrite IH, aprod_app, !aprod_cons. change (aprod rho []) with 1. rewrite Z.mul_1_r, Z.mul_assoc; reflexivity. }
    destruct (same_mul c) as [ccs|] eqn:E; [|exact Hc].
    destruct (length acc <? MAX_ARITY)%nat; [|exact Hc].
    destruct c; try discriminate. injection E as ->.
    rewrite IH, aprod_app, aprod_cons. change (aval rho (AMul ccs)) with (aprod rho ccs).
    rewrite Z.mul_assoc; reflexivity.
Qed.
Lemma arith_flatten_val rho e : aval rho (arith_flatten e) = aval rho e.
Proof.
  apply aexpr_map_val. intros [| | | |es|es]; cbn [aflatten_node]; try reflexivity.
  - apply (aflatten_add rho es []).
  - cbn [aval]. fold (aprod rho (aflatten_children same_mul [] es)). fold (aprod rho es).
    rewrite aflatten_mul. change (aprod rho []) with 1. apply Z.mul_1_l.
Qed.

Lemma achain_shape mk es :
  (forall l, (length l <= 2)%nat -> Forall abinary l -> abinary (mk l)) ->
  Forall abinary es -> abinary (achain mk es).
Proof.
  intros Hmk H. destruct es as [|a [|b [|c es]]]; cbn [achain]; try (apply Hmk; cbn; auto; lia).
  inversion H as [|? ? Ha H']; subst. inversion H' as [|? ? Hb H'']; subst.
  assert (Hacc : abinary (mk [a; b])) by (apply Hmk; cbn; auto).
  revert Hacc. generalize (mk [a; b]). revert H''. generalize (c :: es). clear - Hmk.
  intros l; induction l as [|d l IH]; intros Hl acc Hacc; cbn [fold_left]; [exact Hacc|].
  inversion Hl; subst. apply IH; [assumption|]. apply Hmk; cbn; auto.
Qed.
Lemma arith_to_binary_shape e : abinary (arith_to_binary e).
Proof.
  unfold arith_to_binary.
  induction e as [z|x|e IH|p q IHp IHq|es IH|es IH] using aexpr_ind';
    cbn [aexpr_map abinary_node abinary]; auto.
  - apply achain_shape.
    + intros l Hl H. cbn. split; [exact Hl | apply fold_conj, H].
    + apply Forall_forall. rewrite Forall_forall in IH. intros x Hx.
      apply in_map_iff in Hx as (y & <- & Hy). auto.
  - apply achain_shape.
    + intros l Hl H. cbn. split; [exact Hl | apply fold_conj, H].
    + apply Forall_forall. rewrite Forall_forall in IH. intros x Hx.
      apply in_map_iff in Hx as (y & <- & Hy). auto.
Qed.
