(** * Equality saturation: from the formula to the formula read back (proofs) *)
From Coq Require Import List Arith NArith ZArith Bool Ascii String Lia.
Require Import Verif.Mltl Verif.OpLaws Verif.MltlEval Verif.MapFile Verif.MapProofs Verif.Egglog Verif.EgglogProofs Verif.Saturate Verif.SaturateSpec
  Verif.SaturateProofs Verif.SaturateRead Verif.SaturateEncode.
Import ListNotations.
Local Open Scope nat_scope.
Local Open Scope list_scope.
Local Open Scope char_scope.

Lemma encoding g e : in_order g -> all_expressible g -> stands g (pred (List.length g)) e ->
  exists cs k t, to_egglog g = Some (cs, k) /\ root_term cs k = Some t /\ of_eterm t = e.
Proof.
  intros O X H. destruct (encoding_total g e X O H) as (cs & k & t & E & R). exists cs, k, t. repeat split; auto.
  exact (encoding_sound g cs k t e E R H).
Qed.
Lemma reads_terms t text c :
  laid_out (printed t) text -> tlegal t -> (forall a, reads (of_eterm t) a -> known_atomic c a = true) ->
  ~ bare t -> (timed t -> is_ft c = true) -> read_output c text = Formula (of_eterm t).
Proof.
  intros L G K B T. unfold read_output. rewrite (text_parses t text L), resolved by (intros a O; apply K, reads_occurs, O).
  assert (C : checks (is_ft c) (back t) = true).
  { destruct (is_ft c) eqn:F; [apply checked, G|]. apply checked_untimed. intros N. specialize (T N). congruence. }
  rewrite C. destruct t; try reflexivity. exfalso. apply B. eexists; reflexivity.
Qed.
Lemma reads_bare a text c : laid_out (printed (TVar a)) text -> known_atomic c a = true ->
  read_output c text = if existsb (str_eqb ("a" :: dec (N.of_nat a))) (inputs c) then Input ("a" :: dec (N.of_nat a)) else Crashed.
Proof.
  intros L K. unfold read_output. rewrite (text_parses _ _ L). cbn [back resolve]. rewrite atomic_known by exact K. reflexivity.
Qed.
Lemma reads_past t text c : laid_out (printed t) text -> timed t -> (forall a, reads (of_eterm t) a -> known_atomic c a = true) ->
  is_ft c = false -> read_output c text = Failed.
Proof.
  intros L T K F. unfold read_output. rewrite (text_parses t text L), resolved by (intros a O; apply K, reads_occurs, O).
  rewrite F, unchecked_timed by exact T. destruct t; try reflexivity. contradiction.
Qed.
Lemma past_section t text c sections :
  laid_out (printed t) text -> timed t -> (forall a, reads (of_eterm t) a -> known_atomic c a = true) ->
  is_ft c = after_type_check (sections ++ [false]) -> read_output c text = Failed.
Proof.
  intros L T K F. apply (reads_past t); auto. rewrite F. unfold after_type_check. apply last_last.
Qed.
(** Bounds written by the commands are natural numbers. *)
Fixpoint natural (t : eterm) : Prop :=
  match t with
  | TBool _ | TVar _ => True
  | TNot p => natural p
  | TImplies p q | TEquiv p q | TAnd2 p q | TOr2 p q => natural p /\ natural q
  | TAnd3 p q r | TOr3 p q r => natural p /\ natural q /\ natural r
  | TAnd4 p q r s | TOr4 p q r s => natural p /\ natural q /\ natural r /\ natural s
  | TGlobal l u p | TFuture l u p => (0 <= l)%Z /\ (0 <= u)%Z /\ natural p
  | TUntil l u p q | TRelease l u p q => (0 <= l)%Z /\ (0 <= u)%Z /\ natural p /\ natural q
  end.
Lemma natural_legal t : natural t -> legal (of_eterm t) -> tlegal t.
Proof.
  induction t; cbn [natural of_eterm legal tlegal fold_right]; intros N L; try tauto;
    repeat match goal with H : _ /\ _ |- _ => destruct H end; repeat split; auto; lia.
Qed.
Definition naturals (b : binding) : Prop := forall k t, bound b k = Some t -> natural t.
Lemma evaluated_natural b c t : naturals b -> evaluated b c = Some t -> natural t.
Proof.
  intros N E. destruct c; cbn [evaluated] in E;
    try (injection E as <-; exact Logic.I);
    try (destruct (bound b k) as [p|] eqn:B; [|discriminate]; cbn in E; injection E as <-; cbn [natural];
         repeat split; try lia; exact (N _ _ B));
    try (destruct (bound b k) as [p|] eqn:B; [|discriminate]; destruct (bound b j) as [q|] eqn:B'; [|discriminate];
         cbn in E; injection E as <-; cbn [natural]; repeat split; try lia; [exact (N _ _ B)|exact (N _ _ B')]).
  all: assert (M : forall x, In (Some x) (map (bound b) ks) -> natural x)
    by (intros x I; apply in_map_iff in I as (k & I & _); exact (N _ _ I));
    destruct (map (bound b) ks) as [|[p|] [|[q|] [|[r|] [|[s|] [|]]]]]; try discriminate; injection E as <-;
    cbn [natural]; repeat split; apply M; cbn; tauto.
Qed.
Lemma run_natural cs : forall b b', naturals b -> run b cs = Some b' -> naturals b'.
Proof.
  induction cs as [|[k c] cs IH]; intros b b' N R; cbn [run] in R.
  - injection R as <-. exact N.
  - destruct (bound b k); [discriminate|]. destruct (evaluated b c) as [t|] eqn:E; [|discriminate].
    refine (IH _ _ _ R). intros j x B. cbn [bound] in B. destruct (k =? j)%nat; [|exact (N _ _ B)].
    injection B as <-. exact (evaluated_natural _ _ _ N E).
Qed.
Lemma root_natural cs k t : root_term cs k = Some t -> natural t.
Proof.
  unfold root_term. destruct (run [] cs) as [b|] eqn:R; [|discriminate].
  apply (run_natural cs [] b); [discriminate|exact R].
Qed.

Lemma eqsat_equivalent g e cs k t t' text c :
  stands g (pred (List.length g)) e -> legal e ->
  to_egglog g = Some (cs, k) -> root_term cs k = Some t -> egraph all_rules t t t' ->
  laid_out (printed t') text -> (forall a, reads e a -> known_atomic c a = true) ->
  ~ bare t' -> (timed t' -> is_ft c = true) ->
  exists e', read_output c text = Formula e' /\ equivalent e' e /\ legal e' /\ (forall a, reads e' a -> reads e a).
Proof.
  intros H L E R S P K B T. pose proof (encoding_sound g cs k t e E R H) as <-.
  pose proof (natural_legal _ (root_natural _ _ _ R) L) as L0.
  destruct (egraph_sound t L0 t t' S) as (_ & L' & D).
  assert (A : forall a, reads (of_eterm t') a -> reads (of_eterm t) a).
  { intros a I. apply reads_occurs. apply reads_occurs in I. exact (proj2 (saturation_atomics t t t' a S) I). }
  exists (of_eterm t'). split; [apply reads_terms; auto|]. split; [|split; [apply tlegal_legal, L'|exact A]].
  apply deq_equivalent. intros tr i. rewrite !tden_den. symmetry; apply D.
Qed.
