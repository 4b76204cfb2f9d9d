(** * Extraction by integer programming: from the formula to the new formula (proofs) *)
From Coq Require Import List Arith NArith ZArith Bool Lia.
Require Import Verif.Mltl Verif.MltlShape Verif.OpLaws Verif.MltlEval Verif.Transform Verif.Egglog Verif.EgglogProofs Verif.Saturate Verif.SaturateSpec
  Verif.SaturateProofs Verif.SaturateRead Verif.SaturateEncode Verif.SaturateChain Verif.Ilp Verif.IlpSpec Verif.IlpProofs.
Import ListNotations.
Local Open Scope list_scope.
Local Open Scope nat_scope.

Lemma term_reads_occurs t a : term_reads t a <-> occurs a t.
Proof. induction t; cbn [term_reads occurs]; tauto. Qed.
Lemma core_formula t : core t -> all_nodes not_extended_op (of_eterm t).
Proof.
  induction t; cbn [core of_eterm all_nodes not_extended_op fold_right]; try tauto.
Qed.
Lemma ilp_equivalent f e cs k t g ext w v known :
  stands f (pred (length f)) e -> legal e -> to_egglog f = Some (cs, k) -> root_term cs k = Some t ->
  well_formed g -> (forall t', holds_term g (root g) t' -> egraph all_rules t t t') -> feasible g ext w v ->
  (forall a, reads e a -> known a = true) ->
  exists e' fuel, (forall more, fuel <= more -> extract known g v more = Some e') /\
    equivalent e' e /\ legal e' /\ (forall a, reads e' a -> reads e a) /\ (ext = false -> all_nodes not_extended_op e').
Proof.
  intros H L E R W S F K. pose proof (encoding_sound f cs k t e E R H) as <-.
  pose proof (natural_legal _ (root_natural _ _ _ R) L) as L0.
  destruct (extraction g ext w v W F) as (t' & fuel & T & A & X).
  destruct (egraph_sound t L0 t t' (S t' T)) as (_ & L' & D).
  assert (Rd : forall a, reads (of_eterm t') a -> reads (of_eterm t) a).
  { intros a I. apply reads_occurs. apply reads_occurs in I. exact (proj2 (saturation_atomics t t t' a (S t' T)) I). }
  exists (of_eterm t'), fuel. split; [|split; [|split; [apply tlegal_legal, L'|split; [exact Rd|]]]].
  - intros more M. apply X; [|exact M]. intros a I. apply K, Rd, reads_occurs, term_reads_occurs, I.
  - apply deq_equivalent. intros tr i. rewrite !tden_den. symmetry; apply D.
  - intros Q. apply core_formula, A, Q.
Qed.
