(** * Witnesses for the refutations of C02 and C03 *)
From Coq Require Import List Arith Lia.
Require Import Verif.Mltl Verif.MltlShape Verif.MltlEval Verif.Transform Verif.TransformProofs.
Import ListNotations.

(** Two operands of arity three flatten to arity six. *)
Lemma flatten_arity_refuted :
  exists e, all_nodes (fun e => match e with EAnd es | EOr es => length es <= 4 | _ => True end) e /\
            ~ all_nodes (fun e => match e with EAnd es | EOr es => length es <= 4 | _ => True end) (flatten e).
Proof.
  exists (EAnd [EAnd [EAtom 0; EAtom 1; EAtom 2]; EAnd [EAtom 3; EAtom 4; EAtom 5]]).
  split.
  - cbn; intuition lia.
  - intros [H _]. vm_compute in H. lia.
Qed.

Lemma bnf_shape_refuted : exists e, ~ all_nodes bnf_op (to_bnf e).
Proof. exists (EEquiv (EAtom 0) (EAtom 1)). cbn. tauto. Qed.

(** [!(a xor b)] becomes [(!a && b) && (a && !b)], which is never true. *)
Lemma nnf_refuted : exists e, ~ equivalent (to_nnf e) e.
Proof.
  exists (ENot (EXor (EAtom 0) (EAtom 1))). intros H.
  apply deq_equivalent in H. specialize (H (fun _ _ => true) 0). discriminate H.
Qed.

Lemma nnf_shape_refuted : exists e, all_nodes no_xor_op e /\ ~ all_nodes nnf_op (to_nnf e).
Proof.
  exists (ENot (ENot (ENot (EAnd [EAtom 0; EAtom 1])))). cbn. tauto.
Qed.

Lemma to_nnf_no_xor e : all_nodes no_xor_op e -> equivalent (to_nnf e) e.
Proof. intros H. apply to_nnf_equivalent, no_xor_no_neg_xor, H. Qed.
