(** * Properties C01, C02, C03, C09: the tree passes *)
From Coq Require Import List Arith ZArith Lia.
Require Import Verif.Mltl Verif.MltlShape Verif.Transform Verif.TransformProofs.
Require Import Verif.ArithNary Verif.ArithNaryProofs Verif.PropTransformAux.
Import ListNotations.

(** C01: same truth value at every time of every trace. *)
Theorem C01_remove_extended_equivalent : forall e, equivalent (remove_extended e) e.
Proof. exact remove_extended_equivalent. Qed.
Print Assumptions C01_remove_extended_equivalent.

(** C01: no xor, ->, F, G, O, H is left, and every operator is at most binary. *)
Theorem C01_remove_extended_shape : forall e, all_nodes core_op (remove_extended e).
Proof. exact remove_extended_shape. Qed.
Print Assumptions C01_remove_extended_shape.

Example C01_case :
  remove_extended (EG 0 5 (EImpl (EXor (EAtom 0) (EAtom 1)) (EF 1 3 (EAnd [EAtom 0; EAtom 1; EAtom 2]))))
  = ER 0 5 (EConst false)
      (EOr [ENot (ENot (EEquiv (EAtom 0) (EAtom 1)));
            EU 1 3 (EConst true) (EAnd [EAnd [EAtom 0; EAtom 1]; EAtom 2])]).
Proof. reflexivity. Qed.

(** C02: binarisation and flattening keep the meaning of Boolean ... *)
Theorem C02_binary_equivalent : forall e, equivalent (to_binary e) e.
Proof. exact to_binary_equivalent. Qed.
Print Assumptions C02_binary_equivalent.

Theorem C02_binary_shape : forall e, all_nodes binary_op (to_binary e).
Proof. exact to_binary_shape. Qed.
Print Assumptions C02_binary_shape.

Theorem C02_flatten_equivalent : forall e, equivalent (flatten e) e.
Proof. exact flatten_equivalent. Qed.
Print Assumptions C02_flatten_equivalent.

(** ... and of integer expressions. *)
Theorem C02_arith_binary_value : forall rho e, aval rho (arith_to_binary e) = aval rho e.
Proof. exact arith_to_binary_val. Qed.
Print Assumptions C02_arith_binary_value.

Theorem C02_arith_binary_shape : forall e, abinary (arith_to_binary e).
Proof. exact arith_to_binary_shape. Qed.
Print Assumptions C02_arith_binary_shape.

Theorem C02_arith_flatten_value : forall rho e, aval rho (arith_flatten e) = aval rho e.
Proof. exact arith_flatten_val. Qed.
Print Assumptions C02_arith_flatten_value.

(** The bound of four operands after flattening does not hold. *)
Theorem C02_flatten_arity_refuted :
  exists e, all_nodes (fun e => match e with EAnd es | EOr es => length es <= 4 | _ => True end) e /\
            ~ all_nodes (fun e => match e with EAnd es | EOr es => length es <= 4 | _ => True end) (flatten e).
Proof. exact flatten_arity_refuted. Qed.
Print Assumptions C02_flatten_arity_refuted.

Example C02_case :
  to_binary (EAnd [EAtom 0; EOr [EAtom 1; EAtom 2; EAtom 3]; EAtom 4; EAtom 5])
  = EAnd [EAnd [EAnd [EAtom 0; EOr [EOr [EAtom 1; EAtom 2]; EAtom 3]]; EAtom 4]; EAtom 5]
  /\ flatten (EAnd [EAnd [EAtom 0; EAtom 1]; EAtom 2]) = EAnd [EAtom 0; EAtom 1; EAtom 2]
  /\ arith_to_binary (AAdd [AVar 0; AVar 1; AInt 7]) = AAdd [AAdd [AVar 0; AVar 1]; AInt 7].
Proof. repeat split. Qed.

(** C03: Boolean normal form. *)
Theorem C03_bnf_equivalent : forall e, equivalent (to_bnf e) e.
Proof. exact to_bnf_equivalent. Qed.
Print Assumptions C03_bnf_equivalent.

(** Only negation, conjunction and until are left, provided the source has no
    [<->], Boolean [==] or past-time operator (missing from the full claim). *)
Theorem C03_bnf_shape_partial :
  forall e, all_nodes bnf_source_op e -> all_nodes bnf_op (to_bnf e).
Proof. exact to_bnf_shape. Qed.
Print Assumptions C03_bnf_shape_partial.

(** [p <-> q] has no rule and stays. *)
Theorem C03_bnf_shape_refuted : exists e, ~ all_nodes bnf_op (to_bnf e).
Proof. exact bnf_shape_refuted. Qed.
Print Assumptions C03_bnf_shape_refuted.

Example C03_bnf_case :
  let e := EG 0 3 (EImpl (EAtom 0) (EOr [EAtom 1; ER 0 2 (EAtom 2) (EAtom 0)])) in
  all_nodes bnf_source_op e /\
  to_bnf e = ENot (EU 0 3 (EConst true) (ENot (ENot (EAnd [EAtom 0;
     ENot (ENot (EAnd [ENot (EAtom 1); ENot (ENot (EU 0 2 (ENot (EAtom 2)) (ENot (EAtom 0))))]))])))).
Proof. cbn; repeat split. Qed.

(** C03: negation normal form is wrong for a negated xor ... *)
Theorem C03_nnf_refuted : exists e, ~ equivalent (to_nnf e) e.
Proof. exact nnf_refuted. Qed.
Print Assumptions C03_nnf_refuted.

(** ... and right whenever the traversal never negates an xor, ... *)
Theorem C03_nnf_equivalent_partial : forall e, no_neg_xor Visit e -> equivalent (to_nnf e) e.
Proof. exact to_nnf_equivalent. Qed.
Print Assumptions C03_nnf_equivalent_partial.

(** ... in particular for every formula without xor. *)
Theorem C03_nnf_no_xor_partial : forall e, all_nodes no_xor_op e -> equivalent (to_nnf e) e.
Proof. exact to_nnf_no_xor. Qed.
Print Assumptions C03_nnf_no_xor_partial.

(** The result is in negation normal form if no [!!], [==] or past-time
    operator occurs (missing from the full claim) ... *)
Theorem C03_nnf_shape_partial :
  forall e, all_nodes nnf_source_op e -> all_nodes nnf_op (to_nnf e).
Proof. exact to_nnf_shape. Qed.
Print Assumptions C03_nnf_shape_partial.

(** ... and [!!!(a && b)] is a counterexample to the full claim. *)
Theorem C03_nnf_shape_refuted :
  exists e, all_nodes no_xor_op e /\ ~ all_nodes nnf_op (to_nnf e).
Proof. exact nnf_shape_refuted. Qed.
Print Assumptions C03_nnf_shape_refuted.

Example C03_nnf_case :
  let e := ENot (EU 1 4 (EImpl (EAtom 0) (EXor (EAtom 1) (EAtom 2))) (EEquiv (EAtom 0) (EAtom 1))) in
  let e' := ENot (EU 1 4 (EImpl (EAtom 0) (EAtom 2)) (EEquiv (EAtom 0) (EAtom 1))) in
  ~ no_neg_xor Visit e /\ no_neg_xor Visit e' /\ all_nodes no_xor_op e' /\ all_nodes nnf_source_op e' /\
  to_nnf e' = ER 1 4 (EAnd [EAtom 0; ENot (EAtom 2)])
                (EOr [EAnd [EAtom 0; ENot (EAtom 1)]; EAnd [ENot (EAtom 0); EAtom 1]]).
Proof. cbn; intuition. Qed.

(** C09: release removal. *)
Theorem C09_release_equivalent : forall e, equivalent (remove_release e) e.
Proof. exact remove_release_equivalent. Qed.
Print Assumptions C09_release_equivalent.

Theorem C09_release_shape : forall e, all_nodes no_release_op (remove_release e).
Proof. exact remove_release_shape. Qed.
Print Assumptions C09_release_shape.

(** C09: sorting operands by delay. *)
Theorem C09_sort_equivalent : forall e, equivalent (sort_operands e) e.
Proof. exact sort_operands_equivalent. Qed.
Print Assumptions C09_sort_equivalent.

Theorem C09_sort_shape : forall e, all_nodes sorted_op (sort_operands e).
Proof. exact sort_operands_shape. Qed.
Print Assumptions C09_sort_shape.

Example C09_case :
  remove_release (EAnd [ER 0 2 (EAtom 0) (EAtom 1); EAtom 2])
  = EAnd [ENot (EU 0 2 (ENot (EAtom 0)) (ENot (EAtom 1))); EAtom 2]
  /\ sort_operands (EAnd [EG 0 5 (EAtom 0); EAtom 1; EF 0 3 (EAtom 2)])
     = EAnd [EAtom 1; EF 0 3 (EAtom 2); EG 0 5 (EAtom 0)].
Proof. split; reflexivity. Qed.
