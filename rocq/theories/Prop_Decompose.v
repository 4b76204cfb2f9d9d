(** * C07: interval decomposition and temporal unrolling *)
From Coq Require Import List Arith.
Require Import Verif.Mltl Verif.MltlShape Verif.Decompose Verif.DecomposeProofs.
Import ListNotations.

Theorem C07_decompose_equivalent : forall e, legal e -> equivalent (decompose e) e.
Proof. exact decompose_equivalent. Qed.
Print Assumptions C07_decompose_equivalent.

(** Every interval of the result is a point or [0, 2^k - 1]. *)
Theorem C07_decompose_shape : forall e, all_nodes decomposed_op (decompose e).
Proof. exact decompose_shape. Qed.
Print Assumptions C07_decompose_shape.

Theorem C07_decompose_legal : forall e, legal e -> legal (decompose e).
Proof. exact decompose_legal. Qed.
Print Assumptions C07_decompose_legal.

Theorem C07_unroll_equivalent : forall e e', legal e -> unroll e = Some e' -> equivalent e' e.
Proof. exact unroll_equivalent. Qed.
Print Assumptions C07_unroll_equivalent.

Theorem C07_unroll_shape : forall e e', unroll e = Some e' -> all_nodes unrolled_op e'.
Proof. exact unroll_shape. Qed.
Print Assumptions C07_unroll_shape.

(** Unrolling is refused exactly when a release operator occurs. *)
Theorem C07_unroll_defined : forall e, unroll e = None <-> ~ all_nodes no_release_op e.
Proof. exact unroll_defined. Qed.
Print Assumptions C07_unroll_defined.

(** The docstring's example, F[2,22] p, and an until. *)
Example C07_decompose_case :
  decompose (EF 2 22 (EAtom 0))
    = EF 2 2 (EF 0 15 (EF 0 3 (EF 0 1 (EF 0 1 (EAtom 0)))))
  /\ decompose (EU 1 6 (EAtom 0) (EAtom 1))
    = EU 1 1 (EAtom 0) (EU 0 3 (EAtom 0) (EU 0 1 (EAtom 0) (EU 0 1 (EAtom 0) (EAtom 1))))
  /\ legal (EU 1 6 (EAtom 0) (EAtom 1)).
Proof. cbn. auto with arith. Qed.
Example C07_unroll_case :
  unroll (EU 1 3 (EAtom 0) (EG 0 1 (EAtom 1)))
  = let q := EAnd [EG 0 0 (EAtom 1); EG 1 1 (EAtom 1)] in
    Some (EOr [EF 1 1 q; EAnd [EF 1 1 (EAtom 0);
          EOr [EF 2 2 q; EAnd [EF 2 2 (EAtom 0); EF 3 3 q]]]]).
Proof. reflexivity. Qed.
