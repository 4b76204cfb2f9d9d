(** * C04: the rewrite optimiser *)
From Coq Require Import List Arith.
Require Import Verif.Mltl Verif.MltlShape Verif.Transform Verif.Rewrite Verif.RewriteProofs.
Import ListNotations.

(** Full statement: [forall e, legal e -> equivalent (optimize_rewrites e) e].
    It is false (the two refutations below); proved for binary [&&], [||] and for
    Boolean [==] whose operands are [true] or mention an atom. *)
Theorem C04_rewrites_equivalent_partial :
  forall e, legal e -> all_nodes rewrite_source_op e -> equivalent (optimize_rewrites e) e.
Proof. exact rewrites_equivalent. Qed.
Print Assumptions C04_rewrites_equivalent_partial.

(** Every interval of the result is a legal interval. *)
Theorem C04_rewrites_legal_partial :
  forall e, legal e -> all_nodes rewrite_source_op e -> legal (optimize_rewrites e).
Proof. exact rewrites_legal. Qed.
Print Assumptions C04_rewrites_legal_partial.

(** [false == p] becomes [p]. *)
Theorem C04_rewrites_eq_refuted :
  exists e, legal e /\
            all_nodes (fun e => match e with EAnd es | EOr es => length es = 2 | _ => True end) e /\
            ~ equivalent (optimize_rewrites e) e.
Proof. exact rewrites_eq_refuted. Qed.
Print Assumptions C04_rewrites_eq_refuted.

(** A three-operand conjunction loses its third operand. *)
Theorem C04_rewrites_nary_refuted :
  exists e, legal e /\ all_nodes (fun e => match e with EBeq _ _ => False | _ => True end) e /\
            ~ equivalent (optimize_rewrites e) e.
Proof. exact rewrites_nary_refuted. Qed.
Print Assumptions C04_rewrites_nary_refuted.

Example C04_case :
  let e := ENot (EG 0 3 (ENot (EOr [EF 1 4 (EAtom 0); EF 2 9 (EBeq (EAtom 1) (EConst true))]))) in
  legal e /\ all_nodes rewrite_source_op e /\
  optimize_rewrites e
  = EF 0 3 (EF 1 4 (EOr [EF 0 0 (EAtom 0); EF 1 5 (EAtom 1)])).
Proof. cbn. intuition (auto with arith). Qed.
