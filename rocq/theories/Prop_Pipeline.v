(** * C10: the default pipeline *)
From Coq Require Import List Arith.
Require Import Verif.Mltl Verif.MltlShape Verif.Transform Verif.Pipeline Verif.PipelineProofs.
Import ListNotations.

(** Full statement: [forall e, legal e -> equivalent (compile_expr e) e]; false
    for n-ary operators ([C10_pipeline_refuted]). *)
Theorem C10_pipeline_equivalent_partial :
  forall e, legal e -> all_nodes rewrite_source_op e -> equivalent (compile_expr e) e.
Proof. exact compile_equivalent. Qed.
Print Assumptions C10_pipeline_equivalent_partial.

(** The result uses only operators the monitor has, with at most two operands. *)
Theorem C10_pipeline_shape : forall e, all_nodes core_op (compile_expr e).
Proof. exact compile_shape. Qed.
Print Assumptions C10_pipeline_shape.

Theorem C10_pipeline_refuted :
  exists e, legal e /\ all_nodes (fun e => match e with EBeq _ _ => False | _ => True end) e /\
  ~ equivalent (compile_expr e) e.
Proof. exact compile_refuted. Qed.
Print Assumptions C10_pipeline_refuted.

Example C10_case :
  let e := EImpl (EG 0 3 (EAnd [EAtom 0; EConst true])) (EXor (EAtom 1) (EF 1 2 (EF 0 4 (EAtom 2)))) in
  legal e /\ all_nodes rewrite_source_op e /\
  compile_expr e
  = EOr [ENot (ER 0 3 (EConst false) (EAnd [EAtom 0; EConst true]));
         ENot (EEquiv (EAtom 1) (EU 1 6 (EConst true) (EAtom 2)))].
Proof. cbn. repeat split; auto with arith. Qed.
