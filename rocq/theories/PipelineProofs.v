From Coq Require Import List Arith Lia.
Require Import Verif.Mltl Verif.MltlShape Verif.MltlEval Verif.Transform Verif.TransformProofs.
Require Import Verif.Rewrite Verif.RewriteProofs Verif.Pipeline.
Import ListNotations.

Lemma chain_short mk es : length es <= 2 -> chain mk es = mk es.
Proof. destruct es as [|a [|b [|c es]]]; cbn; intros; try reflexivity. lia. Qed.

Lemma to_binary_id e : all_nodes binary_op e -> to_binary e = e.
Proof.
  unfold to_binary. induction e using expr_ind'; cbn [all_nodes expr_map binary_node]; intros [Hn Hs];
    try reflexivity; try (destruct Hs); try (f_equal; auto; fail).
  - rewrite chain_short by (rewrite map_length; exact Hn). f_equal.
    rewrite fold_all_nodes in Hs. rewrite <- (map_id es) at 2. apply map_ext_in. rewrite Forall_forall in *. auto.
  - rewrite chain_short by (rewrite map_length; exact Hn). f_equal.
    rewrite fold_all_nodes in Hs. rewrite <- (map_id es) at 2. apply map_ext_in. rewrite Forall_forall in *. auto.
Qed.

Lemma core_binary e : all_nodes core_op e -> all_nodes binary_op e.
Proof.
  induction e using expr_ind'; cbn [all_nodes]; intros [Hn Hs]; (split; [try exact I; exact Hn|]); try tauto.
  - rewrite fold_all_nodes in *. rewrite Forall_forall in *. auto.
  - rewrite fold_all_nodes in *. rewrite Forall_forall in *. auto.
Qed.

Lemma compile_expr_id e : compile_expr e = remove_extended (optimize_rewrites e).
Proof. apply to_binary_id, core_binary, remove_extended_shape. Qed.

Lemma compile_shape e : all_nodes core_op (compile_expr e).
Proof. rewrite compile_expr_id. apply remove_extended_shape. Qed.

Lemma compile_equivalent e : legal e -> all_nodes rewrite_source_op e -> equivalent (compile_expr e) e.
Proof.
  intros L S. rewrite compile_expr_id.
  eapply equivalent_trans; [apply remove_extended_equivalent|apply rewrites_equivalent; assumption].
Qed.

Lemma compile_refuted : exists e, legal e /\ all_nodes (fun e => match e with EBeq _ _ => False | _ => True end) e /\
  ~ equivalent (compile_expr e) e.
Proof.
  destruct rewrites_nary_refuted as (e & L & S & N). exists e. split; [exact L|]. split; [exact S|].
  intros H. apply N. rewrite compile_expr_id in H. intros tr i. rewrite <- (H tr i).
  symmetry. apply (remove_extended_equivalent (optimize_rewrites e)).
Qed.
