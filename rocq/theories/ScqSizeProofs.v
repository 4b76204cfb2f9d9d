(** * Compiler queue sizes (proof infrastructure) *)
From Coq Require Import List Arith ZArith Bool Lia.
Require Import Verif.Mltl Verif.Scq Verif.Engine Verif.Monitoring Verif.ScqSize Verif.MonitorProofs.
Import ListNotations.

Definition same_bounds (c c' : qconf) : Prop := c_lb c = c_lb c' /\ c_ub c = c_ub c'.

Lemma exprs_from_bounds prog : forall es cs cs',
  Forall2 same_bounds cs cs' -> exprs_from es prog cs = exprs_from es prog cs'.
Proof.
  induction prog as [|i p IH]; intros es cs cs' H; [reflexivity|].
  destruct H as [|c c' cs cs' [H1 H2] H]; [reflexivity|]. cbn [exprs_from].
  replace (instr_expr es i c') with (instr_expr es i c); [apply IH; assumption|].
  unfold instr_expr. rewrite H1, H2. reflexivity.
Qed.

Lemma sized_bounds const prog confs :
  length prog = length confs -> Forall2 same_bounds (sized const prog confs) confs.
Proof.
  unfold sized. generalize (computed_size const (exprs prog confs) prog) as f. intros f.
  generalize 0 as a. revert confs. induction prog as [|i p IH]; intros [|c cs] a E; try discriminate; cbn [length seq combine map].
  - constructor.
  - constructor; [split; reflexivity|]. apply IH. cbn in E. lia.
Qed.
Lemma sized_length const prog confs : length prog = length confs -> length (sized const prog confs) = length prog.
Proof.
  intros E. unfold sized. rewrite map_length, !combine_length, seq_length. lia.
Qed.
Lemma sized_exprs const prog confs :
  length prog = length confs -> exprs prog (sized const prog confs) = exprs prog confs.
Proof. intros E. apply exprs_from_bounds, sized_bounds, E. Qed.
Lemma sized_len const prog confs k c : nth_error (sized const prog confs) k = Some c -> 1 + const <= c_len c.
Proof.
  intros H. unfold sized in H. rewrite nth_error_map in H.
  destruct (nth_error _ k) as [[j [i c']]|]; [|discriminate]. injection H as <-. cbn [c_len fst snd].
  unfold computed_size. destruct (i_op i); lia.
Qed.
