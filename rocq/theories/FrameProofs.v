(** * What an instruction leaves alone (proof infrastructure) *)
From Coq Require Import List Arith Bool Lia.
Require Import Verif.Scq Verif.Engine Verif.Monitoring Verif.EngineLocal.
Import ListNotations.

Section Frame.
  Context {I : impl}.

  (** [m'] differs from [m] in queue [k], in having flagged progress, and in
      further reports if the instruction is a RETURN. *)
  Record framed (k : nat) (ins : instr) (m m' : monitor) : Prop := {
    fr_time : m_time m' = m_time m;
    fr_length : length (m_queues m') = length (m_queues m);
    fr_others : forall j, j <> k -> get_queue m' j = get_queue m j;
    fr_progress : m_progress m' = m_progress m \/ m_progress m' = flag (m_progress m);
    fr_reports : forall f, i_op ins <> RETURN \/ i_num ins <> f -> reports f m' = reports f m
  }.

  Lemma framed_refl k ins m : framed k ins m m.
  Proof. constructor; auto. Qed.
  Lemma framed_trans k ins m1 m2 m3 : framed k ins m1 m2 -> framed k ins m2 m3 -> framed k ins m1 m3.
  Proof.
    intros [A1 A2 A3 A4 A5] [B1 B2 B3 B4 B5]. constructor; try congruence.
    - intros j Hj. rewrite B3, A3 by assumption. reflexivity.
    - destruct A4 as [A4|A4], B4 as [B4|B4]; rewrite B4, A4; auto. right. destruct (m_progress m1); reflexivity.
    - intros f Hf. rewrite B5, A5 by assumption. reflexivity.
  Qed.

  Section One.
    Variables (k : nat) (ins : instr) (m : monitor).
    Let F := framed k ins m.

    Lemma fr_queue x q : F x -> F (set_queue x k q).
    Proof.
      intros H. apply (framed_trans _ _ _ x); [exact H|]. constructor; auto.
      - cbn. apply set_nth_length.
      - intros j Hj. unfold get_queue. cbn. apply nth_set_other. congruence.
    Qed.
    Lemma fr_flag x : F x -> F (flag_progress x).
    Proof.
      intros H. apply (framed_trans _ _ _ x); [exact H|]. unfold flag_progress.
      destruct (m_progress x) eqn:E; constructor; auto; cbn; rewrite E; auto.
    Qed.
    Lemma fr_push x v : F x -> F (push_result k v x).
    Proof.
      intros H. unfold push_result. cbv zeta. destruct (scq_write _ _ _) as [s w]. apply fr_queue, fr_flag, H.
    Qed.
    Lemma fr_next x n : F x -> F (set_next x k n).
    Proof. apply fr_queue. Qed.
    Lemma fr_prev x v : F x -> F (set_prev x k v).
    Proof. apply fr_queue. Qed.
    Lemma fr_edge x v : F x -> F (set_edge x k v).
    Proof. apply fr_queue. Qed.
    Lemma fr_emit x v : F x -> F (emit k v x).
    Proof. intros H. apply fr_next, fr_push, H. Qed.
    Lemma fr_check atoms b x : F x -> exists x' r, check_operand atoms k ins b x = (x', r) /\ F x'.
    Proof.
      intros H. unfold check_operand. destruct (if b then i_op2 ins else i_op1 ins) as [c|a|c|].
      - destruct (i_op ins); eauto.
      - destruct (m_progress x); eauto.
      - destruct (scq_read _ _ _ _) as [r v]. eexists. eexists. split; [reflexivity|]. apply fr_queue, H.
      - eauto.
    Qed.
    Lemma fr_check1 atoms b x : F x -> F (fst (check_operand atoms k ins b x)).
    Proof. intros H. destruct (fr_check atoms b x H) as (x' & r & -> & H'). exact H'. Qed.
  End One.
End Frame.

Ltac frame :=
  repeat match goal with
  | H : framed ?k ?i ?m ?x |- framed ?k ?i ?m ?x => exact H
  | |- framed _ _ ?m ?m => apply framed_refl
  | |- framed _ _ _ (set_next _ _ _) => apply fr_next
  | |- framed _ _ _ (set_prev _ _ _) => apply fr_prev
  | |- framed _ _ _ (set_edge _ _ _) => apply fr_edge
  | |- framed _ _ _ (push_result _ _ _) => apply fr_push
  | |- framed _ _ _ (emit _ _ _) => apply fr_emit
  | |- framed _ _ _ (fst (check_operand _ _ _ _ _)) => apply fr_check1
  | |- framed _ _ _ (if ?b then _ else _) => destruct b
  | |- framed _ _ _ (match ?t with _ => _ end) => destruct t
  end.

Lemma update_framed {I : impl} atoms k ins m : framed k ins m (update atoms k ins m).
Proof.
  pose proof (framed_refl k ins m) as R. unfold update.
  assert (C := fun b x => fr_check k ins m atoms b x).
  assert (U : forall u, framed k ins m (do_until u atoms k ins m)).
  { intros u. unfold do_until. set (m0 := match I with C_monitor => _ | Rust_monitor => _ end).
    assert (R0 : framed k ins m m0) by (unfold m0; destruct I; frame). clearbody m0.
    destruct (C false m0 R0) as (m1 & r0 & -> & H1). destruct (C true m1 H1) as (m2 & r1 & -> & H2).
    cbv zeta. frame. }
  assert (W : forall s, framed k ins m (do_since s atoms k ins m)).
  { intros s. unfold do_since. destruct (negb (fst (q_prev (get_queue m k))) && _); [cbv zeta; destruct I; frame|].
    destruct (C false m R) as (m1 & r0 & -> & H1). destruct (C true m1 H1) as (m2 & r1 & -> & H2).
    cbv zeta. frame. }
  destruct (i_op ins) eqn:Eop; auto.
  - unfold do_load. destruct (C false m R) as (m1 & r & -> & H1). frame.
  - unfold do_return. destruct (C false m R) as (m1 & [op0|] & -> & H1); [|exact H1]. cbv zeta.
    set (m2 := set_next m1 k _). assert (H2 : framed k ins m m2) by (apply fr_next, H1).
    assert (H3 : framed k ins m (Monitor (m_queues m2) (m_time m2) (m_progress m2) (m_out m2 ++ [(i_num ins, op0)]))).
    { apply (framed_trans _ _ _ m2); [exact H2|]. constructor; auto. intros f [Hf|Hf]; [congruence|].
      unfold reports. cbn [m_out]. rewrite filter_app. cbn [filter fst]. apply Nat.eqb_neq in Hf. rewrite Hf, app_nil_r.
      reflexivity. }
    destruct I; [apply fr_flag|]; exact H3.
  - unfold do_not. destruct (C false m R) as (m1 & r & -> & H1). frame.
  - unfold do_and. destruct (C false m R) as (m1 & r0 & -> & H1). destruct (C true m1 H1) as (m2 & r1 & -> & H2).
    cbv zeta. frame.
  - unfold do_or. destruct (C false m R) as (m1 & r0 & -> & H1). destruct (C true m1 H1) as (m2 & r1 & -> & H2).
    cbv zeta. frame.
  - unfold do_equiv. destruct (C false m R) as (m1 & r0 & -> & H1). destruct (C true m1 H1) as (m2 & r1 & -> & H2).
    cbv zeta. frame.
Qed.
