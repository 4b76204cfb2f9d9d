(** * Steps that never end (proof infrastructure) *)
From Coq Require Import List Arith Bool Lia.
Require Import Verif.Scq Verif.Engine Verif.Monitoring Verif.EngineLocal.
Import ListNotations.

Definition busy (m : monitor) : Prop := m_progress m <> NoProgress.

Lemma check_progress atoms k ins b m : m_progress (fst (check_operand atoms k ins b m)) = m_progress m.
Proof.
  unfold check_operand. destruct (if b then i_op2 ins else i_op1 ins); cbn; try reflexivity.
  - destruct (i_op ins); reflexivity.
  - destruct (m_progress m) eqn:E; cbn; congruence.
  - destruct (scq_read _ _ _ _). reflexivity.
Qed.
Lemma push_busy {I : impl} k v m : busy (push_result k v m).
Proof.
  unfold busy, push_result, flag_progress. destruct (m_progress m) eqn:E; destruct (scq_write _ _ _); cbn; congruence.
Qed.
Lemma emit_busy {I : impl} k v m : busy (emit k v m).
Proof. unfold emit. apply (push_busy k v m). Qed.

Lemma check_eq atoms k ins b m : exists m' r,
  check_operand atoms k ins b m = (m', r) /\ m_progress m' = m_progress m.
Proof.
  destruct (check_operand atoms k ins b m) as [m' r] eqn:E. exists m', r. split; [reflexivity|].
  rewrite <- (check_progress atoms k ins b m), E. reflexivity.
Qed.

Lemma next_busy k t m : busy m -> busy (set_next m k t).
Proof. exact (fun H => H). Qed.
Lemma prev_busy k t m : busy m -> busy (set_prev m k t).
Proof. exact (fun H => H). Qed.
Lemma edge_busy k t m : busy m -> busy (set_edge m k t).
Proof. exact (fun H => H). Qed.

Ltac busy_crush :=
  repeat match goal with
  | |- busy (set_next _ _ _) => apply next_busy
  | |- busy (set_prev _ _ _) => apply prev_busy
  | |- busy (set_edge _ _ _) => apply edge_busy
  | |- busy (emit _ _ _) => apply emit_busy
  | |- busy (push_result _ _ _) => apply push_busy
  | H : busy ?m |- busy ?m => exact H
  | |- busy (match ?x with _ => _ end) => destruct x
  end.

Section Implementation.
Context {I : impl}.

Lemma update_busy atoms k ins m : busy m -> busy (update atoms k ins m).
Proof.
  intros Hb. unfold update.
  assert (C : forall b m', busy m' -> exists m2 r, check_operand atoms k ins b m' = (m2, r) /\ busy m2).
  { intros b m' H. destruct (check_eq atoms k ins b m') as (m2 & r & E & Ep). exists m2, r.
    split; [assumption|]. unfold busy. rewrite Ep. assumption. }
  assert (U : forall u, busy (do_until u atoms k ins m)).
  { intros u. unfold do_until. set (m0 := match I with C_monitor => if _ <? _ then _ else m | Rust_monitor => m end).
    assert (H0 : busy m0) by (unfold m0; busy_crush).
    destruct (C false m0 H0) as (m1 & r0 & -> & H1). destruct (C true m1 H1) as (m2 & r1 & -> & H2).
    cbv zeta. busy_crush. }
  assert (S : forall s, busy (do_since s atoms k ins m)).
  { intros s. unfold do_since. destruct (negb (fst (q_prev (get_queue m k))) && _); [cbv zeta; busy_crush|].
    destruct (C false m Hb) as (m1 & r0 & -> & H1). destruct (C true m1 H1) as (m2 & r1 & -> & H2).
    cbv zeta. busy_crush. }
  destruct (i_op ins); auto.
  - unfold do_load. destruct (C false m Hb) as (m1 & r & -> & H1). busy_crush.
  - unfold do_return. destruct (C false m Hb) as (m1 & r & -> & H1). destruct r; [|assumption].
    unfold busy in *. cbv zeta. destruct I; [|exact H1]. unfold flag_progress. cbn. destruct (m_progress m1) eqn:E; cbn; congruence.
  - unfold do_not. destruct (C false m Hb) as (m1 & r & -> & H1). busy_crush.
  - unfold do_and. destruct (C false m Hb) as (m1 & r0 & -> & H1). destruct (C true m1 H1) as (m2 & r1 & -> & H2).
    cbv zeta. busy_crush.
  - unfold do_or. destruct (C false m Hb) as (m1 & r0 & -> & H1). destruct (C true m1 H1) as (m2 & r1 & -> & H2).
    cbv zeta. busy_crush.
  - unfold do_equiv. destruct (C false m Hb) as (m1 & r0 & -> & H1). destruct (C true m1 H1) as (m2 & r1 & -> & H2).
    cbv zeta. busy_crush.
Qed.

Lemma check_direct atoms k ins (b : bool) m x :
  i_op ins <> SINCE -> i_op ins <> TRIGGER ->
  (if b then i_op2 ins else i_op1 ins) = Direct x ->
  check_operand atoms k ins b m = (m, Some (x, m_time m)).
Proof.
  intros H1 H2 E. unfold check_operand. rewrite E. destruct (i_op ins); try reflexivity; congruence.
Qed.

Lemma absorbing_busy atoms k ins m : absorbing ins -> busy (update atoms k ins m).
Proof.
  unfold absorbing, update. intros H.
  assert (D : forall (b : bool) m' x, i_op ins <> SINCE -> i_op ins <> TRIGGER ->
              (if b then i_op2 ins else i_op1 ins) = Direct x ->
              check_operand atoms k ins b m' = (m', Some (x, m_time m'))) by (intros; apply check_direct; assumption).
  destruct (i_op ins) eqn:Eop; try easy.
  - unfold do_until. set (m0 := match I with C_monitor => if _ <? _ then _ else m | Rust_monitor => m end).
    destruct (check_eq atoms k ins false m0) as (m1 & r0 & -> & _). cbv zeta.
    rewrite (D true m1 true) by (try discriminate; assumption). cbn [Bool.eqb]. cbv beta iota zeta. busy_crush.
  - unfold do_until. set (m0 := match I with C_monitor => if _ <? _ then _ else m | Rust_monitor => m end).
    destruct (check_eq atoms k ins false m0) as (m1 & r0 & -> & _). cbv zeta.
    rewrite (D true m1 false) by (try discriminate; assumption). cbn [Bool.eqb]. cbv beta iota zeta. busy_crush.
  - unfold do_not. destruct H as [b H]. rewrite (D false m b) by (try discriminate; assumption). busy_crush.
  - unfold do_and. destruct H as [H|H].
    + rewrite (D false m false) by (try discriminate; assumption).
      destruct (check_eq atoms k ins true m) as (m1 & r & -> & _). destruct r as [[[|] t]|]; busy_crush.
    + destruct (check_eq atoms k ins false m) as (m1 & r & -> & _).
      rewrite (D true m1 false) by (try discriminate; assumption). destruct r as [[[|] t]|]; busy_crush.
  - unfold do_or. destruct H as [H|H].
    + rewrite (D false m true) by (try discriminate; assumption).
      destruct (check_eq atoms k ins true m) as (m1 & r & -> & _). destruct r as [[[|] t]|]; busy_crush.
    + destruct (check_eq atoms k ins false m) as (m1 & r & -> & _).
      rewrite (D true m1 true) by (try discriminate; assumption). destruct r as [[[|] t]|]; busy_crush.
Qed.

Lemma pass_busy atoms : forall prog k m, busy m -> busy (run_pass atoms k prog m).
Proof. induction prog as [|i p IH]; intros k m H; cbn; [assumption|]. apply IH, update_busy, H. Qed.
Lemma pass_absorbing atoms : forall prog k m ins,
  In ins prog -> absorbing ins -> busy (run_pass atoms k prog m).
Proof.
  induction prog as [|i p IH]; intros k m ins Hin Ha; [destruct Hin|]. cbn. destruct Hin as [<-|Hi].
  - apply pass_busy, absorbing_busy, Ha.
  - eapply IH; eassumption.
Qed.
Lemma step_never atoms prog ins :
  In ins prog -> absorbing ins -> forall fuel m, step fuel atoms prog m = None.
Proof.
  intros Hi Ha. induction fuel as [|fuel IH]; intros m; [reflexivity|]. cbn [step].
  pose proof (pass_absorbing atoms prog 0 m ins Hi Ha) as Hb. unfold busy in Hb.
  destruct (m_progress (run_pass atoms 0 prog m)); [apply IH|congruence|apply IH].
Qed.
End Implementation.
