(** * The Rust transcription and the shared model *)
From Coq Require Import List Arith Bool Lia.
Require Import Verif.Mltl Verif.Scq Verif.Engine Verif.Monitoring Verif.ScqProofs Verif.EngineLocal Verif.NodeProofs.
Require Import Verif.MonitorProofs Verif.RustEngine.
Import ListNotations.
Local Existing Instance Rust_monitor.

Lemma rust_write_eq slots write v : rust_scq_write slots write v = scq_write slots write v.
Proof.
  unfold rust_scq_write, scq_write, step_back, slot_truth, entry_truth.
  assert (E : forall s, slot_eqb s None = entry_infinite s) by (intros [?|]; reflexivity).
  rewrite E. reflexivity.
Qed.
Lemma rust_loop_eq slots write next : forall fuel read x,
  rust_read_loop fuel slots write next read = Some x -> read_loop fuel slots write next read = x.
Proof.
  induction fuel as [|fuel IH]; intros read x H; cbn in *; [discriminate|].
  destruct (get_slot slots read) as [v|]; [|discriminate].
  destruct (next <=? snd v); [congruence|].
  destruct (_ =? write); [|apply IH; assumption]. unfold step_back. congruence.
Qed.
Lemma rust_read_eq slots write next read x :
  rust_scq_read slots write next read = Some x -> scq_read slots write next read = x.
Proof.
  unfold rust_scq_read, scq_read. destruct (get_slot slots read) as [v|] eqn:E; cbn [entry_infinite andb].
  - apply rust_loop_eq.
  - destruct (read =? 0); [congruence|]. intros H. apply rust_loop_eq in H.
    destruct (length slots); cbn in H; [congruence|]. rewrite E in H. assumption.
Qed.
Lemma rust_check_eq atoms k ins second m p :
  rust_check_operand atoms k ins second m = Some p -> check_operand atoms k ins second m = p.
Proof.
  unfold rust_check_operand, check_operand. destruct (if second then _ else _).
  - destruct (i_op ins); congruence.
  - destruct (m_progress m); congruence.
  - destruct (rust_scq_read _ _ _ _) as [[r v]|] eqn:E; [|discriminate]. apply rust_read_eq in E. rewrite E. congruence.
  - congruence.
Qed.
Lemma rust_push_eq k v m : rust_push_result k v m = push_result k v m.
Proof. unfold rust_push_result, push_result, flag_progress. rewrite rust_write_eq. reflexivity. Qed.

Lemma check_length atoms k ins second m :
  length (m_queues (fst (check_operand atoms k ins second m))) = length (m_queues m).
Proof.
  unfold check_operand. destruct (if second then _ else _); cbn.
  - destruct (i_op ins); reflexivity.
  - destruct (m_progress m); reflexivity.
  - destruct (scq_read _ _ _ _). cbn. apply set_nth_length.
  - reflexivity.
Qed.
Lemma check_keeps atoms k ins second m : k < length (m_queues m) ->
  let q := get_queue (fst (check_operand atoms k ins second m)) k in
  let q0 := get_queue m k in
  q_lb q = q_lb q0 /\ q_ub q = q_ub q0 /\ q_prev q = q_prev q0 /\ q_next q = q_next q0 /\ q_edge q = q_edge q0.
Proof.
  intros Hk. unfold check_operand. destruct (if second then _ else _); cbn.
  - destruct (i_op ins); cbn; auto.
  - destruct (m_progress m); cbn; auto.
  - destruct (scq_read _ _ _ _) as [r v]. cbn. unfold get_queue, set_queue. cbn. rewrite nth_set_same by assumption.
    unfold with_read. destruct second; cbn; auto.
  - auto.
Qed.

Lemma usub_le e p u :
  match usub p u with None => false | Some s => e <=? s end = (e <=? p - u) && (u <=? p).
Proof. unfold usub. destruct (u <=? p); [rewrite andb_true_r|rewrite andb_false_r]; reflexivity. Qed.
Lemma usub_lt e p u :
  match usub p u with None => true | Some s => s <? e end = (p - u <? e) || (p <? u).
Proof.
  unfold usub. rewrite (Nat.ltb_antisym u p). destruct (u <=? p); [rewrite orb_false_r|rewrite orb_true_r]; reflexivity.
Qed.
Lemma usub_some a b t : usub a b = Some t -> t = a - b.
Proof. unfold usub. destruct (b <=? a); congruence. Qed.

Section Ops.
  Variables (m : monitor) (k : nat).
  Hypothesis Hk : k < length (m_queues m).
  Lemma edge_St q pr out v : set_edge (St m k q pr out) k v = St m k (with_edge q v) pr out.
  Proof. unfold set_edge. rewrite get_St, set_St by assumption. reflexivity. Qed.
End Ops.

Ltac stnorm := repeat (rewrite ?get_St, ?set_St, ?next_St, ?prev_St, ?edge_St, ?push_St, ?flag_St by assumption;
  cbn [fst snd q_slots q_write q_read1 q_read2 q_next q_edge q_prev q_lb q_ub with_next with_prev with_edge with_slots]).

(** Finish: push of the operator's result on the updated control block. *)
Definition finish_op (k : nat) (r : result) (m : monitor) : option monitor :=
  match r with
  | None => None
  | Some (q, r) => let m := set_queue m k q in Some (match r with Some v => push_result k v m | None => m end)
  end.

Lemma rust_unary_eq op atoms k ins m m' :
  rust_unary op atoms k ins m = Some m' ->
  finish_op k (op (snd (check_operand atoms k ins false m)) (get_queue (fst (check_operand atoms k ins false m)) k))
    (fst (check_operand atoms k ins false m)) = Some m'.
Proof.
  unfold rust_unary, finish_op. destruct (rust_check_operand atoms k ins false m) as [[m1 r0]|] eqn:E; [|discriminate].
  apply rust_check_eq in E. rewrite E. cbn. destruct (op r0 (get_queue m1 k)) as [[q [v|]]|]; try rewrite rust_push_eq; auto.
Qed.
Lemma rust_binary_eq op atoms k ins m m' :
  rust_binary op atoms k ins m = Some m' ->
  let c0 := check_operand atoms k ins false m in
  let c1 := check_operand atoms k ins true (fst c0) in
  finish_op k (op (snd c0) (snd c1) (get_queue (fst c1) k)) (fst c1) = Some m'.
Proof.
  unfold rust_binary, finish_op. destruct (rust_check_operand atoms k ins false m) as [[m1 r0]|] eqn:E; [|discriminate].
  apply rust_check_eq in E. rewrite E. cbn.
  destruct (rust_check_operand atoms k ins true m1) as [[m2 r1]|] eqn:E1; [|discriminate].
  apply rust_check_eq in E1. rewrite E1. cbn. destruct (op r0 r1 (get_queue m2 k)) as [[q [v|]]|]; try rewrite rust_push_eq; auto.
Qed.

Ltac fork := match goal with
  | |- context [match usub ?a ?b with _ => _ end] =>
      let E := fresh "E" in destruct (usub a b) eqn:E; [apply usub_some in E; subst|discriminate]
  | |- context [if ?b then _ else _] => destruct b eqn:?
  end.
Ltac close := first [discriminate | intros H; injection H as <-; stnorm; reflexivity].

Lemma St_form m k : k < length (m_queues m) ->
  exists m' q pr out, m = St m' k q pr out /\ k < length (m_queues m').
Proof. intros H. exists m, (get_queue m k), (m_progress m), (m_out m). split; [apply St_id|assumption]. Qed.

(** The state after both operands were looked up. *)
Ltac both := 
  intros Hk H; apply rust_binary_eq in H; revert H; cbv zeta;
  match goal with
  | _ : ?k < length (m_queues ?m) |- context [check_operand ?atoms ?k ?ins false ?m] =>
      pose proof (check_length atoms k ins false m) as L0;
      pose proof (check_keeps atoms k ins false m Hk) as (K1 & K2 & K3 & K4 & K5);
      let m0 := fresh "m0" in let r0 := fresh "r0" in
      destruct (check_operand atoms k ins false m) as [m0 r0]; cbn [fst snd] in *;
      pose proof (check_length atoms k ins true m0) as L1;
      pose proof (check_keeps atoms k ins true m0 ltac:(rewrite L0; assumption)) as (K6 & K7 & K8 & K9 & K10);
      let m1 := fresh "m1" in let r1 := fresh "r1" in
      destruct (check_operand atoms k ins true m0) as [m1 r1]; cbn [fst snd] in *;
      assert (Hk1 : k < length (m_queues m1)) by lia;
      destruct (St_form m1 k Hk1) as (m2 & q & pr & out & -> & Hk2);
      rewrite get_St in * by assumption
  end.

Lemma until_eq atoms k ins m m' : k < length (m_queues m) ->
  rust_binary until_operator atoms k ins m = Some m' -> do_until true atoms k ins m = m'.
Proof.
  unfold do_until. both. rewrite <- K1, <- K2, <- K6, <- K7.
  unfold until_operator, Engine.fresh, finish_op.
  destruct r1 as [[[] t1]|]; cbn [Bool.eqb negb]; [fork; close| |close].
  destruct r0 as [[[] t0]|]; cbn [Bool.eqb negb]; stnorm; repeat fork; close.
Qed.
Lemma release_eq atoms k ins m m' : k < length (m_queues m) ->
  rust_binary release_operator atoms k ins m = Some m' -> do_until false atoms k ins m = m'.
Proof.
  unfold do_until. both. rewrite <- K1, <- K2, <- K6, <- K7.
  unfold release_operator, Engine.fresh, finish_op.
  destruct r1 as [[[] t1]|]; cbn [Bool.eqb negb]; [|fork; close|close].
  destruct r0 as [[[] t0]|]; cbn [Bool.eqb negb]; stnorm; repeat fork; close.
Qed.
Lemma since_eq atoms k ins m m' : k < length (m_queues m) ->
  rust_binary since_operator atoms k ins m = Some m' -> do_since true atoms k ins m = m'.
Proof.
  unfold do_since. both. rewrite <- K1, <- K2, <- K3, <- K6, <- K7, <- K8.
  unfold since_operator, is_new, Engine.fresh, finish_op. rewrite !usub_le, !usub_lt.
  destruct (negb (fst (q_prev q)) && (snd (q_prev q) <? q_lb q)); [close|].
  destruct r1 as [[[] t1]|]; destruct r0 as [[[] t0]|]; cbn [Bool.eqb negb andb]; stnorm; 
    rewrite ?usub_le, ?usub_lt, ?andb_assoc; repeat (fork; stnorm; rewrite ?usub_le, ?usub_lt, ?andb_assoc); close.
Qed.
Lemma trigger_eq atoms k ins m m' : k < length (m_queues m) ->
  rust_binary trigger_operator atoms k ins m = Some m' -> do_since false atoms k ins m = m'.
Proof.
  unfold do_since. both. rewrite <- K1, <- K2, <- K3, <- K6, <- K7, <- K8.
  unfold trigger_operator, is_new, Engine.fresh, finish_op. rewrite !usub_le, !usub_lt.
  destruct (negb (fst (q_prev q)) && (snd (q_prev q) <? q_lb q)); [close|].
  destruct r1 as [[[] t1]|]; destruct r0 as [[[] t0]|]; cbn [Bool.eqb negb andb]; stnorm; 
    rewrite ?usub_le, ?usub_lt, ?andb_assoc; repeat (fork; stnorm; rewrite ?usub_le, ?usub_lt, ?andb_assoc); close.
Qed.
Lemma and_eq atoms k ins m m' : k < length (m_queues m) ->
  rust_binary and_operator atoms k ins m = Some m' -> do_and atoms k ins m = m'.
Proof.
  unfold do_and. both. unfold and_operator, give, finish_op, emit.
  destruct r0 as [[[] t0]|]; destruct r1 as [[[] t1]|]; cbn [Bool.eqb negb andb]; close.
Qed.
Lemma or_eq atoms k ins m m' : k < length (m_queues m) ->
  rust_binary or_operator atoms k ins m = Some m' -> do_or atoms k ins m = m'.
Proof.
  unfold do_or. both. unfold or_operator, give, finish_op, emit.
  destruct r0 as [[[] t0]|]; destruct r1 as [[[] t1]|]; cbn [Bool.eqb negb andb]; close.
Qed.
Lemma equiv_eq atoms k ins m m' : k < length (m_queues m) ->
  rust_binary equivalent_operator atoms k ins m = Some m' -> do_equiv atoms k ins m = m'.
Proof.
  unfold do_equiv. both. unfold equivalent_operator, give, finish_op, emit.
  destruct r0 as [[[] t0]|]; destruct r1 as [[[] t1]|]; cbn [Bool.eqb negb andb orb]; close.
Qed.
Ltac one :=
  match goal with
  | Hk : ?k < length (m_queues ?m) |- context [check_operand ?atoms ?k ?ins false ?m] =>
      pose proof (check_length atoms k ins false m) as L0;
      let m0 := fresh "m0" in let r0 := fresh "r0" in
      destruct (check_operand atoms k ins false m) as [m0 r0]; cbn [fst snd] in *;
      assert (Hk1 : k < length (m_queues m0)) by lia;
      destruct (St_form m0 k Hk1) as (m2 & q & pr & out & -> & Hk2);
      rewrite ?get_St in * by assumption
  end.
Lemma not_eq atoms k ins m m' : k < length (m_queues m) ->
  rust_unary not_operator atoms k ins m = Some m' -> do_not atoms k ins m = m'.
Proof.
  unfold do_not. intros Hk H. apply rust_unary_eq in H. revert H. one.
  unfold not_operator, finish_op. destruct r0 as [[b t]|]; close.
Qed.

(** Where the Rust code does not panic it computes [update]. *)
Lemma rust_update_eq atoms k ins m m' : k < length (m_queues m) ->
  rust_update atoms k ins m = Some m' -> update atoms k ins m = m'.
Proof.
  intros Hk. unfold rust_update, update. destruct (i_op ins).
  - unfold do_load. destruct (rust_check_operand atoms k ins false m) as [[m1 r]|] eqn:E; [|discriminate].
    apply rust_check_eq in E. revert E. one. intros E. injection E as <- <-. destruct r0 as [v|]; [|congruence].
    rewrite rust_push_eq. close.
  - unfold do_return. destruct (rust_check_operand atoms k ins false m) as [[m1 r]|] eqn:E; [|discriminate].
    apply rust_check_eq in E. revert E. one. intros E. injection E as <- <-. destruct r0 as [v|]; [|congruence].
    cbv zeta. congruence.
  - apply until_eq; assumption.
  - apply release_eq; assumption.
  - apply since_eq; assumption.
  - apply trigger_eq; assumption.
  - apply not_eq; assumption.
  - apply and_eq; assumption.
  - apply or_eq; assumption.
  - apply equiv_eq; assumption.
Qed.

Lemma rust_init_eq prog confs : rust_init prog confs = init prog confs.
Proof. reflexivity. Qed.

(** ** No panic *)
Lemma rust_loop_total slots write h n :
  ring slots write h -> forall fuel j,
  j < length h -> length h <= j + length slots -> length h <= j + fuel ->
  rust_read_loop fuel slots write n (j mod length slots) <> None.
Proof.
  intros [HL Hw Hs He]. set (L := length slots) in *.
  induction fuel as [|fuel IH]; intros j Hj Hv Hf; [lia|].
  cbn [rust_read_loop]. fold L. rewrite Hs by lia.
  destruct (n <=? _); [discriminate|]. rewrite succ_mod by assumption.
  destruct (S j mod L =? write) eqn:E1; [discriminate|]. apply Nat.eqb_neq in E1. rewrite Hw in E1.
  apply IH; try lia. destruct (Nat.eq_dec (S j) (length h)) as [E2|]; [rewrite E2 in E1; congruence|lia].
Qed.
Lemma rust_read_total slots write h n r a :
  ring slots write h -> reader (length slots) h n r a -> rust_scq_read slots write n r <> None.
Proof.
  intros Hr (j & H1 & H2 & H3 & H4 & H5). pose proof Hr as [HL Hw Hs He].
  set (L := length slots) in *. unfold rust_scq_read. fold L. destruct H2 as [H2|[-> ->]].
  - rewrite H1, Hs by lia. cbn [entry_infinite andb]. apply (rust_loop_total slots write h n Hr L j); lia.
  - rewrite H1. cbn [length] in *. rewrite (Nat.mod_small 0) by lia.
    rewrite (He HL 0) by lia. cbn. discriminate.
Qed.

Lemma usub_total a b : b <= a -> usub a b <> None.
Proof. intros H. unfold usub. rewrite (proj2 (Nat.leb_le _ _) H). discriminate. Qed.

(** One instruction of a future-time program, on a state in which both operands can be
    read and are answered with verdicts that are not of the future. *)
Section Safe.
  Variables (prog : list instr) (atoms : nat -> bool) (ts k : nat) (ins : instr) (c : qconf) (m : monitor).
  Hypothesis Hk : k < length (m_queues m).
  Hypothesis Ht : m_time m = ts.
  Hypothesis Hself : forall j, reads ins j -> j <> k.
  Hypothesis Hread : forall (second : bool) j, (if second then i_op2 ins else i_op1 ins) = Sub j ->
    exists r v, rust_scq_read (q_slots (get_queue m j)) (q_write (get_queue m j)) (q_next (get_queue m k))
                  (if second then q_read2 (get_queue m k) else q_read1 (get_queue m k)) = Some (r, v) /\
      forall w, v = Some w -> q_next (get_queue m k) <= snd w <= ts.
  Hypothesis Hft : ft_instr prog k ins c.
  Hypothesis Hlo : match i_op ins with UNTIL | RELEASE => q_lb (get_queue m k) <= q_next (get_queue m k) | _ => True end.

  Definition told (o : operand) (r : option verdict) : Prop :=
    (forall v j, o = Sub j -> r = Some v -> q_next (get_queue m k) <= snd v <= ts) /\
    (forall v b, o = Direct b -> i_op ins <> SINCE -> i_op ins <> TRIGGER -> r = Some v -> snd v = ts).

  Lemma check_some (second : bool) m1 : m_time m1 = ts -> m_progress m1 = m_progress m ->
    (forall j, j <> k -> get_queue m1 j = get_queue m j) ->
    q_next (get_queue m1 k) = q_next (get_queue m k) ->
    (if second then q_read2 (get_queue m1 k) else q_read1 (get_queue m1 k)) = (if second then q_read2 (get_queue m k) else q_read1 (get_queue m k)) ->
    exists m2 r, rust_check_operand atoms k ins second m1 = Some (m2, r) /\ told (if second then i_op2 ins else i_op1 ins) r /\
      (m2 = m1 \/ exists x, m2 = set_queue m1 k (with_read (get_queue m1 k) second x)).
  Proof using Hself Hread.
    clear Hlo Hft. intros E1 E2 E3 E4 E5. unfold rust_check_operand, told.
    destruct (if second then i_op2 ins else i_op1 ins) as [b|a|j|] eqn:Eo.
    - destruct (i_op ins) eqn:Ei; do 2 eexists; (split; [reflexivity|]); (split; [|left; reflexivity]); (split; [intros; discriminate|]);
        intros v b' _ N1 N2 E; try congruence; injection E as <-; exact E1.
    - destruct (m_progress m1); do 2 eexists; (split; [reflexivity|]); (split; [|left; reflexivity]); (split; intros; discriminate).
    - destruct (Hread second j Eo) as (r & v & Er & Hv).
      rewrite (E3 j (Hself j ltac:(destruct second; [right|left]; assumption))), E4, E5, Er.
      do 2 eexists. split; [reflexivity|]. split; [|right; eexists; reflexivity]. split; [|intros; discriminate].
      intros w j' _ Ew. exact (Hv w Ew).
    - do 2 eexists. split; [reflexivity|]. split; [|left; reflexivity]. split; intros; discriminate.
  Qed.

  Lemma rust_binary_total op :
    (forall r0 r1 q, q_next q = q_next (get_queue m k) -> q_lb q = q_lb (get_queue m k) ->
       told (i_op1 ins) r0 -> told (i_op2 ins) r1 -> op r0 r1 q <> None) ->
    rust_binary op atoms k ins m <> None.
  Proof using Hk Ht Hself Hread.
    intros Hop. unfold rust_binary.
    destruct (check_some false m Ht eq_refl (fun _ _ => eq_refl) eq_refl eq_refl) as (m1 & r0 & -> & V0 & M1).
    assert (G : m_time m1 = ts /\ m_progress m1 = m_progress m /\ (forall j, j <> k -> get_queue m1 j = get_queue m j) /\
                q_next (get_queue m1 k) = q_next (get_queue m k) /\ q_read2 (get_queue m1 k) = q_read2 (get_queue m k) /\
                q_lb (get_queue m1 k) = q_lb (get_queue m k) /\ k < length (m_queues m1)).
    { destruct M1 as [->|[x ->]]; [repeat split; auto|].
      assert (Q : get_queue (set_queue m k (with_read (get_queue m k) false x)) k = with_read (get_queue m k) false x)
        by (unfold get_queue, set_queue; cbn [m_queues]; apply nth_set_same; assumption).
      rewrite Q. repeat split; try assumption.
      - intros j Hj. unfold get_queue, set_queue. cbn [m_queues]. apply nth_set_other. congruence.
      - unfold set_queue. cbn [m_queues]. rewrite set_nth_length. assumption. }
    destruct G as (G1 & G2 & G3 & G4 & G5 & G6 & G7).
    destruct (check_some true m1 G1 G2 G3 G4 G5) as (m2 & r1 & -> & V1 & M2).
    assert (G : q_next (get_queue m2 k) = q_next (get_queue m k) /\ q_lb (get_queue m2 k) = q_lb (get_queue m k)).
    { destruct M2 as [->|[x ->]]; [auto|].
      assert (Q : get_queue (set_queue m1 k (with_read (get_queue m1 k) true x)) k = with_read (get_queue m1 k) true x)
        by (unfold get_queue, set_queue; cbn [m_queues]; apply nth_set_same; assumption).
      rewrite Q. cbn. auto. }
    destruct (op r0 r1 (get_queue m2 k)) as [[q r]|] eqn:Eo; [discriminate|]. exfalso. revert Eo. apply Hop; tauto.
  Qed.

  Lemma rust_update_safe : rust_update atoms k ins m <> None.
  Proof using Hk Ht Hself Hread Hft Hlo.
    destruct Hft as [_ F]. unfold rust_update.
    destruct (check_some false m Ht eq_refl (fun _ _ => eq_refl) eq_refl eq_refl) as (m1 & r0 & T & _).
    destruct (i_op ins) eqn:Eop; try (destruct F; fail).
    - rewrite T. destruct r0; congruence.
    - rewrite T. destruct r0; congruence.
    - destruct F as (F1 & F2 & F3).
      apply rust_binary_total. intros r2 r1 q Hq Hl [V0 D0] [V1 _].
      destruct F2 as (j1 & F2 & _). unfold until_operator.
      destruct r1 as [[[] t1]|]; [| |discriminate]; specialize (V1 _ j1 F2 eq_refl); cbn [snd] in V1.
      + pose proof (usub_total t1 (q_lb q) ltac:(lia)). destruct (usub t1 (q_lb q)); congruence.
      + assert (G : forall q', q_lb q' = q_lb q -> (if snd (q_prev q') + q_ub q <=? t1
           then match usub t1 (q_ub q) with
                | Some t => if (snd (q_prev q') <? t) || (t =? 0) && negb (fst (q_prev q'))
                            then Some (with_prev (with_next q' (Nat.max (q_next q') (t + q_lb q + 1))) (true, t), Some (false, t))
                            else Some (q', None)
                | None => None end else Some (q', None)) <> None).
        { intros q' _. destruct (_ <=? t1) eqn:El; [|discriminate]. apply Nat.leb_le in El.
          pose proof (usub_total t1 (q_ub q) ltac:(lia)). destruct (usub t1 (q_ub q)); [|congruence].
          destruct (_ || _); discriminate. }
        destruct r2 as [[b0 t0]|]; [|apply G; reflexivity].
        assert (H0 : q_lb q <= t0).
        { destruct F1 as [(j0 & F1 & _)|[b F1]].
          - specialize (V0 _ j0 F1 eq_refl). cbn in V0. lia.
          - specialize (D0 _ b F1 ltac:(congruence) ltac:(congruence) eq_refl). cbn in D0. lia. }
        destruct b0; cbn [negb]; [apply (G (with_next q _)); reflexivity|].
        pose proof (usub_total (Nat.min t0 t1) (q_lb q) ltac:(lia)).
        destruct (usub (Nat.min t0 t1) (q_lb q)); congruence.
    - destruct F as (F1 & F2 & F3).
      apply rust_binary_total. intros r2 r1 q Hq Hl [V0 D0] [V1 _].
      destruct F2 as (j1 & F2 & _). unfold release_operator.
      destruct r1 as [[[] t1]|]; [| |discriminate]; specialize (V1 _ j1 F2 eq_refl); cbn [snd] in V1.
      + assert (G : forall q', q_lb q' = q_lb q -> (if snd (q_prev q') + q_ub q <=? t1
           then match usub t1 (q_ub q) with
                | Some t => if (snd (q_prev q') <? t) || (t =? 0) && negb (fst (q_prev q'))
                            then Some (with_prev (with_next q' (Nat.max (q_next q') (t + q_lb q + 1))) (true, t), Some (true, t))
                            else Some (q', None)
                | None => None end else Some (q', None)) <> None).
        { intros q' _. destruct (_ <=? t1) eqn:El; [|discriminate]. apply Nat.leb_le in El.
          pose proof (usub_total t1 (q_ub q) ltac:(lia)). destruct (usub t1 (q_ub q)); [|congruence].
          destruct (_ || _); discriminate. }
        destruct r2 as [[b0 t0]|]; [|apply G; reflexivity].
        assert (H0 : q_lb q <= t0).
        { destruct F1 as [(j0 & F1 & _)|[b F1]].
          - specialize (V0 _ j0 F1 eq_refl). cbn in V0. lia.
          - specialize (D0 _ b F1 ltac:(congruence) ltac:(congruence) eq_refl). cbn in D0. lia. }
        destruct b0; cbn [negb]; [|apply (G (with_next q _)); reflexivity].
        pose proof (usub_total (Nat.min t0 t1) (q_lb q) ltac:(lia)).
        destruct (usub (Nat.min t0 t1) (q_lb q)); congruence.
      + pose proof (usub_total t1 (q_lb q) ltac:(lia)). destruct (usub t1 (q_lb q)); congruence.
    - unfold rust_unary. rewrite T. destruct r0 as [[? ?]|]; cbn; congruence.
    - apply rust_binary_total. intros [[[] ?]|] [[[] ?]|] q; discriminate.
    - apply rust_binary_total. intros [[[] ?]|] [[[] ?]|] q; discriminate.
    - apply rust_binary_total. intros [[[] ?]|] [[[] ?]|] q; discriminate.
  Qed.
End Safe.

(** Section NoPanic is about one future-time part of a program. *)
Section NoPanic.
  Variables (prog : list instr) (confs : list qconf) (tr : trace) (all : nat -> bool).
  Hypothesis Hpart : ft_part all prog confs.

  Lemma read_total h ts m k ins c (second : bool) j :
    Inv prog confs tr all h ts m -> node prog confs all k ins c -> (if second then i_op2 ins else i_op1 ins) = Sub j ->
    exists r v, rust_scq_read (q_slots (get_queue m j)) (q_write (get_queue m j)) (q_next (get_queue m k))
                  (if second then q_read2 (get_queue m k) else q_read1 (get_queue m k)) = Some (r, v) /\
      forall w, v = Some w -> q_next (get_queue m k) <= snd w <= ts.
  Proof.
    intros HI Hn E. pose proof (i_nodes _ _ _ _ _ _ _ HI k ins c Hn) as N.
    assert (Hrd : reads ins j) by (destruct second; [right|left]; assumption).
    destruct (sub_child _ _ _ Hpart k ins c j Hn Hrd) as (_ & ins' & c' & Hn' & _).
    pose proof (i_nodes _ _ _ _ _ _ _ HI j ins' c' Hn') as Nj.
    pose proof (node_len _ _ _ j ins' c' Hn') as Hl. rewrite <- (n_len _ _ _ _ _ _ _ _ _ Nj) in Hl.
    assert (Hr : reader (length (q_slots (get_queue m j))) (h j) (q_next (get_queue m k))
                   (if second then q_read2 (get_queue m k) else q_read1 (get_queue m k)) (ts - 1 - wd prog confs k)).
    { rewrite <- Hl. destruct second.
      - pose proof (n_rd2 _ _ _ _ _ _ _ _ _ N) as R. rewrite E in R. exact R.
      - pose proof (n_rd1 _ _ _ _ _ _ _ _ _ N) as R. rewrite E in R. exact R. }
    pose proof (rust_read_total _ _ _ _ _ _ (n_ring _ _ _ _ _ _ _ _ _ Nj) Hr) as T.
    destruct (rust_scq_read _ _ _ _) as [[r v]|] eqn:Er; [|congruence]. exists r, v. split; [reflexivity|].
    intros w ->. apply rust_read_eq in Er.
    pose proof (scq_read_spec _ _ (h j) (q_next (get_queue m k)) _ _ (n_ring _ _ _ _ _ _ _ _ _ Nj) (n_incr _ _ _ _ _ _ _ _ _ Nj) Hr) as R.
    rewrite Er in R. destruct R as (R & _). symmetry in R. pose proof (rd_ge _ _ _ R) as [R1 _].
    apply rd_time in R. pose proof (n_hi _ _ _ _ _ _ _ _ _ Nj). lia.
  Qed.

  Lemma rust_update_total h ts m k ins c :
    Inv prog confs tr all h ts m -> node prog confs all k ins c -> rust_update (tr ts) k ins m <> None.
  Proof.
    intros HI Hn. apply (rust_update_safe prog (tr ts) ts k ins c m).
    - rewrite (i_length _ _ _ _ _ _ _ HI). apply (node_lt _ _ _ _ _ _ Hn).
    - exact (i_time _ _ _ _ _ _ _ HI).
    - intros j Hj. destruct (sub_child _ _ _ Hpart k ins c j Hn Hj) as (Hlt & _). lia.
    - intros second j E. exact (read_total h ts m k ins c second j HI Hn E).
    - exact (node_ft _ _ _ Hpart k ins c Hn).
    - pose proof (i_nodes _ _ _ _ _ _ _ HI k ins c Hn) as N.
      pose proof (n_op _ _ _ _ _ _ _ _ _ N) as O. pose proof (n_lb _ _ _ _ _ _ _ _ _ N) as Hlb. unfold opinv in O.
      destruct (i_op ins); try exact Logic.I; destruct O as [[_ Hlo _ _ _] _]; lia.
  Qed.

  Lemma rust_update_some h ts m k ins c :
    Inv prog confs tr all h ts m -> node prog confs all k ins c ->
    rust_update (tr ts) k ins m = Some (update (tr ts) k ins m).
  Proof.
    intros HI Hn. pose proof (rust_update_total h ts m k ins c HI Hn) as T.
    destruct (rust_update (tr ts) k ins m) as [m'|] eqn:E; [|congruence]. f_equal. symmetry.
    apply rust_update_eq; [|assumption]. rewrite (i_length _ _ _ _ _ _ _ HI). apply (node_lt _ _ _ _ _ _ Hn).
  Qed.
End NoPanic.
