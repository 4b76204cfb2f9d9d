(** * Reloading a specification (proofs) *)
From Coq Require Import List Arith Bool Lia.
Require Import Verif.Mltl Verif.Scq Verif.Engine Verif.Monitoring Verif.EngineLocal Verif.MonitorProofs Verif.RustEngine Verif.RustProofs Verif.Reload.
Import ListNotations.

Definition laid_out (confs : list qconf) (m : monitor) : Prop :=
  map (fun q => length (q_slots q)) (m_queues m) = map c_len confs.

Lemma c_load_default prog confs :
  length prog = length confs -> Forall (fun c => 1 <= c_len c) confs ->
  c_load prog confs (soft_reset (c_default confs)) = @init C_monitor prog confs.
Proof.
  intros Hl Hc. unfold c_load, soft_reset, c_default, init. cbn [m_queues m_time m_progress m_out]. f_equal.
  revert confs Hl Hc. induction prog as [|ins prog IH]; intros [|c confs] Hl Hc; try discriminate; [reflexivity|].
  cbn [map combine c_configure_all]. inversion Hc as [|? ? H1 H2]; subst. injection Hl as Hl. f_equal; [|apply IH; assumption].
  unfold c_configure, init_queue. cbn [q_slots q_write q_read1 q_read2 q_next q_edge q_prev fst snd].
  destruct (c_len c) as [|l]; [lia|]. cbn [repeat set_slot]. replace (S l - 1) with l by lia.
  destruct (i_op ins); reflexivity.
Qed.
Lemma c_load_again prog confs :
  length prog = length confs -> Forall (fun c => 1 <= c_len c) confs ->
  c_load prog confs (soft_reset (@init C_monitor prog confs)) = @init C_monitor prog confs.
Proof.
  intros Hl Hc. unfold c_load, soft_reset, init. cbn [m_queues m_time m_progress m_out]. f_equal.
  revert confs Hl Hc. induction prog as [|ins prog IH]; intros [|c confs] Hl Hc; try discriminate; [reflexivity|].
  cbn [map combine c_configure_all]. inversion Hc as [|? ? H1 H2]; subst. injection Hl as Hl. f_equal; [|apply IH; assumption].
  unfold c_configure, init_queue. cbn [q_slots q_write q_read1 q_read2 q_next q_edge q_prev fst snd set_slot].
  destruct (i_op ins); reflexivity.
Qed.
Lemma c_load_cleared prog confs m :
  length prog = length confs -> Forall (fun c => 1 <= c_len c) confs -> laid_out confs m ->
  c_load prog confs (zero_blocks (hard_reset m)) = @init C_monitor prog confs.
Proof.
  intros Hl Hc Hm. rewrite <- (c_load_default prog confs Hl Hc). f_equal.
  unfold zero_blocks, hard_reset, soft_reset, c_default, laid_out in *.
  cbn [m_queues m_time m_progress m_out]. f_equal. rewrite map_map.
  revert Hm. generalize (m_queues m) as qs. clear. intros qs. revert confs.
  induction qs as [|q qs IH]; intros [|c confs] Hm; try discriminate; [reflexivity|].
  cbn [map] in *. injection Hm as H1 H2. rewrite H1. f_equal. apply IH. assumption.
Qed.

Lemma set_queue_length m k q : length (m_queues (set_queue m k q)) = length (m_queues m).
Proof. unfold set_queue. cbn [m_queues]. apply set_nth_length. Qed.
Lemma rust_check_length atoms k ins second m m' r :
  rust_check_operand atoms k ins second m = Some (m', r) -> length (m_queues m') = length (m_queues m).
Proof.
  unfold rust_check_operand. destruct (if second then i_op2 ins else i_op1 ins) as [b|a|c|].
  - destruct (i_op ins); intros H; injection H as <- _; reflexivity.
  - destruct (m_progress m); intros H; injection H as <- _; reflexivity.
  - destruct (rust_scq_read _ _ _ _) as [[x v]|]; [|discriminate]. intros H; injection H as <- _. apply set_queue_length.
  - intros H; injection H as <- _; reflexivity.
Qed.
Lemma rust_push_length k v m : length (m_queues (rust_push_result k v m)) = length (m_queues m).
Proof.
  unfold rust_push_result. destruct (m_progress m); destruct (rust_scq_write _ _ _); rewrite set_queue_length; reflexivity.
Qed.
Lemma rust_binary_length op atoms k ins m m' :
  rust_binary op atoms k ins m = Some m' -> length (m_queues m') = length (m_queues m).
Proof.
  unfold rust_binary. destruct (rust_check_operand atoms k ins false m) as [[m1 r1]|] eqn:E1; [|discriminate].
  destruct (rust_check_operand atoms k ins true m1) as [[m2 r2]|] eqn:E2; [|discriminate].
  destruct (op r1 r2 (get_queue m2 k)) as [[q r]|]; [|discriminate]. intros H. injection H as <-.
  apply rust_check_length in E1, E2. destruct r; rewrite ?rust_push_length, set_queue_length; congruence.
Qed.
Lemma rust_update_length atoms k ins m m' :
  rust_update atoms k ins m = Some m' -> length (m_queues m') = length (m_queues m).
Proof.
  unfold rust_update. destruct (i_op ins); try apply rust_binary_length.
  - destruct (rust_check_operand atoms k ins false m) as [[m1 [v|]]|] eqn:E1; intros H; try discriminate; injection H as <-;
      apply rust_check_length in E1; [|assumption]. rewrite rust_push_length. rewrite <- E1. unfold set_next. apply set_queue_length.
  - destruct (rust_check_operand atoms k ins false m) as [[m1 [v|]]|] eqn:E1; intros H; try discriminate; injection H as <-;
      apply rust_check_length in E1; [|assumption]. cbn [m_queues]. rewrite <- E1. unfold set_next. apply set_queue_length.
  - unfold rust_unary. destruct (rust_check_operand atoms k ins false m) as [[m1 r1]|] eqn:E1; [|discriminate].
    destruct (not_operator r1 (get_queue m1 k)) as [[q r]|]; [|discriminate]. intros H. injection H as <-.
    apply rust_check_length in E1. destruct r; rewrite ?rust_push_length, set_queue_length; congruence.
Qed.
Lemma rust_pass_length atoms : forall prog k m m', rust_pass atoms k prog m = Some m' -> length (m_queues m') = length (m_queues m).
Proof.
  induction prog as [|ins prog IH]; intros k m m' H; cbn in H; [injection H as <-; reflexivity|].
  destruct (rust_update atoms k ins m) as [m1|] eqn:E; [|discriminate]. apply rust_update_length in E. apply IH in H. congruence.
Qed.
Lemma rust_step_length atoms prog : forall fuel m m', rust_step fuel atoms prog m = Finished m' -> length (m_queues m') = length (m_queues m).
Proof.
  induction fuel as [|fuel IH]; intros m m' H; cbn in H; [discriminate|].
  destruct (rust_pass atoms 0 prog m) as [m1|] eqn:E; [|discriminate]. apply rust_pass_length in E.
  destruct (m_progress m1).
  - apply IH in H. cbn in H. congruence.
  - injection H as <-. exact E.
  - apply IH in H. cbn in H. congruence.
Qed.

(** On a table that holds just the program the engine is that of RustEngine.v. *)
Lemma table_pass_numbered atoms : forall prog k m,
  k + length prog <= length (m_queues m) ->
  table_pass atoms (combine (seq k (length prog)) prog) m = rust_pass atoms k prog m.
Proof.
  induction prog as [|ins prog IH]; intros k m Hk; [reflexivity|]. cbn [length seq combine table_pass rust_pass].
  cbn [length] in Hk. rewrite (proj2 (Nat.ltb_lt _ _)) by lia.
  destruct (rust_update atoms k ins m) as [m'|] eqn:E; [|reflexivity]. apply IH.
  apply rust_update_length in E. lia.
Qed.
Lemma table_step_numbered atoms prog : forall fuel m, length prog <= length (m_queues m) ->
  table_step fuel atoms (numbered prog) m = rust_step fuel atoms prog m.
Proof.
  induction fuel as [|fuel IH]; intros m Hm; [reflexivity|]. cbn [table_step rust_step]. unfold numbered.
  rewrite table_pass_numbered by lia. destruct (rust_pass atoms 0 prog m) as [m1|] eqn:E; [|reflexivity].
  apply rust_pass_length in E. destruct (m_progress m1); [|reflexivity|]; apply IH; cbn; lia.
Qed.
Lemma table_run_numbered prog fuel : forall rows m, length prog <= length (m_queues m) ->
  table_run fuel rows (numbered prog) m = rust_run fuel rows prog m.
Proof.
  induction rows as [|atoms rows IH]; intros m Hm; [reflexivity|]. cbn [table_run rust_run].
  rewrite table_step_numbered by assumption. destruct (rust_step fuel atoms prog m) as [m1| |] eqn:E; [|reflexivity|reflexivity].
  apply rust_step_length in E. apply IH. lia.
Qed.
Lemma get_monitor_run fuel rows prog confs : length prog = length confs ->
  monitor_steps fuel rows (get_monitor prog confs) = rust_run fuel rows prog (rust_init prog confs).
Proof.
  intros Hl. unfold monitor_steps, get_monitor, rust_load. cbn [r_table r_state rust_default app m_time m_progress m_out].
  change (Monitor (map (fun p => rust_init_queue (fst p) (snd p)) (combine prog confs)) 0 FirstLoop []) with (rust_init prog confs).
  apply table_run_numbered. unfold rust_init. cbn [m_queues]. rewrite map_length, combine_length. lia.
Qed.
Lemma update_empty_run fuel rows prog confs r : length prog = length confs -> r_table r = [] ->
  monitor_steps fuel rows (update_binary_file prog confs r) = monitor_steps fuel rows (get_monitor prog confs).
Proof. intros Hl Hr. unfold update_binary_file, rust_reset. rewrite Hr. reflexivity. Qed.
(** Everything but the table is as in a new monitor. *)
Lemma update_table fuel rows prog confs r :
  monitor_steps fuel rows (update_binary_file prog confs r) =
  table_run fuel rows (r_table r ++ numbered prog) (rust_init prog confs).
Proof. reflexivity. Qed.
