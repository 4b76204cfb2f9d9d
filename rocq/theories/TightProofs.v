(** * Queues just long enough (proof infrastructure)

    A run with short queues is compared, pass by pass, with the run of the same
    program with longer queues: both make the same verdicts and reports. *)
From Coq Require Import List Arith Bool Lia.
Require Import Verif.Mltl Verif.Scq Verif.Engine Verif.Monitoring Verif.TightSize.
Require Import Verif.ScqProofs Verif.EngineLocal Verif.NodeProofs Verif.FrameProofs Verif.MonitorProofs Verif.ScqSizeProofs Verif.TightQueue.
Import ListNotations.

(** ** What a local action can push *)
Lemma until_push_le u lb ub n prev r0 r1 v :
  lb <= ub -> l_push (until_local u lb ub n prev r0 r1) = Some v ->
  exists w, r1 = Some w /\ snd v <= snd w - lb.
Proof.
  intros Hb. unfold until_local. destruct r1 as [[b1 t1]|]; [|discriminate]. cbn zeta.
  intros H. exists (b1, t1). split; [reflexivity|]. cbn [snd].
  destruct (Bool.eqb b1 u); [cbn in H; injection H as <-; cbn; lia|].
  destruct r0 as [[b0 t0]|].
  - destruct (Bool.eqb b0 u).
    + destruct (_ && _); [|discriminate]. cbn in H. injection H as <-. cbn. lia.
    + cbn in H. injection H as <-. cbn. lia.
  - destruct (_ && _); [|discriminate]. cbn in H. injection H as <-. cbn. lia.
Qed.
Lemma bool_push_le op lb ub n prev r0 r1 v :
  match op with NOT | AND | OR | EQUIV => True | _ => False end ->
  l_push (local_of op lb ub n prev r0 r1) = Some v ->
  (exists w, r0 = Some w /\ snd v <= snd w) \/ (exists w, r1 = Some w /\ snd v <= snd w).
Proof.
  intros Hop. destruct op; try destruct Hop; cbn [local_of].
  - destruct r0 as [w|]; [|discriminate]. cbn. intros H. injection H as <-. left. exists w. split; [reflexivity|cbn; lia].
  - destruct r0 as [[[|] t0]|], r1 as [[[|] t1]|]; cbn; intros H; try discriminate; injection H as <-; cbn;
      first [left; eexists; split; [reflexivity|cbn; lia] | right; eexists; split; [reflexivity|cbn; lia] | idtac].
    destruct (Nat.le_gt_cases t0 t1); [right|left]; eexists; (split; [reflexivity|cbn; lia]).
  - destruct r0 as [[[|] t0]|], r1 as [[[|] t1]|]; cbn; intros H; try discriminate; injection H as <-; cbn;
      first [left; eexists; split; [reflexivity|cbn; lia] | right; eexists; split; [reflexivity|cbn; lia] | idtac].
    destruct (Nat.le_gt_cases t0 t1); [right|left]; eexists; (split; [reflexivity|cbn; lia]).
  - destruct r0 as [[b0 t0]|], r1 as [[b1 t1]|]; cbn; intros H; try discriminate; injection H as <-.
    left. eexists. split; [reflexivity|cbn; lia].
Qed.
(** Until with a constant on the left takes the whole verdict it is offered. *)
Lemma until_direct_next u lb ub n prev b t0 b1 t1 :
  t1 <= t0 -> t1 < l_next (until_local u lb ub n prev (Some (b, t0)) (Some (b1, t1))).
Proof.
  intros H. unfold until_local. cbn zeta. replace (Nat.min t0 t1) with t1 by lia.
  destruct (Bool.eqb b1 u); [cbn; lia|]. destruct (Bool.eqb b u); [|cbn; lia].
  destruct (_ && _); cbn; lia.
Qed.

Lemma paces_from_app ps prog : exists l, paces_from ps prog = ps ++ l.
Proof.
  revert ps; induction prog as [|ins prog IH]; intros ps; cbn; [exists []; rewrite app_nil_r; reflexivity|].
  destruct (IH (ps ++ [instr_pace ps ins])) as [l ->]. rewrite <- app_assoc. eauto.
Qed.
Lemma paces_from_nth ps prog j ins :
  nth_error prog j = Some ins ->
  exists ps', length ps' = length ps + j /\ exists l, paces_from ps prog = ps' ++ instr_pace ps' ins :: l.
Proof.
  revert ps j; induction prog as [|ins' prog IH]; intros ps [|j] H; try discriminate; cbn in H.
  - injection H as ->. exists ps. split; [lia|]. cbn.
    destruct (paces_from_app (ps ++ [instr_pace ps ins]) prog) as [l ->]. rewrite <- app_assoc. cbn. eauto.
  - destruct (IH (ps ++ [instr_pace ps ins']) j H) as (ps' & Hl & E). rewrite app_length in Hl. cbn in Hl.
    exists ps'. split; [lia|exact E].
Qed.
Definition pace_of (prog : list instr) (k : nat) : pace := nth k (paces prog) Many.
Lemma pace_eq prog k ins :
  nth_error prog k = Some ins -> below k (i_op1 ins) -> below k (i_op2 ins) ->
  pace_of prog k = instr_pace (paces prog) ins.
Proof.
  intros Hp H1 H2. unfold pace_of, paces.
  destruct (paces_from_nth [] prog k ins Hp) as (ps & Hl & l & E). cbn in Hl.
  rewrite E. rewrite app_nth2 by lia. rewrite Hl, Nat.sub_diag. cbn [nth].
  assert (O : forall o, below k o -> operand_pace ps o = operand_pace (ps ++ instr_pace ps ins :: l) o).
  { intros [b|a|j|] Ho; try reflexivity. cbn. symmetry. apply app_nth1. rewrite Hl. apply Ho. reflexivity. }
  set (full := ps ++ instr_pace ps ins :: l) in *.
  unfold instr_pace. rewrite (O _ H1), (O _ H2). reflexivity.
Qed.

Definition all (_ : nat) : bool := true.
(** Two monitors that have made the same verdicts. *)
Record alike (ma mt : monitor) : Prop := {
  a_time : m_time mt = m_time ma;
  a_progress : m_progress mt = m_progress ma;
  a_out : m_out mt = m_out ma;
  a_length : length (m_queues mt) = length (m_queues ma)
}.
Definition again (m : monitor) : monitor := Monitor (m_queues m) (m_time m) NoProgress (m_out m).
Definition onward (m : monitor) : monitor := Monitor (m_queues m) (m_time m + 1) FirstLoop (m_out m).
Lemma reports_of ma mt f : m_out mt = m_out ma -> reports f mt = reports f ma.
Proof. unfold reports. intros ->. reflexivity. Qed.

Section Tight.
  Context {I : impl}.
  Variables (prog : list instr) (confs : list qconf) (tr : trace) (part : nat -> bool) (room : nat).
  Hypothesis Hft : ft_part part prog confs.
  Hypothesis Hdist : distinct_reports prog.
  Hypothesis Henough : part_enough part prog confs.
  Hypothesis Hroom : forall k, reach (node_expr prog confs k) + 2 <= room.

  (** ** The same program with more room *)
  Definition widen (c : qconf) : qconf := QConf (c_len c + room) (c_lb c) (c_ub c).
  Definition wide : list qconf := map widen confs.
  Local Notation Node := (node prog wide part).
  Local Notation Wd := (wd prog wide).
  Definition len (k : nat) : nat := c_len (nth k confs dconf).

  Lemma wide_bounds : Forall2 same_bounds wide confs.
  Proof using Type.
    assert (H : forall l, Forall2 same_bounds (map widen l) l); [|apply H].
    induction l as [|c l IH]; cbn; constructor; auto. split; reflexivity.
  Qed.
  Lemma wide_exprs : exprs prog wide = exprs prog confs.
  Proof using Type. apply exprs_from_bounds, wide_bounds. Qed.
  Lemma wide_node k : node_expr prog wide k = node_expr prog confs k.
  Proof using Type. unfold node_expr. rewrite wide_exprs. reflexivity. Qed.
  Lemma Node_conf k ins c : Node k ins c -> exists c0, nth_error confs k = Some c0 /\ c = widen c0 /\ len k = c_len c0 /\ 1 <= c_len c0.
  Proof using Hft.
    intros (Hp & Hc & HK). unfold wide in Hc. rewrite nth_error_map in Hc.
    destruct (nth_error confs k) as [c0|] eqn:E; [|discriminate]. injection Hc as <-.
    exists c0. split; [reflexivity|]. split; [reflexivity|]. split.
    - unfold len. rewrite (nth_error_nth _ _ _ E). reflexivity.
    - apply (proj2 (proj2 Hft) k ins c0 HK Hp E).
  Qed.
  Lemma Node_wide k ins c : Node k ins c -> 2 <= c_len c.
  Proof using Hft Hroom.
    intros Hn. destruct (Node_conf k ins c Hn) as (c0 & _ & -> & _). cbn [widen c_len]. pose proof (Hroom 0). lia.
  Qed.
  Lemma wide_ft : ft_part part prog wide.
  Proof using Hft.
    destruct Hft as (H1 & H0 & H2). split; [unfold wide; rewrite map_length; assumption|]. split; [assumption|].
    intros k ins c HK Hp Hc. unfold wide in Hc. rewrite nth_error_map in Hc.
    destruct (nth_error confs k) as [c0|] eqn:E; [|discriminate]. injection Hc as <-.
    destruct (H2 k ins c0 HK Hp E) as [F1 F2]. split; [cbn; lia|exact F2].
  Qed.
  Lemma wide_ample : part_ample part prog wide.
  Proof using Hroom.
    intros k ins c conf _ Hp Hr Hc. rewrite wide_node. pose proof (Hroom k).
    unfold wide in Hc. rewrite nth_error_map in Hc. destruct (nth_error confs c); [|discriminate].
    injection Hc as <-. cbn [widen c_len]. lia.
  Qed.
  Lemma Node_of k ins : nth_error prog k = Some ins -> part k = true -> exists c, Node k ins c.
  Proof using Hft. exact (node_of prog wide part wide_ft k ins). Qed.

  (** ** Operands *)
  Definition own (sec : bool) (ins : instr) : operand := if sec then i_op2 ins else i_op1 ins.
  Definition rp (sec : bool) (q : queue) : nat := if sec then q_read2 q else q_read1 q.
  Definition lag (k : nat) (ins : instr) (c : qconf) (sec : bool) : nat :=
    wait prog confs ins c (node_expr prog confs k) (own sec ins) (own (negb sec) ins).
  Definition soon_of (k : nat) : nat := soonest (node_expr prog confs k).
  (** Readers of one queue that take each verdict as soon as it is there. *)
  Definition solo (ins : instr) : bool :=
    match i_op ins with
    | NOT | RETURN => true
    | UNTIL | RELEASE => match i_op1 ins with Direct _ => true | _ => false end
    | _ => false
    end.

  Lemma own_reads sec ins i : own sec ins = Sub i -> reads ins i.
  Proof using Type. destruct sec; [right|left]; assumption. Qed.
  Lemma lag_len k ins c sec i : Node k ins c -> own sec ins = Sub i -> lag k ins c sec - soon_of i + 1 <= len i.
  Proof using Hft Henough.
    intros Hn Ho. destruct (Node_conf k ins c Hn) as (c0 & E & -> & _).
    destruct (sub_child prog wide part wide_ft k ins _ i Hn (own_reads _ _ _ Ho)) as (_ & ins' & c' & Hn' & _).
    destruct (Node_conf i ins' c' Hn') as (c1 & E1 & _ & -> & _).
    destruct (Henough k ins c0 i c1 (proj2 (proj2 Hn)) (proj1 Hn) E E1) as [H1 H2]. unfold lag, soon_of.
    destruct sec; cbn [own negb] in *; auto.
  Qed.

  (** ** The two runs side by side *)
  Record twin (h : nat -> list verdict) (ma mt : monitor) : Prop := {
    t_time : m_time mt = m_time ma;
    t_progress : m_progress mt = m_progress ma;
    t_out : m_out mt = m_out ma;
    t_length : length (m_queues mt) = length prog;
    t_next : forall k ins c, Node k ins c -> q_next (get_queue mt k) = q_next (get_queue ma k);
    t_prev : forall k ins c, Node k ins c -> q_prev (get_queue mt k) = q_prev (get_queue ma k);
    t_lb : forall k ins c, Node k ins c -> q_lb (get_queue mt k) = c_lb c;
    t_ub : forall k ins c, Node k ins c -> q_ub (get_queue mt k) = c_ub c;
    t_hold : forall k ins c, Node k ins c ->
             holding (len k) (q_slots (get_queue mt k)) (q_write (get_queue mt k)) (h k)
  }.

  Record lock (ts p : nat) (h : nat -> list verdict) (ma mt : monitor) : Prop := {
    k_pass : passing prog wide tr part ts p h ma;
    k_twin : twin h ma mt;
    k_soon : forall k ins c, Node k ins c -> i_op ins <> RETURN -> known (h k) <= S ts - soon_of k;
    k_inst : forall k ins c, Node k ins c -> pace_of prog k = Instant ->
             (m_progress ma <> FirstLoop \/ k < p) -> known (h k) = S ts;
    k_solo : forall j ins c sec i, Node j ins c -> solo ins = true -> own sec ins = Sub i ->
             one_new (h i) (q_next (get_queue ma j)) /\
             ((j < p \/ p <= i \/ (m_progress ma <> FirstLoop /\ pace_of prog i <> Many)) ->
              known (h i) <= q_next (get_queue ma j));
    k_read : forall j ins c sec i, Node j ins c -> own sec ins = Sub i ->
             ready (len i) (h i) (q_next (get_queue ma j)) (rp sec (get_queue mt j)) 0 /\
             ((j < p \/ p <= i) -> (pace_of prog i = Many \/ (m_progress ma = FirstLoop /\ p <= i)) ->
              ready (len i) (h i) (q_next (get_queue ma j)) (rp sec (get_queue mt j)) (ts - lag j ins c sec));
    k_idle : m_progress ma = NoProgress -> forall j ins c sec i, Node j ins c -> own sec ins = Sub i -> j < p ->
             ready (len i) (h i) (q_next (get_queue ma j)) (rp sec (get_queue mt j)) (S ts - lag j ins c sec)
  }.

  Section Visit.
    Variables (h : nat -> list verdict) (ts : nat) (ma mt : monitor) (k : nat) (ins : instr) (c : qconf).
    Hypothesis HL : lock ts k h ma mt.
    Hypothesis Hn : Node k ins c.
    Let HI := p_inv _ _ _ _ _ _ _ _ (k_pass _ _ _ _ _ HL).
    Let HT := k_twin _ _ _ _ _ HL.
    Let n := q_next (get_queue ma k).
    Let l := action tr h ts ma k ins c.

    Definition oplaced (o : operand) (x r : nat) : Prop :=
      match o with Sub i => placed (len i) (h i) x r | _ => True end.

    Lemma tight_fetch sec :
      let f := fetch (tr ts) (m_progress mt) (m_time mt) (get_queue mt) (own sec ins) n (rp sec (get_queue mt k)) in
      snd f = oview tr h ts (m_progress ma) (own sec ins) n /\ oplaced (own sec ins) n (fst f).
    Proof using HL Hn Hft.
      cbv zeta. rewrite (t_time _ _ _ HT), (t_progress _ _ _ HT), (i_time _ _ _ _ _ _ _ HI).
      destruct (own sec ins) as [b|a|i|] eqn:Eo; cbn [fetch oview oplaced fst snd]; auto.
      destruct (sub_child prog wide part wide_ft k ins c i Hn (own_reads _ _ _ Eo)) as (_ & ins' & c' & Hi & _).
      apply (ready_read _ _ _ _ _ _ 0).
      - apply (t_hold _ _ _ HT i ins' c' Hi).
      - apply (n_incr _ _ _ _ _ _ _ _ _ (i_nodes _ _ _ _ _ _ _ HI i ins' c' Hi)).
      - apply (k_read _ _ _ _ _ HL k ins c sec i Hn Eo).
    Qed.

    Lemma tight_update :
      exists q',
        update (tr ts) k ins mt =
        St mt k q' (match l_push l, l_out l with
                    | None, None => m_progress ma
                    | None, Some _ => return_flag (m_progress ma)
                    | _, _ => flag (m_progress ma)
                    end)
           (match l_out l with Some v => m_out ma ++ [(i_num ins, v)] | None => m_out ma end) /\
        (q_slots q', q_write q') =
          match l_push l with
          | Some v => scq_write (q_slots (get_queue mt k)) (q_write (get_queue mt k)) v
          | None => (q_slots (get_queue mt k), q_write (get_queue mt k))
          end /\
        q_next q' = l_next l /\ q_prev q' = l_prev l /\ q_lb q' = q_lb (get_queue mt k) /\ q_ub q' = q_ub (get_queue mt k) /\
        forall sec, oplaced (own sec ins) n (rp sec q').
    Proof using HL Hn Hft.
      destruct (node_below prog wide part wide_ft k ins c Hn) as [B1 B2].
      pose proof (node_ft prog wide part wide_ft k ins c Hn) as [_ F].
      rewrite update_after.
      2:{ rewrite (t_length _ _ _ HT). apply (node_lt prog wide part k ins c Hn). }
      2:{ split; intros E; rewrite E in F; exact F. }
      2:{ intros E. apply B1 in E. lia. }
      2:{ intros E. apply B2 in E. lia. }
      unfold after.
      assert (En : start_next (i_op ins) (q_lb (get_queue mt k)) (q_next (get_queue mt k)) = n).
      { rewrite (t_lb _ _ _ HT k ins c Hn), (t_next _ _ _ HT k ins c Hn).
        rewrite <- (n_lb _ _ _ _ _ _ _ _ _ (i_nodes _ _ _ _ _ _ _ HI k ins c Hn)).
        apply (visit_start prog wide tr part h ts ma k ins c HI Hn). }
      rewrite En. destruct (tight_fetch false) as [F0 P0]. destruct (tight_fetch true) as [F1 P1].
      cbn [own rp] in F0, P0, F1, P1.
      set (f0 := fetch _ _ _ _ (i_op1 ins) _ _) in *. set (f1 := fetch _ _ _ _ (i_op2 ins) _ _) in *.
      assert (Hb : binary (i_op ins) = false -> i_op2 ins = NotSet).
      { destruct (i_op ins); try discriminate; intros _; apply F. }
      assert (El : local_of (i_op ins) (q_lb (get_queue mt k)) (q_ub (get_queue mt k)) n (q_prev (get_queue mt k)) (snd f0)
                     (snd (if binary (i_op ins) then f1 else (q_read2 (get_queue mt k), None))) = l).
      { unfold l, action. fold n. rewrite (t_lb _ _ _ HT k ins c Hn), (t_ub _ _ _ HT k ins c Hn), (t_prev _ _ _ HT k ins c Hn), F0.
        destruct (binary (i_op ins)); [rewrite F1|]; reflexivity. }
      rewrite El, (t_progress _ _ _ HT), (t_out _ _ _ HT).
      eexists. split; [reflexivity|]. cbn [q_slots q_write q_next q_prev q_lb q_ub].
      split; [destruct (l_push l) as [v|]; [destruct (scq_write _ _ _)|]; reflexivity|].
      repeat (split; [reflexivity|]).
      intros [|]; cbn [own rp q_read1 q_read2]; [|assumption].
      destruct (binary (i_op ins)); [assumption|]. rewrite Hb by reflexivity. exact Logic.I.
    Qed.

    Let N := i_nodes _ _ _ _ _ _ _ HI k ins c Hn.
    Let F := node_ft prog wide part wide_ft k ins c Hn.
    Definition osoon (o : operand) : nat := soonest (operand_expr (exprs prog confs) o).

    Lemma expr_eq : node_expr prog confs k = instr_expr (exprs prog confs) ins c.
    Proof using Hn Hft. rewrite <- wide_node, (node_eq prog wide part wide_ft k ins c Hn), wide_exprs. reflexivity. Qed.
    Lemma pace_ins : pace_of prog k = instr_pace (paces prog) ins.
    Proof using Hn Hft.
      destruct (node_below prog wide part wide_ft k ins c Hn). apply pace_eq; auto. apply Hn.
    Qed.
    Lemma own_child sec i : own sec ins = Sub i -> i < k /\ exists ins' c', Node i ins' c' /\ i_op ins' <> RETURN.
    Proof using Hn Hft. intros E. apply (sub_child prog wide part wide_ft k ins c i Hn (own_reads _ _ _ E)). Qed.

    Lemma view_soon sec w :
      oview tr h ts (m_progress ma) (own sec ins) n = Some w -> S (snd w) <= S ts - osoon (own sec ins).
    Proof using HL Hn Hft.
      destruct (own sec ins) as [b|a|i|] eqn:Eo; cbn [oview]; intros H.
      - injection H as <-. cbn. lia.
      - destruct (m_progress ma); try discriminate. injection H as <-. cbn. lia.
      - destruct (own_child sec i Eo) as (_ & ins' & c' & Hi & Hr).
        pose proof (k_soon _ _ _ _ _ HL i ins' c' Hi Hr) as Hs. apply rd_ge in H as [_ H]. apply in_known in H.
        change (osoon (Sub i)) with (soon_of i). lia.
      - discriminate.
    Qed.

    Lemma next_lb : (i_op ins = UNTIL \/ i_op ins = RELEASE) -> c_lb c <= n /\ known (h k) + c_lb c <= n /\ c_lb c <= c_ub c.
    Proof using HL Hn.
      pose proof (n_op _ _ _ _ _ _ _ _ _ N) as O. unfold opinv in O. fold n in O.
      intros [E|E]; rewrite E in O; destruct O as [[O1 O2 _ _ _] _]; lia.
    Qed.

    Lemma push_soon v : l_push l = Some v -> S (snd v) <= S ts - soon_of k.
    Proof using HL Hn Hft.
      unfold l, action. fold n. intros H.
      pose proof (view_soon false) as V0. pose proof (view_soon true) as V1. cbn [own] in V0, V1.
      unfold osoon in V0, V1. unfold soon_of. rewrite expr_eq. unfold instr_expr. pose proof next_lb as Hlb.
      set (r0 := oview _ _ _ _ (i_op1 ins) _) in *. set (r1 := oview _ _ _ _ (i_op2 ins) _) in *.
      destruct F as [_ F'].
      assert (U : (i_op ins = UNTIL \/ i_op ins = RELEASE) -> forall u,
        l_push (until_local u (c_lb c) (c_ub c) n (q_prev (get_queue ma k)) r0 r1) = Some v ->
        S (snd v) <= S ts - (soonest (operand_expr (exprs prog confs) (i_op2 ins)) + c_lb c)).
      { intros Ho u Hu. destruct (Hlb Ho) as (L1 & _ & L3).
        destruct (until_push_le u _ _ _ _ _ _ _ L3 Hu) as (w & Ew & Hw). specialize (V1 w Ew).
        assert (n <= snd w); [|lia].
        destruct (i_op2 ins) as [b|a|i|] eqn:E2.
        1,2,4: destruct Ho as [Ho|Ho]; rewrite Ho in F'; destruct F' as (_ & (i & Ei & _) & _); discriminate.
        apply rd_ge in Ew. apply Ew. }
      assert (Bc : match i_op ins with NOT | AND | OR | EQUIV => True | _ => False end ->
        (i_op ins = NOT -> i_op2 ins = NotSet) ->
        S (snd v) <= S ts - (match i_op ins with NOT => soonest (operand_expr (exprs prog confs) (i_op1 ins)) | _ =>
          Nat.min (soonest (operand_expr (exprs prog confs) (i_op1 ins))) (soonest (operand_expr (exprs prog confs) (i_op2 ins))) end)).
      { intros Ho Hns. destruct (bool_push_le _ _ _ _ _ _ _ _ Ho H) as [(w & Ew & Hw)|(w & Ew & Hw)].
        - specialize (V0 w Ew). destruct (i_op ins); lia.
        - destruct (i_op ins) eqn:Eop; cbn [binary] in Ew; try discriminate; specialize (V1 w Ew); lia. }
      destruct (i_op ins) eqn:Eop; cbn [binary] in H; cbn [soonest fold_right].
      - destruct F' as [[a Ea] _]. unfold r0 in H. rewrite Ea in H. cbn [oview local_of] in H.
        destruct (m_progress ma); try discriminate. cbn in H. injection H as <-.
        rewrite Ea. cbn. lia.
      - cbn in H. destruct r0; discriminate.
      - apply (U (or_introl eq_refl) true). exact H.
      - apply (U (or_intror eq_refl) false). exact H.
      - destruct F'.
      - destruct F'.
      - apply (Bc Logic.I). intros _. apply F'.
      - rewrite Nat.min_comm. apply (Bc Logic.I). discriminate.
      - rewrite Nat.min_comm. apply (Bc Logic.I). discriminate.
      - apply (Bc Logic.I). discriminate.
    Qed.

    (** The reader of one queue has caught up with it when it leaves. *)
    Lemma solo_catch sec i : solo ins = true -> own sec ins = Sub i -> n <= l_next l ->
      known (h i) <= l_next l /\
      (rd (h i) n = None \/ exists v, rd (h i) n = Some v /\ S (snd v) = known (h i) /\ snd v < l_next l).
    Proof using HL Hn Hft.
      intros Hs Eo Hle. destruct (k_solo _ _ _ _ _ HL k ins c sec i Hn Hs Eo) as [[H1|(v & Ev & Hv)] _].
      - fold n in H1. split; [lia|]. left. apply rd_none. exact H1.
      - fold n in Ev. assert (Hlt : snd v < l_next l).
        { destruct (own_child sec i Eo) as (_ & ins' & c' & Hi & _).
          pose proof (n_hi _ _ _ _ _ _ _ _ _ (i_nodes _ _ _ _ _ _ _ HI i ins' c' Hi)) as Hhi.
          unfold l, action. fold n. destruct F as [_ F']. unfold solo in Hs.
          destruct (i_op ins) eqn:Eop; try discriminate; cbn [binary].
          - destruct sec; cbn [own] in Eo; [destruct F' as [_ F']; congruence|].
            rewrite Eo. cbn [oview]. rewrite Ev. cbn. lia.
          - destruct (i_op1 ins) as [b| | |] eqn:E1; try discriminate.
            destruct sec; cbn [own] in Eo; [|congruence]. rewrite Eo. cbn [oview]. rewrite Ev.
            destruct v as [b1 t1]. cbn [local_of snd]. apply until_direct_next. cbn [snd] in Hv. lia.
          - destruct (i_op1 ins) as [b| | |] eqn:E1; try discriminate.
            destruct sec; cbn [own] in Eo; [|congruence]. rewrite Eo. cbn [oview]. rewrite Ev.
            destruct v as [b1 t1]. cbn [local_of snd]. apply until_direct_next. cbn [snd] in Hv. lia.
          - destruct sec; cbn [own] in Eo; [destruct F' as [_ F']; congruence|].
            rewrite Eo. cbn [oview]. rewrite Ev. cbn. lia. }
        split; [lia|]. right. exists v. auto.
    Qed.

    Lemma no_push : (forall v, l_push l = Some v -> known (h k) <= snd v) ->
      m_progress ma <> FirstLoop -> pace_of prog k <> Many -> l_push l = None.
    Proof using HL Hn Hft.
      intros Hlegal Hp Hm.
      destruct (pace_of prog k) eqn:Ek; [| |congruence]; clear Hm.
      { pose proof (k_inst _ _ _ _ _ HL k ins c Hn Ek (or_introl Hp)) as Hk.
        destruct (l_push l) as [v|] eqn:Ev; [|reflexivity]. exfalso.
        pose proof (Hlegal v eq_refl). pose proof (push_soon v Ev). lia. }
      rewrite pace_ins in Ek. destruct F as [_ F']. unfold instr_pace in Ek.
      pose proof (k_solo _ _ _ _ _ HL k ins c) as HS. unfold solo in HS.
      unfold l, action. fold n. fold n in HS.
      destruct (i_op ins) eqn:Eop; try discriminate; cbn [binary].
      - destruct (i_op1 ins) as [b| | |] eqn:E1; try discriminate.
        destruct F' as (_ & (i & Ei & _) & _). rewrite Ei in *. cbn [operand_pace] in Ek.
        fold (pace_of prog i) in Ek.
        destruct (HS true i Hn eq_refl Ei) as [_ H].
        assert (Hi : known (h i) <= n) by (apply H; right; right; split; [assumption|destruct (pace_of prog i); discriminate]).
        cbn [oview]. rewrite (proj2 (rd_none _ _) Hi). reflexivity.
      - destruct (i_op1 ins) as [b| | |] eqn:E1; try discriminate.
        destruct F' as (_ & (i & Ei & _) & _). rewrite Ei in *. cbn [operand_pace] in Ek.
        fold (pace_of prog i) in Ek.
        destruct (HS true i Hn eq_refl Ei) as [_ H].
        assert (Hi : known (h i) <= n) by (apply H; right; right; split; [assumption|destruct (pace_of prog i); discriminate]).
        cbn [oview]. rewrite (proj2 (rd_none _ _) Hi). reflexivity.
      - destruct F' as ((i & Ei & _) & _). rewrite Ei in *. cbn [operand_pace] in Ek.
        fold (pace_of prog i) in Ek.
        destruct (HS false i Hn eq_refl Ei) as [_ H].
        assert (Hi : known (h i) <= n) by (apply H; right; right; split; [assumption|congruence]).
        cbn [oview]. rewrite (proj2 (rd_none _ _) Hi). reflexivity.
      - destruct (operand_pace (paces prog) (i_op1 ins)); try discriminate; destruct (operand_pace (paces prog) (i_op2 ins)); discriminate.
      - destruct (operand_pace (paces prog) (i_op1 ins)); try discriminate; destruct (operand_pace (paces prog) (i_op2 ins)); discriminate.
      - destruct (operand_pace (paces prog) (i_op1 ins)); try discriminate; destruct (operand_pace (paces prog) (i_op2 ins)); discriminate.
    Qed.

    Variables (h' : nat -> list verdict).
    Let ma' := update (tr ts) k ins ma.
    Let mt' := update (tr ts) k ins mt.
    Hypothesis HV : visited prog wide tr part h h' ts ma ma' k ins c.
    Hypothesis HP : passing prog wide tr part ts (S k) h' ma'.

    Lemma hother j : j <> k -> h' j = h j.
    Proof using HV. intros H. apply (v_others _ _ _ _ _ _ _ _ _ _ _ _ HV j H). Qed.
    Lemma hnew : h' k = match l_push l with Some v => push (c_len c) (h k) v | None => h k end.
    Proof using HV. exact (v_new _ _ _ _ _ _ _ _ _ _ _ _ HV). Qed.
    Lemma hlegal v : l_push l = Some v -> known (h k) <= snd v.
    Proof using HV. exact (v_legal _ _ _ _ _ _ _ _ _ _ _ _ HV v). Qed.
    Lemma hknown : known (h' k) = match l_push l with Some v => S (snd v) | None => known (h k) end.
    Proof using HV.
      rewrite hnew. pose proof hlegal as H. destruct (l_push l) as [v|]; [|reflexivity].
      apply push_known. apply H. reflexivity.
    Qed.
    Lemma nnew : q_next (get_queue ma' k) = l_next l.
    Proof using HV. exact (v_next _ _ _ _ _ _ _ _ _ _ _ _ HV). Qed.
    Lemma nmono : n <= l_next l.
    Proof using HV. rewrite <- nnew. exact (v_mono _ _ _ _ _ _ _ _ _ _ _ _ HV). Qed.
    Lemma pfirst : m_progress ma' = FirstLoop <-> m_progress ma = FirstLoop.
    Proof using HV.
      destruct (v_cases _ _ _ _ _ _ _ _ _ _ _ _ HV) as [(_ & _ & -> & _)|[(-> & _)|(-> & _)]]; try reflexivity.
      destruct (m_progress ma); cbn; split; congruence.
    Qed.
    Lemma pidle : m_progress ma' = NoProgress -> m_progress ma = NoProgress /\ l_push l = None.
    Proof using HV Hn Hft.
      intros H.
      destruct (v_cases _ _ _ _ _ _ _ _ _ _ _ _ HV) as [((Hs & _) & _ & E & _)|[(E & _ & Er & _)|(E & _)]].
      - split; [congruence|exact Hs].
      - split; [congruence|]. unfold l, action. rewrite Er. cbn. destruct (oview _ _ _ _ _ _); reflexivity.
      - rewrite E in H. destruct (m_progress ma); discriminate.
    Qed.

    Lemma twin_visit : twin h' ma' mt'.
    Proof using Hroom HL Hn Hft HV.
      destruct tight_update as (qt & Et & T1 & T2 & T3 & T4 & T5 & _).
      destruct (visit_update prog wide tr part wide_ft h ts ma k ins c HI Hn) as (qa & Ea & A1 & A2 & A3 & A4 & A5 & _).
      fold ma' in Ea. fold mt' in Et. fold (action tr h ts ma k ins c) in Ea, A1, A2, A3. fold l in Ea, A1, A2, A3.
      assert (Hka : k < length (m_queues ma)) by (rewrite (i_length _ _ _ _ _ _ _ HI); apply (node_lt prog wide part k ins c Hn)).
      assert (Hkt : k < length (m_queues mt)) by (rewrite (t_length _ _ _ HT); apply (node_lt prog wide part k ins c Hn)).
      assert (G : forall j, j <> k -> get_queue ma' j = get_queue ma j /\ get_queue mt' j = get_queue mt j).
      { intros j Hj. rewrite Ea, Et, !get_St_other by congruence. auto. }
      assert (Ga : get_queue ma' k = qa) by (rewrite Ea; apply get_St; assumption).
      assert (Gt : get_queue mt' k = qt) by (rewrite Et; apply get_St; assumption).
      constructor.
      - rewrite Ea, Et. apply (t_time _ _ _ HT).
      - rewrite Ea, Et. reflexivity.
      - rewrite Ea, Et. reflexivity.
      - rewrite Et. cbn. rewrite set_nth_length. apply (t_length _ _ _ HT).
      - intros j ins' c' Hj. destruct (Nat.eq_dec j k) as [->|Hne].
        + rewrite Ga, Gt. congruence.
        + destruct (G j Hne) as [-> ->]. apply (t_next _ _ _ HT j ins' c' Hj).
      - intros j ins' c' Hj. destruct (Nat.eq_dec j k) as [->|Hne].
        + rewrite Ga, Gt. congruence.
        + destruct (G j Hne) as [-> ->]. apply (t_prev _ _ _ HT j ins' c' Hj).
      - intros j ins' c' Hj. destruct (Nat.eq_dec j k) as [->|Hne].
        + rewrite Gt, T4. apply (t_lb _ _ _ HT k ins' c' Hj).
        + destruct (G j Hne) as [_ ->]. apply (t_lb _ _ _ HT j ins' c' Hj).
      - intros j ins' c' Hj. destruct (Nat.eq_dec j k) as [->|Hne].
        + rewrite Gt, T5. apply (t_ub _ _ _ HT k ins' c' Hj).
        + destruct (G j Hne) as [_ ->]. apply (t_ub _ _ _ HT j ins' c' Hj).
      - intros j ins' c' Hj. destruct (Nat.eq_dec j k) as [->|Hne].
        + rewrite Gt, hnew. pose proof (t_hold _ _ _ HT k ins' c' Hj) as Hh. pose proof hlegal as Hl.
          destruct (l_push l) as [v|].
          * pose proof (holding_push (len k) (c_len c) _ _ (h k) v Hh (n_incr _ _ _ _ _ _ _ _ _ N) (Hl v eq_refl) (Node_wide k ins c Hn)) as P.
            destruct (scq_write _ _ _). injection T1 as -> ->. exact P.
          * injection T1 as -> ->. exact Hh.
        + destruct (G j Hne) as [_ ->]. rewrite (hother j Hne). apply (t_hold _ _ _ HT j ins' c' Hj).
    Qed.
    Lemma tight_other j : j <> k -> get_queue mt' j = get_queue mt j.
    Proof using HL Hn Hft.
      intros Hj. destruct tight_update as (qt & Et & _). fold mt' in Et. rewrite Et. apply get_St_other. congruence.
    Qed.
    Lemma ample_other j : j <> k -> get_queue ma' j = get_queue ma j.
    Proof using HV. intros H. apply (v_others _ _ _ _ _ _ _ _ _ _ _ _ HV j H). Qed.
    Lemma tight_placed sec i : own sec ins = Sub i -> placed (len i) (h i) n (rp sec (get_queue mt' k)).
    Proof using HL Hn Hft.
      intros Eo. destruct tight_update as (qt & Et & _ & _ & _ & _ & _ & Hp). fold mt' in Et.
      specialize (Hp sec). rewrite Eo in Hp. cbn in Hp. rewrite Et, get_St; [exact Hp|].
      rewrite (t_length _ _ _ HT). apply (node_lt prog wide part k ins c Hn).
    Qed.

    Lemma instant_reach j : pace_of prog j = Instant -> forall ins' c', Node j ins' c' -> Wd j = 0.
    Proof using Hft.
      clear - Hft. induction j as [j IH] using lt_wf_ind. intros Hp ins' c' Hj.
      destruct (node_below prog wide part wide_ft j ins' c' Hj) as [B1 B2].
      rewrite (pace_eq prog j ins' (proj1 Hj) B1 B2) in Hp.
      assert (O : forall o, below j o -> (forall i, o = Sub i -> reads ins' i) -> operand_pace (paces prog) o = Instant ->
                  owd prog wide o = 0).
      { intros [b|a|i|] Ho Hr Eo; try reflexivity. cbn in Eo.
        destruct (sub_child prog wide part wide_ft j ins' c' i Hj (Hr i eq_refl)) as (_ & ins2 & c2 & Hi & _).
        change (Wd i = 0). apply (IH i (Ho i eq_refl) Eo ins2 c2 Hi). }
      pose proof (O _ B1 ltac:(intros; left; assumption)) as O1.
      pose proof (O _ B2 ltac:(intros; right; assumption)) as O2. unfold owd in O1, O2.
      unfold wd. rewrite (node_eq prog wide part wide_ft j ins' c' Hj).
      destruct (node_ft prog wide part wide_ft j ins' c' Hj) as [_ Fj].
      unfold instr_pace in Hp. unfold instr_expr. destruct (i_op ins') eqn:Eop; try discriminate.
      - destruct Fj as [[a Ea] _]. rewrite Ea. reflexivity.
      - destruct (i_op1 ins'); try discriminate; destruct (operand_pace _ _); discriminate.
      - destruct (i_op1 ins'); try discriminate; destruct (operand_pace _ _); discriminate.
      - cbn [reach]. auto.
      - cbn [reach fold_right].
        destruct (operand_pace (paces prog) (i_op1 ins')); try discriminate. destruct (operand_pace (paces prog) (i_op2 ins')); try discriminate.
        rewrite O1, O2 by reflexivity. reflexivity.
      - cbn [reach fold_right].
        destruct (operand_pace (paces prog) (i_op1 ins')); try discriminate. destruct (operand_pace (paces prog) (i_op2 ins')); try discriminate.
        rewrite O1, O2 by reflexivity. reflexivity.
      - cbn [reach fold_right].
        destruct (operand_pace (paces prog) (i_op1 ins')); try discriminate. destruct (operand_pace (paces prog) (i_op2 ins')); try discriminate.
        rewrite O1, O2 by reflexivity. reflexivity.
    Qed.

    Lemma instant_known : pace_of prog k = Instant -> known (h' k) = S ts.
    Proof using HL Hn Hft HV HP.
      intros Ek. pose proof (n_hi _ _ _ _ _ _ _ _ _ N) as Hhi. rewrite hknown.
      assert (D : m_progress ma = FirstLoop \/ m_progress ma <> FirstLoop) by (destruct (m_progress ma); auto; right; discriminate).
      destruct D as [Ep|Ep].
      2:{ rewrite (no_push hlegal Ep) by congruence. apply (k_inst _ _ _ _ _ HL k ins c Hn Ek). auto. }
      destruct F as [_ F']. pose proof pace_ins as Pi. rewrite Ek in Pi. symmetry in Pi. unfold instr_pace in Pi.
      assert (Hlo : ts <= known (h k)).
      { pose proof (n_lo _ _ _ _ _ _ _ _ _ N) as H. rewrite (instant_reach k Ek ins c Hn) in H.
        rewrite Nat.sub_0_r in H. apply H. intros E. rewrite E in Pi. discriminate. }
      assert (K : forall sec, operand_pace (paces prog) (own sec ins) = Instant -> oknown h ts (own sec ins) = S ts).
      { intros sec Hs. destruct (own sec ins) as [b|a|i|] eqn:Eo; try reflexivity. cbn in Hs. cbn [oknown].
        destruct (own_child sec i Eo) as (Hlt & ins' & c' & Hi & _).
        apply (k_inst _ _ _ _ _ HL i ins' c' Hi Hs). auto. }
      pose proof (K false) as K1. pose proof (K true) as K2. cbn [own] in K1, K2. clear K.
      pose proof (v_quiet _ _ _ _ _ _ _ _ _ _ _ _ HV) as Q. fold l in Q. unfold quiet in Q.
      pose proof push_soon as Hps. pose proof hlegal as Hlg.
      destruct (l_push l) as [v|] eqn:Ev; [specialize (Hps v eq_refl); specialize (Hlg v eq_refl); lia|].
      specialize (Q eq_refl).
      destruct (i_op ins) eqn:Eop; try discriminate.
      - destruct F' as [[a Ea] _]. unfold l, action in Ev. rewrite Eop, Ea, Ep in Ev. discriminate.
      - destruct (i_op1 ins); try discriminate; destruct (operand_pace (paces prog) (i_op2 ins)); discriminate.
      - destruct (i_op1 ins); try discriminate; destruct (operand_pace (paces prog) (i_op2 ins)); discriminate.
      - specialize (K1 Pi). lia.
      - destruct (operand_pace (paces prog) (i_op1 ins)); try discriminate. destruct (operand_pace (paces prog) (i_op2 ins)); try discriminate.
        specialize (K1 eq_refl). specialize (K2 eq_refl). lia.
      - destruct (operand_pace (paces prog) (i_op1 ins)); try discriminate. destruct (operand_pace (paces prog) (i_op2 ins)); try discriminate.
        specialize (K1 eq_refl). specialize (K2 eq_refl). lia.
      - destruct (operand_pace (paces prog) (i_op1 ins)); try discriminate. destruct (operand_pace (paces prog) (i_op2 ins)); try discriminate.
        specialize (K1 eq_refl). specialize (K2 eq_refl). lia.
    Qed.

    (** The reader just visited is ready for the next writes. *)
    Lemma own_ready sec i x : own sec ins = Sub i ->
      (forall a, solo ins = false -> (if is_until (i_op ins) then c_lb c else 0) + known (h k) = a -> a <= n ->
        rd (h i) n = None \/ x <= a) ->
      ready (len i) (h i) (l_next l) (rp sec (get_queue mt' k)) x.
    Proof using HL Hn Hft HV.
      intros Eo Hx. pose proof (tight_placed sec i Eo) as P. pose proof nmono as Hm.
      apply (placed_ready _ _ n); auto.
      destruct (solo ins) eqn:Es.
      - destruct (solo_catch sec i Es Eo Hm) as [_ [H|H]]; auto.
      - specialize (Hx _ eq_refl eq_refl).
        assert (Hle : (if is_until (i_op ins) then c_lb c else 0) + known (h k) <= n).
        { pose proof next_lb as Hlb. pose proof (n_op _ _ _ _ _ _ _ _ _ N) as O. unfold opinv in O. fold n in O.
          destruct (i_op ins) eqn:Eop; cbn [is_until]; try lia; try (destruct O; fail).
          - unfold solo in Es. rewrite Eop in Es. discriminate.
          - specialize (Hlb (or_introl eq_refl)). lia.
          - specialize (Hlb (or_intror eq_refl)). lia. }
        destruct (Hx Hle) as [H|H]; [auto|right; left; lia].
    Qed.

    Lemma reach_eq : Wd k = reach (node_expr prog confs k).
    Proof using Type. unfold wd. rewrite wide_node. reflexivity. Qed.
    Lemma owd_eq o : owd prog wide o = reach (operand_expr (exprs prog confs) o).
    Proof using Type. unfold owd. rewrite wide_exprs. reflexivity. Qed.

    Lemma reach_bounds : is_until (i_op ins) <> None -> c_ub c <= Wd k.
    Proof using Hn Hft tr.
      intros Hu. destruct (is_until (i_op ins)) as [u|] eqn:E; [|congruence].
      destruct (until_ft prog wide tr part wide_ft k ins c u Hn E) as (_ & _ & _ & -> & _).
      apply Nat.le_add_l.
    Qed.
    Lemma not_return_known : i_op ins <> RETURN -> ts - Wd k <= known (h k).
    Proof using HL Hn. apply (n_lo _ _ _ _ _ _ _ _ _ N). Qed.

    Lemma own_ready_many sec i : own sec ins = Sub i -> pace_of prog i = Many ->
      ready (len i) (h i) (l_next l) (rp sec (get_queue mt' k)) (ts - lag k ins c sec).
    Proof using HL Hn Hft HV.
      intros Eo Hm. apply own_ready; [assumption|]. intros a Es <- Hle. right.
      pose proof not_return_known as Hlo. pose proof next_lb as Hlb. pose proof reach_bounds as Hrb. destruct F as [_ F'].
      unfold lag, wait. rewrite Eo. cbn [operand_pace]. fold (pace_of prog i). rewrite Hm, <- reach_eq.
      unfold solo in Es.
      destruct (i_op ins) eqn:Eop; try discriminate; cbn [is_until] in *; try specialize (Hlo ltac:(discriminate)); try lia.
      - destruct F' as [[b F'] F2]. destruct sec; cbn [own] in Eo; congruence.
      - specialize (Hlb (or_introl eq_refl)). specialize (Hrb ltac:(discriminate)).
        destruct (i_op1 ins); try discriminate; lia.
      - specialize (Hlb (or_intror eq_refl)). specialize (Hrb ltac:(discriminate)).
        destruct (i_op1 ins); try discriminate; lia.
    Qed.

    Lemma child_done o : m_progress ma = NoProgress -> (forall i, o = Sub i -> reads ins i) ->
      S ts - owd prog wide o <= oknown h ts o.
    Proof using HL Hn Hft.
      intros Hp Hr. destruct o as [b|a|i|]; cbn [oknown]; try lia.
      destruct (sub_child prog wide part wide_ft k ins c i Hn (Hr i eq_refl)) as (Hlt & ins' & c' & Hi & Hne).
      pose proof (f_done _ _ _ _ _ _ _ (proj2 (p_idle _ _ _ _ _ _ _ _ (k_pass _ _ _ _ _ HL) Hp i ins' c' Hi) Hlt)) as H.
      change (owd prog wide (Sub i)) with (Wd i). unfold settled in H. destruct (i_op ins'); try exact H. congruence.
    Qed.

    Lemma own_ready_idle sec i : m_progress ma' = NoProgress -> own sec ins = Sub i ->
      ready (len i) (h i) (l_next l) (rp sec (get_queue mt' k)) (S ts - lag k ins c sec).
    Proof using HL Hn Hft HV HP.
      intros Hidle Eo. destruct (pidle Hidle) as [Hid Hnp].
      pose proof (f_done _ _ _ _ _ _ _ (proj2 (p_idle _ _ _ _ _ _ _ _ HP Hidle k ins c Hn) (Nat.lt_succ_diag_r k))) as Hd.
      assert (Hk : known (h' k) = known (h k)) by (rewrite hknown, Hnp; reflexivity).
      pose proof (v_quiet _ _ _ _ _ _ _ _ _ _ _ _ HV Hnp) as Q. unfold quiet in Q.
      pose proof (child_done (i_op1 ins) Hid ltac:(intros; left; assumption)) as C1.
      pose proof (child_done (i_op2 ins) Hid ltac:(intros; right; assumption)) as C2.
      rewrite owd_eq in C1, C2.
      apply own_ready; [assumption|]. intros a Es <- Hle.
      pose proof next_lb as Hlb. pose proof reach_bounds as Hrb. destruct F as [_ F'].
      unfold lag, wait. rewrite <- reach_eq. unfold settled in Hd.
      pose proof (n_op _ _ _ _ _ _ _ _ _ N) as O. unfold opinv in O. fold n in O.
      assert (B : match i_op ins with AND | OR | EQUIV => True | _ => False end ->
        oknown h ts (i_op1 ins) <= known (h k) \/ oknown h ts (i_op2 ins) <= known (h k) -> n = known (h k) ->
        S ts - Wd k <= known (h k) ->
        rd (h i) n = None \/
        S ts - match operand_pace (paces prog) (own sec ins) with Many => Wd k
               | _ => reach (operand_expr (exprs prog confs) (own (negb sec) ins)) end <= 0 + known (h k)).
      { intros _ Q' O' Hd'. destruct (operand_pace (paces prog) (own sec ins)); try (right; lia).
        all: destruct sec; cbn [own negb] in *; rewrite Eo in *; cbn [oknown] in Q'; rewrite rd_none; lia. }
      unfold solo in Es.
      destruct (i_op ins) eqn:Eop; try discriminate; cbn [is_until] in *; try (apply B; auto; lia).
      - destruct F' as [[b F'] F2]. destruct sec; cbn [own] in Eo; congruence.
      - specialize (Hlb (or_introl eq_refl)). specialize (Hrb ltac:(discriminate)).
        right. destruct (i_op1 ins); try discriminate; lia.
      - specialize (Hlb (or_intror eq_refl)). specialize (Hrb ltac:(discriminate)).
        right. destruct (i_op1 ins); try discriminate; lia.
      - destruct F'.
      - destruct F'.
    Qed.

    Lemma lock_visit : lock ts (S k) h' ma' mt'.
    Proof using Hroom HL Hn Hft HV HP Henough.
      assert (Hlt : forall j ins' c' sec i, Node j ins' c' -> own sec ins' = Sub i -> i < j).
      { intros j ins' c' sec i Hj Eo. apply (sub_child prog wide part wide_ft j ins' c' i Hj (own_reads _ _ _ Eo)). }
      constructor.
      - exact HP.
      - exact twin_visit.
      - intros j ins' c' Hj Hr. destruct (Nat.eq_dec j k) as [->|Hne].
        + rewrite hknown. pose proof push_soon as Hps. destruct (l_push l) as [v|]; [apply Hps; reflexivity|].
          apply (k_soon _ _ _ _ _ HL k ins' c' Hj Hr).
        + rewrite (hother j Hne). apply (k_soon _ _ _ _ _ HL j ins' c' Hj Hr).
      - intros j ins' c' Hj Hp Hc. destruct (Nat.eq_dec j k) as [->|Hne]; [apply instant_known; assumption|].
        rewrite (hother j Hne). apply (k_inst _ _ _ _ _ HL j ins' c' Hj Hp).
        destruct Hc as [Hc|Hc]; [left; rewrite <- pfirst; assumption|right; lia].
      - intros j ins' c' sec i Hj Hs Eo. pose proof (Hlt j ins' c' sec i Hj Eo) as Hij.
        destruct (Nat.eq_dec j k) as [->|Hne].
        + destruct (node_fun prog wide part _ _ _ _ _ Hn Hj) as [<- <-].
          rewrite nnew, (hother i) by lia. destruct (solo_catch sec i Hs Eo nmono) as [H _].
          split; [left; assumption|auto].
        + rewrite (ample_other j Hne). destruct (k_solo _ _ _ _ _ HL j ins' c' sec i Hj Hs Eo) as [S1 S2].
          destruct (Nat.eq_dec i k) as [->|Hik].
          * assert (Hk : known (h k) <= q_next (get_queue ma j)) by (apply S2; lia).
            rewrite hnew. pose proof hlegal as Hlg. pose proof (no_push hlegal) as Hnp.
            destruct (l_push l) as [v|].
            -- split; [apply one_new_push; auto; apply (n_incr _ _ _ _ _ _ _ _ _ N)|].
               intros [Hc|[Hc|[Hc1 Hc2]]]; try lia. rewrite pfirst in Hc1. discriminate (Hnp Hc1 Hc2).
            -- split; [left; assumption|auto].
          * rewrite (hother i Hik). split; [assumption|]. rewrite pfirst. intros [Hc|[Hc|Hc]]; apply S2; [left; lia|right; left; lia|right; right; exact Hc].
      - intros j ins' c' sec i Hj Eo. pose proof (Hlt j ins' c' sec i Hj Eo) as Hij.
        destruct (Nat.eq_dec j k) as [->|Hne].
        + destruct (node_fun prog wide part _ _ _ _ _ Hn Hj) as [<- <-].
          rewrite nnew, (hother i) by lia. split.
          * apply (placed_ready0 _ _ n); [apply tight_placed; assumption|apply nmono].
          * intros _ [Hc|Hc]; [|lia]. apply own_ready_many; assumption.
        + rewrite (ample_other j Hne), (tight_other j Hne). destruct (k_read _ _ _ _ _ HL j ins' c' sec i Hj Eo) as [R1 R2].
          destruct (Nat.eq_dec i k) as [->|Hik].
          * split; [|lia]. rewrite hnew. pose proof hlegal as Hlg. pose proof (no_push hlegal) as Hnp.
            pose proof push_soon as Hps. destruct (l_push l) as [v|]; [|assumption].
            assert (D : pace_of prog k = Many \/ (m_progress ma = FirstLoop /\ k <= k)).
            { destruct (m_progress ma); auto; left; destruct (pace_of prog k); auto;
                discriminate (Hnp ltac:(discriminate) ltac:(discriminate)). }
            apply (ready_push _ _ _ _ _ _ (ts - lag j ins' c' sec)); auto.
            -- apply (n_incr _ _ _ _ _ _ _ _ _ N).
            -- apply (Node_wide k ins c Hn).
            -- pose proof (lag_len j ins' c' sec k Hj Eo). specialize (Hps v eq_refl). lia.
          * rewrite (hother i Hik). split; [assumption|]. rewrite pfirst. intros Hc1 Hc2. apply R2; [lia|].
            destruct Hc2 as [Hc2|[Hc2 Hc3]]; [left; assumption|right; split; [assumption|lia]].
      - intros Hidle j ins' c' sec i Hj Eo Hjk. pose proof (Hlt j ins' c' sec i Hj Eo) as Hij.
        destruct (Nat.eq_dec j k) as [->|Hne].
        + destruct (node_fun prog wide part _ _ _ _ _ Hn Hj) as [<- <-].
          rewrite nnew, (hother i) by lia. apply own_ready_idle; assumption.
        + rewrite (ample_other j Hne), (tight_other j Hne), (hother i) by lia.
          apply (k_idle _ _ _ _ _ HL (proj1 (pidle Hidle)) j ins' c' sec i Hj Eo). lia.
    Qed.
  End Visit.

  (** ** Passes *)
  Lemma lock_alike ts p h ma mt : lock ts p h ma mt -> alike ma mt.
  Proof using Type.
    intros HL. destruct (k_twin _ _ _ _ _ HL) as [T1 T2 T3 T4 _ _ _ _ _]. constructor; auto.
    rewrite T4. symmetry. apply (i_length _ _ _ _ _ _ _ (p_inv _ _ _ _ _ _ _ _ (k_pass _ _ _ _ _ HL))).
  Qed.
  (** An instruction of another part leaves this one as it is. *)
  Lemma lock_frame ts k h ma mt ins :
    lock ts k h ma mt -> nth_error prog k = Some ins -> part k = false ->
    alike (update (tr ts) k ins ma) (update (tr ts) k ins mt) ->
    lock ts (S k) h (update (tr ts) k ins ma) (update (tr ts) k ins mt).
  Proof using Hft Hdist.
    intros HL Hp HK [B1 B2 B3 B4].
    pose proof (pass_frame prog wide tr part wide_ft Hdist ts k h ma ins (k_pass _ _ _ _ _ HL) Hp HK) as [P _].
    destruct (update_framed (tr ts) k ins ma) as [_ A2 A3 A4 _]. destruct (update_framed (tr ts) k ins mt) as [_ _ T3 _ _].
    set (ma' := update (tr ts) k ins ma) in *. set (mt' := update (tr ts) k ins mt) in *. clearbody ma' mt'.
    assert (Hne : forall i ins' c', Node i ins' c' -> i <> k) by (intros i ins' c' (_ & _ & H) ->; congruence).
    assert (Qa : forall i ins' c', Node i ins' c' -> get_queue ma' i = get_queue ma i) by (intros i ins' c' Hi; apply A3, (Hne i ins' c' Hi)).
    assert (Qt : forall i ins' c', Node i ins' c' -> get_queue mt' i = get_queue mt i) by (intros i ins' c' Hi; apply T3, (Hne i ins' c' Hi)).
    assert (Hf : m_progress ma' = FirstLoop <-> m_progress ma = FirstLoop).
    { destruct A4 as [-> | ->]; [reflexivity|]. destruct (m_progress ma); cbn; split; congruence. }
    assert (Hi : m_progress ma' = NoProgress -> m_progress ma = NoProgress).
    { destruct A4 as [-> | ->]; [auto|]. destruct (m_progress ma); cbn; congruence. }
    assert (Hch : forall j ins' c' sec i, Node j ins' c' -> own sec ins' = Sub i -> i <> k).
    { intros j ins' c' sec i Hj Eo. destruct (sub_child prog wide part wide_ft j ins' c' i Hj (own_reads _ _ _ Eo)) as (_ & x & y & Hx & _).
      exact (Hne i x y Hx). }
    pose proof (i_length _ _ _ _ _ _ _ (p_inv _ _ _ _ _ _ _ _ P)) as HlA.
    destruct HL as [K1 K2 K3 K4 K5 K6 K7]. constructor.
    - exact P.
    - destruct K2 as [W1 W2 W3 W4 W5 W6 W7 W8 W9].
      constructor; try assumption; [congruence|..]; intros i ins' c' Hn; rewrite ?(Qa i ins' c' Hn), ?(Qt i ins' c' Hn); eauto.
    - assumption.
    - intros i ins' c' Hn Hr Hc. pose proof (Hne i ins' c' Hn). apply (K4 i ins' c' Hn Hr).
      destruct Hc as [Hc|Hc]; [left; rewrite <- Hf; assumption|right; lia].
    - intros j ins' c' sec i Hn Hs Eo. rewrite (Qa j ins' c' Hn). destruct (K5 j ins' c' sec i Hn Hs Eo) as [S1 S2].
      split; [assumption|]. intros Hc. apply S2. rewrite <- Hf. pose proof (Hne j ins' c' Hn). pose proof (Hch j ins' c' sec i Hn Eo).
      destruct Hc as [Hc|[Hc|Hc]]; [left; lia|right; left; lia|right; right; exact Hc].
    - intros j ins' c' sec i Hn Eo. rewrite (Qa j ins' c' Hn), (Qt j ins' c' Hn).
      destruct (K6 j ins' c' sec i Hn Eo) as [R1 R2]. split; [assumption|]. rewrite Hf. intros Hc1 Hc2.
      pose proof (Hne j ins' c' Hn). apply R2; [lia|]. destruct Hc2 as [Hc2|[Hc2 Hc3]]; [left; assumption|right; split; [assumption|lia]].
    - intros Hid j ins' c' sec i Hn Eo Hlt. rewrite (Qa j ins' c' Hn), (Qt j ins' c' Hn).
      apply (K7 (Hi Hid) j ins' c' sec i Hn Eo). pose proof (Hne j ins' c' Hn). lia.
  Qed.
  Lemma twin_again h ma mt : twin h ma mt -> twin h (again ma) (again mt).
  Proof using Type. intros []. constructor; assumption || reflexivity. Qed.
  Lemma twin_onward h ma mt : twin h ma mt -> twin h (onward ma) (onward mt).
  Proof using Type. intros []. constructor; try assumption; try reflexivity. cbn. congruence. Qed.

  Lemma lock_again ts h ma mt : lock ts (length prog) h ma mt -> lock ts 0 h (again ma) (again mt).
  Proof using Type.
    intros HL. assert (Hlt : forall j ins c, Node j ins c -> j < length prog) by (intros; eapply node_lt; eassumption).
    destruct HL as [K1 K2 K3 K4 K5 K6 K7]. constructor.
    - apply next_pass. assumption.
    - apply twin_again. assumption.
    - assumption.
    - intros k ins c Hn Hp _. apply (K4 k ins c Hn Hp). right. apply (Hlt k ins c Hn).
    - intros j ins c sec i Hn Hs Eo. destruct (K5 j ins c sec i Hn Hs Eo) as [S1 S2]. split; [assumption|].
      intros _. apply S2. left. apply (Hlt j ins c Hn).
    - intros j ins c sec i Hn Eo. destruct (K6 j ins c sec i Hn Eo) as [R1 R2]. split; [assumption|].
      intros _ [Hc|[Hc _]]; [|discriminate]. apply R2; [|auto]. left. apply (Hlt j ins c Hn).
    - intros; lia.
  Qed.
  Lemma lock_onward ts h ma mt :
    lock ts (length prog) h ma mt -> m_progress ma = NoProgress -> lock (S ts) 0 h (onward ma) (onward mt).
  Proof using Type.
    intros HL Hp. assert (Hlt : forall j ins c, Node j ins c -> j < length prog) by (intros; eapply node_lt; eassumption).
    destruct HL as [K1 K2 K3 K4 K5 K6 K7]. constructor.
    - apply start_passing. apply step_end; assumption.
    - apply twin_onward. assumption.
    - intros k ins c Hn Hr. specialize (K3 k ins c Hn Hr). lia.
    - intros k ins c _ _ [Hc|Hc]; [elim Hc; reflexivity|lia].
    - intros j ins c sec i Hn Hs Eo. destruct (K5 j ins c sec i Hn Hs Eo) as [S1 S2]. split; [assumption|].
      intros _. apply S2. left. apply (Hlt j ins c Hn).
    - intros j ins c sec i Hn Eo. destruct (K6 j ins c sec i Hn Eo) as [R1 R2]. split; [assumption|].
      intros _ _. apply (K7 Hp j ins c sec i Hn Eo). apply (Hlt j ins c Hn).
    - discriminate.
  Qed.

  Lemma lock_init : lock 0 0 (fun _ => []) (init prog wide) (init prog confs).
  Proof using Hft.
    assert (G : forall k ins c, Node k ins c -> exists c0, c = widen c0 /\ len k = c_len c0 /\ 1 <= c_len c0 /\
      get_queue (init prog wide) k = init_queue ins c /\ get_queue (init prog confs) k = init_queue ins c0).
    { intros k ins c Hn. destruct (Node_conf k ins c Hn) as (c0 & E0 & E1 & E2 & E3). exists c0.
      destruct Hn as (H1 & H2 & _). repeat (split; [assumption|]).
      unfold get_queue, init. cbn [m_queues].
      split; (erewrite nth_error_nth; [reflexivity|]; rewrite nth_error_map;
              erewrite combine_nth_error by eassumption; reflexivity). }
    constructor.
    - apply start_passing. apply (start_init prog wide tr part wide_ft).
    - constructor; try reflexivity.
      + cbn. rewrite map_length, combine_length. destruct Hft as [E _]. lia.
      + intros k ins c Hn. destruct (G k ins c Hn) as (c0 & -> & _ & _ & -> & ->). reflexivity.
      + intros k ins c Hn. destruct (G k ins c Hn) as (c0 & -> & _ & _ & -> & ->). reflexivity.
      + intros k ins c Hn. destruct (G k ins c Hn) as (c0 & -> & _ & _ & _ & ->). reflexivity.
      + intros k ins c Hn. destruct (G k ins c Hn) as (c0 & -> & _ & _ & _ & ->). reflexivity.
      + intros k ins c Hn. destruct (G k ins c Hn) as (c0 & _ & -> & H1 & _ & ->). cbn [init_queue q_slots q_write].
        apply holding_init. assumption.
    - intros. cbn. lia.
    - intros k ins c _ _ [Hc|Hc]; [elim Hc; reflexivity|lia].
    - intros. split; [left; cbn; lia|]. intros _. cbn. lia.
    - intros j ins c sec i Hn Eo.
      destruct (sub_child prog wide part wide_ft j ins c i Hn (own_reads _ _ _ Eo)) as (_ & ins' & c' & Hi & _).
      destruct (G j ins c Hn) as (c0 & _ & _ & _ & _ & ->). destruct (G i ins' c' Hi) as (c1 & _ & -> & H1 & _ & _).
      replace (rp sec (init_queue ins c0)) with 0 by (destruct sec; reflexivity).
      split; [|intros _ _]; apply ready_init; assumption.
    - discriminate.
  Qed.

End Tight.

(** ** Programs that are future-time throughout *)
Section Whole.
  Context {I : impl}.
  Variables (prog : list instr) (confs : list qconf) (tr : trace).
  Hypothesis Hft : ft_program prog confs.
  Hypothesis Hdist : distinct_reports prog.
  Hypothesis Henough : queues_enough prog confs.

  Definition slack : nat := 2 + list_sum (map reach (exprs prog confs)).
  Lemma slack_ge k : reach (node_expr prog confs k) + 2 <= slack.
  Proof using Type.
    unfold slack, node_expr. destruct (nth_in_or_default k (exprs prog confs) (EConst false)) as [H|H]; [|rewrite H; cbn; lia].
    revert H. generalize (nth k (exprs prog confs) (EConst false)) as e. intros e H.
    assert (reach e <= list_sum (map reach (exprs prog confs))); [|lia].
    revert H. generalize (exprs prog confs) as l.
    induction l as [|x l IH]; intros H; [destruct H|]. cbn. destruct H as [->|H]; [lia|].
    specialize (IH H). unfold list_sum in IH. lia.
  Qed.
  Let Hpart := whole_part prog confs Hft.
  Let Hall : part_enough all prog confs := fun k ins conf c conf_c _ => Henough k ins conf c conf_c.
  Local Notation Lock := (lock prog confs tr all slack).
  Local Notation Wide := (wide confs slack).

  Lemma lock_run ts : forall rest k h ma mt,
    (forall i, nth_error rest i = nth_error prog (k + i)) -> k + length rest = length prog ->
    Lock ts k h ma mt ->
    exists h', Lock ts (length prog) h' (run_pass (tr ts) k rest ma) (run_pass (tr ts) k rest mt).
  Proof using Hft Hdist Henough.
    induction rest as [|ins rest IH]; intros k h ma mt Hnth Hlen HL.
    - cbn in *. rewrite Nat.add_0_r in Hlen. subst k. exists h. assumption.
    - assert (Hp : nth_error prog k = Some ins) by (rewrite <- (Nat.add_0_r k); symmetry; apply (Hnth 0)).
      destruct (Node_of prog confs all slack Hpart k ins Hp eq_refl) as [c Hn].
      destruct (pass_visit prog Wide tr all (wide_ft prog confs all slack Hpart) Hdist (wide_ample prog confs all slack slack_ge)
                  ts k h ma ins c (k_pass _ _ _ _ _ _ _ _ _ _ HL) Hn) as (h1 & V & P & _).
      cbn [run_pass]. apply (IH (S k) h1).
      + intros i. specialize (Hnth (S i)). cbn in Hnth. rewrite Hnth. f_equal. lia.
      + cbn in Hlen. lia.
      + apply (lock_visit prog confs tr all slack Hpart Hall slack_ge h ts ma mt k ins c HL Hn h1 V P).
  Qed.

  Lemma step_lock ts : forall fuel h ma mt, Lock ts 0 h ma mt ->
    match step fuel (tr ts) prog ma, step fuel (tr ts) prog mt with
    | Some ma', Some mt' => exists h', Lock (S ts) 0 h' ma' mt'
    | None, None => True
    | _, _ => False
    end.
  Proof using Hft Hdist Henough.
    induction fuel as [|fuel IH]; intros h ma mt HL; cbn [step]; [exact Logic.I|].
    destruct (lock_run ts prog 0 h ma mt (fun i => eq_refl) eq_refl HL) as (h1 & L1).
    set (ma1 := run_pass (tr ts) 0 prog ma) in *. set (mt1 := run_pass (tr ts) 0 prog mt) in *.
    specialize (IH h1 _ _ (lock_again _ _ _ _ _ ts h1 ma1 mt1 L1)).
    rewrite (a_progress _ _ (lock_alike _ _ _ _ _ _ _ _ _ _ L1)).
    destruct (m_progress ma1) eqn:Ep.
    - exact IH.
    - exists h1. exact (lock_onward _ _ _ _ _ ts h1 ma1 mt1 L1 Ep).
    - exact IH.
  Qed.
  Lemma run_lock fuel : forall n ts h ma mt, Lock ts 0 h ma mt ->
    match run fuel (map tr (seq ts n)) prog ma, run fuel (map tr (seq ts n)) prog mt with
    | Some ma', Some mt' => m_out mt' = m_out ma'
    | None, None => True
    | _, _ => False
    end.
  Proof using Hft Hdist Henough.
    induction n as [|n IH]; intros ts h ma mt HL; cbn [seq map run].
    - apply (a_out _ _ (lock_alike _ _ _ _ _ _ _ _ _ _ HL)).
    - pose proof (step_lock ts fuel h ma mt HL) as S1.
      destruct (step fuel (tr ts) prog ma) as [ma1|], (step fuel (tr ts) prog mt) as [mt1|]; try destruct S1; auto.
      apply (IH (S ts) x). assumption.
  Qed.

  Lemma same_reports fuel n :
    match run fuel (rows tr n) prog (init prog Wide), run fuel (rows tr n) prog (init prog confs) with
    | Some ma', Some mt' => m_out mt' = m_out ma'
    | None, None => True
    | _, _ => False
    end.
  Proof using Hft Hdist Henough. exact (run_lock fuel n 0 _ _ _ (lock_init prog confs tr all slack Hpart)). Qed.

  Lemma whole_ft : ft_program prog Wide.
  Proof using Hft.
    destruct (wide_ft prog confs all slack Hpart) as (H1 & _ & H2). split; [assumption|]. intros k ins c. apply H2. reflexivity.
  Qed.
  Lemma whole_wide : queues_ample prog Wide.
  Proof using Type. intros k ins c conf. apply (wide_ample prog confs all slack slack_ge). reflexivity. Qed.
  Lemma wide_run fuel n m :
    run fuel (rows tr n) prog (init prog confs) = Some m ->
    exists ma, run fuel (rows tr n) prog (init prog Wide) = Some ma /\ forall f, reports f m = reports f ma.
  Proof using Hft Hdist Henough.
    intros H. pose proof (same_reports fuel n) as S1. rewrite H in S1.
    destruct (run fuel (rows tr n) prog (init prog Wide)) as [ma|]; [|destruct S1].
    exists ma. split; [reflexivity|]. intros f. apply reports_of. assumption.
  Qed.
  Lemma tight_sound fuel n m k ins t b :
    run fuel (rows tr n) prog (init prog confs) = Some m ->
    nth_error prog k = Some ins -> i_op ins = RETURN ->
    reported (reports (i_num ins) m) t b ->
    (b = true <-> sat tr (node_expr prog confs k) t) /\ t < n.
  Proof using Hft Hdist Henough.
    intros H1 H2 H3 H4. destruct (wide_run fuel n m H1) as (ma & Ha & Er). rewrite Er in H4.
    rewrite <- (wide_node prog confs slack). exact (run_sound prog Wide tr whole_ft Hdist whole_wide fuel n ma k ins t b Ha H2 H3 H4).
  Qed.
  Lemma tight_increasing fuel n m k ins :
    run fuel (rows tr n) prog (init prog confs) = Some m ->
    nth_error prog k = Some ins -> i_op ins = RETURN -> increasing (reports (i_num ins) m).
  Proof using Hft Hdist Henough.
    intros H1 H2 H3. destruct (wide_run fuel n m H1) as (ma & Ha & Er). rewrite Er.
    exact (run_increasing prog Wide tr whole_ft Hdist whole_wide fuel n ma k ins Ha H2 H3).
  Qed.
  Lemma tight_timely fuel n m k ins t :
    run fuel (rows tr n) prog (init prog confs) = Some m ->
    nth_error prog k = Some ins -> i_op ins = RETURN ->
    t + reach (node_expr prog confs k) < n -> exists b, reported (reports (i_num ins) m) t b.
  Proof using Hft Hdist Henough.
    intros H1 H2 H3 H4. destruct (wide_run fuel n m H1) as (ma & Ha & Er). rewrite Er. rewrite <- (wide_node prog confs slack) in H4.
    exact (run_timely prog Wide tr whole_ft Hdist whole_wide fuel n ma k ins t Ha H2 H3 H4).
  Qed.
  Lemma tight_total fuel n :
    max_passes prog confs <= fuel -> exists m, run fuel (rows tr n) prog (init prog confs) = Some m.
  Proof using Hft Hdist Henough.
    intros H. pose proof (same_reports fuel n) as S1.
    assert (Hm : max_passes prog Wide <= fuel) by (unfold max_passes; rewrite (wide_exprs prog confs slack); exact H).
    destruct (run_total prog Wide tr whole_ft Hdist whole_wide fuel n Hm) as [ma Ha]. rewrite Ha in S1.
    destruct (run fuel (rows tr n) prog (init prog confs)) as [m|]; [eauto|destruct S1].
  Qed.
End Whole.
