(** * Invariant of the engine on past-time programs (proof infrastructure) *)
From Coq Require Import List Arith Bool Lia.
Require Import Verif.Mltl Verif.MltlEval Verif.Scq Verif.Engine Verif.Monitoring.
Require Import Verif.ScqProofs Verif.EngineLocal Verif.FrameProofs Verif.NodeProofs Verif.MonitorProofs.
Require Import Verif.PastMonitor Verif.PastNode.
Import ListNotations.

Section Past.
  Context {I : impl}.
  Variables (prog : list instr) (confs : list qconf) (tr : trace) (part : nat -> bool).
  Hypothesis Hpt : pt_part part prog confs.
  Hypothesis Hdist : distinct_reports prog.
  Hypothesis Hample : pt_part_ample part prog confs.

  Notation node := (node prog confs part).
  Notation clen := (clen confs).
  Notation val := (val prog confs tr).
  Notation ostream := (ostream prog confs tr).
  Notation oview := (oview tr).
  Notation oreader := (oreader confs).
  Notation reading := (reading confs).
  Definition ld (k : nat) : nat := lead (node_expr prog confs k).
  Definition old (o : operand) : nat := lead (operand_expr (exprs prog confs) o).

  Lemma pnode_pt k ins c : node k ins c -> pt_instr prog k ins c.
  Proof. intros (H1 & H2 & H3). apply (proj2 (proj2 Hpt)); assumption. Qed.
  Lemma pnode_of k ins : nth_error prog k = Some ins -> part k = true -> exists c, node k ins c.
  Proof.
    intros H HK. destruct (nth_error confs k) as [c|] eqn:E; [exists c; repeat split; assumption|].
    apply nth_error_None in E. assert (k < length prog) by (apply nth_error_Some; congruence).
    destruct Hpt. lia.
  Qed.
  Lemma psub_child k ins c j :
    node k ins c -> reads ins j -> j < k /\ exists ins' c', node j ins' c' /\ i_op ins' <> RETURN.
  Proof.
    intros Hn Hr.
    assert (E : forall o, earlier prog k o -> o = Sub j -> j < k /\ exists ins' c', node j ins' c' /\ i_op ins' <> RETURN).
    { intros o (j' & -> & Hj & ins' & Hi & Hr') Eq. injection Eq as ->.
      destruct (pnode_of j ins' Hi) as [c' Hc]; [|eauto].
      apply (proj1 (proj2 Hpt) k ins j); [apply Hn|apply Hn|exact Hr]. }
    pose proof (pnode_pt k ins c Hn) as [_ H].
    destruct (i_op ins); cbv zeta iota in H; destruct Hr as [Hr|Hr];
      repeat match goal with
      | H : _ /\ _ |- _ => destruct H
      | H : exists _, _ |- _ => destruct H
      end; try (eapply E; [|eassumption]; assumption); try congruence; try easy.
  Qed.
  Lemma pnode_below k ins c : node k ins c -> below k (i_op1 ins) /\ below k (i_op2 ins).
  Proof.
    intros Hn. split; intros j E; apply (psub_child k ins c j Hn); [left|right]; assumption.
  Qed.
  Lemma pnode_eq k ins c : node k ins c -> node_expr prog confs k = instr_expr (exprs prog confs) ins c.
  Proof. intros Hn. destruct (pnode_below k ins c Hn). apply (node_expr_eq prog confs part); assumption. Qed.
  Lemma pample k ins c j : node k ins c -> reads ins j -> ld j + 2 <= clen j.
  Proof.
    intros Hn Hr. destruct (psub_child k ins c j Hn Hr) as (_ & ins' & c' & Hn' & _).
    rewrite (node_len prog confs part j ins' c' Hn'). destruct Hn as (Hp & _ & HK), Hn' as (_ & Hc & _).
    unfold ld. eapply Hample; eauto.
  Qed.
  Lemma ld_eq k ins c : node k ins c -> ld k =
    match i_op ins with
    | LOAD | RETURN | NOT => old (i_op1 ins)
    | AND | OR | EQUIV | UNTIL | RELEASE => Nat.max (old (i_op1 ins)) (old (i_op2 ins))
    | SINCE | TRIGGER => old (i_op2 ins) + c_ub c
    end.
  Proof.
    intros Hn. unfold ld, old. rewrite (pnode_eq k ins c Hn). unfold instr_expr.
    destruct (i_op ins); cbn [lead fold_right]; try reflexivity; lia.
  Qed.
  Lemma pval_eq k ins c : node k ins c -> val k = den tr (instr_expr (exprs prog confs) ins c).
  Proof. intros Hn. unfold MonitorProofs.val. rewrite (pnode_eq k ins c Hn). reflexivity. Qed.

  (** ** The invariant *)
  Definition popinv (ts k : nat) (ins : instr) (c : qconf) (K n : nat) (prev edge : verdict) : Prop :=
    ts <= n /\
    match i_op ins with
    | LOAD | NOT | AND | OR | EQUIV => n = K
    | SINCE => sinv true (c_lb c) (ostream (i_op2 ins)) (S ts + old (i_op2 ins)) K n prev edge
    | TRIGGER => sinv false (c_lb c) (ostream (i_op2 ins)) (S ts + old (i_op2 ins)) K n prev edge
    | RETURN => n <= S ts + ld k
    | UNTIL | RELEASE => False
    end.
  Record pninv (h : nat -> list verdict) (ts : nat) (m : monitor) (k : nat) (ins : instr) (c : qconf) : Prop := {
    pn_len : length (q_slots (get_queue m k)) = c_len c;
    pn_lb : q_lb (get_queue m k) = c_lb c;
    pn_ub : q_ub (get_queue m k) = c_ub c;
    pn_ring : ring (q_slots (get_queue m k)) (q_write (get_queue m k)) (h k);
    pn_incr : incr (h k);
    pn_sound : forall n w, rd (h k) n = Some w -> val k n = fst w;
    pn_hi : known (h k) <= S ts + ld k;
    pn_op : popinv ts k ins c (known (h k)) (q_next (get_queue m k)) (q_prev (get_queue m k)) (q_edge (get_queue m k));
    pn_rd1 : oreader h (i_op1 ins) (q_next (get_queue m k)) (q_read1 (get_queue m k)) (ts - 1);
    pn_rd2 : oreader h (i_op2 ins) (q_next (get_queue m k)) (q_read2 (get_queue m k)) (ts - 1);
    pn_ret : i_op ins = RETURN ->
             incr (reports (i_num ins) m) /\
             (forall n w, rd (reports (i_num ins) m) n = Some w -> val k n = fst w) /\
             known (reports (i_num ins) m) = q_next (get_queue m k)
  }.
  Record PInv (h : nat -> list verdict) (ts : nat) (m : monitor) : Prop := {
    pi_time : m_time m = ts;
    pi_length : length (m_queues m) = length prog;
    pi_nodes : forall k ins c, node k ins c -> pninv h ts m k ins c
  }.

  (** What the instruction does, given what its operands hold. *)
  Definition since_bit (op : opcode) : option bool :=
    match op with SINCE => Some true | TRIGGER => Some false | _ => None end.
  Definition plocal (h : nat -> list verdict) (ts : nat) (m : monitor) (k : nat) (ins : instr) (c : qconf) : local :=
    let q := get_queue m k in
    local_of (i_op ins) (c_lb c) (c_ub c) (q_next q) (q_prev q)
      (oview h ts (m_progress m) (i_op1 ins) (q_next q))
      (if binary (i_op ins) then oview h ts (m_progress m) (i_op2 ins) (q_next q) else None).
  Definition pact (h : nat -> list verdict) (ts : nat) (m : monitor) (k : nat) (ins : instr) (c : qconf)
    : past * option verdict :=
    let q := get_queue m k in
    match since_bit (i_op ins) with
    | Some s => (since_action s ts q (oview h ts (m_progress m) (i_op2 ins) (q_next q)), None)
    | None => let l := plocal h ts m k ins c in (Past (l_push l) (l_next l) (l_prev l) (q_edge q), l_out l)
    end.

  Section Visit.
    Variables (h : nat -> list verdict) (ts : nat) (m : monitor) (k : nat) (ins : instr) (c : qconf).
    Hypothesis HI : PInv h ts m.
    Hypothesis Hn : node k ins c.
    Let q := get_queue m k.
    Let pr := m_progress m.
    Let n := q_next q.
    Let a := fst (pact h ts m k ins c).
    Let out := snd (pact h ts m k ins c).

    Lemma pfetch_view o r x :
      (forall j, o = Sub j -> reads ins j) -> oreader h o n r x ->
      let f := fetch (tr ts) pr (m_time m) (get_queue m) o n r in
      snd f = oview h ts pr o n /\ reading h o n (fst f) /\ oreader h o n (fst f) x.
    Proof.
      intros Ho Hr. rewrite (pi_time _ _ _ HI). destruct o as [b|at_|j|]; cbn; auto.
      destruct (psub_child k ins c j Hn (Ho j eq_refl)) as (_ & ins' & c' & Hn' & _).
      pose proof (pi_nodes _ _ _ HI j ins' c' Hn') as N.
      cbn in Hr. pose proof (node_len prog confs part j ins' c' Hn') as Hl. rewrite <- (pn_len _ _ _ _ _ _ N) in Hl.
      pose proof (scq_read_spec _ _ (h j) n r x (pn_ring _ _ _ _ _ _ N) (pn_incr _ _ _ _ _ _ N)) as R.
      rewrite <- Hl in R. specialize (R Hr). destruct (scq_read _ _ _ _) as [r' v].
      cbn. destruct R as (-> & R1 & R2). auto.
    Qed.

    Lemma pvisit_update :
      exists q',
        update (tr ts) k ins m =
        St m k q' (match a_push a, out with
                   | None, None => pr
                   | None, Some _ => return_flag pr
                   | _, _ => flag pr
                   end)
           (match out with Some v => m_out m ++ [(i_num ins, v)] | None => m_out m end) /\
        (q_slots q', q_write q') = write_opt q (a_push a) /\
        q_next q' = a_next a /\ q_prev q' = a_prev a /\ q_edge q' = a_edge a /\ q_lb q' = q_lb q /\ q_ub q' = q_ub q /\
        oreader h (i_op1 ins) n (q_read1 q') (ts - 1) /\ oreader h (i_op2 ins) n (q_read2 q') (ts - 1) /\
        (a_push a = None -> reading h (i_op1 ins) n (q_read1 q') /\ reading h (i_op2 ins) n (q_read2 q')).
    Proof.
      pose proof (pi_nodes _ _ _ HI k ins c Hn) as N.
      destruct (pnode_below k ins c Hn) as [B1 B2].
      assert (Hlt : k < length (m_queues m)).
      { rewrite (pi_length _ _ _ HI). apply (node_lt prog confs part k ins c Hn). }
      pose proof (pnode_pt k ins c Hn) as [_ F].
      pose proof (pfetch_view (i_op1 ins) (q_read1 q) (ts - 1) ltac:(intros; left; assumption)
                             (pn_rd1 _ _ _ _ _ _ N)) as (F0 & F0a & F0b).
      pose proof (pfetch_view (i_op2 ins) (q_read2 q) (ts - 1) ltac:(intros; right; assumption)
                             (pn_rd2 _ _ _ _ _ _ N)) as (F1 & F1a & F1b).
      destruct (since_bit (i_op ins)) as [s|] eqn:Es.
      - assert (Ha : a = since_action s ts q (oview h ts pr (i_op2 ins) n) /\ out = None)
          by (unfold a, out, pact; rewrite Es; split; reflexivity).
        destruct Ha as [Ha Hout].
        assert (F' : i_op ins = (if s then SINCE else TRIGGER) /\ i_op1 ins = Direct s /\ exists j, i_op2 ins = Sub j).
        { destruct (i_op ins); try discriminate; injection Es as <-; destruct F as (P1 & (j & P2 & _) & _); eauto. }
        destruct F' as (Eop & E1 & j & E2).
        assert (Hjk : j <> k) by (specialize (B2 j E2); lia).
        destruct (since_after (tr ts) k ins m s j Hlt Eop E1 E2 Hjk) as (r & Hr & E). cbv zeta in Hr, E.
        rewrite E2 in *. cbn [fetch] in F1, F1a, F1b. fold q in E, Hr. fold n in E, Hr.
        rewrite F1 in E. rewrite (pi_time _ _ _ HI) in E. rewrite <- Ha in E.
        rewrite E, Hout. clearbody a.
        match goal with |- exists q', St _ _ ?x _ _ = _ /\ _ => exists x end.
        split; [destruct (a_push a); reflexivity|].
        cbn [q_slots q_write q_next q_prev q_edge q_lb q_ub q_read1 q_read2].
        split; [destruct (write_opt q (a_push a)); reflexivity|].
        repeat (split; [reflexivity|]). rewrite E1. split; [exact Logic.I|]. split.
        + destruct Hr as [[-> _]| ->]; [|assumption]. pose proof (pn_rd2 _ _ _ _ _ _ N) as R. rewrite E2 in R. exact R.
        + intros Hp. split; [exact Logic.I|]. destruct Hr as [[_ Hr]| ->]; [|assumption].
          rewrite Ha in Hp. unfold since_action in Hp. rewrite Hr in Hp. discriminate.
      - assert (Hf : future (i_op ins)) by (split; intros E; rewrite E in Es; discriminate).
        assert (Ha : a = Past (l_push (plocal h ts m k ins c)) (l_next (plocal h ts m k ins c)) (l_prev (plocal h ts m k ins c)) (q_edge q)
                     /\ out = l_out (plocal h ts m k ins c))
          by (unfold a, out, pact; rewrite Es; split; reflexivity).
        destruct Ha as [Ha Hout].
        rewrite update_after; [|assumption|assumption|intros E; apply B1 in E; lia|intros E; apply B2 in E; lia].
        unfold after. fold q pr.
        assert (Est : start_next (i_op ins) (q_lb q) (q_next q) = n).
        { unfold start_next. destruct (i_op ins); try reflexivity; destruct F. }
        rewrite Est.
        set (f0 := fetch _ _ _ _ (i_op1 ins) _ _) in *.
        set (f1 := fetch _ _ _ _ (i_op2 ins) _ _) in *.
        assert (Hb : binary (i_op ins) = false -> i_op2 ins = NotSet).
        { destruct (i_op ins); try discriminate; intros _; apply F. }
        assert (El : local_of (i_op ins) (q_lb q) (q_ub q) n (q_prev q) (snd f0)
                       (snd (if binary (i_op ins) then f1 else (q_read2 q, None))) = plocal h ts m k ins c).
        { assert (Elb : q_lb q = c_lb c) by exact (pn_lb _ _ _ _ _ _ N).
          assert (Eub : q_ub q = c_ub c) by exact (pn_ub _ _ _ _ _ _ N).
          rewrite Elb, Eub, F0. unfold plocal.
          destruct (binary (i_op ins)); [rewrite F1|]; reflexivity. }
        rewrite El, Ha, Hout. cbn [a_push a_next a_prev a_edge].
        eexists. split; [reflexivity|]. cbn [q_slots q_write q_next q_prev q_edge q_lb q_ub q_read1 q_read2].
        split; [unfold write_opt; destruct (l_push _) as [v|]; [destruct (scq_write _ _ _)|]; reflexivity|].
        repeat (split; [reflexivity|]). split; [assumption|].
        destruct (binary (i_op ins)).
        + split; [assumption|]. intros _. split; assumption.
        + rewrite Hb by reflexivity. split; [exact Logic.I|]. intros _. split; [assumption|exact Logic.I].
    Qed.

    Definition pnewh : nat -> list verdict :=
      match a_push a with
      | Some v => fun j => if j =? k then push (c_len c) (h k) v else h j
      | None => h
      end.
    Let h' := pnewh.
    Let m' := update (tr ts) k ins m.
    Lemma pnewh_same : h' k = match a_push a with Some v => push (c_len c) (h k) v | None => h k end.
    Proof. unfold h', pnewh. case (a_push a); [|reflexivity]. intros v. rewrite Nat.eqb_refl. reflexivity. Qed.
    Lemma pnewh_other j : j <> k -> h' j = h j.
    Proof.
      intros H. unfold h', pnewh. case (a_push a); [|reflexivity]. intros v.
      apply Nat.eqb_neq in H. rewrite H. reflexivity.
    Qed.

    Definition plegal_push : Prop :=
      match a_push a with
      | Some (b, t) => i_op ins <> RETURN /\ known (h k) <= t <= ts + ld k /\ forall s, known (h k) <= s <= t -> val k s = b
      | None => True
      end.
    Definition plegal_out : Prop :=
      match out with
      | Some v => i_op ins = RETURN /\ n <= snd v <= ts + ld k /\ (forall s, n <= s <= snd v -> val k s = fst v) /\
                  a_next a = S (snd v)
      | None => i_op ins = RETURN -> a_next a = n
      end.
    Lemma pnewh_known : plegal_push -> known (h' k) = match a_push a with Some v => S (snd v) | None => known (h k) end.
    Proof.
      intros Hp. rewrite pnewh_same. unfold plegal_push in Hp. destruct (a_push a) as [[b t]|]; [|reflexivity].
      apply push_known. apply Hp.
    Qed.
    Lemma poreader_new j ins' c' o x r :
      plegal_push -> node j ins' c' -> (forall i, o = Sub i -> reads ins' i) ->
      oreader h o x r (ts - 1) -> oreader h' o x r (ts - 1).
    Proof.
      intros Hp Hj Ho. destruct o as [b|at_|i|]; cbn; auto. intros Hr.
      destruct (Nat.eq_dec i k) as [->|Hne]; [|rewrite pnewh_other by assumption; assumption].
      rewrite pnewh_same. unfold plegal_push in Hp. destruct (a_push a) as [[b t]|]; [|assumption].
      pose proof (pi_nodes _ _ _ HI k ins c Hn) as N.
      rewrite <- (node_len prog confs part k ins c Hn). apply reader_push; auto.
      - apply (pn_incr _ _ _ _ _ _ N).
      - apply Hp.
      - pose proof (pample j ins' c' k Hj (Ho k eq_refl)). cbn. lia.
    Qed.

    Lemma pvisit_inv :
      plegal_push -> plegal_out -> n <= a_next a ->
      popinv ts k ins c (known (h' k)) (a_next a) (a_prev a) (a_edge a) ->
      PInv h' ts m'.
    Proof.
      intros Hp Ho Hle Hop.
      destruct pvisit_update as (q' & E & Es & En & Epv & Eed & Elb & Eub & R1' & R2' & _).
      pose proof (pi_nodes _ _ _ HI k ins c Hn) as N.
      assert (Hlt : k < length (m_queues m)).
      { rewrite (pi_length _ _ _ HI). apply (node_lt prog confs part k ins c Hn). }
      unfold m'. rewrite E. constructor.
      - cbn. apply (pi_time _ _ _ HI).
      - cbn. rewrite set_nth_length. apply (pi_length _ _ _ HI).
      - intros j ins' c' Hj. pose proof (pi_nodes _ _ _ HI j ins' c' Hj) as Nj.
        destruct (Nat.eq_dec j k) as [->|Hne].
        + destruct (node_fun prog confs part _ _ _ _ _ Hn Hj) as [<- <-]. clear Nj Hj.
          assert (Hring : length (q_slots q') = c_len c /\ ring (q_slots q') (q_write q') (h' k)).
          { rewrite pnewh_same. unfold plegal_push in Hp. destruct (a_push a) as [[b t]|].
            - pose proof (ring_push _ _ _ (b, t) (pn_ring _ _ _ _ _ _ N) (pn_incr _ _ _ _ _ _ N) ltac:(apply Hp)) as RP.
              cbn [write_opt] in Es. fold q in RP. rewrite <- Es in RP. pose proof (pn_len _ _ _ _ _ _ N) as L. fold q in L.
              rewrite L in RP. exact RP.
            - injection Es as -> ->. split; [apply (pn_len _ _ _ _ _ _ N)|apply (pn_ring _ _ _ _ _ _ N)]. }
          assert (Hincr : incr (h' k)).
          { rewrite pnewh_same. unfold plegal_push in Hp. destruct (a_push a) as [[b t]|]; [|apply (pn_incr _ _ _ _ _ _ N)].
            apply push_incr; [apply (pn_incr _ _ _ _ _ _ N)|apply Hp]. }
          constructor; rewrite ?get_St by assumption.
          * apply Hring.
          * rewrite Elb. apply (pn_lb _ _ _ _ _ _ N).
          * rewrite Eub. apply (pn_ub _ _ _ _ _ _ N).
          * apply Hring.
          * assumption.
          * rewrite pnewh_same. unfold plegal_push in Hp. destruct (a_push a) as [[b t]|]; [|apply (pn_sound _ _ _ _ _ _ N)].
            apply push_sound; [apply (pn_sound _ _ _ _ _ _ N)|apply Hp].
          * rewrite pnewh_known by assumption. unfold plegal_push in Hp.
            destruct (a_push a) as [[b t]|]; [cbn; lia|apply (pn_hi _ _ _ _ _ _ N)].
          * rewrite En, Epv, Eed. assumption.
          * rewrite En. apply (poreader_new k ins c); auto; [intros; left; assumption|].
            apply (oreader_mono confs h _ n); assumption.
          * rewrite En. apply (poreader_new k ins c); auto; [intros; right; assumption|].
            apply (oreader_mono confs h _ n); assumption.
          * intros Hr. destruct (pn_ret _ _ _ _ _ _ N Hr) as (Q1 & Q2 & Q3). fold q in Q3. fold n in Q3.
            unfold plegal_out in Ho. destruct out as [v|].
            -- destruct Ho as (_ & Hv & Hs & Hnx).
               erewrite reports_out; [rewrite (reports_app m k ins (i_num ins) v), Nat.eqb_refl|reflexivity].
               rewrite En, Hnx. split; [|split].
               ++ apply incr_app. repeat split; auto; [cbn; easy|].
                  intros x y Hx [<-|[]]. apply in_known in Hx. lia.
               ++ intros i w. rewrite rd_app. destruct (rd (reports (i_num ins) m) i) as [y|] eqn:Ei.
                  ** intros Hw; injection Hw as <-. apply Q2. assumption.
                  ** intros Hw. pose proof (rd_ge _ _ _ Hw) as [Hge [<-|[]]]. apply Hs.
                     apply rd_none in Ei. lia.
               ++ rewrite known_app. cbn. lia.
            -- rewrite (reports_out _ _ m) by reflexivity. rewrite En, Ho by assumption. auto.
        + constructor; rewrite ?get_St_other by congruence; rewrite ?pnewh_other by assumption;
            try apply Nj.
          * apply (poreader_new j ins' c'); auto; [intros; left; assumption|apply Nj].
          * apply (poreader_new j ins' c'); auto; [intros; right; assumption|apply Nj].
          * intros Hr. unfold plegal_out in Ho. destruct out as [v|].
            -- destruct Ho as (Hret & _).
               erewrite reports_out; [rewrite (reports_app m k ins (i_num ins') v)|reflexivity].
               destruct (i_num ins =? i_num ins') eqn:Ef.
               ++ apply Nat.eqb_eq in Ef. exfalso. apply Hne. symmetry.
                  apply (Hdist k j ins ins'); try assumption; [apply Hn|apply Hj].
               ++ rewrite app_nil_r. apply Nj. assumption.
            -- rewrite (reports_out _ _ m) by reflexivity. apply Nj. assumption.
    Qed.

    (** *** The action is legal *)
    Lemma psub_view j x : reads ins j -> view (val j) (known (h j)) x (rd (h j) x).
    Proof.
      intros Hr. destruct (psub_child k ins c j Hn Hr) as (_ & ins' & c' & Hj & _).
      pose proof (pi_nodes _ _ _ HI j ins' c' Hj) as Nj.
      destruct (rd (h j) x) as [[b t]|] eqn:E; cbn.
      - pose proof (rd_ge _ _ _ E) as [H1 H2]. pose proof (in_known _ _ H2). cbn in *.
        split; [lia|]. intros s Hs. apply (pn_sound _ _ _ _ _ _ Nj s (b, t)).
        apply (rd_within _ x); assumption.
      - apply rd_none. assumption.
    Qed.
    Lemma psub_known j : reads ins j -> known (h j) <= S ts + ld j.
    Proof.
      intros Hr. destruct (psub_child k ins c j Hn Hr) as (_ & ins' & c' & Hj & _).
      apply (pi_nodes _ _ _ HI j ins' c' Hj).
    Qed.
    Lemma pearlier1 : earlier prog k (i_op1 ins) -> exists j, i_op1 ins = Sub j /\ reads ins j /\ old (i_op1 ins) = ld j /\
      view (ostream (i_op1 ins)) (known (h j)) n (oview h ts pr (i_op1 ins) n).
    Proof.
      intros (j & E & _). exists j. assert (Hr : reads ins j) by (left; assumption).
      rewrite E. split; [reflexivity|]. split; [assumption|]. split; [reflexivity|]. apply psub_view. assumption.
    Qed.
    Lemma pearlier2 : earlier prog k (i_op2 ins) -> exists j, i_op2 ins = Sub j /\ reads ins j /\ old (i_op2 ins) = ld j /\
      view (ostream (i_op2 ins)) (known (h j)) n (oview h ts pr (i_op2 ins) n).
    Proof.
      intros (j & E & _). exists j. assert (Hr : reads ins j) by (right; assumption).
      rewrite E. split; [reflexivity|]. split; [assumption|]. split; [reflexivity|]. apply psub_view. assumption.
    Qed.

    Definition plegal : Prop :=
      plegal_push /\ plegal_out /\ n <= a_next a /\
      popinv ts k ins c (known (h' k)) (a_next a) (a_prev a) (a_edge a) /\
      (a_push a = None -> out = None -> i_op ins <> LOAD -> (forall j, reads ins j -> S ts <= known (h j)) ->
       S ts <= a_next a).

    Lemma pbool_legal (f : nat -> bool) Km :
      let l := plocal h ts m k ins c in
      (forall s, val k s = f s) -> ts <= n -> n = known (h k) -> Km <= S ts + ld k ->
      match i_op ins with NOT | AND | OR | EQUIV => True | _ => False end ->
      l_out l = None /\ l_prev l = q_prev q /\
      match l_push l with
      | None => l_next l = n /\ ((forall j, reads ins j -> S ts <= known (h j)) -> S ts <= n)
      | Some (b, t) => n <= t < Km /\ (forall s, n <= s <= t -> f s = b) /\ l_next l = S t
      end -> plegal.
    Proof.
      intros l Hv Hts Hnk Hkm Hop (Eo & Ep & H).
      assert (Ha : a = Past (l_push l) (l_next l) (l_prev l) (q_edge q) /\ out = l_out l).
      { unfold a, out, pact. unfold l. destruct (i_op ins); try (destruct Hop); split; reflexivity. }
      destruct Ha as [Ha Hout].
      assert (Hr : i_op ins <> RETURN) by (intros E; rewrite E in Hop; exact Hop).
      assert (Hlp : plegal_push).
      { unfold plegal_push. rewrite Ha. cbn [a_push]. destruct (l_push l) as [[b t]|]; [|exact Logic.I]. destruct H as (H1 & H2 & H3).
        split; [assumption|]. split; [lia|]. intros s Hs. rewrite Hv. apply H2. lia. }
      split; [assumption|]. split; [unfold plegal_out; rewrite Hout, Eo; intros; contradiction|].
      rewrite pnewh_known by assumption. rewrite Ha. cbn [a_push a_next a_prev a_edge].
      split; [destruct (l_push l) as [[b t]|]; lia|]. split.
      - assert (E : l_next l = match l_push l with Some v => S (snd v) | None => known (h k) end)
          by (destruct (l_push l) as [[b t]|]; cbn; lia).
        unfold popinv. split; [destruct (l_push l) as [[b t]|]; lia|].
        revert Hop. case (i_op ins); intros Hop; try (destruct Hop); assumption.
      - intros E1 _ _ Hk. rewrite E1 in H. destruct H as [-> H]. auto.
    Qed.

    Lemma psince_legal (s : bool) :
      i_op ins = (if s then SINCE else TRIGGER) ->
      once_like s (c_lb c) (c_ub c) (ostream (i_op2 ins)) (val k) ->
      earlier prog k (i_op2 ins) -> c_lb c <= c_ub c -> ts <= n ->
      sinv s (c_lb c) (ostream (i_op2 ins)) (S ts + old (i_op2 ins)) (known (h k)) n (q_prev q) (q_edge q) ->
      plegal.
    Proof.
      intros Eop Hv F2 Hb Hts HS. pose proof (pi_nodes _ _ _ HI k ins c Hn) as N.
      assert (Hr : i_op ins <> RETURN) by (rewrite Eop; destruct s; discriminate).
      assert (Hld : ld k = old (i_op2 ins) + c_ub c) by (rewrite (ld_eq k ins c Hn), Eop; destruct s; reflexivity).
      destruct (pearlier2 F2) as (j & E2 & Hrj & Eold & V).
      pose proof (psub_known j Hrj) as Hkj.
      assert (Ha : a = since_action s ts q (oview h ts pr (i_op2 ins) n) /\ out = None).
      { unfold a, out, pact. rewrite Eop. destruct s; split; reflexivity. }
      destruct Ha as [Ha Hout].
      assert (Elb : q_lb q = c_lb c) by exact (pn_lb _ _ _ _ _ _ N).
      assert (Eub : q_ub q = c_ub c) by exact (pn_ub _ _ _ _ _ _ N).
      unfold since_action in Ha. rewrite Elb, Eub in Ha. fold n in Ha.
      assert (Hpop : forall K x p e, ts <= x ->
                sinv s (c_lb c) (ostream (i_op2 ins)) (S ts + old (i_op2 ins)) K x p e -> popinv ts k ins c K x p e).
      { intros K x p e Hx Hs. unfold popinv. split; [assumption|]. rewrite Eop. destruct s; assumption. }
      destruct (starting (c_lb c) (q_prev q)) eqn:Est.
      - destruct (start_good s (c_lb c) (c_ub c) (ostream (i_op2 ins)) (val k) Hv Hb _ _ _ _ _ HS Est) as (K0 & N0 & L0 & G1 & G2).
        assert (Ea : a = Past (Some (negb s, c_lb c - 1)) n (true, c_lb c - 1) (q_edge q)).
        { rewrite Ha. unfold since_first. rewrite Elb. f_equal. fold n. rewrite N0. destruct I; reflexivity. }
        assert (Hlp : plegal_push).
        { unfold plegal_push. rewrite Ea. cbn [a_push]. split; [assumption|]. split; [lia|]. exact G1. }
        split; [assumption|]. split; [unfold plegal_out; rewrite Hout; intros; contradiction|].
        rewrite pnewh_known by assumption. rewrite Ea. cbn [a_push a_next a_prev a_edge snd].
        split; [lia|]. split; [|discriminate]. apply Hpop; [assumption|].
        replace (S (c_lb c - 1)) with (c_lb c) by lia. exact G2.
      - pose proof (not_starting s (c_lb c) (c_ub c) _ Hb _ _ _ _ _ HS Est) as Hst.
        pose proof (since_visit s (c_lb c) (c_ub c) _ _ Hv Hb _ ts _ _ _ _ _ _ Hst HS V ltac:(lia)) as [G1 G2].
        pose proof (since_quiet s (c_lb c) (c_ub c) _ Hb _ ts _ _ _ _ _ _ Hst HS V) as G3.
        rewrite <- Ha in G1, G2, G3.
        assert (Hlp : plegal_push).
        { unfold plegal_push. destruct (a_push a) as [[b t]|]; [|exact Logic.I]. destruct G2 as (X1 & X2 & X3 & _).
          split; [assumption|]. split; [lia|assumption]. }
        split; [assumption|]. split; [unfold plegal_out; rewrite Hout; intros; contradiction|].
        split; [assumption|]. rewrite pnewh_known by assumption. split.
        + apply Hpop; [lia|]. destruct (a_push a) as [[b t]|]; [apply G2|exact G2].
        + intros Ep _ _ Hk. apply G3; auto.
    Qed.

    Lemma pvisit_legal : (i_op ins = LOAD -> pr = FirstLoop -> known (h k) = ts) -> plegal.
    Proof.
      intros Hload. pose proof (pi_nodes _ _ _ HI k ins c Hn) as N.
      pose proof (pn_op _ _ _ _ _ _ N) as O. fold q in O. fold n in O.
      pose proof (pn_hi _ _ _ _ _ _ N) as Hhi.
      pose proof (pnode_pt k ins c Hn) as [_ F]. pose proof (pval_eq k ins c Hn) as Hv.
      pose proof (ld_eq k ins c Hn) as Hld.
      unfold instr_expr in Hv.
      case_eq (i_op ins); intros Eop; unfold popinv in O; destruct O as [Hts O]; rewrite Eop in O, F, Hv, Hld; cbv zeta iota in F, Hv.
      - (* LOAD *)
        destruct F as [[at_ Fa] Fb].
        assert (Ea : (a = Past None n (q_prev q) (q_edge q) \/
                      a = Past (Some (tr ts at_, ts)) (ts + 1) (q_prev q) (q_edge q) /\ known (h k) = ts) /\ out = None).
        { specialize (Hload Eop). unfold a, out, pact, plocal. rewrite Eop, Fa. cbn [since_bit oview binary].
          revert Hload. unfold pr. destruct (m_progress m); cbn; auto. }
        destruct Ea as [[Ea|[Ea Hk]] Hout].
        + assert (Hlp : plegal_push) by (unfold plegal_push; rewrite Ea; exact Logic.I).
          split; [assumption|]. split; [unfold plegal_out; rewrite Hout, Ea; reflexivity|].
          rewrite pnewh_known by assumption. rewrite Ea. cbn. split; [lia|]. split; [|congruence].
          unfold popinv. rewrite Eop. auto.
        + assert (Hlp : plegal_push).
          { unfold plegal_push; rewrite Ea. cbn. split; [congruence|]. split; [lia|]. intros s Hs. rewrite Hv, Fa. cbn. f_equal. lia. }
          split; [assumption|]. split; [unfold plegal_out; rewrite Hout, Eop; discriminate|].
          rewrite pnewh_known by assumption. rewrite Ea. cbn. split; [lia|]. split; [|congruence].
          unfold popinv. rewrite Eop. lia.
      - (* RETURN *)
        destruct F as [F1 F2]. destruct (pearlier1 F1) as (j & E1 & Hr & Eold & V).
        pose proof (psub_known j Hr) as Hkj.
        assert (Ea : match oview h ts pr (i_op1 ins) n with
                     | Some v => a = Past None (snd v + 1) (q_prev q) (q_edge q) /\ out = Some v
                     | None => a = Past None n (q_prev q) (q_edge q) /\ out = None
                     end).
        { unfold a, out, pact, plocal. rewrite Eop. cbn [since_bit binary local_of].
          change (q_next (get_queue m k)) with n. change (m_progress m) with pr.
          destruct (oview h ts pr (i_op1 ins) n); split; reflexivity. }
        assert (Hlp : plegal_push).
        { unfold plegal_push. destruct (oview h ts pr (i_op1 ins) n); destruct Ea as [-> _]; exact Logic.I. }
        split; [assumption|]. rewrite pnewh_known by assumption. unfold plegal_out, popinv. rewrite Eop.
        destruct (oview h ts pr (i_op1 ins) n) as [[b t]|]; destruct Ea as [-> ->]; cbn in V |- *.
        + destruct V as [V1 V2].
          split; [split; [reflexivity|]; split; [lia|]; split; [|lia]; intros s Hs; rewrite Hv; apply V2; assumption|].
          split; [lia|]. split; [lia|]. discriminate.
        + split; [auto|]. split; [lia|]. split; [lia|]. intros _ _ _ Hk. specialize (Hk j Hr). lia.
      - destruct F.
      - destruct F.
      - (* SINCE *)
        destruct F as (F1 & F2 & F3). apply (psince_legal true); auto.
        rewrite Hv, F1. apply once_like_S.
      - (* TRIGGER *)
        destruct F as (F1 & F2 & F3). apply (psince_legal false); auto.
        rewrite Hv, F1. apply once_like_T.
      - (* NOT *)
        destruct F as [F1 F2]. destruct (pearlier1 F1) as (j & E1 & Hr & Eold & V).
        pose proof (psub_known j Hr) as Hkj.
        apply (pbool_legal (fun s => negb (ostream (i_op1 ins) s)) (known (h j))); auto.
        + intros s. rewrite Hv. reflexivity.
        + lia.
        + rewrite Eop. exact Logic.I.
        + pose proof (not_visit _ _ _ (q_prev q) _ V (c_lb c) (c_ub c)) as W.
          unfold plocal. rewrite Eop. cbn [binary]. change (q_next (get_queue m k)) with n. change (m_progress m) with pr.
          change (get_queue m k) with q. cbv zeta in W.
          destruct W as (W1 & W2 & W3). split; [exact W1|]. split; [exact W2|].
          destruct (l_push _) as [[b t]|]; [exact W3|]. destruct W3 as [-> W3]. split; [reflexivity|].
          intros Hk. specialize (Hk j Hr). lia.
      - (* AND *)
        destruct F as [F1 F2]. destruct (pearlier1 F1) as (j & E1 & Hr & Eold & V).
        destruct (pearlier2 F2) as (j2 & E2 & Hr2 & Eold2 & V2).
        pose proof (psub_known j Hr) as Hkj. pose proof (psub_known j2 Hr2) as Hkj2.
        apply (pbool_legal (fun s => ostream (i_op1 ins) s && ostream (i_op2 ins) s) (Nat.max (known (h j)) (known (h j2)))); auto.
        + intros s. rewrite Hv. cbn. rewrite ?andb_true_r, ?orb_false_r. reflexivity.
        + lia.
        + rewrite Eop. exact Logic.I.
        + pose proof (and_visit _ _ _ _ _ (q_prev q) _ _ V V2 (c_lb c) (c_ub c)) as W.
          unfold plocal. rewrite Eop. cbn [binary]. change (q_next (get_queue m k)) with n. change (m_progress m) with pr.
          change (get_queue m k) with q. cbv zeta in W.
          destruct W as (W1 & W2 & W3). split; [exact W1|]. split; [exact W2|].
          destruct (l_push _) as [[b t]|]; [exact W3|]. destruct W3 as [-> W3]. split; [reflexivity|].
          intros Hk. pose proof (Hk j Hr). pose proof (Hk j2 Hr2). lia.
      - (* OR *)
        destruct F as [F1 F2]. destruct (pearlier1 F1) as (j & E1 & Hr & Eold & V).
        destruct (pearlier2 F2) as (j2 & E2 & Hr2 & Eold2 & V2).
        pose proof (psub_known j Hr) as Hkj. pose proof (psub_known j2 Hr2) as Hkj2.
        apply (pbool_legal (fun s => ostream (i_op1 ins) s || ostream (i_op2 ins) s) (Nat.max (known (h j)) (known (h j2)))); auto.
        + intros s. rewrite Hv. cbn. rewrite ?andb_true_r, ?orb_false_r. reflexivity.
        + lia.
        + rewrite Eop. exact Logic.I.
        + pose proof (or_visit _ _ _ _ _ (q_prev q) _ _ V V2 (c_lb c) (c_ub c)) as W.
          unfold plocal. rewrite Eop. cbn [binary]. change (q_next (get_queue m k)) with n. change (m_progress m) with pr.
          change (get_queue m k) with q. cbv zeta in W.
          destruct W as (W1 & W2 & W3). split; [exact W1|]. split; [exact W2|].
          destruct (l_push _) as [[b t]|]; [exact W3|]. destruct W3 as [-> W3]. split; [reflexivity|].
          intros Hk. pose proof (Hk j Hr). pose proof (Hk j2 Hr2). lia.
      - (* EQUIV *)
        destruct F as [F1 F2]. destruct (pearlier1 F1) as (j & E1 & Hr & Eold & V).
        destruct (pearlier2 F2) as (j2 & E2 & Hr2 & Eold2 & V2).
        pose proof (psub_known j Hr) as Hkj. pose proof (psub_known j2 Hr2) as Hkj2.
        apply (pbool_legal (fun s => Bool.eqb (ostream (i_op1 ins) s) (ostream (i_op2 ins) s)) (Nat.max (known (h j)) (known (h j2)))); auto.
        + intros s. rewrite Hv. reflexivity.
        + lia.
        + rewrite Eop. exact Logic.I.
        + pose proof (equiv_visit _ _ _ _ _ (q_prev q) _ _ V V2 (c_lb c) (c_ub c)) as W.
          unfold plocal. rewrite Eop. cbn [binary]. change (q_next (get_queue m k)) with n. change (m_progress m) with pr.
          change (get_queue m k) with q. cbv zeta in W.
          destruct W as (W1 & W2 & W3). split; [exact W1|]. split; [exact W2|].
          destruct (l_push _) as [[b t]|]; [exact W3|]. destruct W3 as [-> W3]. split; [reflexivity|].
          intros Hk. pose proof (Hk j Hr). pose proof (Hk j2 Hr2). lia.
    Qed.
  End Visit.

  (** Progress of an instruction: the first time it has not settled yet. *)
  Definition psettled (h : nat -> list verdict) (m : monitor) (k : nat) (ins : instr) : nat :=
    match i_op ins with RETURN => q_next (get_queue m k) | _ => known (h k) end.

  Record pvisited (h h' : nat -> list verdict) (ts : nat) (m m' : monitor) (k : nat) (ins : instr) (c : qconf) : Prop := {
    pv_inv : PInv h' ts m';
    pv_others : forall j, j <> k -> h' j = h j /\ get_queue m' j = get_queue m j;
    pv_cases : (a_push (fst (pact h ts m k ins c)) = None /\ snd (pact h ts m k ins c) = None /\ h' = h /\
                m_progress m' = m_progress m /\ psettled h' m' k ins = psettled h m k ins /\
                reading h (i_op1 ins) (q_next (get_queue m k)) (q_read1 (get_queue m' k)) /\
                reading h (i_op2 ins) (q_next (get_queue m k)) (q_read2 (get_queue m' k))) \/
               (m_progress m' = m_progress m /\ h' = h /\ i_op ins = RETURN /\
                snd (pact h ts m k ins c) <> None /\ psettled h m k ins < psettled h' m' k ins) \/
               (m_progress m' = flag (m_progress m) /\ psettled h m k ins < psettled h' m' k ins);
    pv_push : h' k = h k \/
              exists v, h' k = push (c_len c) (h k) v /\ known (h k) <= snd v /\ m_progress m' = flag (m_progress m);
    pv_next : q_next (get_queue m' k) = a_next (fst (pact h ts m k ins c));
    pv_mono : q_next (get_queue m k) <= q_next (get_queue m' k);
    pv_new : h' k = match a_push (fst (pact h ts m k ins c)) with Some v => push (c_len c) (h k) v | None => h k end;
    pv_legal : forall v, a_push (fst (pact h ts m k ins c)) = Some v ->
               known (h k) <= snd v /\ forall s, known (h k) <= s <= snd v -> val k s = fst v;
    pv_quiet : a_push (fst (pact h ts m k ins c)) = None -> snd (pact h ts m k ins c) = None -> i_op ins <> LOAD ->
               (forall j, reads ins j -> S ts <= known (h j)) -> S ts <= q_next (get_queue m' k)
  }.

  Lemma pvisit h ts m k ins c :
    PInv h ts m -> node k ins c ->
    (i_op ins = LOAD -> m_progress m = FirstLoop -> known (h k) = ts) ->
    exists h', pvisited h h' ts m (update (tr ts) k ins m) k ins c.
  Proof.
    intros HI Hn Hload. exists (pnewh h ts m k ins c).
    pose proof (pvisit_legal h ts m k ins c HI Hn Hload) as (L1 & L2 & L3 & L4 & L5).
    pose proof (pvisit_inv h ts m k ins c HI Hn L1 L2 L3 L4) as HI'.
    pose proof (pnewh_known h ts m k ins c L1) as Hk.
    pose proof (pnewh_same h ts m k ins c) as Hh.
    pose proof (pnewh_other h ts m k ins c) as Hoth.
    assert (Hnone : a_push (fst (pact h ts m k ins c)) = None -> pnewh h ts m k ins c = h)
      by (intros E; unfold pnewh; rewrite E; reflexivity).
    destruct (pvisit_update h ts m k ins c HI Hn) as (q' & E & Es & En & Epv & _ & _ & _ & _ & _ & R).
    unfold plegal_push in L1. unfold plegal_out in L2. cbv zeta in *.
    set (h' := pnewh h ts m k ins c) in *.
    set (a := fst (pact h ts m k ins c)) in *. set (out := snd (pact h ts m k ins c)) in *.
    assert (Hlt : k < length (m_queues m)).
    { rewrite (pi_length _ _ _ HI). apply (node_lt prog confs part k ins c Hn). }
    assert (Hq : q_next (get_queue (update (tr ts) k ins m) k) = a_next a) by (rewrite E, get_St by assumption; assumption).
    constructor.
    - exact HI'.
    - intros j Hj. split; [apply (Hoth j Hj)|]. rewrite E. apply get_St_other. congruence.
    - assert (Hp : m_progress (update (tr ts) k ins m) =
                   match a_push a, out with
                   | None, None => m_progress m
                   | None, Some _ => return_flag (m_progress m)
                   | _, _ => flag (m_progress m) end) by (rewrite E; reflexivity).
      fold a out. clearbody a out h'. destruct (a_push a) as [[b t]|] eqn:Ep.
      + right. right. split; [assumption|]. unfold psettled. destruct L1 as (L1 & L1' & _).
        destruct (i_op ins) eqn:Eop; try (rewrite Hk; cbn; lia). congruence.
      + destruct out as [v|].
        * right. destruct L2 as (Er & L2 & _ & L6).
          assert (Hs : psettled h m k ins < psettled h' (update (tr ts) k ins m) k ins)
            by (unfold psettled; rewrite Er, Hq, L6; lia).
          unfold return_flag in Hp. destruct I.
          -- right. split; [exact Hp|exact Hs].
          -- left. split; [exact Hp|]. split; [apply Hnone; reflexivity|].
             split; [assumption|]. split; [discriminate|exact Hs].
        * left. split; [reflexivity|]. split; [reflexivity|]. specialize (Hnone eq_refl). split; [assumption|]. split; [assumption|].
          split; [|rewrite E, get_St by assumption; exact (R eq_refl)].
          unfold psettled. rewrite Hnone. destruct (i_op ins) eqn:Eop; try reflexivity. rewrite Hq. apply L2. reflexivity.
    - assert (Hp : forall v, a_push a = Some v ->
                   m_progress (update (tr ts) k ins m) = flag (m_progress m)).
      { intros v Ev. rewrite E, Ev. reflexivity. }
      clearbody a out h'. destruct (a_push a) as [[b t]|]; [|left; exact Hh].
      right. exists (b, t). split; [exact Hh|]. split; [apply L1|apply (Hp _ eq_refl)].
    - exact Hq.
    - rewrite Hq. exact L3.
    - exact Hh.
    - fold a. clearbody a. intros v Ev. rewrite Ev in L1. destruct v as [b t]. destruct L1 as (_ & L1 & L1'). split; [cbn; lia|exact L1'].
    - rewrite Hq. exact L5.
  Qed.

  (** ** One pass *)
  Record pfinished (h : nat -> list verdict) (ts : nat) (m : monitor) (k : nat) (ins : instr) : Prop := {
    pf_done : S ts <= q_next (get_queue m k);
    pf_rd1 : oreader h (i_op1 ins) (q_next (get_queue m k)) (q_read1 (get_queue m k)) ts;
    pf_rd2 : oreader h (i_op2 ins) (q_next (get_queue m k)) (q_read2 (get_queue m k)) ts
  }.
  Lemma pfinished_ext h ts m m' i ins :
    get_queue m' i = get_queue m i -> pfinished h ts m i ins -> pfinished h ts m' i ins.
  Proof. intros Hq [F1 F2 F3]. constructor; rewrite Hq; assumption. Qed.

  Lemma pinv_next h ts m k ins c : PInv h ts m -> node k ins c -> ts <= q_next (get_queue m k).
  Proof. intros HI Hn. apply (pn_op _ _ _ _ _ _ (pi_nodes _ _ _ HI k ins c Hn)). Qed.
  Lemma pinv_known h ts m k ins c :
    PInv h ts m -> node k ins c -> i_op ins <> RETURN -> q_next (get_queue m k) <= known (h k).
  Proof.
    intros HI Hn Hr. destruct (pn_op _ _ _ _ _ _ (pi_nodes _ _ _ HI k ins c Hn)) as [_ O].
    destruct (i_op ins); try lia; try congruence; try easy; destruct O as [[(-> & -> & _)|O] _ _]; lia.
  Qed.
  Lemma psettled_hi h ts m i ins c : PInv h ts m -> node i ins c -> psettled h m i ins <= S ts + ld i.
  Proof.
    intros HI Hn. pose proof (pi_nodes _ _ _ HI i ins c Hn) as N. pose proof (pn_hi _ _ _ _ _ _ N) as H.
    destruct (pn_op _ _ _ _ _ _ N) as [_ O]. unfold psettled. destruct (i_op ins); try lia.
  Qed.

  Lemma pfinish h ts m k ins c :
    PInv h ts m -> node k ins c ->
    pvisited h h ts m (update (tr ts) k ins m) k ins c ->
    a_push (fst (pact h ts m k ins c)) = None -> snd (pact h ts m k ins c) = None ->
    reading h (i_op1 ins) (q_next (get_queue m k)) (q_read1 (get_queue (update (tr ts) k ins m) k)) ->
    reading h (i_op2 ins) (q_next (get_queue m k)) (q_read2 (get_queue (update (tr ts) k ins m) k)) ->
    (i_op ins = LOAD -> known (h k) = S ts) ->
    (forall j, reads ins j -> S ts <= known (h j)) ->
    pfinished h ts (update (tr ts) k ins m) k ins.
  Proof.
    intros HI Hn V H1 H2 R1 R2 Hl Hk. pose proof (pinv_next _ _ _ _ _ _ HI Hn) as Hts.
    pose proof (pv_mono _ _ _ _ _ _ _ _ V) as Hm.
    constructor.
    - assert (Hc : i_op ins = LOAD \/ i_op ins <> LOAD) by (destruct (i_op ins); auto; right; discriminate).
      destruct Hc as [Hc|Hc]; [|apply (pv_quiet _ _ _ _ _ _ _ _ V); assumption].
      destruct (pn_op _ _ _ _ _ _ (pi_nodes _ _ _ (pv_inv _ _ _ _ _ _ _ _ V) k ins c Hn)) as [_ O].
      rewrite Hc in O. rewrite O, (Hl Hc). apply le_n.
    - destruct (i_op1 ins) as [b|x|j|] eqn:E1; cbn; auto. cbn in R1. eapply reader_mono; [exact R1|assumption|].
      pose proof (Hk j (or_introl E1)) as Hj.
      destruct (rd (h j) (q_next (get_queue m k))) as [v|] eqn:Ev; [apply rd_ge in Ev; lia|lia].
    - destruct (i_op2 ins) as [b|x|j|] eqn:E1; cbn; auto. cbn in R2. eapply reader_mono; [exact R2|assumption|].
      pose proof (Hk j (or_intror E1)) as Hj.
      destruct (rd (h j) (q_next (get_queue m k))) as [v|] eqn:Ev; [apply rd_ge in Ev; lia|lia].
  Qed.

  Record ppassing (ts k : nat) (h : nat -> list verdict) (m : monitor) : Prop := {
    pp_inv : PInv h ts m;
    pp_load : forall i ins c, node i ins c -> i_op ins = LOAD ->
              (m_progress m = FirstLoop -> k <= i -> known (h i) = ts) /\
              (m_progress m <> FirstLoop \/ i < k -> known (h i) = S ts);
    pp_idle : m_progress m = NoProgress -> forall i ins c, node i ins c -> i < k -> pfinished h ts m i ins;
    pp_ret : forall i ins c j, node i ins c -> i_op ins = RETURN -> i_op1 ins = Sub j ->
             (i < k \/ k <= j \/ m_progress m = NoProgress -> known (h j) <= q_next (get_queue m i)) /\
             one_new (h j) (q_next (get_queue m i))
  }.
  Definition ppot (ts : nat) (h : nat -> list verdict) (m : monitor) (i : nat) : nat :=
    match nth_error prog i with Some ins => if part i then S ts + ld i - psettled h m i ins else 0 | None => 0 end.
  Definition pmu (ts : nat) (h : nat -> list verdict) (m : monitor) : nat := total (ppot ts h m) (length prog).

  Lemma ppass_visit ts k h m ins c :
    ppassing ts k h m -> node k ins c ->
    let m' := update (tr ts) k ins m in
    exists h', pvisited h h' ts m m' k ins c /\ ppassing ts (S k) h' m' /\
      ((m_progress m' = m_progress m /\ pmu ts h' m' <= pmu ts h m) \/
       (m_progress m' = flag (m_progress m) /\ pmu ts h' m' < pmu ts h m)).
  Proof.
    intros [PI PL PD PR] Hn m'.
    destruct (pvisit h ts m k ins c PI Hn) as [h' V].
    { intros Hl Hf. apply (PL k ins c Hn Hl); auto. }
    fold m' in V. pose proof (pv_inv _ _ _ _ _ _ _ _ V) as PI'.
    assert (Hk : k < length prog) by apply (node_lt prog confs part k ins c Hn).
    assert (Hpot : forall i, i <> k -> ppot ts h' m' i = ppot ts h m i).
    { intros i Hi. destruct (pv_others _ _ _ _ _ _ _ _ V i Hi) as [E1 E2]. unfold ppot, psettled. rewrite E1, E2. reflexivity. }
    assert (Hpk : ppot ts h m k = S ts + ld k - psettled h m k ins) by (unfold ppot; rewrite (proj1 Hn), (proj2 (proj2 Hn)); reflexivity).
    assert (Hpk' : ppot ts h' m' k = S ts + ld k - psettled h' m' k ins) by (unfold ppot; rewrite (proj1 Hn), (proj2 (proj2 Hn)); reflexivity).
    pose proof (psettled_hi _ _ _ _ _ _ PI' Hn) as Hhi'.
    exists h'. split; [exact V|]. split; [constructor|].
    - assumption.
    - (* loads *)
      intros i ins' c' Hi Hl.
      assert (Hpr : m_progress m' = FirstLoop <-> m_progress m = FirstLoop).
      { destruct (pv_cases _ _ _ _ _ _ _ _ V) as [(_ & _ & _ & -> & _)|[[-> _]|[-> _]]]; [reflexivity|reflexivity|].
        destruct (m_progress m); cbn; split; congruence. }
      rewrite Hpr. destruct (PL i ins' c' Hi Hl) as [P1 P2].
      destruct (Nat.eq_dec i k) as [->|Hne].
      + destruct (node_fun prog confs part _ _ _ _ _ Hn Hi) as [<- <-]. split; [lia|]. intros _.
        assert (Es : forall g x, psettled g x k ins = known (g k)) by (intros; unfold psettled; rewrite Hl; reflexivity).
        destruct (pv_cases _ _ _ _ _ _ _ _ V) as [(Hs & _ & -> & _)|[(_ & _ & Er & _)|[_ Hc]]];
          [|congruence|].
        * apply P2. left. intros Hf. unfold pact, plocal in Hs. rewrite Hl in Hs.
          destruct (pnode_pt k ins c Hn) as [_ F]. rewrite Hl in F. destruct F as [[x Fa] _].
          rewrite Fa, Hf in Hs. discriminate.
        * rewrite !Es in *. assert (E0 : ld k = 0).
          { destruct (pnode_pt k ins c Hn) as [_ F]. rewrite Hl in F. destruct F as [[x Fa] _].
            rewrite (ld_eq k ins c Hn), Hl, Fa. reflexivity. }
          pose proof (pinv_next _ _ _ _ _ _ PI Hn). pose proof (pinv_known _ _ _ _ _ _ PI Hn ltac:(congruence)). lia.
      + destruct (pv_others _ _ _ _ _ _ _ _ V i Hne) as [-> _]. split.
        * intros Hf Hle. apply P1; [assumption|lia].
        * intros [Hf|Hlt]; apply P2; [auto|right; lia].
    - (* idle so far *)
      intros Hidle. destruct (pv_cases _ _ _ _ _ _ _ _ V) as [(Hs1 & Hs2 & Eh & Ep & _ & R1 & R2)|[(Ep & _ & Er & Eo & _)|[Ep _]]].
      2:{ exfalso. rewrite Hidle in Ep. apply Eo. pose proof (pnode_pt k ins c Hn) as [_ F]. rewrite Er in F.
          destruct F as [(j & E1 & _) _]. destruct (PR k ins c j Hn Er E1) as [P1 _].
          specialize (P1 ltac:(auto)). unfold pact, plocal. rewrite Er, E1. cbn.
          apply rd_none in P1. rewrite P1. reflexivity. }
      2:{ rewrite Hidle in Ep. destruct (m_progress m); discriminate. }
      rewrite Hidle in Ep. symmetry in Ep. specialize (PD Ep). subst h'.
      intros i ins' c' Hi Hlt. destruct (Nat.eq_dec i k) as [->|Hne].
      + destruct (node_fun prog confs part _ _ _ _ _ Hn Hi) as [<- <-].
        apply (pfinish h ts m k ins c); auto.
        * intros Hl. apply (PL k ins c Hn Hl). left. congruence.
        * intros j Hj. destruct (psub_child k ins c j Hn Hj) as (Hjk & ins' & c' & Hj' & Hr).
          pose proof (pf_done _ _ _ _ _ (PD j ins' c' Hj' Hjk)) as D.
          pose proof (pinv_known _ _ _ _ _ _ PI Hj' Hr). lia.
      + destruct (pv_others _ _ _ _ _ _ _ _ V i Hne) as [_ Eq].
        apply (pfinished_ext h ts m); auto. apply (PD i ins' c'); [assumption|lia].
    - (* reports *)
      intros i ins' c' j Hi Hr E1. destruct (PR i ins' c' j Hi Hr E1) as [P1 P2].
      assert (Hidle : m_progress m' = NoProgress -> m_progress m = NoProgress).
      { destruct (pv_cases _ _ _ _ _ _ _ _ V) as [(_ & _ & _ & -> & _)|[[-> _]|[-> _]]]; auto.
        destruct (m_progress m); cbn; congruence. }
      assert (Hji : j < i) by (apply (psub_child i ins' c' j Hi); left; assumption).
      destruct (Nat.eq_dec i k) as [->|Hne].
      + destruct (node_fun prog confs part _ _ _ _ _ Hn Hi) as [<- <-].
        destruct (pv_others _ _ _ _ _ _ _ _ V j ltac:(lia)) as [-> _].
        enough (G : known (h j) <= q_next (get_queue m' k)) by (split; [auto|left; assumption]).
        rewrite (pv_next _ _ _ _ _ _ _ _ V). unfold pact, plocal. rewrite Hr, E1. cbn.
        destruct P2 as [P2|(v & Ev & P2)].
        * rewrite (proj2 (rd_none _ _) P2). exact P2.
        * rewrite Ev. cbn. lia.
      + destruct (pv_others _ _ _ _ _ _ _ _ V i Hne) as [_ ->].
        destruct (Nat.eq_dec j k) as [->|Hjk].
        * destruct (pv_push _ _ _ _ _ _ _ _ V) as [->|(v & -> & Hv & Ef)].
          -- split; [|assumption]. intros [H|[H|H]]; [lia|lia|]. auto.
          -- split.
             ++ intros [H|[H|H]]; [lia|lia|]. rewrite Ef in H. destruct (m_progress m); discriminate.
             ++ apply one_new_push; auto. apply (pn_incr _ _ _ _ _ _ (pi_nodes _ _ _ PI k ins c Hn)).
        * destruct (pv_others _ _ _ _ _ _ _ _ V j Hjk) as [-> _]. split; [|assumption].
          intros [H|[H|H]]; apply P1; [left; lia|right; left; lia|right; right; auto].
    - destruct (pv_cases _ _ _ _ _ _ _ _ V) as [(_ & _ & E & Ep & Es & _)|[(Ep & _ & _ & _ & Hc)|[Ep Hc]]].
      + left. split; [assumption|]. unfold pmu. apply total_le. intros i Hi.
        destruct (Nat.eq_dec i k) as [->|Hne]; [|rewrite Hpot by assumption; lia].
        rewrite Hpk, Hpk', Es. lia.
      + left. split; [assumption|]. unfold pmu. apply total_le. intros i Hi.
        destruct (Nat.eq_dec i k) as [->|Hne]; [|rewrite Hpot by assumption; lia].
        rewrite Hpk, Hpk'. lia.
      + right. split; [assumption|]. unfold pmu. apply (total_lt _ _ _ k); auto.
        * intros i Hi. destruct (Nat.eq_dec i k) as [->|Hne]; [|rewrite Hpot by assumption; lia].
          rewrite Hpk, Hpk'. lia.
        * rewrite Hpk, Hpk'. lia.
  Qed.

  (** An instruction of another part leaves everything as it is. *)
  Lemma ppass_frame ts k h m ins :
    ppassing ts k h m -> nth_error prog k = Some ins -> part k = false ->
    let m' := update (tr ts) k ins m in ppassing ts (S k) h m' /\ pmu ts h m' = pmu ts h m.
  Proof.
    intros [PI PL PD PR] Hp HK m'. destruct (update_framed (tr ts) k ins m) as [F1 F2 F3 F4 F5].
    fold m' in F1, F2, F3, F4, F5.
    assert (Hne : forall i ins' c', node i ins' c' -> i <> k) by (intros i ins' c' (_ & _ & H) ->; congruence).
    assert (Hq : forall i ins' c', node i ins' c' -> get_queue m' i = get_queue m i).
    { intros i ins' c' Hi. apply F3, (Hne i ins' c' Hi). }
    assert (Hf : m_progress m' = FirstLoop <-> m_progress m = FirstLoop).
    { destruct F4 as [-> | ->]; [reflexivity|]. destruct (m_progress m); cbn; split; congruence. }
    assert (Hi : m_progress m' = NoProgress -> m_progress m = NoProgress).
    { destruct F4 as [-> | ->]; [auto|]. destruct (m_progress m); cbn; congruence. }
    split; [constructor|].
    - destruct PI as [I1 I2 I3]. constructor; [congruence|congruence|].
      intros i ins' c' Hn. destruct (I3 i ins' c' Hn). constructor; rewrite ?(Hq i ins' c' Hn); try assumption.
      intros Hr. rewrite F5; [apply pn_ret0; assumption|].
      destruct (Nat.eq_dec (i_num ins) (i_num ins')) as [E|]; [|auto]. left. intros Hr'.
      apply (Hne i ins' c' Hn). symmetry. apply (Hdist k i ins ins'); auto. apply Hn.
    - intros i ins' c' Hn Hl. rewrite Hf. destruct (PL i ins' c' Hn Hl) as [P1 P2]. pose proof (Hne i ins' c' Hn). split.
      + intros E Hle. apply P1; [assumption|lia].
      + intros [E|E]; apply P2; [auto|right; lia].
    - intros Hidle i ins' c' Hn Hlt. pose proof (Hne i ins' c' Hn).
      destruct (PD (Hi Hidle) i ins' c' Hn ltac:(lia)) as [D1 D2 D3].
      constructor; rewrite (Hq i ins' c' Hn); assumption.
    - intros i ins' c' j Hn Hr E1. destruct (PR i ins' c' j Hn Hr E1) as [P1 P2].
      destruct (psub_child i ins' c' j Hn ltac:(left; assumption)) as (_ & ins2 & c2 & Hj & _).
      pose proof (Hne i ins' c' Hn). pose proof (Hne j ins2 c2 Hj).
      rewrite (Hq i ins' c' Hn). split; [|assumption].
      intros [E|[E|E]]; apply P1; [left; lia|right; left; lia|right; right; auto].
    - unfold pmu. apply Nat.le_antisymm; apply total_le; intros i _; unfold ppot, psettled;
        destruct (nth_error prog i) as [ins'|]; try lia; destruct (part i) eqn:Ei; try lia;
        (rewrite F3; [lia|intros ->; congruence]).
  Qed.

  Lemma ppass_run ts : forall rest k h m,
    (forall i, nth_error rest i = nth_error prog (k + i)) -> k + length rest = length prog ->
    ppassing ts k h m ->
    let m' := run_pass (tr ts) k rest m in
    exists h', ppassing ts (length prog) h' m' /\
      ((forall i, part i = true) ->
       (m_progress m' = m_progress m /\ pmu ts h' m' <= pmu ts h m) \/
       (m_progress m' = flag (m_progress m) /\ pmu ts h' m' < pmu ts h m)).
  Proof.
    induction rest as [|ins rest IH]; intros k h m Hnth Hlen HP m'.
    - cbn in *. exists h. rewrite Nat.add_0_r in Hlen. subst k. split; [assumption|]. left. auto.
    - assert (Hp : nth_error prog k = Some ins) by (rewrite <- (Nat.add_0_r k); symmetry; apply (Hnth 0)).
      assert (V : exists h1, ppassing ts (S k) h1 (update (tr ts) k ins m) /\
        ((forall i, part i = true) ->
         (m_progress (update (tr ts) k ins m) = m_progress m /\ pmu ts h1 (update (tr ts) k ins m) <= pmu ts h m) \/
         (m_progress (update (tr ts) k ins m) = flag (m_progress m) /\ pmu ts h1 (update (tr ts) k ins m) < pmu ts h m))).
      { destruct (part k) eqn:HK.
        - destruct (pnode_of k ins Hp HK) as [c Hn].
          destruct (ppass_visit ts k h m ins c HP Hn) as (h1 & _ & P1 & M1). exists h1. auto.
        - exists h. split; [apply (ppass_frame ts k h m ins HP Hp HK)|]. intros H. rewrite H in HK. discriminate. }
      destruct V as (h1 & P1 & M1).
      destruct (IH (S k) h1 (update (tr ts) k ins m)) as (h2 & P2 & M2); auto.
      + intros i. specialize (Hnth (S i)). cbn in Hnth. rewrite Hnth. f_equal. lia.
      + cbn in Hlen. lia.
      + exists h2. split; [exact P2|]. cbn [run_pass] in m'. fold m' in M2, P2. intros Hall.
        destruct (M1 Hall) as [[E1 L1]|[E1 L1]], (M2 Hall) as [[E2 L2]|[E2 L2]]; rewrite E1 in E2.
        * left. split; [assumption|lia].
        * right. split; [assumption|lia].
        * right. split; [assumption|lia].
        * right. split; [|lia]. rewrite E2. destruct (m_progress m); reflexivity.
  Qed.

  (** ** One step *)
  Record pstart (ts : nat) (h : nat -> list verdict) (m : monitor) : Prop := {
    ps_inv : PInv h ts m;
    ps_prog : m_progress m = FirstLoop;
    ps_load : forall i ins c, node i ins c -> i_op ins = LOAD -> known (h i) = ts;
    ps_hi : forall i ins c, node i ins c -> psettled h m i ins <= ts + ld i;
    ps_ret : forall i ins c j, node i ins c -> i_op ins = RETURN -> i_op1 ins = Sub j ->
             known (h j) <= q_next (get_queue m i)
  }.
  Lemma PInv_progress h ts m p : PInv h ts m -> PInv h ts (Monitor (m_queues m) (m_time m) p (m_out m)).
  Proof.
    intros [I1 I2 I3]. constructor; auto. intros k ins c Hn. destruct (I3 k ins c Hn). constructor; assumption.
  Qed.
  Lemma pstart_passing ts h m : pstart ts h m -> ppassing ts 0 h m.
  Proof.
    intros [S1 S2 S3 S4 S5]. constructor; auto.
    - intros i ins c Hi Hl. split; [intros _ _; apply (S3 i ins c); assumption|]. intros [Hf|Hlt]; [congruence|lia].
    - intros; lia.
    - intros i ins c j Hi Hr E1. pose proof (S5 i ins c j Hi Hr E1) as H. split; [auto|left; assumption].
  Qed.
  Lemma pnext_pass ts h m :
    ppassing ts (length prog) h m -> ppassing ts 0 h (Monitor (m_queues m) (m_time m) NoProgress (m_out m)).
  Proof.
    intros [P1 P2 P4 P5]. constructor.
    - apply PInv_progress. assumption.
    - intros i ins c Hi Hl. split; [discriminate|]. intros _. apply (P2 i ins c Hi Hl). right.
      apply (node_lt prog confs part i ins c Hi).
    - intros; lia.
    - intros i ins c j Hi Hr E1. destruct (P5 i ins c j Hi Hr E1) as [Q1 Q2]. split; [|assumption].
      intros _. apply Q1. left. apply (node_lt prog confs part i ins c Hi).
  Qed.
  Lemma pstep_end ts h m :
    ppassing ts (length prog) h m -> m_progress m = NoProgress ->
    pstart (S ts) h (Monitor (m_queues m) (m_time m + 1) FirstLoop (m_out m)).
  Proof.
    intros [P1 P2 P4 P5] Hp.
    assert (Hs : forall i ins c, node i ins c -> psettled h m i ins <= S ts + ld i) by (intros; eapply psettled_hi; eassumption).
    destruct P1 as [I1 I2 I3]. specialize (P4 Hp).
    assert (Hl : forall i ins c, node i ins c -> i_op ins = LOAD -> known (h i) = S ts).
    { intros i ins c Hi HL. apply (P2 i ins c Hi HL). right. apply (node_lt prog confs part i ins c Hi). }
    constructor; auto.
    2:{ intros i ins c j Hi Hr E1. apply (P5 i ins c j Hi Hr E1). auto. }
    constructor.
    - cbn. lia.
    - assumption.
    - intros k ins c Hn. pose proof (P4 k ins c Hn (node_lt prog confs part k ins c Hn)) as [F1 F3 F4].
      pose proof (pnode_pt k ins c Hn) as [_ PT].
      destruct (I3 k ins c Hn).
      replace ts with (S ts - 1) in F3, F4 by lia.
      constructor; try assumption.
      + lia.
      + unfold popinv in *. destruct pn_op0 as [O1 O2].
        change (get_queue (Monitor (m_queues m) (m_time m + 1) FirstLoop (m_out m)) k) with (get_queue m k).
        split; [assumption|]. destruct (i_op ins); try assumption.
        * lia.
        * destruct PT as (_ & _ & PT). eapply sinv_mono; [exact PT| |exact O2]. lia.
        * destruct PT as (_ & _ & PT). eapply sinv_mono; [exact PT| |exact O2]. lia.
  Qed.

  Lemma pstep_spec ts : forall fuel h m,
    ppassing ts 0 h m -> m_progress m <> WithProgress ->
    match step fuel (tr ts) prog m with
    | Some m' => exists h', pstart (S ts) h' m'
    | None => (forall i, part i = true) -> fuel <= pmu ts h m + match m_progress m with FirstLoop => 1 | _ => 0 end
    end.
  Proof.
    induction fuel as [|fuel IH]; intros h m HP Hne; cbn [step]; [lia|].
    destruct (ppass_run ts prog 0 h m (fun i => eq_refl) eq_refl HP) as (h1 & P1 & M1).
    set (m1 := run_pass (tr ts) 0 prog m) in *.
    specialize (IH h1 _ (pnext_pass ts h1 m1 P1)). cbn [m_progress] in IH.
    specialize (IH ltac:(discriminate)).
    change (pmu ts h1 {| m_queues := m_queues m1; m_time := m_time m1; m_progress := NoProgress; m_out := m_out m1 |})
      with (pmu ts h1 m1) in IH.
    destruct (m_progress m1) eqn:Ep.
    - destruct (step _ _ _ _); [assumption|]. intros Hall. specialize (IH Hall). specialize (M1 Hall). destruct (m_progress m), M1 as [[M1 M2]|[M1 M2]]; cbn in M1; try discriminate; lia.
    - eexists. apply pstep_end; eassumption.
    - destruct (step _ _ _ _); [assumption|]. intros Hall. specialize (IH Hall). specialize (M1 Hall). destruct (m_progress m), M1 as [[M1 M2]|[M1 M2]]; cbn in M1; try discriminate; try lia.
      all: congruence.
  Qed.

  Lemma pmu_bound ts h m : PInv h ts m -> pmu ts h m <= total (fun i => S (ld i)) (length prog).
  Proof.
    intros HI. apply total_le. intros i Hi. unfold ppot.
    destruct (nth_error prog i) as [ins|] eqn:E; [|lia].
    destruct (part i) eqn:HK; [|lia].
    destruct (pnode_of i ins E HK) as [c Hn].
    pose proof (pinv_next _ _ _ _ _ _ HI Hn) as H1. pose proof (pinv_known _ _ _ _ _ _ HI Hn) as H2.
    unfold psettled. destruct (i_op ins); try (specialize (H2 ltac:(discriminate)); lia). lia.
  Qed.

  (** ** Whole runs *)
  Lemma pstart_init : pstart 0 (fun _ => []) (init prog confs).
  Proof.
    assert (G : forall k ins c, node k ins c -> get_queue (init prog confs) k = init_queue ins c).
    { intros k ins c (H1 & H2 & _). unfold get_queue, init. cbn [m_queues].
      erewrite nth_error_nth; [reflexivity|]. rewrite nth_error_map.
      assert (E : nth_error (combine prog confs) k = Some (ins, c)).
      { apply combine_nth_error; assumption. }
      rewrite E. reflexivity. }
    assert (Gn : forall k ins c, node k ins c -> q_next (init_queue ins c) = 0).
    { intros k ins c Hn. destruct (pnode_pt k ins c Hn) as [_ F]. cbn. destruct (i_op ins); try reflexivity; destruct F. }
    constructor; [|reflexivity|reflexivity| |cbn; intros; lia].
    2:{ intros k ins c Hn. unfold psettled. rewrite (G k ins c Hn), (Gn k ins c Hn). destruct (i_op ins); cbn; lia. }
    constructor; [reflexivity| |].
    - cbn. rewrite map_length, combine_length. destruct Hpt as [<- _]. lia.
    - intros k ins c Hn. destruct (pnode_pt k ins c Hn) as [F1 F2]. pose proof (G k ins c Hn) as E.
      assert (R : forall o x, below k o -> (forall j, o = Sub j -> reads ins j) -> oreader (fun _ => []) o x 0 (0 - 1)).
      { intros [b|x|j|] y Hb Ho; cbn; auto. apply reader_init.
        destruct (psub_child k ins c j Hn (Ho j eq_refl)) as (_ & ins' & c' & Hj & _).
        rewrite (node_len prog confs part j ins' c' Hj). destruct (pnode_pt j ins' c' Hj). lia. }
      destruct (pnode_below k ins c Hn) as [B1 B2].
      constructor; rewrite ?E; try reflexivity; try (cbn; auto; fail); cbn [init_queue q_slots q_write q_read1 q_read2 q_prev q_edge].
      + apply (empty_length (c_len c) F1).
      + apply (ring_init (c_len c) F1).
      + cbn. discriminate.
      + cbn. lia.
      + rewrite (Gn k ins c Hn). unfold popinv. split; [lia|]. destruct (i_op ins); try reflexivity; try lia; try exact F2.
        * destruct F2 as (_ & _ & F2). exact (sinv_init true _ _ _ F2 _).
        * destruct F2 as (_ & _ & F2). exact (sinv_init false _ _ _ F2 _).
      + apply R; [assumption|]. intros; left; assumption.
      + apply R; [assumption|]. intros; right; assumption.
      + intros Hr. rewrite (Gn k ins c Hn). cbn. repeat split. discriminate.
  Qed.

  Lemma prun_spec fuel : forall n ts h m,
    pstart ts h m ->
    match run fuel (map tr (seq ts n)) prog m with
    | Some m' => exists h', pstart (ts + n) h' m'
    | None => (forall i, part i = true) -> fuel <= S (total (fun i => S (ld i)) (length prog))
    end.
  Proof.
    induction n as [|n IH]; intros ts h m HS; cbn [seq map run].
    - exists h. rewrite Nat.add_0_r. assumption.
    - pose proof (pstep_spec ts fuel h m (pstart_passing ts h m HS)) as SP.
      rewrite (ps_prog _ _ _ HS) in SP. specialize (SP ltac:(discriminate)).
      destruct (step fuel (tr ts) prog m) as [m1|].
      + destruct SP as [h1 S1]. specialize (IH (S ts) h1 m1 S1).
        rewrite Nat.add_succ_r. exact IH.
      + intros Hall. specialize (SP Hall). pose proof (pmu_bound ts h m (ps_inv _ _ _ HS)). lia.
  Qed.
  Lemma prun_start fuel n m :
    run fuel (rows tr n) prog (init prog confs) = Some m -> exists h, pstart n h m.
  Proof.
    intros H. pose proof (prun_spec fuel n 0 _ _ pstart_init) as R. fold (rows tr n) in R.
    rewrite H in R. exact R.
  Qed.

  Lemma ppart_sound fuel n m k ins t b :
    run fuel (rows tr n) prog (init prog confs) = Some m ->
    nth_error prog k = Some ins -> part k = true -> i_op ins = RETURN ->
    reported (reports (i_num ins) m) t b ->
    (b = true <-> sat tr (node_expr prog confs k) t) /\ t < n + lead (node_expr prog confs k).
  Proof.
    intros H Hp HK Hr Hrep. destruct (prun_start fuel n m H) as [h [HI _ _ Hs _]].
    destruct (pnode_of k ins Hp HK) as [c Hn]. pose proof (pi_nodes _ _ _ HI k ins c Hn) as N.
    destruct (pn_ret _ _ _ _ _ _ N Hr) as (R1 & R2 & R3). apply reported_rd in Hrep as [u Hu].
    pose proof (R2 _ _ Hu) as Hv. cbn in Hv. rewrite <- Hv. split; [apply den_sat|].
    specialize (Hs k ins c Hn). unfold psettled in Hs. rewrite Hr in Hs. unfold ld in Hs.
    pose proof (rd_ge _ _ _ Hu) as [G1 _]. pose proof (rd_time _ _ _ Hu). cbn in *. lia.
  Qed.
  Lemma ppart_increasing fuel n m k ins :
    run fuel (rows tr n) prog (init prog confs) = Some m ->
    nth_error prog k = Some ins -> part k = true -> i_op ins = RETURN -> increasing (reports (i_num ins) m).
  Proof.
    intros H Hp HK Hr. destruct (prun_start fuel n m H) as [h [HI _ _ _ _]].
    destruct (pnode_of k ins Hp HK) as [c Hn]. pose proof (pi_nodes _ _ _ HI k ins c Hn) as N.
    apply incr_increasing. apply (pn_ret _ _ _ _ _ _ N Hr).
  Qed.
  Lemma ppart_timely fuel n m k ins t :
    run fuel (rows tr n) prog (init prog confs) = Some m ->
    nth_error prog k = Some ins -> part k = true -> i_op ins = RETURN ->
    t < n -> exists b, reported (reports (i_num ins) m) t b.
  Proof.
    intros H Hp HK Hr Ht. destruct (prun_start fuel n m H) as [h [HI _ _ _ _]].
    destruct (pnode_of k ins Hp HK) as [c Hn]. pose proof (pi_nodes _ _ _ HI k ins c Hn) as N.
    destruct (pn_ret _ _ _ _ _ _ N Hr) as (R1 & R2 & R3).
    pose proof (pinv_next _ _ _ _ _ _ HI Hn) as O.
    destruct (rd (reports (i_num ins) m) t) as [[b u]|] eqn:E.
    - exists b. apply (rd_reported _ _ _ u E).
    - apply rd_none in E. lia.
  Qed.

  Lemma ptotal_sum : total (fun i => S (ld i)) (length prog) = list_sum (map (fun e => S (lead e)) (exprs prog confs)).
  Proof.
    assert (Hl : length (exprs prog confs) = length prog).
    { unfold exprs. destruct Hpt as [Hl _]. revert Hl. clear.
      assert (G : forall es p c, length p = length c -> length (exprs_from es p c) = length es + length p).
      { intros es p; revert es; induction p as [|i p IH]; intros es [|c cs] E; cbn in *; try lia.
        rewrite IH by lia. rewrite app_length. cbn. lia. }
      intros Hl. rewrite G by assumption. reflexivity. }
    unfold ld, node_expr. rewrite <- Hl. clear. generalize (exprs prog confs) as l. intros l.
    induction l as [|e l IH] using rev_ind; [reflexivity|].
    rewrite map_app, list_sum_app, <- IH, app_length. cbn [length map list_sum fold_right].
    rewrite Nat.add_1_r. cbn [total]. rewrite app_nth2, Nat.sub_diag by lia. cbn [nth].
    assert (E : total (fun i => S (lead (nth i (l ++ [e]) (EConst false)))) (length l) =
                total (fun i => S (lead (nth i l (EConst false)))) (length l)); [|lia].
    apply Nat.le_antisymm; apply total_le; intros i Hi; rewrite app_nth1 by assumption; lia.
  Qed.
  Lemma ppart_total fuel n :
    (forall i, part i = true) -> pt_max_passes prog confs <= fuel -> exists m, run fuel (rows tr n) prog (init prog confs) = Some m.
  Proof.
    intros Hall H. pose proof (prun_spec fuel n 0 _ _ pstart_init) as R. fold (rows tr n) in R.
    destruct (run fuel (rows tr n) prog (init prog confs)) as [m|]; [eauto|].
    specialize (R Hall). rewrite ptotal_sum in R. unfold pt_max_passes in H. lia.
  Qed.
End Past.

(** ** Programs that are past-time throughout *)
Section Whole.
  Context {I : impl}.
  Variables (prog : list instr) (confs : list qconf) (tr : trace).
  Hypothesis Hpt : pt_program prog confs.
  Hypothesis Hdist : distinct_reports prog.
  Hypothesis Hample : pt_queues_ample prog confs.
  Let all (_ : nat) := true.

  Lemma pwhole_part : pt_part all prog confs.
  Proof using Hpt.
    destruct Hpt as [H1 H2]. split; [assumption|]. split; [intros k ins j _ _ _; reflexivity|]. intros k ins c _. apply H2.
  Qed.
  Lemma pwhole_ample : pt_part_ample all prog confs.
  Proof using Hample. intros k ins c conf _. apply Hample. Qed.

  Lemma prun_sound fuel n m k ins t b :
    run fuel (rows tr n) prog (init prog confs) = Some m ->
    nth_error prog k = Some ins -> i_op ins = RETURN ->
    reported (reports (i_num ins) m) t b ->
    (b = true <-> sat tr (node_expr prog confs k) t) /\ t < n + lead (node_expr prog confs k).
  Proof.
    intros H1 H2. exact (ppart_sound prog confs tr all pwhole_part Hdist pwhole_ample fuel n m k ins t b H1 H2 eq_refl).
  Qed.
  Lemma prun_increasing fuel n m k ins :
    run fuel (rows tr n) prog (init prog confs) = Some m ->
    nth_error prog k = Some ins -> i_op ins = RETURN -> increasing (reports (i_num ins) m).
  Proof.
    intros H1 H2. exact (ppart_increasing prog confs tr all pwhole_part Hdist pwhole_ample fuel n m k ins H1 H2 eq_refl).
  Qed.
  Lemma prun_timely fuel n m k ins t :
    run fuel (rows tr n) prog (init prog confs) = Some m ->
    nth_error prog k = Some ins -> i_op ins = RETURN ->
    t < n -> exists b, reported (reports (i_num ins) m) t b.
  Proof.
    intros H1 H2. exact (ppart_timely prog confs tr all pwhole_part Hdist pwhole_ample fuel n m k ins t H1 H2 eq_refl).
  Qed.
  Lemma prun_total fuel n :
    pt_max_passes prog confs <= fuel -> exists m, run fuel (rows tr n) prog (init prog confs) = Some m.
  Proof.
    exact (ppart_total prog confs tr all pwhole_part Hdist pwhole_ample fuel n (fun _ => eq_refl)).
  Qed.
End Whole.
