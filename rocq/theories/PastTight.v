(** * Queues just long enough, past time (proof infrastructure)

    As in TightProofs.v a run with short queues is compared with a run of the
    same program with longer ones. *)
From Coq Require Import List Arith Bool Lia.
Require Import Verif.Mltl Verif.MltlEval Verif.Scq Verif.Engine Verif.Monitoring Verif.PastMonitor Verif.PastSize.
Require Import Verif.ScqProofs Verif.EngineLocal Verif.FrameProofs Verif.NodeProofs Verif.MonitorProofs Verif.ScqSizeProofs.
Require Import Verif.PastNode Verif.PastProofs Verif.TightQueue Verif.TightProofs.
Import ListNotations.

Lemma timeless_now e : timeless e = true -> lead e = 0 /\ ahead e = 0.
Proof.
  assert (L : forall es, Forall (fun e => timeless e = true -> lead e = 0 /\ ahead e = 0) es -> forallb timeless es = true ->
    fold_right (fun e n => Nat.max (lead e) n) 0 es = 0 /\ fold_right (fun e n => Nat.max (ahead e) n) 0 es = 0).
  { induction es as [|x es IH]; intros H Ht; [split; reflexivity|]. apply Forall_cons_iff in H as [H1 H2].
    cbn in Ht. apply andb_true_iff in Ht as [T1 T2]. destruct (H1 T1) as [E1 E2]. destruct (IH H2 T2) as [E3 E4].
    cbn [fold_right]. rewrite E1, E2, E3, E4. split; reflexivity. }
  induction e using expr_ind'; cbn [timeless lead ahead]; intros Ht; try discriminate; auto;
    apply andb_true_iff in Ht as [T1 T2]; destruct (IHe1 T1) as [-> ->], (IHe2 T2) as [-> ->]; split; reflexivity.
Qed.

(** ** One write into a short queue *)
Section Queue.
  Context {I : impl}.

  Lemma last_sound (f : nat -> bool) h :
    incr h -> h <> [] -> (forall i w, rd h i = Some w -> f i = fst w) -> f (known h - 1) = fst (last h d0).
  Proof.
    intros Hi Hne Hs. rewrite (known_last h Hi Hne). apply Hs.
    rewrite (app_removelast_last d0 Hne) at 1. rewrite rd_app, (proj2 (rd_none _ _)).
    - rewrite rd_cons. replace (_ <=? _) with true; [reflexivity|]. symmetry. apply Nat.leb_le. lia.
    - rewrite (app_removelast_last d0 Hne) in Hi. apply incr_app in Hi as (_ & _ & Hi).
      apply known_bound. intros w Hw. specialize (Hi w _ Hw (or_introl eq_refl)). lia.
  Qed.

  (** If the values from [ts + A] on are all those of the new verdict, a verdict
      that adds an entry leaves room for the entries from [ts] on. *)
  Lemma ready_run L La h v n r ts A (f : nat -> bool) :
    ready L h n r ts -> incr h -> known h <= snd v -> 2 <= La -> A < L -> ts <= n ->
    (forall i w, rd h i = Some w -> f i = fst w) ->
    (forall i, ts + A <= i <= snd v -> f i = fst v) ->
    (known h <= n \/ 1 <= n) ->
    ready L (push La h v) n r 0.
  Proof.
    intros Hr Hi Hk HLa HA Hts Hs Hv Hx.
    assert (M : h <> [] -> ts + A <= known h - 1 -> last h d0 <> d0 -> merges La h v = true).
    { intros Hne Hle Hd. pose proof (last_sound f h Hi Hne Hs) as E.
      pose proof (known_last h Hi Hne) as K. rewrite Hv in E by lia. unfold merges.
      rewrite (proj2 (Nat.leb_le 2 La) HLa), <- E, Bool.eqb_reflx.
      assert (E1 : negb (length h =? 0) = true) by (destruct h; [congruence|reflexivity]).
      rewrite E1. cbn [andb]. destruct I; [|reflexivity]. apply negb_true_iff.
      destruct (verdict_eqb (last h d0) d0) eqn:Ev; [|reflexivity]. apply verdict_eqb_eq in Ev. congruence. }
    destruct Hr as [(-> & -> & H3 & H4)|[H1 H2]].
    - left. split; [reflexivity|]. split; [reflexivity|]. split; [|lia].
      unfold push. destruct (merges La h v) eqn:Em; rewrite removelast_last; [assumption|].
      destruct (Nat.le_gt_cases (known h) n) as [|Hgt]; [assumption|exfalso].
      assert (Hne : h <> []) by (intros ->; cbn in Hgt; lia).
      pose proof (known_last h Hi Hne) as K.
      discriminate (M Hne ltac:(lia) ltac:(intros E; rewrite E in K; cbn in K; lia)).
    - right. split; [assumption|]. rewrite (push_long La L) by assumption. cbn [Nat.min].
      destruct H2 as (j & R1 & R2 & R3 & R4 & R5).
      assert (Hlen : length (push L h v) <= j + L).
      { unfold push. destruct (merges L h v) eqn:Em.
        - pose proof (merges_true L h v Em) as (_ & Hne & _).
          rewrite app_length. rewrite (app_removelast_last d0 Hne), app_length in R3. exact R3.
        - rewrite app_length. cbn [length]. destruct (Nat.le_gt_cases (length h + 1) (j + L)) as [|Hgt]; [assumption|exfalso].
          assert (El : length h = j + L) by lia.
          assert (Hne : h <> []) by (intros ->; cbn in El; lia).
          pose proof (known_last h Hi Hne) as K.
          pose proof (incr_nth h j (length h - 1) Hi ltac:(lia)) as Hnth.
          assert (Hlast : snd (nth (length h - 1) h d0) < known h) by (apply in_known, nth_In; lia).
          assert (Em' : merges La h v = merges L h v).
          { unfold merges. apply Nat.leb_le in HLa, H1. rewrite HLa, H1. reflexivity. }
          assert (Et : merges La h v = true) by (apply M; [assumption|lia|intros E; rewrite E in K; cbn in K; lia]). congruence. }
      pose proof (push_length L h v) as Hpl.
      assert (Hj : j < length (push L h v)).
      { destruct R2 as [R2|[-> ->]]; [lia|]. pose proof (push_nonempty L [] v).
        destruct (push L [] v); [congruence|cbn; lia]. }
      exists j. split; [assumption|]. split; [auto|]. split; [lia|]. split; [|lia].
      intros i Hij. destruct R2 as [R2|[-> ->]]; [|lia].
      specialize (R4 i Hij). pose proof (push_firstn L h v Hk j R2) as Ef.
      assert (E : forall l : list verdict, i < length (firstn j l) -> nth i (firstn j l) d0 = nth i l d0).
      { intros l Hl. rewrite <- (firstn_skipn j l) at 2. rewrite app_nth1 by assumption. reflexivity. }
      rewrite <- (E (push L h v)) by (rewrite firstn_length; lia). rewrite Ef, E by (rewrite firstn_length; lia).
      assumption.
  Qed.
End Queue.

(** ** What once and historically can write *)
Lemma since_push s lb ub ts prev n edge r1 v :
  a_push (since_act s lb ub ts prev n edge r1) = Some v ->
  (exists b1 t1, r1 = Some (b1, t1) /\ snd v = t1 + lb) \/
  (fst v = s /\ fst (a_edge (since_act s lb ub ts prev n edge r1)) = true /\
   snd v <= snd (a_edge (since_act s lb ub ts prev n edge r1)) + ub).
Proof.
  assert (H0 : forall x e, a_push (held_act s lb ub ts prev x e) = Some v ->
    fst v = s /\ fst (a_edge (held_act s lb ub ts prev x e)) = true /\
    snd v <= snd (a_edge (held_act s lb ub ts prev x e)) + ub).
  { intros x e. unfold held_act. destruct (fst e) eqn:Ee; [|rewrite andb_false_r; discriminate].
    destruct (_ && _); [|discriminate]. destruct (fresh _ _); [|discriminate].
    cbn. intros H. injection H as <-. rewrite Ee. cbn. repeat split. lia. }
  assert (H1 : forall w x e, a_push (output_act s lb ub ts prev w x e) = Some v ->
    v = w \/ (fst v = s /\ fst (a_edge (output_act s lb ub ts prev w x e)) = true /\
    snd v <= snd (a_edge (output_act s lb ub ts prev w x e)) + ub)).
  { intros w x e. unfold output_act. destruct (_ && _); [|auto]. cbn. intros H. injection H as <-. auto. }
  unfold since_act. destruct r1 as [[b1 t1]|]; [|auto].
  destruct (Bool.eqb b1 s); [|destruct (_ || _); [|auto]]; intros H; apply H1 in H as [->|H]; auto; left; exists b1, t1; auto.
Qed.

Section Tight.
  Context {I : impl}.
  Variables (prog : list instr) (confs : list qconf) (tr : trace) (part : nat -> bool) (room : nat).
  Hypothesis Hpt : pt_part part prog confs.
  Hypothesis Hdist : distinct_reports prog.
  Hypothesis Hflat : pt_flat prog confs.
  Hypothesis Henough : pt_part_enough part prog confs.
  Hypothesis Hroom : forall k, lead (node_expr prog confs k) + 2 <= room.

  (** ** The same program with more room *)
  Definition pwiden (c : qconf) : qconf := QConf (c_len c + room) (c_lb c) (c_ub c).
  Definition pwide : list qconf := map pwiden confs.
  Local Notation Node := (node prog pwide part).
  Local Notation Val := (val prog pwide tr).
  Local Notation Len := (len confs).

  Lemma pwide_exprs : exprs prog pwide = exprs prog confs.
  Proof using Type.
    apply exprs_from_bounds. assert (H : forall l, Forall2 same_bounds (map pwiden l) l); [|apply H].
    induction l as [|c l IH]; cbn; constructor; auto. split; reflexivity.
  Qed.
  Lemma pwide_node k : node_expr prog pwide k = node_expr prog confs k.
  Proof using Type. unfold node_expr. rewrite pwide_exprs. reflexivity. Qed.
  Lemma pNode_conf k ins c : Node k ins c -> exists c0, nth_error confs k = Some c0 /\ c = pwiden c0 /\ Len k = c_len c0 /\ 1 <= c_len c0.
  Proof using Hpt.
    intros (Hp & Hc & HK). unfold pwide in Hc. rewrite nth_error_map in Hc.
    destruct (nth_error confs k) as [c0|] eqn:E; [|discriminate]. injection Hc as <-.
    exists c0. split; [reflexivity|]. split; [reflexivity|]. split.
    - unfold len. rewrite (nth_error_nth _ _ _ E). reflexivity.
    - apply (proj2 (proj2 Hpt) k ins c0 HK Hp E).
  Qed.
  Lemma pwide_pt : pt_part part prog pwide.
  Proof using Hpt.
    destruct Hpt as (H1 & H2 & H3). split; [unfold pwide; rewrite map_length; assumption|]. split; [assumption|].
    intros k ins c HK Hp Hc. unfold pwide in Hc. rewrite nth_error_map in Hc.
    destruct (nth_error confs k) as [c0|] eqn:E; [|discriminate]. injection Hc as <-.
    destruct (H3 k ins c0 HK Hp E) as [F1 F2]. split; [cbn; lia|exact F2].
  Qed.
  Lemma pwide_ample : pt_part_ample part prog pwide.
  Proof using Hroom.
    intros k ins c conf HK Hp Hr Hc. rewrite pwide_node. pose proof (Hroom c).
    unfold pwide in Hc. rewrite nth_error_map in Hc. destruct (nth_error confs c); [|discriminate].
    injection Hc as <-. cbn [pwiden c_len]. lia.
  Qed.
  Lemma pNode_wide k ins c : Node k ins c -> 2 <= c_len c.
  Proof using Hpt Hroom.
    intros Hn. destruct (pNode_conf k ins c Hn) as (c0 & _ & -> & _). cbn [pwiden c_len]. pose proof (Hroom 0). lia.
  Qed.

  Definition ah (k : nat) : nat := ahead (node_expr prog confs k).
  Definition oah (o : operand) : nat := ahead (operand_expr (exprs prog confs) o).
  Lemma ah_eq k ins c : Node k ins c -> ah k =
    match i_op ins with
    | LOAD | RETURN | NOT => oah (i_op1 ins)
    | AND | OR | EQUIV | UNTIL | RELEASE => Nat.max (oah (i_op1 ins)) (oah (i_op2 ins))
    | SINCE | TRIGGER => oah (i_op2 ins) + c_lb c
    end.
  Proof using Hpt.
    intros Hn. unfold ah, oah. rewrite <- pwide_node, (pnode_eq prog pwide part pwide_pt k ins c Hn), pwide_exprs.
    unfold instr_expr. destruct (i_op ins); cbn [ahead fold_right]; try reflexivity; lia.
  Qed.
  Lemma ah_len k ins c i : Node k ins c -> reads ins i -> ah i < Len i.
  Proof using Hpt Henough.
    intros Hn Hr. destruct (psub_child prog pwide part pwide_pt k ins c i Hn Hr) as (_ & ins' & c' & Hn' & _).
    destruct (pNode_conf i ins' c' Hn') as (c1 & E1 & _ & -> & _).
    exact (Henough k ins i c1 (proj2 (proj2 Hn)) (proj1 Hn) Hr E1).
  Qed.
  Lemma since_now k ins c i : Node k ins c -> i_op ins = SINCE \/ i_op ins = TRIGGER -> i_op2 ins = Sub i ->
    ld prog pwide i = 0 /\ ah i = 0.
  Proof using Hflat.
    intros Hn Ho Ei. unfold ld, ah. rewrite pwide_node. apply timeless_now. exact (Hflat k ins i (proj1 Hn) Ho Ei).
  Qed.

  (** ** The two runs side by side *)
  Record ptwin (h : nat -> list verdict) (ma mt : monitor) : Prop := {
    w_next : forall k ins c, Node k ins c -> q_next (get_queue mt k) = q_next (get_queue ma k);
    w_prev : forall k ins c, Node k ins c -> q_prev (get_queue mt k) = q_prev (get_queue ma k);
    w_edge : forall k ins c, Node k ins c -> q_edge (get_queue mt k) = q_edge (get_queue ma k);
    w_lb : forall k ins c, Node k ins c -> q_lb (get_queue mt k) = c_lb c;
    w_ub : forall k ins c, Node k ins c -> q_ub (get_queue mt k) = c_ub c;
    w_hold : forall k ins c, Node k ins c ->
             holding (Len k) (q_slots (get_queue mt k)) (q_write (get_queue mt k)) (h k)
  }.
  Record plock (ts p : nat) (h : nat -> list verdict) (ma mt : monitor) : Prop := {
    l_pass : ppassing prog pwide tr part ts p h ma;
    l_twin : ptwin h ma mt;
    l_first : forall k ins c, Node k ins c -> i_op ins <> RETURN -> (m_progress ma <> FirstLoop \/ k < p) -> S ts <= known (h k);
    l_flat : forall k ins c, Node k ins c -> forall i j, ts + ah k <= i -> i <= j < known (h k) -> Val k i = Val k j;
    l_zero : ts = 0 -> m_progress ma = FirstLoop -> forall k ins c, Node k ins c -> p <= k -> known (h k) = 0;
    l_read : forall j ins c sec i, Node j ins c -> own sec ins = Sub i ->
             ready (Len i) (h i) (q_next (get_queue ma j)) (rp sec (get_queue mt j)) 0 /\
             ((j < p \/ p <= i) -> ready (Len i) (h i) (q_next (get_queue ma j)) (rp sec (get_queue mt j)) ts);
    l_idle : m_progress ma = NoProgress -> forall j ins c sec i, Node j ins c -> own sec ins = Sub i -> j < p ->
             ready (Len i) (h i) (q_next (get_queue ma j)) (rp sec (get_queue mt j)) (S ts)
  }.

  Section Visit.
    Variables (h : nat -> list verdict) (ts : nat) (ma mt : monitor) (k : nat) (ins : instr) (c : qconf).
    Hypothesis HL : plock ts k h ma mt.
    Hypothesis HA : alike ma mt.
    Hypothesis Hn : Node k ins c.
    Let HI := pp_inv _ _ _ _ _ _ _ _ (l_pass _ _ _ _ _ HL).
    Let HT := l_twin _ _ _ _ _ HL.
    Let n := q_next (get_queue ma k).
    Let a := fst (pact tr h ts ma k ins c).
    Let out := snd (pact tr h ts ma k ins c).
    Let N := pi_nodes _ _ _ _ _ _ _ HI k ins c Hn.
    Let F := pnode_pt prog pwide part pwide_pt k ins c Hn.

    Definition poplaced (o : operand) (x r : nat) : Prop :=
      match o with Sub i => placed (Len i) (h i) x r | _ => True end.

    Lemma ptight_fetch sec :
      let f := fetch (tr ts) (m_progress mt) (m_time mt) (get_queue mt) (own sec ins) n (rp sec (get_queue mt k)) in
      snd f = oview tr h ts (m_progress ma) (own sec ins) n /\ poplaced (own sec ins) n (fst f).
    Proof using HL HA Hn Hpt.
      cbv zeta. rewrite (a_time _ _ HA), (a_progress _ _ HA), (pi_time _ _ _ _ _ _ _ HI).
      destruct (own sec ins) as [b|x|i|] eqn:Eo; cbn [fetch oview poplaced fst snd]; auto.
      destruct (psub_child prog pwide part pwide_pt k ins c i Hn (own_reads _ _ _ Eo)) as (_ & ins' & c' & Hi & _).
      apply (ready_read _ _ _ _ _ _ 0).
      - apply (w_hold _ _ _ HT i ins' c' Hi).
      - apply (pn_incr _ _ _ _ _ _ _ _ _ (pi_nodes _ _ _ _ _ _ _ HI i ins' c' Hi)).
      - apply (l_read _ _ _ _ _ HL k ins c sec i Hn Eo).
    Qed.
    Lemma plength : k < length (m_queues mt) /\ k < length (m_queues ma).
    Proof using HL HA Hn.
      rewrite (a_length _ _ HA), (pi_length _ _ _ _ _ _ _ HI).
      split; apply (node_lt prog pwide part k ins c Hn).
    Qed.

    Lemma ptight_update :
      exists q',
        update (tr ts) k ins mt =
        St mt k q' (match a_push a, out with
                    | None, None => m_progress ma
                    | None, Some _ => return_flag (m_progress ma)
                    | _, _ => flag (m_progress ma)
                    end)
           (match out with Some v => m_out ma ++ [(i_num ins, v)] | None => m_out ma end) /\
        (q_slots q', q_write q') = write_opt (get_queue mt k) (a_push a) /\
        q_next q' = a_next a /\ q_prev q' = a_prev a /\ q_edge q' = a_edge a /\
        q_lb q' = q_lb (get_queue mt k) /\ q_ub q' = q_ub (get_queue mt k) /\
        forall sec, poplaced (own sec ins) n (rp sec q') \/
                    (rp sec q' = rp sec (get_queue mt k) /\ n = 0 /\ ts = 0 /\ a_push a <> None).
    Proof using HL HA Hn Hpt.
      destruct (pnode_below prog pwide part pwide_pt k ins c Hn) as [B1 B2].
      destruct plength as [Hlt _]. destruct F as [_ F'].
      destruct (ptight_fetch false) as [F0 P0]. destruct (ptight_fetch true) as [F1 P1].
      cbn [own rp] in F0, P0, F1, P1.
      assert (Eq : forall s r, since_action s ts (get_queue mt k) r = since_action s ts (get_queue ma k) r).
      { intros s r. unfold since_action, since_first.
        rewrite (w_lb _ _ _ HT k ins c Hn), (w_ub _ _ _ HT k ins c Hn), (w_prev _ _ _ HT k ins c Hn),
          (w_next _ _ _ HT k ins c Hn), (w_edge _ _ _ HT k ins c Hn).
        rewrite (pn_lb _ _ _ _ _ _ _ _ _ N), (pn_ub _ _ _ _ _ _ _ _ _ N). reflexivity. }
      destruct (since_bit (i_op ins)) as [s|] eqn:Es.
      - assert (Ha : a = since_action s ts (get_queue ma k) (oview tr h ts (m_progress ma) (i_op2 ins) n) /\ out = None)
          by (unfold a, out, pact; rewrite Es; split; reflexivity).
        destruct Ha as [Ha Hout].
        assert (F2 : i_op ins = (if s then SINCE else TRIGGER) /\ i_op1 ins = Direct s /\ exists j, i_op2 ins = Sub j).
        { destruct (i_op ins); try discriminate; injection Es as <-; destruct F' as (X1 & (j & X2 & _) & _); eauto. }
        destruct F2 as (Eop & E1 & j & E2).
        assert (Hjk : j <> k) by (specialize (B2 j E2); lia).
        destruct (since_after (tr ts) k ins mt s j Hlt Eop E1 E2 Hjk) as (r & Hr & E). cbv zeta in Hr, E.
        rewrite E2 in *. cbn [fetch] in F1, P1.
        rewrite (w_next _ _ _ HT k ins c Hn) in E, Hr. fold n in E, Hr.
        rewrite F1, (a_time _ _ HA), (pi_time _ _ _ _ _ _ _ HI), Eq, <- Ha in E.
        rewrite E, Hout, (a_progress _ _ HA), (a_out _ _ HA).
        match goal with |- exists q', St _ _ ?x _ _ = _ /\ _ => exists x end.
        split; [destruct (a_push a); reflexivity|].
        cbn [q_slots q_write q_next q_prev q_edge q_lb q_ub].
        split; [destruct (write_opt _ (a_push a)); reflexivity|].
        repeat (split; [reflexivity|]).
        intros [|]; cbn [own rp q_read1 q_read2]; [|rewrite E1; left; exact Logic.I].
        rewrite E2. destruct Hr as [[-> Hst]| ->]; [right|left; exact P1].
        split; [reflexivity|].
        rewrite (w_lb _ _ _ HT k ins c Hn), (w_prev _ _ _ HT k ins c Hn) in Hst.
        assert (Ha' : a_push a <> None).
        { rewrite Ha. unfold since_action. rewrite (pn_lb _ _ _ _ _ _ _ _ _ N), Hst. discriminate. }
        pose proof (pn_op _ _ _ _ _ _ _ _ _ N) as [Hts O]. fold n in Hts, O. rewrite Eop in O, F'.
        assert (N0 : n = 0).
        { destruct s; destruct F' as (_ & _ & Hb).
          - apply (start_good _ _ _ _ _ (once_like_S _ _ _) Hb _ _ _ _ _ O Hst).
          - apply (start_good _ _ _ _ _ (once_like_T _ _ _) Hb _ _ _ _ _ O Hst). }
        repeat split; auto. lia.
      - assert (Hf : future (i_op ins)) by (split; intros E; rewrite E in Es; discriminate).
        assert (Ha : a = Past (l_push (plocal tr h ts ma k ins c)) (l_next (plocal tr h ts ma k ins c)) (l_prev (plocal tr h ts ma k ins c)) (q_edge (get_queue ma k))
                     /\ out = l_out (plocal tr h ts ma k ins c))
          by (unfold a, out, pact; rewrite Es; split; reflexivity).
        destruct Ha as [Ha Hout].
        rewrite update_after; [|assumption|assumption|intros E; apply B1 in E; lia|intros E; apply B2 in E; lia].
        unfold after.
        assert (Est : start_next (i_op ins) (q_lb (get_queue mt k)) (q_next (get_queue mt k)) = n).
        { rewrite (w_next _ _ _ HT k ins c Hn). unfold start_next. destruct (i_op ins); try reflexivity; destruct F'. }
        rewrite Est.
        set (f0 := fetch _ _ _ _ (i_op1 ins) _ _) in *.
        set (f1 := fetch _ _ _ _ (i_op2 ins) _ _) in *.
        assert (Hb : binary (i_op ins) = false -> i_op2 ins = NotSet).
        { destruct (i_op ins); try discriminate; intros _; apply F'. }
        assert (El : local_of (i_op ins) (q_lb (get_queue mt k)) (q_ub (get_queue mt k)) n (q_prev (get_queue mt k)) (snd f0)
                       (snd (if binary (i_op ins) then f1 else (q_read2 (get_queue mt k), None))) = plocal tr h ts ma k ins c).
        { unfold plocal. fold n. rewrite (w_lb _ _ _ HT k ins c Hn), (w_ub _ _ _ HT k ins c Hn), (w_prev _ _ _ HT k ins c Hn), F0.
          destruct (binary (i_op ins)); [rewrite F1|]; reflexivity. }
        rewrite El, Ha, Hout, (a_progress _ _ HA), (a_out _ _ HA), (w_edge _ _ _ HT k ins c Hn). cbn [a_push a_next a_prev a_edge].
        eexists. split; [reflexivity|]. cbn [q_slots q_write q_next q_prev q_edge q_lb q_ub].
        split; [unfold write_opt; destruct (l_push _) as [v|]; [destruct (scq_write _ _ _)|]; reflexivity|].
        repeat (split; [reflexivity|]).
        intros [|]; left; cbn [own rp q_read1 q_read2]; [|assumption].
        destruct (binary (i_op ins)); [assumption|]. rewrite Hb by reflexivity. exact Logic.I.
    Qed.

    Variables (h' : nat -> list verdict).
    Let ma' := update (tr ts) k ins ma.
    Let mt' := update (tr ts) k ins mt.
    Hypothesis HV : pvisited prog pwide tr part h h' ts ma ma' k ins c.
    Hypothesis HP : ppassing prog pwide tr part ts (S k) h' ma'.

    Lemma phother j : j <> k -> h' j = h j.
    Proof using HV. intros H. apply (pv_others _ _ _ _ _ _ _ _ _ _ _ _ HV j H). Qed.
    Lemma phnew : h' k = match a_push a with Some v => push (c_len c) (h k) v | None => h k end.
    Proof using HV. exact (pv_new _ _ _ _ _ _ _ _ _ _ _ _ HV). Qed.
    Lemma phlegal v : a_push a = Some v -> known (h k) <= snd v /\ forall s, known (h k) <= s <= snd v -> Val k s = fst v.
    Proof using HV. exact (pv_legal _ _ _ _ _ _ _ _ _ _ _ _ HV v). Qed.
    Lemma phknown : known (h' k) = match a_push a with Some v => S (snd v) | None => known (h k) end.
    Proof using HV.
      rewrite phnew. pose proof phlegal as H. destruct (a_push a) as [v|]; [|reflexivity].
      apply push_known. apply H. reflexivity.
    Qed.
    Lemma pnnew : q_next (get_queue ma' k) = a_next a.
    Proof using HV. exact (pv_next _ _ _ _ _ _ _ _ _ _ _ _ HV). Qed.
    Lemma pnmono : n <= a_next a.
    Proof using HV. rewrite <- pnnew. exact (pv_mono _ _ _ _ _ _ _ _ _ _ _ _ HV). Qed.
    Lemma ppfirst : m_progress ma' = FirstLoop <-> m_progress ma = FirstLoop.
    Proof using HV.
      destruct (pv_cases _ _ _ _ _ _ _ _ _ _ _ _ HV) as [(_ & _ & _ & -> & _)|[(-> & _)|(-> & _)]]; try reflexivity.
      destruct (m_progress ma); cbn; split; congruence.
    Qed.
    Lemma ppidle : m_progress ma' = NoProgress -> m_progress ma = NoProgress /\ a_push a = None.
    Proof using HV Hn Hpt.
      intros H.
      destruct (pv_cases _ _ _ _ _ _ _ _ _ _ _ _ HV) as [(Hs & _ & _ & E & _)|[(E & _ & Er & _)|(E & _)]].
      - split; [congruence|exact Hs].
      - split; [congruence|]. unfold a, pact, plocal. rewrite Er. cbn. destruct (oview _ _ _ _ _ _); reflexivity.
      - rewrite E in H. destruct (m_progress ma); discriminate.
    Qed.

    Lemma psides : ptwin h' ma' mt' /\ alike ma' mt'.
    Proof using HL HA Hn Hpt Hroom HV.
      destruct ptight_update as (qt & Et & T1 & T2 & T3 & T4 & T5 & T6 & _).
      destruct (pvisit_update prog pwide tr part pwide_pt h ts ma k ins c HI Hn) as (qa & Ea & A1 & A2 & A3 & A4 & A5 & A6 & _).
      fold ma' in Ea. fold mt' in Et. fold a in Ea, A1, A2, A3, A4. fold out in Ea.
      destruct plength as [Hkt Hka].
      assert (G : forall j, j <> k -> get_queue ma' j = get_queue ma j /\ get_queue mt' j = get_queue mt j).
      { intros j Hj. rewrite Ea, Et, !get_St_other by congruence. auto. }
      assert (Ga : get_queue ma' k = qa) by (rewrite Ea; apply get_St; assumption).
      assert (Gt : get_queue mt' k = qt) by (rewrite Et; apply get_St; assumption).
      split.
      - constructor; intros j ins' c' Hj; (destruct (Nat.eq_dec j k) as [->|Hne]; [|destruct (G j Hne) as [G1 G2]; rewrite ?G1, ?G2]).
        + rewrite Ga, Gt. congruence.
        + apply (w_next _ _ _ HT j ins' c' Hj).
        + rewrite Ga, Gt. congruence.
        + apply (w_prev _ _ _ HT j ins' c' Hj).
        + rewrite Ga, Gt. congruence.
        + apply (w_edge _ _ _ HT j ins' c' Hj).
        + rewrite Gt, T5. apply (w_lb _ _ _ HT k ins' c' Hj).
        + apply (w_lb _ _ _ HT j ins' c' Hj).
        + rewrite Gt, T6. apply (w_ub _ _ _ HT k ins' c' Hj).
        + apply (w_ub _ _ _ HT j ins' c' Hj).
        + rewrite Gt, phnew. pose proof (w_hold _ _ _ HT k ins' c' Hj) as Hh. pose proof phlegal as Hl.
          unfold write_opt in T1. destruct (a_push a) as [v|].
          * pose proof (holding_push (Len k) (c_len c) _ _ (h k) v Hh (pn_incr _ _ _ _ _ _ _ _ _ N) (proj1 (Hl v eq_refl)) (pNode_wide k ins c Hn)) as P.
            destruct (scq_write _ _ _). injection T1 as -> ->. exact P.
          * injection T1 as -> ->. exact Hh.
        + rewrite (phother j Hne). apply (w_hold _ _ _ HT j ins' c' Hj).
      - constructor; rewrite Ea, Et; cbn [St m_time m_progress m_out m_queues]; try reflexivity.
        + apply (a_time _ _ HA).
        + rewrite !set_nth_length. apply (a_length _ _ HA).
    Qed.
    Lemma ptight_other j : j <> k -> get_queue mt' j = get_queue mt j.
    Proof using HL HA Hn Hpt.
      intros Hj. destruct ptight_update as (qt & Et & _). fold mt' in Et. rewrite Et. apply get_St_other. congruence.
    Qed.
    Lemma pample_other j : j <> k -> get_queue ma' j = get_queue ma j.
    Proof using HV. intros H. apply (pv_others _ _ _ _ _ _ _ _ _ _ _ _ HV j H). Qed.
    Lemma ptight_placed sec i : own sec ins = Sub i ->
      placed (Len i) (h i) n (rp sec (get_queue mt' k)) \/
      (rp sec (get_queue mt' k) = rp sec (get_queue mt k) /\ n = 0 /\ ts = 0 /\ a_push a <> None).
    Proof using HL HA Hn Hpt.
      intros Eo. destruct ptight_update as (qt & Et & _ & _ & _ & _ & _ & _ & Hp). fold mt' in Et.
      specialize (Hp sec). rewrite Eo in Hp. cbn in Hp. rewrite Et, get_St; [exact Hp|]. apply plength.
    Qed.

    Lemma ptsn : ts <= n.
    Proof using HL Hn. exact (pinv_next _ _ _ _ _ _ _ _ _ _ HI Hn). Qed.

    (** Values the operands deliver hold since [ts] plus their lead. *)
    Lemma pview_flat sec i b t :
      own sec ins = Sub i -> rd (h i) n = Some (b, t) -> forall x, ts + ah i <= x <= t -> Val i x = b.
    Proof using HL Hn Hpt.
      intros Eo Hr x Hx.
      destruct (psub_child prog pwide part pwide_pt k ins c i Hn (own_reads _ _ _ Eo)) as (_ & ins' & c' & Hi & _).
      pose proof (rd_time _ _ _ Hr) as Ht. cbn in Ht. pose proof (rd_ge _ _ _ Hr) as [Hge _]. cbn in Hge.
      rewrite (l_flat _ _ _ _ _ HL i ins' c' Hi x t) by lia.
      apply (pn_sound _ _ _ _ _ _ _ _ _ (pi_nodes _ _ _ _ _ _ _ HI i ins' c' Hi) t (b, t)).
      apply (rd_within _ n); [assumption|cbn; lia].
    Qed.

    Lemma ppush_flat v : a_push a = Some v -> forall x, ts + ah k <= x <= snd v -> Val k x = fst v.
    Proof using HL HA Hn Hpt Hflat HV.
      intros Ev x Hx. destruct (phlegal v Ev) as [Hlk Hlv].
      destruct (Nat.le_gt_cases (known (h k)) x) as [Hge|Hlt]; [apply Hlv; lia|].
      assert (Hlast : forall y, ts + ah k = y -> y = x -> snd v <= y -> Val k x = fst v) by (intros; lia).
      pose proof (pval_eq prog pwide tr part pwide_pt k ins c Hn) as Hval. unfold instr_expr in Hval.
      pose proof (ah_eq k ins c Hn) as Hah. destruct F as [_ F'].
      unfold a, pact, plocal in Ev. fold n in Ev.
      assert (EA : forall o i, o = Sub i -> oah o = ah i) by (intros ? ? ->; reflexivity).
      assert (EV : forall i, ostream prog pwide tr (Sub i) = Val i) by reflexivity.
      assert (S1 : forall s : bool, i_op ins = (if s then SINCE else TRIGGER) -> Val k x = fst v).
      { intros s Es. assert (Hs : i_op ins = SINCE \/ i_op ins = TRIGGER) by (destruct s; auto).
        assert (G : i_op1 ins = Direct s /\ exists i, i_op2 ins = Sub i).
        { destruct s; rewrite Es in F'; destruct F' as (X1 & (i & X2 & _) & _); eauto. }
        destruct G as (E1 & i & E2).
        assert (Hb : c_lb c <= c_ub c) by (destruct s; rewrite Es in F'; apply F').
        assert (Ho : once_like s (c_lb c) (c_ub c) (Val i) (Val k)).
        { rewrite Hval, E1, E2. destruct s; rewrite Es; [apply once_like_S|apply once_like_T]. }
        destruct (since_now k ins c i Hn Hs E2) as [D1 D2].
        assert (Eah : ah k = c_lb c) by (rewrite Hah, (EA _ _ E2), D2; destruct s; rewrite Es; reflexivity).
        destruct (psub_child prog pwide part pwide_pt k ins c i Hn (or_intror E2)) as (_ & ins' & c' & Hi & _).
        pose proof (pn_hi _ _ _ _ _ _ _ _ _ (pi_nodes _ _ _ _ _ _ _ HI i ins' c' Hi)) as Hhi. rewrite D1 in Hhi.
        pose proof (pn_lb _ _ _ _ _ _ _ _ _ N) as Elb. pose proof (pn_ub _ _ _ _ _ _ _ _ _ N) as Eub.
        destruct (pvisit_update prog pwide tr part pwide_pt h ts ma k ins c HI Hn) as (qa & Ea & _ & A2 & A3 & A4 & _).
        fold ma' in Ea. fold a in A2, A3, A4.
        pose proof (pi_nodes _ _ _ _ _ _ _ (pv_inv _ _ _ _ _ _ _ _ _ _ _ _ HV) k ins c Hn) as N'.
        pose proof (pn_op _ _ _ _ _ _ _ _ _ N') as [_ O].
        rewrite Ea, get_St, A4 in O by apply plength.
        assert (Ha : a = since_action s ts (get_queue ma k) (rd (h i) n)).
        { unfold a, pact. rewrite Es, E2. destruct s; reflexivity. }
        assert (Hsi : exists K y p, sinv s (c_lb c) (Val i) (S ts) K y p (a_edge a)).
        { assert (Eold : old prog pwide (i_op2 ins) = 0) by (rewrite E2; exact D1).
          rewrite Eold, Nat.add_0_r, E2 in O. destruct s; rewrite Es in O; eauto. }
        destruct Hsi as (K & y & p & Hsi).
        assert (Ev' : a_push a = Some v).
        { unfold a, pact, plocal. fold n. exact Ev. }
        unfold since_action in Ha. destruct (starting _ _).
        - rewrite Ha in Ev'. cbn in Ev'. injection Ev' as <-. cbn in Hx, Hlk. rewrite Elb in Hx, Hlk. lia.
        - rewrite Elb, Eub in Ha. fold n in Ha. rewrite Ha in Ev'.
          apply since_push in Ev' as [(b1 & t1 & E & Et)|(G1 & G2 & G3)].
          + apply rd_time in E. cbn in E. rewrite Eah in Hx. lia.
          + rewrite <- Ha in G2, G3. destruct Hsi as [_ He _]. rewrite G2 in He. destruct He as (He1 & He2 & He3 & _).
            rewrite G1. apply Ho. exists (snd (a_edge a)). split; [|assumption]. rewrite Eah in Hx. lia. }
      destruct (i_op ins) eqn:Eop; cbn [since_bit binary a_push fst] in Ev.
      - destruct F' as [[at_ E1] _]. rewrite E1 in Ev. cbn [oview] in Ev.
        destruct (m_progress ma); try discriminate. cbn in Ev. injection Ev as <-. cbn in Hx |- *.
        rewrite Hval, E1. cbn. f_equal. lia.
      - cbn [local_of] in Ev. destruct (oview _ _ _ _ _ _); discriminate.
      - destruct F'.
      - destruct F'.
      - apply (S1 true). reflexivity.
      - apply (S1 false). reflexivity.
      - destruct F' as [(i & E1 & _) _]. rewrite E1 in Ev. cbn [oview] in Ev.
        rewrite (EA _ _ E1) in Hah.
        pose proof (pview_flat false i) as V. cbn [own] in V.
        cbn [local_of] in Ev. destruct (rd (h i) n) as [[b t]|]; [|discriminate]. cbn in Ev. injection Ev as <-. cbn in Hx |- *.
        rewrite Hval, E1. cbn [den operand_expr]. f_equal. apply (V b t); auto. lia.
      - destruct F' as [(i & E1 & _) (j & E2 & _)]. rewrite E1, E2 in Ev. cbn [oview] in Ev.
        rewrite (EA _ _ E1), (EA _ _ E2) in Hah.
        pose proof (pview_flat false i) as V. pose proof (pview_flat true j) as W. cbn [own] in V, W.
        assert (Ek : Val k x = Val i x && Val j x) by (rewrite Hval, E1, E2; cbn; rewrite ?andb_true_r; reflexivity).
        rewrite Ek. cbn [local_of] in Ev.
        destruct (rd (h i) n) as [[[|] t0]|], (rd (h j) n) as [[[|] t1]|]; cbn in Ev; try discriminate; injection Ev as <-; cbn in Hx |- *;
          first [rewrite (V true t0), (W true t1) by (auto; lia); reflexivity
                |destruct (Nat.le_gt_cases x t0); [rewrite (V false t0) by (auto; lia); reflexivity|]; 
                 rewrite (W false t1) by (auto; lia); apply andb_false_r
                |rewrite (V false t0) by (auto; lia); reflexivity
                |rewrite (W false t1) by (auto; lia); apply andb_false_r].
      - destruct F' as [(i & E1 & _) (j & E2 & _)]. rewrite E1, E2 in Ev. cbn [oview] in Ev.
        rewrite (EA _ _ E1), (EA _ _ E2) in Hah.
        pose proof (pview_flat false i) as V. pose proof (pview_flat true j) as W. cbn [own] in V, W.
        assert (Ek : Val k x = Val i x || Val j x) by (rewrite Hval, E1, E2; cbn; rewrite ?orb_false_r; reflexivity).
        rewrite Ek. cbn [local_of] in Ev.
        destruct (rd (h i) n) as [[[|] t0]|], (rd (h j) n) as [[[|] t1]|]; cbn in Ev; try discriminate; injection Ev as <-; cbn in Hx |- *;
          first [rewrite (V false t0), (W false t1) by (auto; lia); reflexivity
                |destruct (Nat.le_gt_cases x t0); [rewrite (V true t0) by (auto; lia); reflexivity|];
                 rewrite (W true t1) by (auto; lia); apply orb_true_r
                |rewrite (V true t0) by (auto; lia); reflexivity
                |rewrite (W true t1) by (auto; lia); apply orb_true_r].
      - destruct F' as [(i & E1 & _) (j & E2 & _)]. rewrite E1, E2 in Ev. cbn [oview] in Ev.
        rewrite (EA _ _ E1), (EA _ _ E2) in Hah.
        pose proof (pview_flat false i) as V. pose proof (pview_flat true j) as W. cbn [own] in V, W.
        assert (Ek : Val k x = Bool.eqb (Val i x) (Val j x)) by (rewrite Hval, E1, E2; reflexivity).
        rewrite Ek. cbn [local_of] in Ev.
        destruct (rd (h i) n) as [[b0 t0]|], (rd (h j) n) as [[b1 t1]|]; cbn in Ev; try discriminate; injection Ev as <-; cbn in Hx |- *.
        rewrite (V b0 t0), (W b1 t1) by (auto; lia). reflexivity.
    Qed.

    Lemma pno_out : i_op ins <> RETURN -> out = None.
    Proof using Type.
      intros Hr. unfold out, pact, plocal. destruct (since_bit (i_op ins)); [reflexivity|]. cbn [snd].
      generalize (oview tr h ts (m_progress ma) (i_op1 ins) (q_next (get_queue ma k))).
      generalize (if binary (i_op ins) then oview tr h ts (m_progress ma) (i_op2 ins) (q_next (get_queue ma k)) else None).
      intros r1 r0. destruct (i_op ins); try congruence; cbn [local_of];
        try (unfold until_local); repeat (match goal with |- context [match ?x with _ => _ end] => destruct x end); reflexivity.
    Qed.
    Lemma pfirst_known : i_op ins <> RETURN -> S ts <= known (h' k).
    Proof using HL Hn Hpt HV HP.
      intros Hr.
      destruct (a_push a) as [v|] eqn:Ev.
      - rewrite phknown, Ev. destruct (phlegal v Ev) as [Hv _].
        pose proof (pinv_known _ _ _ _ _ _ _ _ _ _ HI Hn Hr) as Hk. fold n in Hk. pose proof ptsn. lia.
      - assert (D : i_op ins = LOAD \/ i_op ins <> LOAD) by (destruct (i_op ins); auto; right; discriminate).
        destruct D as [D|D].
        + rewrite (proj2 (pp_load _ _ _ _ _ _ _ _ HP k ins c Hn D)); [lia|right; lia].
        + pose proof (pv_quiet _ _ _ _ _ _ _ _ _ _ _ _ HV Ev (pno_out Hr) D) as Q.
          pose proof (pinv_known _ _ _ _ _ _ _ _ _ _ (pv_inv _ _ _ _ _ _ _ _ _ _ _ _ HV) Hn Hr) as Hk.
          enough (S ts <= q_next (get_queue ma' k)) by lia. apply Q. intros j Hj.
          destruct (psub_child prog pwide part pwide_pt k ins c j Hn Hj) as (Hlt & ins' & c' & Hn' & Hr').
          apply (l_first _ _ _ _ _ HL j ins' c' Hn' Hr'). auto.
    Qed.

    (** The reader just visited is ready for the next writes. *)
    Lemma pown_ready sec i : own sec ins = Sub i ->
      ready (Len i) (h i) (a_next a) (rp sec (get_queue mt' k)) ts.
    Proof using HL HA Hn Hpt HV.
      intros Eo. destruct (ptight_placed sec i Eo) as [P|(Er & N0 & T0 & _)].
      - apply (placed_ready _ _ n); [assumption|apply pnmono|]. right. left. exact ptsn.
      - rewrite Er. apply (ready_mono _ _ n _ _ 0); [|apply pnmono|lia].
        apply (l_read _ _ _ _ _ HL k ins c sec i Hn Eo).
    Qed.
    Lemma pown_ready_idle sec i : m_progress ma' = NoProgress -> own sec ins = Sub i ->
      ready (Len i) (h i) (a_next a) (rp sec (get_queue mt' k)) (S ts).
    Proof using HL HA Hn Hpt Hflat HV HP.
      intros Hidle Eo. destruct (ppidle Hidle) as [Hid Hnp].
      pose proof (pf_done _ _ _ _ _ _ (pp_idle _ _ _ _ _ _ _ _ HP Hidle k ins c Hn (Nat.lt_succ_diag_r k))) as Hd.
      rewrite pnnew in Hd.
      destruct (ptight_placed sec i Eo) as [P|(_ & _ & _ & X)]; [|contradiction].
      apply (placed_ready _ _ n); [assumption|apply pnmono|].
      destruct (rd (h i) n) as [v|] eqn:Er; [right|left; reflexivity].
      destruct (psub_child prog pwide part pwide_pt k ins c i Hn (own_reads _ _ _ Eo)) as (_ & ins' & c' & Hi & _).
      pose proof (rd_ge _ _ _ Er) as [Hge _]. pose proof (rd_time _ _ _ Er) as Ht. pose proof ptsn as Hts.
      assert (S1 : i_op ins = SINCE \/ i_op ins = TRIGGER -> exists v0, Some v = Some v0 /\ S (snd v0) = known (h i) /\ snd v0 < a_next a).
      { intros Hs. assert (E2 : i_op2 ins = Sub i).
        { destruct sec; [exact Eo|]. cbn in Eo. destruct F as [_ F'].
          destruct Hs as [Hs|Hs]; rewrite Hs in F'; destruct F' as (E1 & _); congruence. }
        destruct (since_now k ins c i Hn Hs E2) as [D1 _].
        pose proof (pn_hi _ _ _ _ _ _ _ _ _ (pi_nodes _ _ _ _ _ _ _ HI i ins' c' Hi)) as Hhi. rewrite D1 in Hhi.
        exists v. split; [reflexivity|]. lia. }
      assert (B : match i_op ins with NOT | AND | OR | EQUIV => True | _ => False end -> S ts <= n).
      { intros Hb. pose proof (pn_op _ _ _ _ _ _ _ _ _ N) as [_ O].
        pose proof (pn_op _ _ _ _ _ _ _ _ _ (pi_nodes _ _ _ _ _ _ _ (pv_inv _ _ _ _ _ _ _ _ _ _ _ _ HV) k ins c Hn)) as [_ O'].
        pose proof phknown as Hk. rewrite Hnp in Hk. fold n in O. rewrite pnnew, Hk in O'.
        destruct (i_op ins); try destruct Hb; lia. }
      destruct F as [_ F']. destruct (i_op ins) eqn:Eop; try (left; apply B; exact Logic.I); try (right; apply S1; auto; fail); try destruct F'.
      - destruct sec; cbn in Eo; destruct H as [x H]; congruence.
      - exfalso. assert (E1 : i_op1 ins = Sub i) by (destruct sec; cbn in Eo; congruence).
        pose proof (proj1 (pp_ret _ _ _ _ _ _ _ _ (l_pass _ _ _ _ _ HL) k ins c i Hn Eop E1)) as Hr.
        specialize (Hr ltac:(auto)). fold n in Hr. apply rd_none in Hr. congruence.
    Qed.

    (** Readers of the instruction's own queue. *)
    Lemma pothers_ready j ins' c' sec v : a_push a = Some v -> Node j ins' c' -> own sec ins' = Sub k -> k < j ->
      ready (Len k) (push (c_len c) (h k) v) (q_next (get_queue ma j)) (rp sec (get_queue mt j)) 0.
    Proof using HL HA Hn Hpt Hflat Henough Hroom HV HP.
      intros Ev Hj Eo Hkj. destruct (phlegal v Ev) as [Hv _].
      pose proof (pinv_next _ _ _ _ _ _ _ _ _ _ HI Hj) as Hts.
      apply (ready_run _ _ _ _ _ _ ts (ah k) (Val k)); auto.
      - apply (l_read _ _ _ _ _ HL j ins' c' sec k Hj Eo). auto.
      - apply (pn_incr _ _ _ _ _ _ _ _ _ N).
      - apply (pNode_wide k ins c Hn).
      - apply (ah_len j ins' c' k Hj). apply (own_reads _ _ _ Eo).
      - apply (pn_sound _ _ _ _ _ _ _ _ _ N).
      - apply ppush_flat. assumption.
      - destruct (Nat.eq_dec ts 0) as [T0|]; [|right; lia].
        assert (D : m_progress ma = FirstLoop \/ m_progress ma <> FirstLoop) by (destruct (m_progress ma); auto; right; discriminate).
        destruct D as [D|D].
        { left. rewrite (l_zero _ _ _ _ _ HL T0 D k ins c Hn (le_n k)). lia. }
        pose proof (pn_op _ _ _ _ _ _ _ _ _ (pi_nodes _ _ _ _ _ _ _ HI j ins' c' Hj)) as [_ O].
        pose proof (l_first _ _ _ _ _ HL j ins' c' Hj) as Hf.
        pose proof (pnode_pt prog pwide part pwide_pt j ins' c' Hj) as [_ Fj].
        assert (S1 : i_op ins' = SINCE \/ i_op ins' = TRIGGER -> known (h k) <= q_next (get_queue ma j) \/ 1 <= q_next (get_queue ma j)).
        { intros Hs. assert (E2 : i_op2 ins' = Sub k).
          { destruct sec; [exact Eo|]. cbn in Eo.
            destruct Hs as [Hs|Hs]; rewrite Hs in Fj; destruct Fj as (E1 & _); congruence. }
          destruct (since_now j ins' c' k Hj Hs E2) as [D1 _].
          pose proof (pn_hi _ _ _ _ _ _ _ _ _ (pi_nodes _ _ _ _ _ _ _ (pv_inv _ _ _ _ _ _ _ _ _ _ _ _ HV) k ins c Hn)) as Hhi.
          rewrite D1, phknown, Ev in Hhi. left. lia. }
        destruct (i_op ins') eqn:Eop; try (specialize (Hf ltac:(discriminate) (or_introl D)); right; lia);
          try (apply S1; auto; fail); try destruct Fj.
        left. assert (E1 : i_op1 ins' = Sub k) by (destruct sec; cbn in Eo; congruence).
        apply (proj1 (pp_ret _ _ _ _ _ _ _ _ (l_pass _ _ _ _ _ HL) j ins' c' k Hj Eop E1)). auto.
    Qed.

    Lemma plock_visit : plock ts (S k) h' ma' mt' /\ alike ma' mt'.
    Proof using HL HA Hn Hpt Hflat Henough Hroom HV HP.
      destruct psides as [T1 T2]. split; [|exact T2].
      assert (Hlt : forall j ins' c' sec i, Node j ins' c' -> own sec ins' = Sub i -> i < j).
      { intros j ins' c' sec i Hj Eo. apply (psub_child prog pwide part pwide_pt j ins' c' i Hj (own_reads _ _ _ Eo)). }
      constructor.
      - exact HP.
      - exact T1.
      - intros j ins' c' Hj Hr Hc. destruct (Nat.eq_dec j k) as [->|Hne].
        + destruct (node_fun prog pwide part _ _ _ _ _ Hn Hj) as [<- <-]. apply pfirst_known. assumption.
        + rewrite (phother j Hne). apply (l_first _ _ _ _ _ HL j ins' c' Hj Hr).
          destruct Hc as [Hc|Hc]; [left; rewrite <- ppfirst; assumption|right; lia].
      - intros j ins' c' Hj x y Hx Hy. destruct (Nat.eq_dec j k) as [->|Hne].
        + destruct (node_fun prog pwide part _ _ _ _ _ Hn Hj) as [<- <-]. rewrite phknown in Hy.
          pose proof ppush_flat as Hp. destruct (a_push a) as [v|].
          * rewrite (Hp v eq_refl x), (Hp v eq_refl y) by lia. reflexivity.
          * apply (l_flat _ _ _ _ _ HL k ins c Hn); assumption.
        + rewrite (phother j Hne) in Hy. apply (l_flat _ _ _ _ _ HL j ins' c' Hj); assumption.
      - intros T0 Hf j ins' c' Hj Hle. rewrite (phother j) by lia.
        apply (l_zero _ _ _ _ _ HL T0 (proj1 ppfirst Hf) j ins' c' Hj). lia.
      - intros j ins' c' sec i Hj Eo. pose proof (Hlt j ins' c' sec i Hj Eo) as Hij.
        destruct (Nat.eq_dec j k) as [->|Hne].
        + destruct (node_fun prog pwide part _ _ _ _ _ Hn Hj) as [<- <-].
          rewrite pnnew, (phother i) by lia. pose proof (pown_ready sec i Eo) as R. split; [|intros _; exact R].
          apply (ready_mono _ _ (a_next a) _ _ ts); [exact R|lia|lia].
        + rewrite (pample_other j Hne), (ptight_other j Hne). destruct (l_read _ _ _ _ _ HL j ins' c' sec i Hj Eo) as [R1 R2].
          destruct (Nat.eq_dec i k) as [->|Hik].
          * split; [|lia]. rewrite phnew. pose proof (pothers_ready j ins' c' sec) as R.
            destruct (a_push a) as [v|]; [|assumption]. apply (R v); auto.
          * rewrite (phother i Hik). split; [assumption|]. intros Hc. apply R2. lia.
      - intros Hidle j ins' c' sec i Hj Eo Hjk. pose proof (Hlt j ins' c' sec i Hj Eo) as Hij.
        destruct (Nat.eq_dec j k) as [->|Hne].
        + destruct (node_fun prog pwide part _ _ _ _ _ Hn Hj) as [<- <-].
          rewrite pnnew, (phother i) by lia. apply pown_ready_idle; assumption.
        + rewrite (pample_other j Hne), (ptight_other j Hne), (phother i) by lia.
          apply (l_idle _ _ _ _ _ HL (proj1 (ppidle Hidle)) j ins' c' sec i Hj Eo). lia.
    Qed.
  End Visit.

  (** ** Passes *)
  (** An instruction of another part leaves this one as it is. *)
  Lemma plock_frame ts k h ma mt ins :
    plock ts k h ma mt -> nth_error prog k = Some ins -> part k = false ->
    plock ts (S k) h (update (tr ts) k ins ma) (update (tr ts) k ins mt).
  Proof using Hpt Hdist.
    intros HL Hp HK.
    pose proof (ppass_frame prog pwide tr part pwide_pt Hdist ts k h ma ins (l_pass _ _ _ _ _ HL) Hp HK) as [P _].
    destruct (update_framed (tr ts) k ins ma) as [_ _ A3 A4 _]. destruct (update_framed (tr ts) k ins mt) as [_ _ T3 _ _].
    set (ma' := update (tr ts) k ins ma) in *. set (mt' := update (tr ts) k ins mt) in *. clearbody ma' mt'.
    assert (Hne : forall i ins' c', Node i ins' c' -> i <> k) by (intros i ins' c' (_ & _ & H) ->; congruence).
    assert (Qa : forall i ins' c', Node i ins' c' -> get_queue ma' i = get_queue ma i) by (intros i ins' c' Hi; apply A3, (Hne i ins' c' Hi)).
    assert (Qt : forall i ins' c', Node i ins' c' -> get_queue mt' i = get_queue mt i) by (intros i ins' c' Hi; apply T3, (Hne i ins' c' Hi)).
    assert (Hf : m_progress ma' = FirstLoop <-> m_progress ma = FirstLoop).
    { destruct A4 as [-> | ->]; [reflexivity|]. destruct (m_progress ma); cbn; split; congruence. }
    assert (Hi : m_progress ma' = NoProgress -> m_progress ma = NoProgress).
    { destruct A4 as [-> | ->]; [auto|]. destruct (m_progress ma); cbn; congruence. }
    destruct HL as [K1 K2 K3 K4 K5 K6 K7]. constructor.
    - exact P.
    - destruct K2 as [W1 W2 W3 W4 W5 W6]. constructor; intros i ins' c' Hn; rewrite ?(Qa i ins' c' Hn), ?(Qt i ins' c' Hn); eauto.
    - intros i ins' c' Hn Hr Hc. pose proof (Hne i ins' c' Hn). apply (K3 i ins' c' Hn Hr).
      destruct Hc as [Hc|Hc]; [left; rewrite <- Hf; assumption|right; lia].
    - assumption.
    - intros T0 Hff i ins' c' Hn Hle. apply (K5 T0 (proj1 Hf Hff) i ins' c' Hn). lia.
    - intros j ins' c' sec i Hn Eo. rewrite (Qa j ins' c' Hn), (Qt j ins' c' Hn).
      destruct (K6 j ins' c' sec i Hn Eo) as [R1 R2]. split; [assumption|]. intros Hc. apply R2.
      pose proof (Hne j ins' c' Hn). lia.
    - intros Hid j ins' c' sec i Hn Eo Hlt. rewrite (Qa j ins' c' Hn), (Qt j ins' c' Hn).
      apply (K7 (Hi Hid) j ins' c' sec i Hn Eo). pose proof (Hne j ins' c' Hn). lia.
  Qed.
  Lemma plock_again ts h ma mt : plock ts (length prog) h ma mt -> plock ts 0 h (again ma) (again mt).
  Proof using Type.
    intros HL. assert (Hlt : forall j ins c, Node j ins c -> j < length prog) by (intros; eapply node_lt; eassumption).
    destruct HL as [K1 K2 K3 K4 K5 K6 K7]. constructor.
    - apply pnext_pass. assumption.
    - destruct K2. constructor; assumption.
    - intros k ins c Hn Hr _. apply (K3 k ins c Hn Hr). right. apply (Hlt k ins c Hn).
    - assumption.
    - discriminate.
    - intros j ins c sec i Hn Eo. destruct (K6 j ins c sec i Hn Eo) as [R1 R2]. split; [assumption|].
      intros _. apply R2. left. apply (Hlt j ins c Hn).
    - intros; lia.
  Qed.
  Lemma plock_onward ts h ma mt :
    plock ts (length prog) h ma mt -> m_progress ma = NoProgress -> plock (S ts) 0 h (onward ma) (onward mt).
  Proof using Hpt.
    intros HL Hp. assert (Hlt : forall j ins c, Node j ins c -> j < length prog) by (intros; eapply node_lt; eassumption).
    destruct HL as [K1 K2 K3 K4 K5 K6 K7]. constructor.
    - apply pstart_passing. apply pstep_end; try assumption. exact pwide_pt.
    - destruct K2. constructor; assumption.
    - intros k ins c _ _ [Hc|Hc]; [elim Hc; reflexivity|lia].
    - intros k ins c Hn x y Hx Hy. apply (K4 k ins c Hn); lia.
    - discriminate.
    - intros j ins c sec i Hn Eo. destruct (K6 j ins c sec i Hn Eo) as [R1 R2]. split; [assumption|].
      intros _. apply (K7 Hp j ins c sec i Hn Eo). apply (Hlt j ins c Hn).
    - discriminate.
  Qed.
  Lemma alike_again ma mt : alike ma mt -> alike (again ma) (again mt).
  Proof using Type. intros []. constructor; assumption || reflexivity. Qed.
  Lemma alike_onward ma mt : alike ma mt -> alike (onward ma) (onward mt).
  Proof using Type. intros []. constructor; try assumption; try reflexivity. cbn. congruence. Qed.
  Lemma alike_init : alike (init prog pwide) (init prog confs).
  Proof using Type.
    constructor; try reflexivity. cbn. rewrite !map_length, !combine_length. unfold pwide. rewrite map_length. reflexivity.
  Qed.

  Lemma plock_init : plock 0 0 (fun _ => []) (init prog pwide) (init prog confs).
  Proof using Hpt.
    assert (G : forall k ins c, Node k ins c -> exists c0, c = pwiden c0 /\ Len k = c_len c0 /\ 1 <= c_len c0 /\
      get_queue (init prog pwide) k = init_queue ins c /\ get_queue (init prog confs) k = init_queue ins c0).
    { intros k ins c Hn. destruct (pNode_conf k ins c Hn) as (c0 & E0 & E1 & E2 & E3). exists c0.
      destruct Hn as (H1 & H2 & _). repeat (split; [assumption|]).
      unfold get_queue, init. cbn [m_queues].
      split; (erewrite nth_error_nth; [reflexivity|]; rewrite nth_error_map;
              erewrite combine_nth_error by eassumption; reflexivity). }
    constructor.
    - apply pstart_passing. apply (pstart_init prog pwide tr part pwide_pt).
    - constructor; intros k ins c Hn; destruct (G k ins c Hn) as (c0 & E1 & E2 & E3 & Ga & Gt); rewrite ?Ga, ?Gt, ?E1, ?E2; try reflexivity.
      apply holding_init. assumption.
    - intros k ins c _ _ [Hc|Hc]; [elim Hc; reflexivity|lia].
    - cbn. lia.
    - reflexivity.
    - intros j ins c sec i Hn Eo.
      destruct (psub_child prog pwide part pwide_pt j ins c i Hn (own_reads _ _ _ Eo)) as (_ & ins' & c' & Hi & _).
      destruct (G j ins c Hn) as (c0 & _ & _ & _ & _ & ->). destruct (G i ins' c' Hi) as (c1 & _ & -> & H1 & _ & _).
      replace (rp sec (init_queue ins c0)) with 0 by (destruct sec; reflexivity).
      split; [|intros _]; apply ready_init; assumption.
    - discriminate.
  Qed.
End Tight.

(** ** Programs that are past-time throughout *)
Section Whole.
  Context {I : impl}.
  Variables (prog : list instr) (confs : list qconf) (tr : trace).
  Hypothesis Hpt : pt_program prog confs.
  Hypothesis Hdist : distinct_reports prog.
  Hypothesis Hflat : pt_flat prog confs.
  Hypothesis Henough : pt_queues_enough prog confs.

  Definition pslack : nat := 2 + list_sum (map lead (exprs prog confs)).
  Lemma pslack_ge k : lead (node_expr prog confs k) + 2 <= pslack.
  Proof using Type.
    unfold pslack, node_expr. destruct (nth_in_or_default k (exprs prog confs) (EConst false)) as [H|H]; [|rewrite H; cbn; lia].
    revert H. generalize (nth k (exprs prog confs) (EConst false)) as e. intros e H.
    assert (lead e <= list_sum (map lead (exprs prog confs))); [|lia].
    revert H. generalize (exprs prog confs) as l.
    induction l as [|x l IH]; intros H; [destruct H|]. cbn. destruct H as [->|H]; [lia|].
    specialize (IH H). unfold list_sum in IH. lia.
  Qed.
  Let Hpart := pwhole_part prog confs Hpt.
  Let Hall : pt_part_enough all prog confs := fun k ins c conf _ => Henough k ins c conf.
  Local Notation Lock := (plock prog confs tr all pslack).
  Local Notation Wide := (pwide confs pslack).

  Lemma plock_run ts : forall rest k h ma mt,
    (forall i, nth_error rest i = nth_error prog (k + i)) -> k + length rest = length prog ->
    Lock ts k h ma mt -> alike ma mt ->
    exists h', Lock ts (length prog) h' (run_pass (tr ts) k rest ma) (run_pass (tr ts) k rest mt) /\
      alike (run_pass (tr ts) k rest ma) (run_pass (tr ts) k rest mt).
  Proof using Hpt Hdist Hflat Henough.
    induction rest as [|ins rest IH]; intros k h ma mt Hnth Hlen HL HA.
    - cbn in *. rewrite Nat.add_0_r in Hlen. subst k. exists h. auto.
    - assert (Hp : nth_error prog k = Some ins) by (rewrite <- (Nat.add_0_r k); symmetry; apply (Hnth 0)).
      destruct (pnode_of prog Wide all (pwide_pt prog confs all pslack Hpart) k ins Hp eq_refl) as [c Hn].
      destruct (ppass_visit prog Wide tr all (pwide_pt prog confs all pslack Hpart) Hdist
                  (pwide_ample prog confs all pslack pslack_ge) ts k h ma ins c (l_pass _ _ _ _ _ _ _ _ _ _ HL) Hn)
        as (h1 & V & P & _).
      destruct (plock_visit prog confs tr all pslack Hpart Hflat Hall pslack_ge h ts ma mt k ins c HL HA Hn h1 V P) as [L1 A1].
      cbn [run_pass]. apply (IH (S k) h1); auto.
      + intros i. specialize (Hnth (S i)). cbn in Hnth. rewrite Hnth. f_equal. lia.
      + cbn in Hlen. lia.
  Qed.
  Lemma pstep_lock ts : forall fuel h ma mt, Lock ts 0 h ma mt -> alike ma mt ->
    match step fuel (tr ts) prog ma, step fuel (tr ts) prog mt with
    | Some ma', Some mt' => exists h', Lock (S ts) 0 h' ma' mt' /\ alike ma' mt'
    | None, None => True
    | _, _ => False
    end.
  Proof using Hpt Hdist Hflat Henough.
    induction fuel as [|fuel IH]; intros h ma mt HL HA; cbn [step]; [exact Logic.I|].
    destruct (plock_run ts prog 0 h ma mt (fun i => eq_refl) eq_refl HL HA) as (h1 & L1 & A1).
    set (ma1 := run_pass (tr ts) 0 prog ma) in *. set (mt1 := run_pass (tr ts) 0 prog mt) in *.
    specialize (IH h1 _ _ (plock_again _ _ _ _ _ ts h1 ma1 mt1 L1) (alike_again ma1 mt1 A1)).
    rewrite (a_progress _ _ A1).
    destruct (m_progress ma1) eqn:Ep.
    - exact IH.
    - exists h1. split; [exact (plock_onward _ _ _ _ _ Hpart ts h1 ma1 mt1 L1 Ep)|exact (alike_onward ma1 mt1 A1)].
    - exact IH.
  Qed.
  Lemma prun_lock fuel : forall n ts h ma mt, Lock ts 0 h ma mt -> alike ma mt ->
    match run fuel (map tr (seq ts n)) prog ma, run fuel (map tr (seq ts n)) prog mt with
    | Some ma', Some mt' => m_out mt' = m_out ma'
    | None, None => True
    | _, _ => False
    end.
  Proof using Hpt Hdist Hflat Henough.
    induction n as [|n IH]; intros ts h ma mt HL HA; cbn [seq map run].
    - apply (a_out _ _ HA).
    - pose proof (pstep_lock ts fuel h ma mt HL HA) as S1.
      destruct (step fuel (tr ts) prog ma) as [ma1|], (step fuel (tr ts) prog mt) as [mt1|]; try destruct S1; auto.
      destruct H as [H1 H2]. apply (IH (S ts) x); assumption.
  Qed.
  Lemma psame_reports fuel n :
    match run fuel (rows tr n) prog (init prog Wide), run fuel (rows tr n) prog (init prog confs) with
    | Some ma', Some mt' => m_out mt' = m_out ma'
    | None, None => True
    | _, _ => False
    end.
  Proof using Hpt Hdist Hflat Henough.
    exact (prun_lock fuel n 0 _ _ _ (plock_init prog confs tr all pslack Hpart) (alike_init prog confs pslack)).
  Qed.

  Lemma pw_pt : pt_program prog Wide.
  Proof using Hpt.
    destruct (pwide_pt prog confs all pslack Hpart) as (H1 & _ & H2). split; [assumption|]. intros k ins c. apply H2. reflexivity.
  Qed.
  Lemma pw_ample : pt_queues_ample prog Wide.
  Proof using Type. intros k ins c conf. apply (pwide_ample prog confs all pslack pslack_ge). reflexivity. Qed.
  Lemma pwide_run fuel n m :
    run fuel (rows tr n) prog (init prog confs) = Some m ->
    exists ma, run fuel (rows tr n) prog (init prog Wide) = Some ma /\ forall f, reports f m = reports f ma.
  Proof using Hpt Hdist Hflat Henough.
    intros H. pose proof (psame_reports fuel n) as S1. rewrite H in S1.
    destruct (run fuel (rows tr n) prog (init prog Wide)) as [ma|]; [|destruct S1].
    exists ma. split; [reflexivity|]. intros f. unfold reports. rewrite S1. reflexivity.
  Qed.
  Lemma ptight_sound fuel n m k ins t b :
    run fuel (rows tr n) prog (init prog confs) = Some m ->
    nth_error prog k = Some ins -> i_op ins = RETURN ->
    reported (reports (i_num ins) m) t b ->
    (b = true <-> sat tr (node_expr prog confs k) t) /\ t < n + lead (node_expr prog confs k).
  Proof using Hpt Hdist Hflat Henough.
    intros H1 H2 H3 H4. destruct (pwide_run fuel n m H1) as (ma & Ha & Er). rewrite Er in H4.
    rewrite <- (pwide_node prog confs pslack). exact (prun_sound prog Wide tr pw_pt Hdist pw_ample fuel n ma k ins t b Ha H2 H3 H4).
  Qed.
  Lemma ptight_increasing fuel n m k ins :
    run fuel (rows tr n) prog (init prog confs) = Some m ->
    nth_error prog k = Some ins -> i_op ins = RETURN -> increasing (reports (i_num ins) m).
  Proof using Hpt Hdist Hflat Henough.
    intros H1 H2 H3. destruct (pwide_run fuel n m H1) as (ma & Ha & Er). rewrite Er.
    exact (prun_increasing prog Wide tr pw_pt Hdist pw_ample fuel n ma k ins Ha H2 H3).
  Qed.
  Lemma ptight_timely fuel n m k ins t :
    run fuel (rows tr n) prog (init prog confs) = Some m ->
    nth_error prog k = Some ins -> i_op ins = RETURN ->
    t < n -> exists b, reported (reports (i_num ins) m) t b.
  Proof using Hpt Hdist Hflat Henough.
    intros H1 H2 H3 H4. destruct (pwide_run fuel n m H1) as (ma & Ha & Er). rewrite Er.
    exact (prun_timely prog Wide tr pw_pt Hdist pw_ample fuel n ma k ins t Ha H2 H3 H4).
  Qed.
  Lemma ptight_total fuel n :
    pt_max_passes prog confs <= fuel -> exists m, run fuel (rows tr n) prog (init prog confs) = Some m.
  Proof using Hpt Hdist Hflat Henough.
    intros H. pose proof (psame_reports fuel n) as S1.
    assert (Hm : pt_max_passes prog Wide <= fuel) by (unfold pt_max_passes; rewrite (pwide_exprs prog confs pslack); exact H).
    destruct (prun_total prog Wide tr pw_pt Hdist pw_ample fuel n Hm) as [ma Ha]. rewrite Ha in S1.
    destruct (run fuel (rows tr n) prog (init prog confs)) as [m|]; [eauto|destruct S1].
  Qed.
End Whole.
