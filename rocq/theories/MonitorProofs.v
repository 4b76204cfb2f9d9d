(** * Invariant of the future-time engine (proof infrastructure) *)
From Coq Require Import List Arith Bool Lia.
Require Import Verif.Mltl Verif.MltlEval Verif.Scq Verif.Engine Verif.Monitoring.
Require Import Verif.ScqProofs Verif.EngineLocal Verif.FrameProofs Verif.NodeProofs.
Import ListNotations.

(** ** The formula of an instruction in terms of its operands *)
Lemma exprs_from_app es prog confs : exists l, exprs_from es prog confs = es ++ l.
Proof.
  revert es confs; induction prog as [|ins prog IH]; intros es [|c confs]; cbn;
    try (exists []; rewrite app_nil_r; reflexivity).
  destruct (IH (es ++ [instr_expr es ins c]) confs) as [l ->].
  rewrite <- app_assoc. eauto.
Qed.
Lemma exprs_from_nth es prog confs j ins c :
  nth_error prog j = Some ins -> nth_error confs j = Some c ->
  exists es', length es' = length es + j /\
    (exists l, exprs_from es prog confs = es' ++ instr_expr es' ins c :: l).
Proof.
  revert es confs j; induction prog as [|ins' prog IH]; intros es [|c' confs] [|j] Hp Hc; try discriminate.
  - cbn in Hp, Hc. injection Hp as ->. injection Hc as ->. exists es. split; [lia|].
    cbn. destruct (exprs_from_app (es ++ [instr_expr es ins c]) prog confs) as [l ->].
    rewrite <- app_assoc. cbn. eauto.
  - cbn in Hp, Hc. destruct (IH (es ++ [instr_expr es ins' c']) confs j Hp Hc) as (es' & Hl & l & E).
    rewrite app_length in Hl. cbn in Hl. exists es'. split; [lia|]. exists l. exact E.
Qed.

Lemma combine_nth_error {A B} (l : list A) : forall (l' : list B) k x y,
  nth_error l k = Some x -> nth_error l' k = Some y -> nth_error (combine l l') k = Some (x, y).
Proof.
  induction l as [|a l IH]; intros [|b l'] [|k] x y; cbn; try discriminate; try congruence. apply IH.
Qed.

Section Monitor.
  Context {I : impl}.
  Variables (prog : list instr) (confs : list qconf) (tr : trace) (part : nat -> bool).
  Hypothesis Hft : ft_part part prog confs.
  Hypothesis Hdist : distinct_reports prog.
  Hypothesis Hample : part_ample part prog confs.

  Definition node (k : nat) (ins : instr) (c : qconf) : Prop :=
    nth_error prog k = Some ins /\ nth_error confs k = Some c /\ part k = true.
  Definition dconf := QConf 0 0 0.
  Definition clen (k : nat) : nat := c_len (nth k confs dconf).
  Definition val (k : nat) : nat -> bool := den tr (node_expr prog confs k).
  Definition wd (k : nat) : nat := reach (node_expr prog confs k).
  Definition ostream (o : operand) : nat -> bool := den tr (operand_expr (exprs prog confs) o).
  Definition owd (o : operand) : nat := reach (operand_expr (exprs prog confs) o).

  Definition below (k : nat) (o : operand) : Prop := forall c, o = Sub c -> c < k.

  Lemma node_expr_eq k ins c :
    node k ins c -> below k (i_op1 ins) -> below k (i_op2 ins) ->
    node_expr prog confs k = instr_expr (exprs prog confs) ins c.
  Proof.
    intros (Hp & Hc & _) H1 H2. unfold node_expr, exprs.
    destruct (exprs_from_nth [] prog confs k ins c Hp Hc) as (es' & Hl & l & E). cbn in Hl.
    rewrite E. rewrite app_nth2 by lia. rewrite Hl, Nat.sub_diag. cbn [nth].
    assert (O : forall o, below k o -> operand_expr es' o = operand_expr (es' ++ instr_expr es' ins c :: l) o).
    { intros [b|a|j|] Ho; try reflexivity. cbn. symmetry. apply app_nth1. rewrite Hl. apply Ho. reflexivity. }
    set (full := es' ++ instr_expr es' ins c :: l) in *.
    unfold instr_expr. rewrite (O _ H1), (O _ H2). reflexivity.
  Qed.

  Lemma node_len k ins c : node k ins c -> clen k = c_len c.
  Proof. intros (_ & Hc & _). unfold clen. rewrite (nth_error_nth _ _ _ Hc). reflexivity. Qed.
  Lemma node_fun k ins c ins' c' : node k ins c -> node k ins' c' -> ins = ins' /\ c = c'.
  Proof. intros (H1 & H2 & _) (H3 & H4 & _). split; congruence. Qed.
  Lemma node_ft k ins c : node k ins c -> ft_instr prog k ins c.
  Proof. intros (H1 & H2 & H3). apply (proj2 (proj2 Hft)); assumption. Qed.
  Lemma node_of k ins : nth_error prog k = Some ins -> part k = true -> exists c, node k ins c.
  Proof.
    intros H HK. destruct (nth_error confs k) as [c|] eqn:E; [exists c; repeat split; assumption|].
    apply nth_error_None in E. assert (k < length prog) by (apply nth_error_Some; congruence).
    destruct Hft. lia.
  Qed.

  Lemma earlier_child k o :
    earlier prog k o -> (forall j, o = Sub j -> part j = true) -> exists j ins c, o = Sub j /\ j < k /\ node j ins c /\ i_op ins <> RETURN.
  Proof.
    intros (j & -> & Hj & ins & Hi & Hr) HK. destruct (node_of j ins Hi (HK j eq_refl)) as [c Hc].
    exists j, ins, c. auto.
  Qed.

  (** Every Sub operand is an earlier, non-RETURN instruction. *)
  Lemma sub_child k ins c j :
    node k ins c -> reads ins j -> j < k /\ exists ins' c', node j ins' c' /\ i_op ins' <> RETURN.
  Proof.
    intros Hn Hr.
    assert (E : forall o, earlier prog k o -> o = Sub j -> j < k /\ exists ins' c', node j ins' c' /\ i_op ins' <> RETURN).
    { intros o Ho ->. apply earlier_child in Ho as (j' & ins' & c' & Eq & Hlt & Hn' & Hr').
      2:{ intros i Ei. injection Ei as <-. apply (proj1 (proj2 Hft) k ins j); [apply Hn|apply Hn|exact Hr]. }
      injection Eq as <-. eauto. }
    pose proof (node_ft k ins c Hn) as [_ H]. unfold is_direct in H.
    destruct (i_op ins); cbv zeta iota in H; destruct Hr as [Hr|Hr];
      repeat match goal with
      | H : _ /\ _ |- _ => destruct H
      | H : _ \/ _ |- _ => destruct H
      | H : exists _, _ |- _ => destruct H
      end; try (eapply E; [|eassumption]; assumption); try congruence; try easy.
  Qed.
  Lemma node_below k ins c : node k ins c -> below k (i_op1 ins) /\ below k (i_op2 ins).
  Proof.
    intros Hn. split; intros j E; apply (sub_child k ins c j Hn); [left|right]; assumption.
  Qed.
  Lemma node_eq k ins c : node k ins c -> node_expr prog confs k = instr_expr (exprs prog confs) ins c.
  Proof. intros Hn. destruct (node_below k ins c Hn). apply node_expr_eq; assumption. Qed.

  Lemma wd_ge k ins c : node k ins c -> owd (i_op1 ins) <= wd k /\ owd (i_op2 ins) <= wd k.
  Proof.
    intros Hn. pose proof (node_ft k ins c Hn) as [_ H].
    unfold wd, owd. rewrite (node_eq k ins c Hn). unfold instr_expr.
    destruct (i_op ins); cbn [reach fold_right]; try lia; try (destruct H as [_ ->]; cbn; lia).
    all: destruct H.
  Qed.
  Lemma ample k ins c j : node k ins c -> reads ins j -> wd k + 2 <= clen j.
  Proof.
    intros Hn Hr. destruct (sub_child k ins c j Hn Hr) as (_ & ins' & c' & Hn' & _).
    rewrite (node_len j ins' c' Hn'). destruct Hn as (Hp & _ & HK), Hn' as (_ & Hc & _).
    unfold wd. eapply Hample; eauto.
  Qed.

  (** ** The invariant *)
  Definition oview (h : nat -> list verdict) (ts : nat) (pr : progress) (o : operand) (n : nat) : option verdict :=
    match o with
    | Direct b => Some (b, ts)
    | Atomic a => match pr with FirstLoop => Some (tr ts a, ts) | _ => None end
    | Sub c => rd (h c) n
    | NotSet => None
    end.
  Definition oknown (h : nat -> list verdict) (ts : nat) (o : operand) : nat :=
    match o with Sub c => known (h c) | _ => S ts end.
  Definition oreader (h : nat -> list verdict) (o : operand) (n r a : nat) : Prop :=
    match o with Sub c => reader (clen c) (h c) n r a | _ => True end.

  Lemma oreader_mono h o n n' r a : oreader h o n r a -> n <= n' -> oreader h o n' r a.
  Proof. destruct o; cbn; auto. intros H Hle. eapply reader_mono; eauto. Qed.

  Definition opinv (ts k : nat) (ins : instr) (c : qconf) (K n : nat) (prev : verdict) : Prop :=
    match i_op ins with
    | LOAD => n = K /\ ts <= K
    | NOT | AND | OR | EQUIV => n = K
    | UNTIL => uinv true (c_lb c) (c_ub c) (ostream (i_op1 ins)) (ostream (i_op2 ins)) K n prev /\
               (S (Nat.max (owd (i_op1 ins)) (owd (i_op2 ins))) <= ts -> 1 <= n)
    | RELEASE => uinv false (c_lb c) (c_ub c) (ostream (i_op1 ins)) (ostream (i_op2 ins)) K n prev /\
               (S (Nat.max (owd (i_op1 ins)) (owd (i_op2 ins))) <= ts -> 1 <= n)
    | RETURN => n <= S ts /\ ts - wd k <= n
    | SINCE | TRIGGER => False
    end.

  Record ninv (h : nat -> list verdict) (ts : nat) (m : monitor) (k : nat) (ins : instr) (c : qconf) : Prop := {
    n_len : length (q_slots (get_queue m k)) = c_len c;
    n_lb : q_lb (get_queue m k) = c_lb c;
    n_ub : q_ub (get_queue m k) = c_ub c;
    n_ring : ring (q_slots (get_queue m k)) (q_write (get_queue m k)) (h k);
    n_incr : incr (h k);
    n_alt : 2 <= c_len c -> alt (h k);
    n_sound : forall n w, rd (h k) n = Some w -> val k n = fst w;
    n_hi : known (h k) <= S ts;
    n_lo : i_op ins <> RETURN -> ts - wd k <= known (h k);
    n_op : opinv ts k ins c (known (h k)) (q_next (get_queue m k)) (q_prev (get_queue m k));
    n_rd1 : oreader h (i_op1 ins) (q_next (get_queue m k)) (q_read1 (get_queue m k)) (ts - 1 - wd k);
    n_rd2 : oreader h (i_op2 ins) (q_next (get_queue m k)) (q_read2 (get_queue m k)) (ts - 1 - wd k);
    n_ret : i_op ins = RETURN ->
            incr (reports (i_num ins) m) /\
            (forall n w, rd (reports (i_num ins) m) n = Some w -> val k n = fst w) /\
            known (reports (i_num ins) m) = q_next (get_queue m k)
  }.
  Record Inv (h : nat -> list verdict) (ts : nat) (m : monitor) : Prop := {
    i_time : m_time m = ts;
    i_length : length (m_queues m) = length prog;
    i_nodes : forall k ins c, node k ins c -> ninv h ts m k ins c
  }.

  Lemma node_lt k ins c : node k ins c -> k < length prog.
  Proof. intros [H _]. apply nth_error_Some. congruence. Qed.

  (** ** One visit *)
  Definition reading (h : nat -> list verdict) (o : operand) (n r : nat) : Prop :=
    match o with
    | Sub c => reader (clen c) (h c) n r (match rd (h c) n with Some v => snd v | None => known (h c) - 1 end)
    | _ => True
    end.

  Section Visit.
    Variables (h : nat -> list verdict) (ts : nat) (m : monitor) (k : nat) (ins : instr) (c : qconf).
    Hypothesis HI : Inv h ts m.
    Hypothesis Hn : node k ins c.
    Let q := get_queue m k.
    Let pr := m_progress m.

    Lemma visit_start : start_next (i_op ins) (q_lb q) (q_next q) = q_next q.
    Proof.
      pose proof (i_nodes _ _ _ HI k ins c Hn) as N. pose proof (n_op _ _ _ _ _ _ N) as O.
      pose proof (n_lb _ _ _ _ _ _ N) as L. fold q in O, L. rewrite L.
      unfold opinv in O. unfold start_next. destruct (i_op ins); try reflexivity;
        destruct I; try reflexivity; destruct O as [[_ Hlo _ _ _] _]; destruct (q_next q <? c_lb c) eqn:E; auto;
        apply Nat.ltb_lt in E; lia.
    Qed.

    Lemma fetch_view o r a :
      (forall j, o = Sub j -> reads ins j) -> oreader h o (q_next q) r a ->
      let f := fetch (tr ts) pr (m_time m) (get_queue m) o (q_next q) r in
      snd f = oview h ts pr o (q_next q) /\ reading h o (q_next q) (fst f) /\ oreader h o (q_next q) (fst f) a.
    Proof.
      intros Ho Hr. rewrite (i_time _ _ _ HI). destruct o as [b|at_|j|]; cbn; auto.
      destruct (sub_child k ins c j Hn (Ho j eq_refl)) as (_ & ins' & c' & Hn' & _).
      pose proof (i_nodes _ _ _ HI j ins' c' Hn') as N.
      cbn in Hr. pose proof (node_len j ins' c' Hn') as Hl. rewrite <- (n_len _ _ _ _ _ _ N) in Hl.
      pose proof (scq_read_spec _ _ (h j) (q_next q) r a (n_ring _ _ _ _ _ _ N) (n_incr _ _ _ _ _ _ N)) as R.
      rewrite <- Hl in R. specialize (R Hr). destruct (scq_read _ _ _ _) as [r' v].
      cbn. destruct R as (-> & R1 & R2). auto.
    Qed.

    Let n := q_next q.
    Let r0 := oview h ts pr (i_op1 ins) n.
    Let r1 := if binary (i_op ins) then oview h ts pr (i_op2 ins) n else None.
    Let l := local_of (i_op ins) (c_lb c) (c_ub c) n (q_prev q) r0 r1.

    Lemma visit_update :
      exists q',
        update (tr ts) k ins m =
        St m k q' (match l_push l, l_out l with
                   | None, None => pr
                   | None, Some _ => return_flag pr
                   | _, _ => flag pr
                   end)
           (match l_out l with Some v => m_out m ++ [(i_num ins, v)] | None => m_out m end) /\
        (q_slots q', q_write q') =
          match l_push l with Some v => scq_write (q_slots q) (q_write q) v | None => (q_slots q, q_write q) end /\
        q_next q' = l_next l /\ q_prev q' = l_prev l /\ q_lb q' = q_lb q /\ q_ub q' = q_ub q /\
        reading h (i_op1 ins) n (q_read1 q') /\ oreader h (i_op1 ins) n (q_read1 q') (ts - 1 - wd k) /\
        reading h (i_op2 ins) n (q_read2 q') /\ oreader h (i_op2 ins) n (q_read2 q') (ts - 1 - wd k).
    Proof.
      pose proof (i_nodes _ _ _ HI k ins c Hn) as N.
      destruct (node_below k ins c Hn) as [B1 B2].
      assert (Hf : future (i_op ins)).
      { pose proof (node_ft k ins c Hn) as [_ H]. split; intros E; rewrite E in H; exact H. }
      rewrite update_after.
      2:{ rewrite (i_length _ _ _ HI). apply (node_lt k ins c Hn). }
      2:{ exact Hf. }
      2:{ intros E. apply B1 in E. lia. }
      2:{ intros E. apply B2 in E. lia. }
      unfold after. fold q. rewrite visit_start. fold pr n.
      pose proof (fetch_view (i_op1 ins) (q_read1 q) (ts - 1 - wd k) ltac:(intros; left; assumption)
                             (n_rd1 _ _ _ _ _ _ N)) as (F0 & F0a & F0b).
      pose proof (fetch_view (i_op2 ins) (q_read2 q) (ts - 1 - wd k) ltac:(intros; right; assumption)
                             (n_rd2 _ _ _ _ _ _ N)) as (F1 & F1a & F1b).
      fold n in F0, F0a, F0b, F1, F1a, F1b.
      set (f0 := fetch _ _ _ _ (i_op1 ins) _ _) in *.
      set (f1 := fetch _ _ _ _ (i_op2 ins) _ _) in *.
      assert (Hb : binary (i_op ins) = false -> i_op2 ins = NotSet).
      { pose proof (node_ft k ins c Hn) as [_ H]. destruct (i_op ins); try discriminate; intros _; apply H. }
      assert (El : local_of (i_op ins) (q_lb q) (q_ub q) n (q_prev q) (snd f0)
                     (snd (if binary (i_op ins) then f1 else (q_read2 q, None))) = l).
      { unfold l, r0, r1.
        assert (Elb : q_lb q = c_lb c) by exact (n_lb _ _ _ _ _ _ N).
        assert (Eub : q_ub q = c_ub c) by exact (n_ub _ _ _ _ _ _ N).
        rewrite Elb, Eub, F0.
        destruct (binary (i_op ins)); [rewrite F1|]; reflexivity. }
      rewrite El.
      eexists. split; [reflexivity|]. cbn [q_slots q_write q_next q_prev q_lb q_ub q_read1 q_read2].
      split; [destruct (l_push l) as [v|]; [destruct (scq_write _ _ _)|]; reflexivity|].
      repeat (split; [reflexivity|]). split; [assumption|]. split; [assumption|].
      destruct (binary (i_op ins)).
      - split; assumption.
      - rewrite Hb by reflexivity. cbn. auto.
    Qed.

    Definition newh (l : local) : nat -> list verdict :=
      match l_push l with
      | Some v => fun j => if j =? k then push (c_len c) (h k) v else h j
      | None => h
      end.
    Let h' := newh l.
    Let m' := update (tr ts) k ins m.

    Lemma newh_same : h' k = match l_push l with Some v => push (c_len c) (h k) v | None => h k end.
    Proof. unfold h', newh. case (l_push l); [|reflexivity]. intros v. rewrite Nat.eqb_refl. reflexivity. Qed.
    Lemma newh_other j : j <> k -> h' j = h j.
    Proof.
      intros H. unfold h', newh. case (l_push l); [|reflexivity]. intros v.
      apply Nat.eqb_neq in H. rewrite H. reflexivity.
    Qed.

    Definition legal_push : Prop :=
      match l_push l with
      | Some (b, t) => known (h k) <= t <= ts /\ forall s, known (h k) <= s <= t -> val k s = b
      | None => True
      end.
    Definition legal_out : Prop :=
      match l_out l with
      | Some v => i_op ins = RETURN /\ n <= snd v <= ts /\ (forall s, n <= s <= snd v -> val k s = fst v) /\
                  l_next l = S (snd v)
      | None => i_op ins = RETURN -> l_next l = n
      end.

    Lemma newh_known : legal_push -> known (h' k) = match l_push l with Some v => S (snd v) | None => known (h k) end.
    Proof.
      intros Hp. rewrite newh_same. unfold legal_push in Hp. destruct (l_push l) as [[b t]|]; [|reflexivity].
      apply push_known. apply Hp.
    Qed.

    Lemma oreader_new j ins' c' o x r :
      legal_push -> node j ins' c' -> (forall i, o = Sub i -> reads ins' i) ->
      oreader h o x r (ts - 1 - wd j) -> oreader h' o x r (ts - 1 - wd j).
    Proof.
      intros Hp Hj Ho. destruct o as [b|at_|i|]; cbn; auto. intros Hr.
      destruct (Nat.eq_dec i k) as [->|Hne]; [|rewrite newh_other by assumption; assumption].
      rewrite newh_same. unfold legal_push in Hp. destruct (l_push l) as [[b t]|]; [|assumption].
      pose proof (i_nodes _ _ _ HI k ins c Hn) as N.
      rewrite <- (node_len k ins c Hn). apply reader_push; auto.
      - apply (n_incr _ _ _ _ _ _ N).
      - apply Hp.
      - pose proof (ample j ins' c' k Hj (Ho k eq_refl)). cbn. lia.
    Qed.

    Lemma reports_app f v : reports f (St m k (get_queue m k) pr (m_out m ++ [(i_num ins, v)])) =
                            reports f m ++ (if i_num ins =? f then [v] else []).
    Proof.
      unfold reports; cbn [m_out St]. rewrite filter_app, map_app. cbn.
      destruct (i_num ins =? f); reflexivity.
    Qed.
    Lemma reports_out f a b : m_out a = m_out b -> reports f a = reports f b.
    Proof. unfold reports. intros ->. reflexivity. Qed.

    Lemma visit_inv :
      legal_push -> legal_out -> n <= l_next l ->
      opinv ts k ins c (known (h' k)) (l_next l) (l_prev l) ->
      Inv h' ts m'.
    Proof.
      intros Hp Ho Hle Hop.
      destruct visit_update as (q' & E & Es & En & Epv & Elb & Eub & R1 & R1' & R2 & R2').
      pose proof (i_nodes _ _ _ HI k ins c Hn) as N.
      assert (Hlt : k < length (m_queues m)).
      { rewrite (i_length _ _ _ HI). apply (node_lt k ins c Hn). }
      unfold m'. rewrite E. constructor.
      - cbn. apply (i_time _ _ _ HI).
      - cbn. rewrite set_nth_length. apply (i_length _ _ _ HI).
      - intros j ins' c' Hj. pose proof (i_nodes _ _ _ HI j ins' c' Hj) as Nj.
        destruct (Nat.eq_dec j k) as [->|Hne].
        + destruct (node_fun _ _ _ _ _ Hn Hj) as [<- <-]. clear Nj Hj.
          assert (Hring : length (q_slots q') = c_len c /\ ring (q_slots q') (q_write q') (h' k)).
          { rewrite newh_same. unfold legal_push in Hp. destruct (l_push l) as [[b t]|].
            - pose proof (ring_push _ _ _ (b, t) (n_ring _ _ _ _ _ _ N) (n_incr _ _ _ _ _ _ N) ltac:(apply Hp)) as RP.
              fold q in RP. rewrite <- Es in RP. pose proof (n_len _ _ _ _ _ _ N) as L. fold q in L.
              rewrite L in RP. exact RP.
            - injection Es as -> ->. split; [apply (n_len _ _ _ _ _ _ N)|apply (n_ring _ _ _ _ _ _ N)]. }
          assert (Hincr : incr (h' k)).
          { rewrite newh_same. unfold legal_push in Hp. destruct (l_push l) as [[b t]|]; [|apply (n_incr _ _ _ _ _ _ N)].
            apply push_incr; [apply (n_incr _ _ _ _ _ _ N)|apply Hp]. }
          constructor; rewrite ?get_St by assumption.
          * apply Hring.
          * rewrite Elb. apply (n_lb _ _ _ _ _ _ N).
          * rewrite Eub. apply (n_ub _ _ _ _ _ _ N).
          * apply Hring.
          * assumption.
          * intros H2. rewrite newh_same. destruct (l_push l) as [v|]; [|apply (n_alt _ _ _ _ _ _ N H2)].
            apply push_alt; auto; try apply (n_alt _ _ _ _ _ _ N H2).
          * rewrite newh_same. unfold legal_push in Hp. destruct (l_push l) as [[b t]|]; [|apply (n_sound _ _ _ _ _ _ N)].
            apply push_sound; [apply (n_sound _ _ _ _ _ _ N)|apply Hp].
          * rewrite newh_known by assumption. unfold legal_push in Hp.
            destruct (l_push l) as [[b t]|]; [cbn; lia|apply (n_hi _ _ _ _ _ _ N)].
          * intros Hr. pose proof (n_lo _ _ _ _ _ _ N Hr). rewrite newh_known by assumption. unfold legal_push in Hp.
            destruct (l_push l) as [[b t]|]; [cbn; lia|assumption].
          * rewrite En, Epv. assumption.
          * rewrite En. apply (oreader_new k ins c); auto; [intros; left; assumption|].
            apply (oreader_mono h _ n); assumption.
          * rewrite En. apply (oreader_new k ins c); auto; [intros; right; assumption|].
            apply (oreader_mono h _ n); assumption.
          * intros Hr. destruct (n_ret _ _ _ _ _ _ N Hr) as (Q1 & Q2 & Q3). fold q in Q3. fold n in Q3.
            unfold legal_out in Ho. destruct (l_out l) as [v|].
            -- destruct Ho as (_ & Hv & Hs & Hnx).
               erewrite reports_out; [rewrite (reports_app (i_num ins) v), Nat.eqb_refl|reflexivity].
               rewrite En, Hnx. split; [|split].
               ++ apply incr_app. repeat split; auto; [cbn; easy|].
                  intros x y Hx [<-|[]]. apply in_known in Hx. lia.
               ++ intros i w. rewrite rd_app. destruct (rd (reports (i_num ins) m) i) as [y|] eqn:Ei.
                  ** intros Hw; injection Hw as <-. apply Q2. assumption.
                  ** intros Hw. pose proof (rd_ge _ _ _ Hw) as [Hge [<-|[]]]. apply Hs.
                     apply rd_none in Ei. lia.
               ++ rewrite known_app. cbn. lia.
            -- rewrite (reports_out _ _ m) by reflexivity. rewrite En, Ho by assumption. auto.
        + constructor; rewrite ?get_St_other by congruence; rewrite ?newh_other by assumption;
            try apply Nj.
          * apply (oreader_new j ins' c'); auto; [intros; left; assumption|apply Nj].
          * apply (oreader_new j ins' c'); auto; [intros; right; assumption|apply Nj].
          * intros Hr. unfold legal_out in Ho. destruct (l_out l) as [v|].
            -- destruct Ho as (Hret & _).
               erewrite reports_out; [rewrite (reports_app (i_num ins') v)|reflexivity].
               destruct (i_num ins =? i_num ins') eqn:Ef.
               ++ apply Nat.eqb_eq in Ef. exfalso. apply Hne. symmetry.
                  apply (Hdist k j ins ins'); try assumption; [apply Hn|apply Hj].
               ++ rewrite app_nil_r. apply Nj. assumption.
            -- rewrite (reports_out _ _ m) by reflexivity. apply Nj. assumption.
    Qed.


    (** *** The local action is legal *)
    Lemma sub_view j x : reads ins j -> view (val j) (known (h j)) x (rd (h j) x).
    Proof.
      intros Hr. destruct (sub_child k ins c j Hn Hr) as (_ & ins' & c' & Hj & _).
      pose proof (i_nodes _ _ _ HI j ins' c' Hj) as Nj.
      destruct (rd (h j) x) as [[b t]|] eqn:E; cbn.
      - pose proof (rd_ge _ _ _ E) as [H1 H2]. pose proof (in_known _ _ H2). cbn in *.
        split; [lia|]. intros s Hs. apply (n_sound _ _ _ _ _ _ Nj s (b, t)).
        apply (rd_within _ x); assumption.
      - apply rd_none. assumption.
    Qed.
    Lemma sub_known j : reads ins j -> known (h j) <= S ts.
    Proof.
      intros Hr. destruct (sub_child k ins c j Hn Hr) as (_ & ins' & c' & Hj & _).
      apply (i_nodes _ _ _ HI j ins' c' Hj).
    Qed.
    Lemma oknown_hi o : (forall j, o = Sub j -> reads ins j) -> oknown h ts o <= S ts.
    Proof. destruct o; cbn; auto. intros H. apply sub_known. auto. Qed.
    Lemma sub_maximal j x : reads ins j -> 1 <= x -> maximal (val j) (known (h j)) (rd (h j) x).
    Proof.
      intros Hr Hx. destruct (sub_child k ins c j Hn Hr) as (_ & ins' & c' & Hj & _).
      pose proof (i_nodes _ _ _ HI j ins' c' Hj) as Nj.
      pose proof (ample k ins c j Hn Hr) as Ha. rewrite (node_len j ins' c' Hj) in Ha.
      destruct (rd (h j) x) as [[b t]|] eqn:E; cbn; [|exact Logic.I]. intros Ht.
      pose proof (rd_ge _ _ _ E) as [H1 _]. cbn in H1.
      destruct (alt_next (h j) x (b, t) (n_incr _ _ _ _ _ _ Nj) (n_alt _ _ _ _ _ _ Nj ltac:(lia)) E) as (w & Ew & Hw).
      - intros Ed. injection Ed as -> ->. lia.
      - assumption.
      - cbn in Ew, Hw. rewrite (n_sound _ _ _ _ _ _ Nj _ _ Ew). apply neq_negb. assumption.
    Qed.

    Definition source (o : operand) : Prop := (exists j, o = Sub j /\ reads ins j) \/ is_direct o.
    Lemma source_view o x : source o -> x <= ts -> view (ostream o) (oknown h ts o) x (oview h ts pr o x).
    Proof.
      intros [(j & -> & Hr)|[b ->]] Hx.
      - apply sub_view. assumption.
      - cbn. split; [lia|]. reflexivity.
    Qed.
    Lemma source_maximal o x : source o -> 1 <= x -> maximal (ostream o) (oknown h ts o) (oview h ts pr o x).
    Proof.
      intros [(j & -> & Hr)|[b ->]] Hx.
      - apply sub_maximal; assumption.
      - cbn. lia.
    Qed.
    Lemma source_sub o : source o -> forall j, o = Sub j -> reads ins j.
    Proof. intros [(i & -> & Hr)|[b ->]] j Hj; congruence. Qed.
    Lemma source_hi o : source o -> oknown h ts o <= S ts.
    Proof. intros Hs. apply oknown_hi. apply source_sub. assumption. Qed.
    Lemma source_earlier1 : earlier prog k (i_op1 ins) -> source (i_op1 ins).
    Proof. intros (j & E & _). left. exists j. split; [assumption|]. left; assumption. Qed.
    Lemma source_earlier2 : earlier prog k (i_op2 ins) -> source (i_op2 ins).
    Proof. intros (j & E & _). left. exists j. split; [assumption|]. right; assumption. Qed.
    Lemma earlier_done o x : earlier prog k o -> (forall j, o = Sub j -> reads ins j) -> ts < x -> oview h ts pr o x = None.
    Proof.
      intros (j & -> & _) Hr Hx. cbn. apply rd_none. specialize (sub_known j (Hr j eq_refl)). lia.
    Qed.

    Definition quiet : Prop :=
      oknown h ts (i_op1 ins) <= known (h k) \/ oknown h ts (i_op2 ins) <= known (h k).

    Definition legal_visit : Prop :=
      legal_push /\ legal_out /\ n <= l_next l /\
      opinv ts k ins c (known (h' k)) (l_next l) (l_prev l) /\
      (l_push l = None -> match i_op ins with AND | OR | EQUIV => quiet | NOT => oknown h ts (i_op1 ins) <= known (h k)
                                            | _ => True end).

    (** Boolean connectives: from the pure description of the visit. *)
    Lemma bool_legal (f : nat -> bool) Km :
      (forall s, val k s = f s) -> n = known (h k) -> Km <= S ts ->
      match i_op ins with NOT | AND | OR | EQUIV => True | _ => False end ->
      l_out l = None /\ l_prev l = q_prev q /\
      match l_push l with
      | None => l_next l = n /\ match i_op ins with AND | OR | EQUIV => quiet | NOT => oknown h ts (i_op1 ins) <= known (h k)
                                            | _ => True end
      | Some (b, t) => n <= t < Km /\ (forall s, n <= s <= t -> f s = b) /\ l_next l = S t
      end -> legal_visit.
    Proof.
      intros Hv Hnk Hkm Hop (Eo & Ep & H).
      assert (Hlp : legal_push).
      { unfold legal_push. destruct (l_push l) as [[b t]|]; [|exact Logic.I]. destruct H as (H1 & H2 & H3).
        split; [lia|]. intros s Hs. rewrite Hv. apply H2. lia. }
      split; [assumption|]. split.
      { unfold legal_out. rewrite Eo. intros Er. rewrite Er in Hop. destruct Hop. }
      split; [destruct (l_push l) as [[b t]|]; lia|]. split.
      - rewrite newh_known by assumption.
        assert (l_next l = match l_push l with Some v => S (snd v) | None => known (h k) end)
          by (destruct (l_push l) as [[b t]|]; cbn; lia).
        unfold opinv. revert Hop. case (i_op ins); intros Hop; try (destruct Hop); assumption.
      - intros E. rewrite E in H. apply H.
    Qed.

    Lemma until_legal (u : bool) :
      i_op ins = (if u then UNTIL else RELEASE) ->
      until_like u (c_lb c) (c_ub c) (ostream (i_op1 ins)) (ostream (i_op2 ins)) (val k) ->
      source (i_op1 ins) -> source (i_op2 ins) -> earlier prog k (i_op2 ins) ->
      uinv u (c_lb c) (c_ub c) (ostream (i_op1 ins)) (ostream (i_op2 ins)) (known (h k)) n (q_prev q) ->
      (S (Nat.max (owd (i_op1 ins)) (owd (i_op2 ins))) <= ts -> 1 <= n) ->
      legal_visit.
    Proof.
      intros Eop Hv S1 S2 E2 HU H1.
      assert (El : l = until_local u (c_lb c) (c_ub c) n (q_prev q) (oview h ts pr (i_op1 ins) n) (oview h ts pr (i_op2 ins) n)).
      { unfold l, r0, r1. rewrite Eop. destruct u; reflexivity. }
      assert (V2 : view (ostream (i_op2 ins)) (oknown h ts (i_op2 ins)) n (oview h ts pr (i_op2 ins) n)).
      { destruct E2 as (j & E2 & _). rewrite E2. apply sub_view. right. assumption. }
      assert (V1 : oview h ts pr (i_op2 ins) n = None \/
                   view (ostream (i_op1 ins)) (oknown h ts (i_op1 ins)) n (oview h ts pr (i_op1 ins) n)).
      { destruct (oview h ts pr (i_op2 ins) n) as [[b t]|]; [right|left; reflexivity].
        apply source_view; [assumption|]. pose proof (source_hi _ S2). cbn in V2. lia. }
      pose proof (until_visit u _ _ _ _ _ Hv _ _ _ _ _ _ _ HU V2 V1) as V. rewrite <- El in V. cbn zeta in V.
      destruct V as (Vn & Vo & V).
      assert (Hlp : legal_push).
      { unfold legal_push. destruct (l_push l) as [[b t]|]; [|exact Logic.I]. destruct V as (Va & Vb & _).
        split; [|assumption]. pose proof (source_hi _ S2). lia. }
      split; [assumption|]. split; [unfold legal_out; rewrite Vo, Eop; destruct u; discriminate|].
      split; [assumption|]. split; [|rewrite Eop; destruct u; auto].
      rewrite newh_known by assumption.
      assert (G : uinv u (c_lb c) (c_ub c) (ostream (i_op1 ins)) (ostream (i_op2 ins))
                   (match l_push l with Some v => S (snd v) | None => known (h k) end) (l_next l) (l_prev l)).
      { destruct (l_push l) as [[b t]|]; apply V. }
      unfold opinv. rewrite Eop. destruct u; (split; [exact G|intros Hts; specialize (H1 Hts); lia]).
    Qed.

    Lemma val_eq : val k = den tr (instr_expr (exprs prog confs) ins c).
    Proof. unfold val. rewrite (node_eq k ins c Hn). reflexivity. Qed.

    Lemma visit_legal : (i_op ins = LOAD -> pr = FirstLoop -> known (h k) = ts) -> legal_visit.
    Proof.
      intros Hload. pose proof (i_nodes _ _ _ HI k ins c Hn) as N.
      pose proof (n_op _ _ _ _ _ _ N) as O. fold q in O. fold n in O.
      pose proof (n_hi _ _ _ _ _ _ N) as Hhi.
      pose proof (node_ft k ins c Hn) as [_ F]. pose proof val_eq as Hv.
      unfold instr_expr in Hv.
      case_eq (i_op ins); intros Eop; unfold opinv in O; rewrite Eop in O, F, Hv; cbv zeta iota in F, Hv.
      - (* LOAD *)
        destruct F as [[a Fa] Fb].
        assert (El : l = local_of LOAD (c_lb c) (c_ub c) n (q_prev q) (oview h ts pr (i_op1 ins) n) None)
          by (unfold l, r0, r1; rewrite Eop; reflexivity).
        rewrite Fa in El. cbn [oview] in El.
        assert (Hno : (l = Local None None n (q_prev q)) \/
                      (l = Local (Some (tr ts a, ts)) None (ts + 1) (q_prev q) /\ known (h k) = ts)).
        { specialize (Hload Eop). revert El Hload. case pr; intros El Hload; rewrite El; cbn; auto. }
        clear El. destruct O as [O1 O2]. destruct Hno as [El|[El Hk]].
        + assert (Hlp : legal_push) by (unfold legal_push; rewrite El; exact Logic.I).
          split; [assumption|]. split; [unfold legal_out; rewrite El; cbn; auto|].
          split; [rewrite El; apply le_n|]. split; [|rewrite Eop; auto].
          rewrite newh_known by assumption. unfold opinv. rewrite Eop, El. cbn. auto.
        + assert (Hlp : legal_push).
          { unfold legal_push; rewrite El. cbn. split; [lia|]. intros s Hs. rewrite Hv, Fa. cbn. f_equal. lia. }
          split; [assumption|]. split; [unfold legal_out; rewrite El, Eop; cbn; discriminate|].
          split; [rewrite El; cbn; lia|]. split; [|rewrite Eop; auto].
          rewrite newh_known by assumption. unfold opinv. rewrite Eop, El. cbn. lia.
      - (* RETURN *)
        destruct F as [F1 F2].
        assert (El : l = local_of RETURN (c_lb c) (c_ub c) n (q_prev q) (oview h ts pr (i_op1 ins) n) None)
          by (unfold l, r0, r1; rewrite Eop; reflexivity).
        pose proof (source_earlier1 F1) as S1.
        assert (V : view (ostream (i_op1 ins)) (oknown h ts (i_op1 ins)) n (oview h ts pr (i_op1 ins) n)).
        { destruct F1 as (j & E1 & _). rewrite E1. apply sub_view. left. assumption. }
        assert (Hlp : legal_push).
        { unfold legal_push. rewrite El. cbn. case (oview h ts pr (i_op1 ins) n); [intros [b t]|]; exact Logic.I. }
        split; [assumption|]. rewrite newh_known by assumption.
        unfold legal_out, opinv. rewrite El, Eop. cbn.
        revert V. case (oview h ts pr (i_op1 ins) n); [intros [b t]|]; cbn; intros V.
        + pose proof (source_hi _ S1). destruct V as [V1 V2].
          split; [split; [reflexivity|]; split; [lia|]; split; [|lia]; intros s Hs; rewrite Hv; apply V2; assumption|].
          split; [lia|]. split; [lia|auto].
        + split; [auto|]. split; [lia|]. split; [lia|auto].
      - (* UNTIL *)
        destruct F as (F1 & F2 & F3). destruct O as [O1 O2].
        apply (until_legal true); auto.
        + rewrite Hv. apply until_like_U.
        + destruct F1 as [F1|F1]; [apply source_earlier1; assumption|right; assumption].
        + apply source_earlier2; assumption.
      - (* RELEASE *)
        destruct F as (F1 & F2 & F3). destruct O as [O1 O2].
        apply (until_legal false); auto.
        + rewrite Hv. apply until_like_R.
        + destruct F1 as [F1|F1]; [apply source_earlier1; assumption|right; assumption].
        + apply source_earlier2; assumption.
      - destruct F.
      - destruct F.
      - (* NOT *)
        destruct F as [F1 F2].
        assert (El : l = local_of NOT (c_lb c) (c_ub c) n (q_prev q) (oview h ts pr (i_op1 ins) n) None)
          by (unfold l, r0, r1; rewrite Eop; reflexivity).
        pose proof (source_earlier1 F1) as S1.
        assert (V : view (ostream (i_op1 ins)) (oknown h ts (i_op1 ins)) n (oview h ts pr (i_op1 ins) n)).
        { destruct F1 as (j & E1 & _). rewrite E1. apply sub_view. left. assumption. }
        apply (bool_legal (fun s => negb (ostream (i_op1 ins) s)) (oknown h ts (i_op1 ins))).
        + intros s. rewrite Hv. reflexivity.
        + assumption.
        + apply source_hi. assumption.
        + rewrite Eop. exact Logic.I.
        + rewrite Eop. pose proof (not_visit _ _ _ (q_prev q) _ V (c_lb c) (c_ub c)) as W.
          rewrite <- El in W. cbn zeta in W. rewrite <- O. exact W.
      - (* AND *)
        assert (El : l = local_of AND (c_lb c) (c_ub c) n (q_prev q) (oview h ts pr (i_op1 ins) n) (oview h ts pr (i_op2 ins) n))
          by (unfold l, r0, r1; rewrite Eop; reflexivity).
        assert (S1 : source (i_op1 ins)).
        { destruct F as [[F1 F2]|[F1 F2]]; [apply source_earlier1; assumption|right; exists true; assumption]. }
        assert (S2 : source (i_op2 ins)).
        { destruct F as [[F1 [F2|F2]]|[F1 F2]]; try (apply source_earlier2; assumption). right; exists true; assumption. }
        apply (bool_legal (fun s => ostream (i_op1 ins) s && ostream (i_op2 ins) s) (Nat.max (oknown h ts (i_op1 ins)) (oknown h ts (i_op2 ins)))).
        + intros s. rewrite Hv. cbn. rewrite ?andb_true_r, ?orb_false_r. reflexivity.
        + assumption.
        + pose proof (source_hi _ S1). pose proof (source_hi _ S2). lia.
        + rewrite Eop. exact Logic.I.
        + rewrite Eop. destruct (Nat.le_gt_cases n ts) as [Hle|Hgt].
          * pose proof (and_visit _ _ _ _ _ (q_prev q) _ _ (source_view _ n S1 Hle) (source_view _ n S2 Hle) (c_lb c) (c_ub c)) as V.
            rewrite <- El in V. cbn zeta in V. unfold quiet. rewrite <- O. exact V.
          * assert (Hq : quiet) by (left; pose proof (source_hi _ S1); lia).
            enough (E : l = Local None None n (q_prev q)) by (rewrite E; cbn; auto).
            rewrite El. destruct F as [[F1 [F2|F2]]|[F1 F2]].
            -- rewrite (earlier_done (i_op1 ins) n F1 (source_sub _ S1) Hgt).
               rewrite (earlier_done (i_op2 ins) n F2 (source_sub _ S2) Hgt). reflexivity.
            -- rewrite (earlier_done (i_op1 ins) n F1 (source_sub _ S1) Hgt). rewrite F2. reflexivity.
            -- rewrite (earlier_done (i_op2 ins) n F2 (source_sub _ S2) Hgt). rewrite F1. reflexivity.
      - (* OR *)
        assert (El : l = local_of OR (c_lb c) (c_ub c) n (q_prev q) (oview h ts pr (i_op1 ins) n) (oview h ts pr (i_op2 ins) n))
          by (unfold l, r0, r1; rewrite Eop; reflexivity).
        assert (S1 : source (i_op1 ins)).
        { destruct F as [[F1 F2]|[F1 F2]]; [apply source_earlier1; assumption|right; exists false; assumption]. }
        assert (S2 : source (i_op2 ins)).
        { destruct F as [[F1 [F2|F2]]|[F1 F2]]; try (apply source_earlier2; assumption). right; exists false; assumption. }
        apply (bool_legal (fun s => ostream (i_op1 ins) s || ostream (i_op2 ins) s) (Nat.max (oknown h ts (i_op1 ins)) (oknown h ts (i_op2 ins)))).
        + intros s. rewrite Hv. cbn. rewrite ?andb_true_r, ?orb_false_r. reflexivity.
        + assumption.
        + pose proof (source_hi _ S1). pose proof (source_hi _ S2). lia.
        + rewrite Eop. exact Logic.I.
        + rewrite Eop. destruct (Nat.le_gt_cases n ts) as [Hle|Hgt].
          * pose proof (or_visit _ _ _ _ _ (q_prev q) _ _ (source_view _ n S1 Hle) (source_view _ n S2 Hle) (c_lb c) (c_ub c)) as V.
            rewrite <- El in V. cbn zeta in V. unfold quiet. rewrite <- O. exact V.
          * assert (Hq : quiet) by (left; pose proof (source_hi _ S1); lia).
            enough (E : l = Local None None n (q_prev q)) by (rewrite E; cbn; auto).
            rewrite El. destruct F as [[F1 [F2|F2]]|[F1 F2]].
            -- rewrite (earlier_done (i_op1 ins) n F1 (source_sub _ S1) Hgt).
               rewrite (earlier_done (i_op2 ins) n F2 (source_sub _ S2) Hgt). reflexivity.
            -- rewrite (earlier_done (i_op1 ins) n F1 (source_sub _ S1) Hgt). rewrite F2. reflexivity.
            -- rewrite (earlier_done (i_op2 ins) n F2 (source_sub _ S2) Hgt). rewrite F1. reflexivity.
      - (* EQUIV *)
        assert (El : l = local_of EQUIV (c_lb c) (c_ub c) n (q_prev q) (oview h ts pr (i_op1 ins) n) (oview h ts pr (i_op2 ins) n))
          by (unfold l, r0, r1; rewrite Eop; reflexivity).
        assert (S1 : source (i_op1 ins)).
        { destruct F as [[F1 F2]|[F1 F2]]; [apply source_earlier1; assumption|right; assumption]. }
        assert (S2 : source (i_op2 ins)).
        { destruct F as [[F1 [F2|F2]]|[F1 F2]]; try (apply source_earlier2; assumption). right; assumption. }
        apply (bool_legal (fun s => Bool.eqb (ostream (i_op1 ins) s) (ostream (i_op2 ins) s)) (Nat.max (oknown h ts (i_op1 ins)) (oknown h ts (i_op2 ins)))).
        + intros s. rewrite Hv. cbn. rewrite ?andb_true_r, ?orb_false_r. reflexivity.
        + assumption.
        + pose proof (source_hi _ S1). pose proof (source_hi _ S2). lia.
        + rewrite Eop. exact Logic.I.
        + rewrite Eop. destruct (Nat.le_gt_cases n ts) as [Hle|Hgt].
          * pose proof (equiv_visit _ _ _ _ _ (q_prev q) _ _ (source_view _ n S1 Hle) (source_view _ n S2 Hle) (c_lb c) (c_ub c)) as V.
            rewrite <- El in V. cbn zeta in V. unfold quiet. rewrite <- O. exact V.
          * assert (Hq : quiet) by (left; pose proof (source_hi _ S1); lia).
            enough (E : l = Local None None n (q_prev q)) by (rewrite E; cbn; auto).
            rewrite El. destruct F as [[F1 [F2|F2]]|[F1 F2]].
            -- rewrite (earlier_done (i_op1 ins) n F1 (source_sub _ S1) Hgt).
               rewrite (earlier_done (i_op2 ins) n F2 (source_sub _ S2) Hgt). reflexivity.
            -- rewrite (earlier_done (i_op1 ins) n F1 (source_sub _ S1) Hgt). destruct F2 as [b ->]. reflexivity.
            -- rewrite (earlier_done (i_op2 ins) n F2 (source_sub _ S2) Hgt). destruct F1 as [b ->]. reflexivity.
    Qed.

  End Visit.

  (** Progress of an instruction: the first time it has not settled yet. *)
  Definition settled (h : nat -> list verdict) (m : monitor) (k : nat) (ins : instr) : nat :=
    match i_op ins with RETURN => q_next (get_queue m k) | _ => known (h k) end.
  Definition action (h : nat -> list verdict) (ts : nat) (m : monitor) (k : nat) (ins : instr) (c : qconf) : local :=
    let q := get_queue m k in
    local_of (i_op ins) (c_lb c) (c_ub c) (q_next q) (q_prev q)
      (oview h ts (m_progress m) (i_op1 ins) (q_next q))
      (if binary (i_op ins) then oview h ts (m_progress m) (i_op2 ins) (q_next q) else None).
  Definition silent (l : local) : Prop := l_push l = None /\ l_out l = None.

  Record visited (h h' : nat -> list verdict) (ts : nat) (m m' : monitor) (k : nat) (ins : instr) (c : qconf) : Prop := {
    v_inv : Inv h' ts m';
    v_others : forall j, j <> k -> h' j = h j /\ get_queue m' j = get_queue m j;
    v_cases : (silent (action h ts m k ins c) /\ h' = h /\ m_progress m' = m_progress m /\
               settled h' m' k ins = settled h m k ins) \/
              (m_progress m' = m_progress m /\ h' = h /\ i_op ins = RETURN /\
               l_out (action h ts m k ins c) <> None /\ settled h m k ins < settled h' m' k ins) \/
              (m_progress m' = flag (m_progress m) /\ settled h m k ins < settled h' m' k ins);
    v_push : h' k = h k \/
             exists v, h' k = push (c_len c) (h k) v /\ known (h k) <= snd v /\ m_progress m' = flag (m_progress m);
    v_next : q_next (get_queue m' k) = l_next (action h ts m k ins c);
    v_prev : q_prev (get_queue m' k) = l_prev (action h ts m k ins c);
    v_mono : q_next (get_queue m k) <= q_next (get_queue m' k);
    v_rd1 : reading h (i_op1 ins) (q_next (get_queue m k)) (q_read1 (get_queue m' k));
    v_rd2 : reading h (i_op2 ins) (q_next (get_queue m k)) (q_read2 (get_queue m' k));
    v_quiet : l_push (action h ts m k ins c) = None ->
              match i_op ins with
              | AND | OR | EQUIV => quiet h ts k ins
              | NOT => oknown h ts (i_op1 ins) <= known (h k)
              | _ => True
              end;
    v_new : h' k = match l_push (action h ts m k ins c) with Some v => push (c_len c) (h k) v | None => h k end;
    v_legal : forall v, l_push (action h ts m k ins c) = Some v -> known (h k) <= snd v
  }.

  Lemma visit h ts m k ins c :
    Inv h ts m -> node k ins c ->
    (i_op ins = LOAD -> m_progress m = FirstLoop -> known (h k) = ts) ->
    exists h', visited h h' ts m (update (tr ts) k ins m) k ins c.
  Proof.
    intros HI Hn Hload. exists (newh h k c (action h ts m k ins c)).
    pose proof (visit_legal h ts m k ins c HI Hn Hload) as (L1 & L2 & L3 & L4 & L5).
    pose proof (visit_inv h ts m k ins c HI Hn L1 L2 L3 L4) as HI'.
    pose proof (newh_known h ts m k ins c L1) as Hk.
    destruct (visit_update h ts m k ins c HI Hn) as (q' & E & Es & En & Epv & _ & _ & R1 & _ & R2 & _).
    fold (action h ts m k ins c) in *.
    assert (Hlt : k < length (m_queues m)).
    { rewrite (i_length _ _ _ HI). apply (node_lt k ins c Hn). }
    constructor.
    - exact HI'.
    - intros j Hj. split; [apply (newh_other h ts m k ins c j Hj)|].
      rewrite E. apply get_St_other. congruence.
    - assert (Hq : q_next (get_queue (update (tr ts) k ins m) k) = l_next (action h ts m k ins c)).
      { rewrite E, get_St by assumption. assumption. }
      assert (Hp : m_progress (update (tr ts) k ins m) =
                   match l_push (action h ts m k ins c), l_out (action h ts m k ins c) with
                   | None, None => m_progress m
                   | None, Some _ => return_flag (m_progress m)
                   | _, _ => flag (m_progress m) end).
      { rewrite E. reflexivity. }
      unfold legal_push in L1. unfold legal_out in L2. fold (action h ts m k ins c) in *.
      destruct (l_push (action h ts m k ins c)) as [[b t]|] eqn:Ep.
      + right. right. split; [assumption|]. unfold settled.
        destruct (i_op ins) eqn:Eop; try (rewrite Hk; cbn; lia).
        exfalso. unfold action in Ep. rewrite Eop in Ep. cbn in Ep.
        destruct (oview _ _ _ _ _); discriminate.
      + destruct (l_out (action h ts m k ins c)) as [v|] eqn:Eo.
        * right. destruct L2 as (Er & L2 & _ & L6).
          assert (Hs : settled h m k ins < settled (newh h k c (action h ts m k ins c)) (update (tr ts) k ins m) k ins)
            by (unfold settled; rewrite Er, Hq, L6; lia).
          unfold return_flag in Hp. destruct I.
          -- right. split; [exact Hp|exact Hs].
          -- left. split; [exact Hp|]. split; [unfold newh; rewrite Ep; reflexivity|].
             split; [assumption|]. split; [discriminate|exact Hs].
        * left. split; [split; assumption|]. split; [unfold newh; rewrite Ep; reflexivity|]. split; [assumption|].
          unfold settled. destruct (i_op ins) eqn:Eop; try assumption. rewrite Hq. apply L2. reflexivity.
    - pose proof (newh_same h ts m k ins c) as Hh. fold (action h ts m k ins c) in Hh.
      unfold legal_push in L1. fold (action h ts m k ins c) in L1.
      assert (Hp : forall v, l_push (action h ts m k ins c) = Some v ->
                   m_progress (update (tr ts) k ins m) = flag (m_progress m)).
      { intros v Ev. rewrite E, Ev. reflexivity. }
      destruct (l_push (action h ts m k ins c)) as [[b t]|]; [|left; exact Hh].
      right. exists (b, t). split; [exact Hh|]. split; [apply L1|apply (Hp _ eq_refl)].
    - rewrite E, get_St by assumption. assumption.
    - rewrite E, get_St by assumption. assumption.
    - rewrite E, get_St, En by assumption. exact L3.
    - rewrite E, get_St by assumption. exact R1.
    - rewrite E, get_St by assumption. exact R2.
    - exact L5.
    - exact (newh_same h ts m k ins c).
    - intros v Ev. unfold legal_push in L1. fold (action h ts m k ins c) in L1. rewrite Ev in L1.
      destruct v as [b t]. apply L1.
  Qed.

  (** ** One pass *)
  Definition is_until (op : opcode) : option bool :=
    match op with UNTIL => Some true | RELEASE => Some false | _ => None end.

  (** The last visit either settled everything due, or was a silent look of
      until/release at the present data. *)
  Definition looked (h : nat -> list verdict) (ts : nat) (m : monitor) (k : nat) (ins : instr) (c : qconf) : Prop :=
    forall u, is_until (i_op ins) = Some u ->
    S ts - wd k <= known (h k) \/
    exists n0 prev0,
      uinv u (c_lb c) (c_ub c) (ostream (i_op1 ins)) (ostream (i_op2 ins)) (known (h k)) n0 prev0 /\
      (S (Nat.max (owd (i_op1 ins)) (owd (i_op2 ins))) <= ts -> 1 <= n0) /\
      let l := until_local u (c_lb c) (c_ub c) n0 prev0 (oview h ts NoProgress (i_op1 ins) n0)
                           (oview h ts NoProgress (i_op2 ins) n0) in
      l_push l = None /\ q_next (get_queue m k) = l_next l /\ q_prev (get_queue m k) = l_prev l.

  Definition oreach (o : operand) : nat := match o with Sub j => wd j | _ => 0 end.

  Record finished (h : nat -> list verdict) (ts : nat) (m : monitor) (k : nat) (ins : instr) : Prop := {
    f_done : S ts - wd k <= settled h m k ins;
    f_move : is_until (i_op ins) <> None -> Nat.max (owd (i_op1 ins)) (owd (i_op2 ins)) <= ts ->
             1 <= q_next (get_queue m k);
    f_rd1 : oreader h (i_op1 ins) (q_next (get_queue m k)) (q_read1 (get_queue m k)) (ts - wd k);
    f_rd2 : oreader h (i_op2 ins) (q_next (get_queue m k)) (q_read2 (get_queue m k)) (ts - wd k)
  }.

  Lemma until_ft k ins c u :
    node k ins c -> is_until (i_op ins) = Some u ->
    (earlier prog k (i_op1 ins) \/ is_direct (i_op1 ins)) /\ earlier prog k (i_op2 ins) /\
    until_like u (c_lb c) (c_ub c) (ostream (i_op1 ins)) (ostream (i_op2 ins)) (val k) /\
    wd k = Nat.max (owd (i_op1 ins)) (owd (i_op2 ins)) + c_ub c /\
    (forall lb ub n pv a b, local_of (i_op ins) lb ub n pv a b = until_local u lb ub n pv a b) /\
    binary (i_op ins) = true.
  Proof.
    intros Hn Hu. pose proof (node_ft k ins c Hn) as [_ F]. unfold val, wd, owd, ostream.
    rewrite (node_eq k ins c Hn). unfold instr_expr.
    destruct (i_op ins); try discriminate; injection Hu as <-; destruct F as (F1 & F2 & _);
      repeat (split; [assumption|]); (split; [|split; [reflexivity|split; reflexivity]]).
    - apply until_like_U.
    - apply until_like_R.
  Qed.

  Lemma source_pr ins o h ts pr pr' x : source ins o -> oview h ts pr o x = oview h ts pr' o x.
  Proof. intros [(j & -> & _)|[b ->]]; reflexivity. Qed.

  Lemma looked_after h h' ts m k ins c :
    Inv h ts m -> node k ins c -> visited h h' ts m (update (tr ts) k ins m) k ins c ->
    looked h' ts (update (tr ts) k ins m) k ins c.
  Proof.
    intros HI Hn V u Hu.
    destruct (until_ft k ins c u Hn Hu) as (F1 & F2 & _ & _ & El & Eb).
    assert (S1 : source ins (i_op1 ins)).
    { destruct F1 as [F1|F1]; [apply (source_earlier1 k ins F1)|right; assumption]. }
    assert (S2 : source ins (i_op2 ins)) by apply (source_earlier2 k ins F2).
    pose proof (i_nodes _ _ _ HI k ins c Hn) as N.
    pose proof (n_lo _ _ _ _ _ _ N ltac:(destruct (i_op ins); discriminate)) as Hlo.
    assert (Hs : forall g a, settled g a k ins = known (g k)) by (intros; unfold settled; destruct (i_op ins); try discriminate; reflexivity).
    destruct (v_cases _ _ _ _ _ _ _ _ V) as [((Hp & _) & -> & _)|[(_ & _ & Er & _)|[_ Hc]]].
    2:{ rewrite Er in Hu. discriminate. }
    2:{ left. rewrite !Hs in Hc. lia. }
    right. exists (q_next (get_queue m k)), (q_prev (get_queue m k)).
    pose proof (n_op _ _ _ _ _ _ N) as O. unfold opinv in O.
    assert (O' : uinv u (c_lb c) (c_ub c) (ostream (i_op1 ins)) (ostream (i_op2 ins)) (known (h k))
                   (q_next (get_queue m k)) (q_prev (get_queue m k)) /\
                 (S (Nat.max (owd (i_op1 ins)) (owd (i_op2 ins))) <= ts -> 1 <= q_next (get_queue m k))).
    { destruct (i_op ins); try discriminate; injection Hu as <-; exact O. }
    destruct O' as [O1 O2]. split; [exact O1|]. split; [exact O2|].
    cbv zeta.
    assert (E : until_local u (c_lb c) (c_ub c) (q_next (get_queue m k)) (q_prev (get_queue m k))
                (oview h ts NoProgress (i_op1 ins) (q_next (get_queue m k)))
                (oview h ts NoProgress (i_op2 ins) (q_next (get_queue m k))) = action h ts m k ins c).
    { unfold action. rewrite El, Eb.
      rewrite (source_pr ins (i_op1 ins) h ts (m_progress m) NoProgress _ S1).
      rewrite (source_pr ins (i_op2 ins) h ts (m_progress m) NoProgress _ S2). reflexivity. }
    rewrite E. split; [assumption|].
    split; [apply (v_next _ _ _ _ _ _ _ _ V)|apply (v_prev _ _ _ _ _ _ _ _ V)].
  Qed.

  Lemma opinv_le ts k ins c K n prev :
    node k ins c -> opinv ts k ins c K n prev -> i_op ins <> RETURN -> K <= n.
  Proof.
    intros Hn. unfold opinv. destruct (i_op ins); intros O Hr; try lia; try congruence; try easy;
      destruct O as [[_ O _ _ _] _]; lia.
  Qed.
  Lemma settled_le h ts m k ins c : Inv h ts m -> node k ins c -> settled h m k ins <= q_next (get_queue m k).
  Proof.
    intros HI Hn. pose proof (i_nodes _ _ _ HI k ins c Hn) as N.
    pose proof (opinv_le _ _ _ _ _ _ _ Hn (n_op _ _ _ _ _ _ N)) as H.
    unfold settled. destruct (i_op ins); try (apply H; discriminate). lia.
  Qed.

  Section Finish.
    Variables (h : nat -> list verdict) (ts : nat) (m : monitor) (k : nat) (ins : instr) (c : qconf).
    Let m' := update (tr ts) k ins m.
    Hypothesis HI : Inv h ts m.
    Hypothesis Hn : node k ins c.
    Hypothesis HV : visited h h ts m m' k ins c.
    Hypothesis Hsil : silent (action h ts m k ins c).
    Hypothesis Hlook : looked h ts m k ins c.
    Hypothesis Hload : i_op ins = LOAD -> known (h k) = S ts.
    Hypothesis Hkids : forall j, reads ins j -> S ts - wd j <= known (h j).

    Lemma kids_done o : (forall j, o = Sub j -> reads ins j) -> S ts - owd o <= oknown h ts o.
    Proof.
      intros Ho. destruct o as [b|a|j|]; cbn [oknown]; try lia. apply (Hkids j). apply Ho. reflexivity.
    Qed.
    Lemma kid1_done : S ts - owd (i_op1 ins) <= oknown h ts (i_op1 ins).
    Proof. apply kids_done. intros; left; assumption. Qed.
    Lemma kid2_done : S ts - owd (i_op2 ins) <= oknown h ts (i_op2 ins).
    Proof. apply kids_done. intros; right; assumption. Qed.

    Lemma until_done u : is_until (i_op ins) = Some u -> S ts - wd k <= known (h k).
    Proof.
      intros Hu. destruct (Hlook u Hu) as [|(n0 & prev0 & HU & Hn0 & Hp & En & Ep)]; [assumption|].
      destruct (until_ft k ins c u Hn Hu) as (F1 & F2 & Hlike & Hwd & El & Eb).
      assert (S1 : source ins (i_op1 ins)).
      { destruct F1 as [F1|F1]; [apply (source_earlier1 k ins F1)|right; assumption]. }
      assert (S2 : source ins (i_op2 ins)) by apply (source_earlier2 k ins F2).
      pose proof kid1_done as D1. pose proof kid2_done as D2.
      pose proof (source_hi h ts m k ins c HI Hn _ S1) as H1.
      pose proof (source_hi h ts m k ins c HI Hn _ S2) as H2.
      set (Kp := oknown h ts (i_op1 ins)) in *. set (Kq := oknown h ts (i_op2 ins)) in *.
      set (K := known (h k)) in *.
      destruct (Nat.eq_dec n0 0) as [->|Hne].
      { (* the very first look: both operands are known at 0 unless the window reaches too far *)
        pose proof (ui_lo _ _ _ _ _ _ _ _ HU) as HK. assert (HK0 : K = 0) by lia.
        assert (Hfar : ts <= Nat.max (owd (i_op1 ins)) (owd (i_op2 ins))).
        { destruct (Nat.le_gt_cases (S (Nat.max (owd (i_op1 ins)) (owd (i_op2 ins)))) ts) as [G|G]; [|lia].
          specialize (Hn0 G). lia. }
        destruct (Nat.eq_dec ts (wd k)) as [Ets|]; [|lia]. exfalso.
        assert (Hub : c_ub c = 0) by lia.
        unfold until_local in Hp.
        pose proof (source_view h ts m k ins c HI Hn _ 0 S1 ltac:(lia)) as V1.
        pose proof (source_view h ts m k ins c HI Hn _ 0 S2 ltac:(lia)) as V2.
        rewrite (source_pr ins _ h ts _ NoProgress _ S1) in V1.
        rewrite (source_pr ins _ h ts _ NoProgress _ S2) in V2. fold Kp in V1. fold Kq in V2.
        destruct (oview h ts NoProgress (i_op1 ins) 0) as [[b0 t0]|]; [|cbn in V1; lia].
        destruct (oview h ts NoProgress (i_op2 ins) 0) as [[b1 t1]|]; [|cbn in V2; lia].
        destruct (Bool.eqb b1 u); [discriminate|]. cbn zeta in Hp.
        destruct (Bool.eqb b0 u); [|discriminate].
        pose proof (ui_prev _ _ _ _ _ _ _ _ HU) as Hpv.
        rewrite (proj2 (fresh_ok K prev0 (t1 - c_ub c) Hpv)) in Hp by lia.
        destruct Hpv as [[_ ->]|[? _]]; [|lia]. rewrite Hub in Hp. discriminate. }
      enough (G : Kp <= K + c_ub c \/ Kq <= K + c_ub c) by lia.
      destruct (Nat.le_gt_cases n0 ts) as [Hle|Hgt].
      2:{ right. pose proof (ui_hi _ _ _ _ _ _ _ _ HU). lia. }
      assert (SV : forall o x, source ins o -> x <= ts ->
                view (ostream o) (oknown h ts o) x (oview h ts NoProgress o x)).
      { intros o x So Hx. rewrite (source_pr ins o h ts NoProgress (m_progress m) x So).
        apply (source_view h ts m k ins c HI Hn o x So Hx). }
      assert (SM : forall o x, source ins o -> 1 <= x ->
                maximal (ostream o) (oknown h ts o) (oview h ts NoProgress o x)).
      { intros o x So Hx. rewrite (source_pr ins o h ts NoProgress (m_progress m) x So).
        apply (source_maximal h ts m k ins c HI Hn o x So Hx). }
      pose proof (SV _ n0 S1 Hle) as V1. pose proof (SV _ n0 S2 Hle) as V2. fold Kp in V1. fold Kq in V2.
      set (l := until_local u (c_lb c) (c_ub c) n0 prev0 (oview h ts NoProgress (i_op1 ins) n0)
                           (oview h ts NoProgress (i_op2 ins) n0)) in *.
      pose proof (until_visit u _ _ _ _ _ Hlike _ _ _ Kp Kq _ _ HU V2 (or_intror V1)) as W. fold l in W. cbn zeta in W.
      destruct W as (W1 & _ & W2). rewrite Hp in W2.
      destruct (Nat.le_gt_cases (l_next l) ts) as [Hle'|Hgt'].
      2:{ right. pose proof (ui_hi _ _ _ _ _ _ _ _ W2). lia. }
      eapply (until_timely u (c_lb c) (c_ub c)); try exact HU; try exact V1; try exact V2.
      - apply (SM _ n0 S2). lia.
      - apply (SM _ n0 S1). lia.
      - exact Hp.
      - apply (SV _ (l_next l) S2 Hle').
      - apply (SV _ (l_next l) S1 Hle').
      - fold l. destruct Hsil as [Hs _]. unfold action in Hs. rewrite El, Eb, En, Ep in Hs.
        rewrite (source_pr ins (i_op1 ins) h ts (m_progress m) NoProgress _ S1) in Hs.
        rewrite (source_pr ins (i_op2 ins) h ts (m_progress m) NoProgress _ S2) in Hs. exact Hs.
    Qed.

    Lemma op_done : S ts - wd k <= settled h m k ins.
    Proof.
      pose proof (v_quiet _ _ _ _ _ _ _ _ HV (proj1 Hsil)) as Hq. unfold quiet in Hq.
      pose proof (wd_ge k ins c Hn) as [W1 W2]. pose proof kid1_done as D1. pose proof kid2_done as D2.
      pose proof until_done as UD. unfold settled. destruct (i_op ins) eqn:Eop; try lia.
      - rewrite (Hload eq_refl). lia.
      - destruct (node_ft k ins c Hn) as [_ F]. rewrite Eop in F. destruct F as [(j & E1 & _) _].
        destruct Hsil as [_ Ho]. unfold action in Ho. rewrite Eop, E1 in Ho. cbn in Ho.
        destruct (rd (h j) (q_next (get_queue m k))) eqn:E; [discriminate|]. apply rd_none in E.
        rewrite E1 in *. cbn [oknown] in D1. lia.
      - apply (UD true). reflexivity.
      - apply (UD false). reflexivity.
      - destruct (node_ft k ins c Hn) as [_ F]. rewrite Eop in F. destruct F.
      - destruct (node_ft k ins c Hn) as [_ F]. rewrite Eop in F. destruct F.
    Qed.

    Lemma finish : finished h ts m' k ins.
    Proof.
      pose proof op_done as D.
      assert (Es : settled h m' k ins = settled h m k ins).
      { destruct (v_cases _ _ _ _ _ _ _ _ HV) as [(_ & _ & _ & E)|[(_ & _ & _ & Eo & _)|[_ E]]]; [assumption|destruct Hsil as [_ Hs]; contradiction|].
        unfold settled in *. destruct Hsil as [_ Hs].
        destruct (i_op ins) eqn:Eop; try lia. rewrite (v_next _ _ _ _ _ _ _ _ HV) in *.
        unfold action in *. rewrite Eop in *. cbn in *. destruct (oview _ _ _ _ _); [discriminate|reflexivity]. }
      pose proof (settled_le h ts m k ins c HI Hn) as Hle.
      pose proof (v_mono _ _ _ _ _ _ _ _ HV) as Hmono.
      pose proof (wd_ge k ins c Hn) as [W1 W2].
      constructor.
      - rewrite Es. assumption.
      - intros Hu Hts. destruct (is_until (i_op ins)) as [u|] eqn:Eu; [clear Hu|congruence].
        destruct (until_ft k ins c u Hn Eu) as (F1 & F2 & Hlike & Hwd & El & Eb).
        destruct (Nat.eq_dec (q_next (get_queue m k)) 0) as [E0|]; [|lia].
        assert (S1 : source ins (i_op1 ins)).
        { destruct F1 as [F1|F1]; [apply (source_earlier1 k ins F1)|right; assumption]. }
        assert (S2 : source ins (i_op2 ins)) by apply (source_earlier2 k ins F2).
        pose proof kid1_done as D1. pose proof kid2_done as D2.
        rewrite (v_next _ _ _ _ _ _ _ _ HV). unfold action. rewrite El, Eb, E0.
        pose proof (source_view h ts m k ins c HI Hn _ 0 S1 ltac:(lia)) as V1.
        pose proof (source_view h ts m k ins c HI Hn _ 0 S2 ltac:(lia)) as V2.
        destruct (oview h ts (m_progress m) (i_op1 ins) 0) as [[b0 t0]|]; [|cbn in V1; lia].
        destruct (oview h ts (m_progress m) (i_op2 ins) 0) as [[b1 t1]|]; [|cbn in V2; lia].
        pose proof (i_nodes _ _ _ HI k ins c Hn) as N.
        pose proof (n_op _ _ _ _ _ _ N) as O. unfold opinv in O. rewrite E0 in O.
        destruct (i_op ins); try discriminate; injection Eu as <-;
          eapply until_moves; try exact V1; try exact V2; exact (proj1 O).
      - pose proof (v_rd1 _ _ _ _ _ _ _ _ HV) as R. fold m'. destruct (i_op1 ins) as [b|a|j|] eqn:E1; cbn; auto.
        cbn in R. eapply reader_mono; [exact R|assumption|].
        pose proof (Hkids j (or_introl E1)) as Hj. cbn [owd operand_expr] in W1. change (wd j <= wd k) in W1.
        destruct (rd (h j) (q_next (get_queue m k))) as [v|] eqn:Ev; [apply rd_ge in Ev; lia|lia].
      - pose proof (v_rd2 _ _ _ _ _ _ _ _ HV) as R. fold m'. destruct (i_op2 ins) as [b|a|j|] eqn:E1; cbn; auto.
        cbn in R. eapply reader_mono; [exact R|assumption|].
        pose proof (Hkids j (or_intror E1)) as Hj. cbn [owd operand_expr] in W2. change (wd j <= wd k) in W2.
        destruct (rd (h j) (q_next (get_queue m k))) as [v|] eqn:Ev; [apply rd_ge in Ev; lia|lia].
    Qed.
  End Finish.

  Lemma looked_ext h h' ts m m' i ins c :
    node i ins c -> (forall j, j <= i -> h' j = h j) -> get_queue m' i = get_queue m i ->
    looked h ts m i ins c -> looked h' ts m' i ins c.
  Proof.
    intros Hn Hh Hq L u Hu. destruct (node_below i ins c Hn) as [B1 B2].
    assert (O : forall o x, below i o -> oview h' ts NoProgress o x = oview h ts NoProgress o x).
    { intros [b|a|j|] x Ho; try reflexivity. cbn. rewrite Hh; [reflexivity|]. specialize (Ho j eq_refl). lia. }
    rewrite (Hh i) by lia. rewrite Hq. destruct (L u Hu) as [|(n0 & prev0 & L1 & L2 & L3)]; [left; assumption|].
    right. exists n0, prev0. split; [assumption|]. split; [assumption|]. rewrite !O by assumption. exact L3.
  Qed.
  Lemma finished_ext h ts m m' i ins :
    get_queue m' i = get_queue m i -> finished h ts m i ins -> finished h ts m' i ins.
  Proof. intros Hq [F1 F2 F3 F4]. unfold settled in F1. constructor; unfold settled; rewrite Hq; assumption. Qed.

  (** What a RETURN has not yet read is at most one verdict, and that one was
      written in the present pass. *)
  Definition one_new (h : list verdict) (n : nat) : Prop :=
    known h <= n \/ exists v, rd h n = Some v /\ S (snd v) = known h.
  Lemma one_new_push L h v n : incr h -> known h <= snd v -> known h <= n -> one_new (push L h v) n.
  Proof.
    intros Hi Hk Hn. unfold one_new. rewrite push_known by assumption.
    destruct (Nat.le_gt_cases (S (snd v)) n) as [|Hlt]; [left; assumption|right].
    exists v. split; [|reflexivity]. unfold push.
    assert (Hrd : forall g, known g <= n -> rd (g ++ [v]) n = Some v).
    { intros g Hg. rewrite rd_app, (proj2 (rd_none g n) Hg), rd_cons.
      replace (n <=? snd v) with true by (symmetry; apply Nat.leb_le; lia). reflexivity. }
    destruct (merges L h v) eqn:Em; apply Hrd; [|assumption].
    apply merges_true in Em as (_ & Hne & _). rewrite (app_removelast_last d0 Hne), known_app in Hn. lia.
  Qed.

  Record passing (ts k : nat) (h : nat -> list verdict) (m : monitor) : Prop := {
    p_inv : Inv h ts m;
    p_load : forall i ins c, node i ins c -> i_op ins = LOAD ->
             (m_progress m = FirstLoop -> k <= i -> known (h i) = ts) /\
             (m_progress m <> FirstLoop \/ i < k -> known (h i) = S ts);
    p_look : forall i ins c, node i ins c -> i < k -> looked h ts m i ins c;
    p_idle : m_progress m = NoProgress ->
             forall i ins c, node i ins c -> looked h ts m i ins c /\ (i < k -> finished h ts m i ins);
    p_ret : forall i ins c j, node i ins c -> i_op ins = RETURN -> i_op1 ins = Sub j ->
            (i < k \/ k <= j \/ m_progress m = NoProgress -> known (h j) <= q_next (get_queue m i)) /\
            one_new (h j) (q_next (get_queue m i))
  }.

  Definition pot (ts : nat) (h : nat -> list verdict) (m : monitor) (i : nat) : nat :=
    match nth_error prog i with Some ins => if part i then S ts - settled h m i ins else 0 | None => 0 end.
  Fixpoint total (f : nat -> nat) (n : nat) : nat :=
    match n with O => 0 | S n => total f n + f n end.
  Lemma total_le f g n : (forall i, i < n -> f i <= g i) -> total f n <= total g n.
  Proof.
    induction n as [|n IH]; cbn; intros H; [lia|].
    specialize (IH ltac:(intros; apply H; lia)). specialize (H n). lia.
  Qed.
  Lemma total_lt f g n k : (forall i, i < n -> f i <= g i) -> k < n -> f k < g k -> total f n < total g n.
  Proof.
    induction n as [|n IH]; cbn; intros H Hk Hlt; [lia|].
    destruct (Nat.eq_dec k n) as [->|].
    - pose proof (total_le f g n ltac:(intros; apply H; lia)). lia.
    - specialize (IH ltac:(intros; apply H; lia) ltac:(lia) Hlt). specialize (H n). lia.
  Qed.
  Definition mu (ts : nat) (h : nat -> list verdict) (m : monitor) : nat := total (pot ts h m) (length prog).

  Lemma settled_hi h ts m i ins c : Inv h ts m -> node i ins c -> settled h m i ins <= S ts.
  Proof.
    intros HI Hn. pose proof (i_nodes _ _ _ HI i ins c Hn) as N. pose proof (n_hi _ _ _ _ _ _ N) as H.
    pose proof (n_op _ _ _ _ _ _ N) as O. unfold opinv in O. unfold settled. destruct (i_op ins); try lia.
  Qed.

  Lemma pass_visit ts k h m ins c :
    passing ts k h m -> node k ins c ->
    let m' := update (tr ts) k ins m in
    exists h', visited h h' ts m m' k ins c /\ passing ts (S k) h' m' /\
      ((m_progress m' = m_progress m /\ mu ts h' m' <= mu ts h m) \/
       (m_progress m' = flag (m_progress m) /\ mu ts h' m' < mu ts h m)).
  Proof.
    intros [PI PL PK PD PR] Hn m'.
    destruct (visit h ts m k ins c PI Hn) as [h' V].
    { intros Hl Hf. apply (PL k ins c Hn Hl); auto. }
    fold m' in V. pose proof (v_inv _ _ _ _ _ _ _ _ V) as PI'.
    assert (Hk : k < length prog) by apply (node_lt k ins c Hn).
    assert (Hpot : forall i, i <> k -> pot ts h' m' i = pot ts h m i).
    { intros i Hi. destruct (v_others _ _ _ _ _ _ _ _ V i Hi) as [E1 E2]. unfold pot, settled. rewrite E1, E2. reflexivity. }
    assert (Hpk : pot ts h m k = S ts - settled h m k ins) by (unfold pot; rewrite (proj1 Hn), (proj2 (proj2 Hn)); reflexivity).
    assert (Hpk' : pot ts h' m' k = S ts - settled h' m' k ins) by (unfold pot; rewrite (proj1 Hn), (proj2 (proj2 Hn)); reflexivity).
    pose proof (settled_hi _ _ _ _ _ _ PI' Hn) as Hhi'.
    exists h'. split; [assumption|]. split; [constructor|].
    - assumption.
    - (* loads *)
      intros i ins' c' Hi Hl.
      assert (Hpr : m_progress m' = FirstLoop <-> m_progress m = FirstLoop).
      { destruct (v_cases _ _ _ _ _ _ _ _ V) as [(_ & _ & -> & _)|[[-> _]|[-> _]]]; [reflexivity|reflexivity|].
        destruct (m_progress m); cbn; split; congruence. }
      rewrite Hpr. destruct (PL i ins' c' Hi Hl) as [P1 P2].
      destruct (Nat.eq_dec i k) as [->|Hne].
      + destruct (node_fun _ _ _ _ _ Hn Hi) as [<- <-]. split; [lia|]. intros _.
        assert (Es : forall g a, settled g a k ins = known (g k)) by (intros; unfold settled; rewrite Hl; reflexivity).
        destruct (v_cases _ _ _ _ _ _ _ _ V) as [((Hs & _) & -> & _)|[(_ & _ & Er & _)|[_ Hc]]];
          [|congruence|].
        * apply P2. left. intros Hf. unfold action in Hs. rewrite Hl in Hs.
          destruct (node_ft k ins c Hn) as [_ F]. rewrite Hl in F. destruct F as [[a Fa] _].
          rewrite Fa, Hf in Hs. discriminate.
        * rewrite !Es in *. pose proof (n_op _ _ _ _ _ _ (i_nodes _ _ _ PI k ins c Hn)) as O.
          unfold opinv in O. rewrite Hl in O. lia.
      + destruct (v_others _ _ _ _ _ _ _ _ V i Hne) as [-> _]. split.
        * intros Hf Hle. apply P1; [assumption|lia].
        * intros [Hf|Hlt]; apply P2; [auto|right; lia].
    - (* looks *)
      intros i ins' c' Hi Hlt. destruct (Nat.eq_dec i k) as [->|Hne].
      + destruct (node_fun _ _ _ _ _ Hn Hi) as [<- <-]. apply (looked_after h); assumption.
      + apply (looked_ext h h' ts m); auto.
        * intros j Hj. apply (v_others _ _ _ _ _ _ _ _ V). lia.
        * apply (v_others _ _ _ _ _ _ _ _ V). assumption.
        * apply PK; [assumption|lia].
    - (* idle so far *)
      intros Hidle. destruct (v_cases _ _ _ _ _ _ _ _ V) as [(Hs & -> & Ep & _)|[(Ep & _ & Er & Eo & _)|[Ep _]]].
      2:{ exfalso. rewrite Hidle in Ep. apply Eo. pose proof (node_ft k ins c Hn) as [_ F]. rewrite Er in F.
          destruct F as [(j & E1 & _) _]. destruct (PR k ins c j Hn Er E1) as [P1 _].
          specialize (P1 ltac:(auto)). unfold action. rewrite Er, E1. cbn.
          apply rd_none in P1. rewrite P1. reflexivity. }
      2:{ rewrite Hidle in Ep. destruct (m_progress m); discriminate. }
      rewrite Hidle in Ep. symmetry in Ep. specialize (PD Ep).
      intros i ins' c' Hi. destruct (Nat.eq_dec i k) as [->|Hne].
      + destruct (node_fun _ _ _ _ _ Hn Hi) as [<- <-]. split; [apply (looked_after h); assumption|].
        intros _. apply (finish h ts m k ins c); auto.
        * apply (PD k ins c Hn).
        * intros Hl. apply (PL k ins c Hn Hl). left. congruence.
        * intros j Hj. destruct (sub_child k ins c j Hn Hj) as (Hlt & ins' & c' & Hj' & Hr).
          pose proof (f_done _ _ _ _ _ (proj2 (PD j ins' c' Hj') Hlt)) as D.
          unfold settled in D. destruct (i_op ins'); try assumption. congruence.
      + destruct (v_others _ _ _ _ _ _ _ _ V i Hne) as [_ Eq]. destruct (PD i ins' c' Hi) as [D1 D2]. split.
        * apply (looked_ext h h ts m); auto.
        * intros Hlt. apply (finished_ext h ts m); auto. apply D2. lia.
    - (* reports *)
      intros i ins' c' j Hi Hr E1. destruct (PR i ins' c' j Hi Hr E1) as [P1 P2].
      assert (Hidle : m_progress m' = NoProgress -> m_progress m = NoProgress).
      { destruct (v_cases _ _ _ _ _ _ _ _ V) as [(_ & _ & -> & _)|[[-> _]|[-> _]]]; auto.
        destruct (m_progress m); cbn; congruence. }
      assert (Hji : j < i) by (apply (sub_child i ins' c' j Hi); left; assumption).
      destruct (Nat.eq_dec i k) as [->|Hne].
      + destruct (node_fun _ _ _ _ _ Hn Hi) as [<- <-].
        destruct (v_others _ _ _ _ _ _ _ _ V j ltac:(lia)) as [-> _].
        enough (G : known (h j) <= q_next (get_queue m' k)) by (split; [auto|left; assumption]).
        rewrite (v_next _ _ _ _ _ _ _ _ V). unfold action. rewrite Hr, E1. cbn.
        destruct P2 as [P2|(v & Ev & P2)].
        * rewrite (proj2 (rd_none _ _) P2). exact P2.
        * rewrite Ev. cbn. lia.
      + destruct (v_others _ _ _ _ _ _ _ _ V i Hne) as [_ ->].
        destruct (Nat.eq_dec j k) as [->|Hjk].
        * destruct (v_push _ _ _ _ _ _ _ _ V) as [->|(v & -> & Hv & Ef)].
          -- split; [|assumption]. intros [H|[H|H]]; [lia|lia|]. auto.
          -- split.
             ++ intros [H|[H|H]]; [lia|lia|]. rewrite Ef in H. destruct (m_progress m); discriminate.
             ++ apply one_new_push; auto. apply (n_incr _ _ _ _ _ _ (i_nodes _ _ _ PI k ins c Hn)).
        * destruct (v_others _ _ _ _ _ _ _ _ V j Hjk) as [-> _]. split; [|assumption].
          intros [H|[H|H]]; apply P1; [left; lia|right; left; lia|right; right; auto].
    - destruct (v_cases _ _ _ _ _ _ _ _ V) as [(_ & E & Ep & Es)|[(Ep & _ & _ & _ & Hc)|[Ep Hc]]].
      + left. split; [assumption|]. unfold mu. apply total_le. intros i Hi.
        destruct (Nat.eq_dec i k) as [->|Hne]; [|rewrite Hpot by assumption; lia].
        rewrite Hpk, Hpk', Es. lia.
      + left. split; [assumption|]. unfold mu. apply total_le. intros i Hi.
        destruct (Nat.eq_dec i k) as [->|Hne]; [|rewrite Hpot by assumption; lia].
        rewrite Hpk, Hpk'. lia.
      + right. split; [assumption|]. unfold mu. apply (total_lt _ _ _ k); auto.
        * intros i Hi. destruct (Nat.eq_dec i k) as [->|Hne]; [|rewrite Hpot by assumption; lia].
          rewrite Hpk, Hpk'. lia.
        * rewrite Hpk, Hpk'. lia.
  Qed.

  (** An instruction of another part leaves everything as it is. *)
  Lemma pass_frame ts k h m ins :
    passing ts k h m -> nth_error prog k = Some ins -> part k = false ->
    let m' := update (tr ts) k ins m in passing ts (S k) h m' /\ mu ts h m' = mu ts h m.
  Proof.
    intros [PI PL PK PD PR] Hp HK m'. destruct (update_framed (tr ts) k ins m) as [F1 F2 F3 F4 F5].
    fold m' in F1, F2, F3, F4, F5.
    assert (Hne : forall i ins' c', node i ins' c' -> i <> k) by (intros i ins' c' (_ & _ & H) ->; congruence).
    assert (Hq : forall i ins' c', node i ins' c' -> get_queue m' i = get_queue m i).
    { intros i ins' c' Hi. apply F3, (Hne i ins' c' Hi). }
    assert (Hf : m_progress m' = FirstLoop <-> m_progress m = FirstLoop).
    { destruct F4 as [-> | ->]; [reflexivity|]. destruct (m_progress m); cbn; split; congruence. }
    assert (Hi : m_progress m' = NoProgress -> m_progress m = NoProgress).
    { destruct F4 as [-> | ->]; [auto|]. destruct (m_progress m); cbn; congruence. }
    split; [constructor|].
    - destruct PI as [I1 I2 I3]. constructor; [congruence|congruence|].
      intros i ins' c' Hn. destruct (I3 i ins' c' Hn). constructor; rewrite ?(Hq i ins' c' Hn); try assumption.
      intros Hr. rewrite F5; [apply n_ret0; assumption|].
      destruct (Nat.eq_dec (i_num ins) (i_num ins')) as [E|]; [|auto]. left. intros Hr'.
      apply (Hne i ins' c' Hn). symmetry. apply (Hdist k i ins ins'); auto. apply Hn.
    - intros i ins' c' Hn Hl. rewrite Hf. destruct (PL i ins' c' Hn Hl) as [P1 P2]. pose proof (Hne i ins' c' Hn). split.
      + intros E Hle. apply P1; [assumption|lia].
      + intros [E|E]; apply P2; [auto|right; lia].
    - intros i ins' c' Hn Hlt. pose proof (Hne i ins' c' Hn). apply (looked_ext h h ts m); auto.
      apply PK; [assumption|lia].
    - intros Hidle i ins' c' Hn. pose proof (Hne i ins' c' Hn). destruct (PD (Hi Hidle) i ins' c' Hn) as [D1 D2]. split.
      + apply (looked_ext h h ts m); auto.
      + intros Hlt. apply (finished_ext h ts m); [apply (Hq i ins' c' Hn)|]. apply D2. lia.
    - intros i ins' c' j Hn Hr E1. destruct (PR i ins' c' j Hn Hr E1) as [P1 P2].
      destruct (sub_child i ins' c' j Hn ltac:(left; assumption)) as (_ & ins2 & c2 & Hj & _).
      pose proof (Hne i ins' c' Hn). pose proof (Hne j ins2 c2 Hj).
      rewrite (Hq i ins' c' Hn). split; [|assumption].
      intros [E|[E|E]]; apply P1; [left; lia|right; left; lia|right; right; auto].
    - unfold mu. apply Nat.le_antisymm; apply total_le; intros i _; unfold pot, settled;
        destruct (nth_error prog i) as [ins'|]; try lia; destruct (part i) eqn:Ei; try lia;
        (rewrite F3; [lia|intros ->; congruence]).
  Qed.

  Lemma pass_run ts : forall rest k h m,
    (forall i, nth_error rest i = nth_error prog (k + i)) -> k + length rest = length prog ->
    passing ts k h m ->
    let m' := run_pass (tr ts) k rest m in
    exists h', passing ts (length prog) h' m' /\
      ((forall i, part i = true) ->
       (m_progress m' = m_progress m /\ mu ts h' m' <= mu ts h m) \/
       (m_progress m' = flag (m_progress m) /\ mu ts h' m' < mu ts h m)).
  Proof.
    induction rest as [|ins rest IH]; intros k h m Hnth Hlen HP m'.
    - cbn in *. exists h. rewrite Nat.add_0_r in Hlen. subst k. split; [assumption|]. left. auto.
    - assert (Hp : nth_error prog k = Some ins) by (rewrite <- (Nat.add_0_r k); symmetry; apply (Hnth 0)).
      assert (V : exists h1, passing ts (S k) h1 (update (tr ts) k ins m) /\
        ((forall i, part i = true) ->
         (m_progress (update (tr ts) k ins m) = m_progress m /\ mu ts h1 (update (tr ts) k ins m) <= mu ts h m) \/
         (m_progress (update (tr ts) k ins m) = flag (m_progress m) /\ mu ts h1 (update (tr ts) k ins m) < mu ts h m))).
      { destruct (part k) eqn:HK.
        - destruct (node_of k ins Hp HK) as [c Hn].
          destruct (pass_visit ts k h m ins c HP Hn) as (h1 & _ & P1 & M1). exists h1. auto.
        - exists h. split; [apply (pass_frame ts k h m ins HP Hp HK)|]. intros H. rewrite H in HK. discriminate. }
      destruct V as (h1 & P1 & M1).
      destruct (IH (S k) h1 (update (tr ts) k ins m)) as (h2 & P2 & M2); auto.
      + intros i. specialize (Hnth (S i)). cbn in Hnth. rewrite Hnth. f_equal. lia.
      + cbn in Hlen. lia.
      + exists h2. split; [exact P2|]. cbn [run_pass] in m'. fold m' in M2, P2. intros Hall.
        destruct (M1 Hall) as [[E1 L1]|[E1 L1]], (M2 Hall) as [[E2 L2]|[E2 L2]]; rewrite E1 in E2.
        * left. split; [assumption|lia].
        * right. split; [assumption|lia].
        * right. split; [assumption|lia].
        * right. split; [|lia]. rewrite E2. destruct (m_progress m); reflexivity.
  Qed.

  (** ** One step *)
  Record start (ts : nat) (h : nat -> list verdict) (m : monitor) : Prop := {
    s_inv : Inv h ts m;
    s_prog : m_progress m = FirstLoop;
    s_load : forall i ins c, node i ins c -> i_op ins = LOAD -> known (h i) = ts;
    s_hi : forall i ins c, node i ins c -> settled h m i ins <= ts;
    s_ret : forall i ins c j, node i ins c -> i_op ins = RETURN -> i_op1 ins = Sub j ->
            known (h j) <= q_next (get_queue m i)
  }.

  Lemma Inv_progress h ts m p : Inv h ts m -> Inv h ts (Monitor (m_queues m) (m_time m) p (m_out m)).
  Proof.
    intros [I1 I2 I3]. constructor; auto. intros k ins c Hn. destruct (I3 k ins c Hn). constructor; assumption.
  Qed.

  Lemma start_passing ts h m : start ts h m -> passing ts 0 h m.
  Proof.
    intros [S1 S2 S3 S4 S5]. constructor; auto.
    - intros i ins c Hi Hl. split; [intros _ _; apply (S3 i ins c); assumption|]. intros [Hf|Hlt]; [congruence|lia].
    - intros; lia.
    - intros; congruence.
    - intros i ins c j Hi Hr E1. pose proof (S5 i ins c j Hi Hr E1) as H. split; [auto|left; assumption].
  Qed.

  Lemma next_pass ts h m :
    passing ts (length prog) h m -> passing ts 0 h (Monitor (m_queues m) (m_time m) NoProgress (m_out m)).
  Proof.
    intros [P1 P2 P3 P4 P5]. constructor.
    - apply Inv_progress. assumption.
    - intros i ins c Hi Hl. split; [discriminate|]. intros _. apply (P2 i ins c Hi Hl). right.
      apply (node_lt i ins c Hi).
    - intros; lia.
    - intros _ i ins c Hi. split; [|lia]. apply (P3 i ins c Hi). apply (node_lt i ins c Hi).
    - intros i ins c j Hi Hr E1. destruct (P5 i ins c j Hi Hr E1) as [Q1 Q2]. split; [|assumption].
      intros _. apply Q1. left. apply (node_lt i ins c Hi).
  Qed.

  Lemma step_end ts h m :
    passing ts (length prog) h m -> m_progress m = NoProgress ->
    start (S ts) h (Monitor (m_queues m) (m_time m + 1) FirstLoop (m_out m)).
  Proof.
    intros [P1 P2 P3 P4 P5] Hp.
    assert (Hs : forall i ins c, node i ins c -> settled h m i ins <= S ts) by (intros; eapply settled_hi; eassumption).
    destruct P1 as [I1 I2 I3]. specialize (P4 Hp).
    assert (Hl : forall i ins c, node i ins c -> i_op ins = LOAD -> known (h i) = S ts).
    { intros i ins c Hi HL. apply (P2 i ins c Hi HL). right. apply (node_lt i ins c Hi). }
    constructor; auto.
    2:{ intros i ins c j Hi Hr E1. apply (P5 i ins c j Hi Hr E1). auto. }
    constructor.
    - cbn. lia.
    - assumption.
    - intros k ins c Hn. destruct (P4 k ins c Hn) as [_ F]. specialize (F (node_lt k ins c Hn)).
      destruct F as [F1 F2 F3 F4]. destruct (I3 k ins c Hn).
      replace (ts - wd k) with (S ts - 1 - wd k) in F3, F4 by lia.
      constructor; try assumption.
      + lia.
      + intros Hr. unfold settled in F1. destruct (i_op ins); try assumption. congruence.
      + unfold opinv in *. unfold settled in F1. specialize (Hl k ins c Hn).
        change (get_queue (Monitor (m_queues m) (m_time m + 1) FirstLoop (m_out m)) k) with (get_queue m k).
        destruct (i_op ins); try assumption.
        * specialize (Hl eq_refl). lia.
        * lia.
        * split; [apply n_op0|]. intros Hts. apply F2; [discriminate|lia].
        * split; [apply n_op0|]. intros Hts. apply F2; [discriminate|lia].
  Qed.

  Lemma step_spec ts : forall fuel h m,
    passing ts 0 h m -> m_progress m <> WithProgress ->
    match step fuel (tr ts) prog m with
    | Some m' => exists h', start (S ts) h' m'
    | None => (forall i, part i = true) -> fuel <= mu ts h m + match m_progress m with FirstLoop => 1 | _ => 0 end
    end.
  Proof.
    induction fuel as [|fuel IH]; intros h m HP Hne; cbn [step]; [lia|].
    destruct (pass_run ts prog 0 h m (fun i => eq_refl) eq_refl HP) as (h1 & P1 & M1).
    set (m1 := run_pass (tr ts) 0 prog m) in *.
    specialize (IH h1 _ (next_pass ts h1 m1 P1)). cbn [m_progress] in IH.
    specialize (IH ltac:(discriminate)).
    change (mu ts h1 {| m_queues := m_queues m1; m_time := m_time m1; m_progress := NoProgress; m_out := m_out m1 |})
      with (mu ts h1 m1) in IH.
    destruct (m_progress m1) eqn:Ep.
    - destruct (step _ _ _ _); [assumption|]. intros Hall. specialize (IH Hall). specialize (M1 Hall). destruct (m_progress m), M1 as [[M1 M2]|[M1 M2]]; cbn in M1; try discriminate; lia.
    - eexists. apply step_end; eassumption.
    - destruct (step _ _ _ _); [assumption|]. intros Hall. specialize (IH Hall). specialize (M1 Hall). destruct (m_progress m), M1 as [[M1 M2]|[M1 M2]]; cbn in M1; try discriminate; try lia.
      all: congruence.
  Qed.

  Lemma mu_bound ts h m : Inv h ts m -> mu ts h m <= total (fun i => S (wd i)) (length prog).
  Proof.
    intros HI. apply total_le. intros i Hi. unfold pot.
    destruct (nth_error prog i) as [ins|] eqn:E; [|lia].
    destruct (part i) eqn:HK; [|lia].
    destruct (node_of i ins E HK) as [c Hn]. pose proof (i_nodes _ _ _ HI i ins c Hn) as N.
    pose proof (n_lo _ _ _ _ _ _ N) as Hlo. pose proof (n_op _ _ _ _ _ _ N) as O. unfold opinv in O.
    unfold settled. destruct (i_op ins); try (specialize (Hlo ltac:(discriminate)); lia). lia.
  Qed.

  (** ** Whole runs *)
  Lemma start_init : start 0 (fun _ => []) (init prog confs).
  Proof.
    assert (G : forall k ins c, node k ins c -> get_queue (init prog confs) k = init_queue ins c).
    { intros k ins c (H1 & H2 & _). unfold get_queue, init. cbn [m_queues].
      erewrite nth_error_nth; [reflexivity|]. rewrite nth_error_map.
      assert (E : nth_error (combine prog confs) k = Some (ins, c)).
      { apply combine_nth_error; assumption. }
      rewrite E. reflexivity. }
    constructor; [|reflexivity|reflexivity| |cbn; intros; lia].
    2:{ intros k ins c Hn. unfold settled. rewrite (G k ins c Hn). cbn. destruct (i_op ins); reflexivity. }
    constructor; [reflexivity| |].
    - cbn. rewrite map_length, combine_length. destruct Hft as [<- _]. lia.
    - intros k ins c Hn. destruct (node_ft k ins c Hn) as [F1 F2]. pose proof (G k ins c Hn) as E.
      assert (R : forall o x, below k o -> (forall j, o = Sub j -> reads ins j) -> oreader (fun _ => []) o x 0 (0 - 1 - wd k)).
      { intros [b|a|j|] x Hb Ho; cbn; auto. apply reader_init.
        destruct (sub_child k ins c j Hn (Ho j eq_refl)) as (_ & ins' & c' & Hj & _).
        rewrite (node_len j ins' c' Hj). destruct (node_ft j ins' c' Hj). lia. }
      destruct (node_below k ins c Hn) as [B1 B2].
      constructor; rewrite ?E; try reflexivity; try (cbn; auto; fail); cbn [init_queue q_slots q_write q_read1 q_read2 q_next q_prev].
      + apply (empty_length (c_len c) F1).
      + apply (ring_init (c_len c) F1).
      + cbn. discriminate.
      + unfold opinv. destruct (i_op ins); cbn [known fold_right]; try lia; try exact F2; try (split; [|lia]);
          destruct F2 as (_ & _ & F2); apply uinv_init; assumption.
      + apply R; [assumption|]. intros; left; assumption.
      + apply R; [assumption|]. intros; right; assumption.
      + intros Hr. cbn. rewrite Hr. repeat split. discriminate.
  Qed.

  Lemma run_spec fuel : forall n ts h m,
    start ts h m ->
    match run fuel (map tr (seq ts n)) prog m with
    | Some m' => exists h', start (ts + n) h' m'
    | None => (forall i, part i = true) -> fuel <= S (total (fun i => S (wd i)) (length prog))
    end.
  Proof.
    induction n as [|n IH]; intros ts h m HS; cbn [seq map run].
    - exists h. rewrite Nat.add_0_r. assumption.
    - pose proof (step_spec ts fuel h m (start_passing ts h m HS)) as SP.
      rewrite (s_prog _ _ _ HS) in SP. specialize (SP ltac:(discriminate)).
      destruct (step fuel (tr ts) prog m) as [m1|].
      + destruct SP as [h1 S1]. specialize (IH (S ts) h1 m1 S1).
        rewrite Nat.add_succ_r. exact IH.
      + intros Hall. specialize (SP Hall). pose proof (mu_bound ts h m (s_inv _ _ _ HS)). lia.
  Qed.

  Lemma run_start fuel n m :
    run fuel (rows tr n) prog (init prog confs) = Some m -> exists h, start n h m.
  Proof.
    intros H. pose proof (run_spec fuel n 0 _ _ start_init) as R. fold (rows tr n) in R.
    rewrite H in R. exact R.
  Qed.

  Lemma reported_rd rs t b : reported rs t b -> exists u, rd rs t = Some (b, u).
  Proof.
    intros (before & u & after & -> & Hle & Hb). exists u. unfold rd.
    induction before as [|v before IH]; cbn.
    - apply Nat.leb_le in Hle. rewrite Hle. reflexivity.
    - specialize (Hb v (or_introl eq_refl)) as Hv. apply Nat.leb_gt in Hv. rewrite Hv.
      apply IH. intros w Hw. apply Hb. right. assumption.
  Qed.
  Lemma rd_reported rs t b u : rd rs t = Some (b, u) -> reported rs t b.
  Proof.
    unfold rd. induction rs as [|v rs IH]; cbn; [discriminate|]. destruct (t <=? snd v) eqn:E.
    - intros H; injection H as ->. exists [], u, rs. split; [reflexivity|]. apply Nat.leb_le in E.
      split; [assumption|]. intros w [].
    - intros H. destruct (IH H) as (bf & u' & af & -> & H1 & H2). exists (v :: bf), u', af.
      split; [reflexivity|]. split; [assumption|]. intros w [<-|Hw]; [apply Nat.leb_gt; assumption|auto].
  Qed.
  Lemma incr_increasing rs : incr rs -> increasing rs.
  Proof.
    induction rs as [|v [|w rs] IH]; cbn; auto. intros [H1 H2]. split; [apply H1; left; reflexivity|].
    apply IH. assumption.
  Qed.

  Lemma part_sound fuel n m k ins t b :
    run fuel (rows tr n) prog (init prog confs) = Some m ->
    nth_error prog k = Some ins -> part k = true -> i_op ins = RETURN ->
    reported (reports (i_num ins) m) t b ->
    (b = true <-> sat tr (node_expr prog confs k) t) /\ t < n.
  Proof.
    intros H Hp HK Hr Hrep. destruct (run_start fuel n m H) as [h [HI _ _ Hs _]].
    destruct (node_of k ins Hp HK) as [c Hn]. pose proof (i_nodes _ _ _ HI k ins c Hn) as N.
    destruct (n_ret _ _ _ _ _ _ N Hr) as (R1 & R2 & R3). apply reported_rd in Hrep as [u Hu].
    pose proof (R2 _ _ Hu) as Hv. cbn in Hv. rewrite <- Hv. split; [apply den_sat|].
    specialize (Hs k ins c Hn). unfold settled in Hs. rewrite Hr in Hs.
    pose proof (rd_ge _ _ _ Hu) as [G1 _]. pose proof (rd_time _ _ _ Hu). cbn in *. lia.
  Qed.
  Lemma part_increasing fuel n m k ins :
    run fuel (rows tr n) prog (init prog confs) = Some m ->
    nth_error prog k = Some ins -> part k = true -> i_op ins = RETURN -> increasing (reports (i_num ins) m).
  Proof.
    intros H Hp HK Hr. destruct (run_start fuel n m H) as [h [HI _ _ _ _]].
    destruct (node_of k ins Hp HK) as [c Hn]. pose proof (i_nodes _ _ _ HI k ins c Hn) as N.
    apply incr_increasing. apply (n_ret _ _ _ _ _ _ N Hr).
  Qed.
  Lemma part_timely fuel n m k ins t :
    run fuel (rows tr n) prog (init prog confs) = Some m ->
    nth_error prog k = Some ins -> part k = true -> i_op ins = RETURN ->
    t + reach (node_expr prog confs k) < n -> exists b, reported (reports (i_num ins) m) t b.
  Proof.
    intros H Hp HK Hr Ht. destruct (run_start fuel n m H) as [h [HI _ _ _ _]].
    destruct (node_of k ins Hp HK) as [c Hn]. pose proof (i_nodes _ _ _ HI k ins c Hn) as N.
    destruct (n_ret _ _ _ _ _ _ N Hr) as (R1 & R2 & R3).
    pose proof (n_op _ _ _ _ _ _ N) as O. unfold opinv in O. rewrite Hr in O.
    fold (wd k) in Ht. destruct (rd (reports (i_num ins) m) t) as [[b u]|] eqn:E.
    - exists b. apply (rd_reported _ _ _ u E).
    - apply rd_none in E. lia.
  Qed.

  Lemma exprs_length : length (exprs prog confs) = length prog.
  Proof.
    unfold exprs. destruct Hft as [Hl _]. revert Hl. clear.
    assert (G : forall es p c, length p = length c -> length (exprs_from es p c) = length es + length p).
    { intros es p; revert es; induction p as [|i p IH]; intros es [|c cs] E; cbn in *; try lia.
      rewrite IH by lia. rewrite app_length. cbn. lia. }
    intros Hl. rewrite G by assumption. reflexivity.
  Qed.
  Lemma total_sum : total (fun i => S (wd i)) (length prog) = list_sum (map (fun e => S (reach e)) (exprs prog confs)).
  Proof.
    unfold wd, node_expr. rewrite <- exprs_length. clear. generalize (exprs prog confs) as l. intros l.
    induction l as [|e l IH] using rev_ind; [reflexivity|].
    rewrite map_app, list_sum_app, <- IH, app_length. cbn [length map list_sum fold_right].
    rewrite Nat.add_1_r. cbn [total]. rewrite app_nth2, Nat.sub_diag by lia. cbn [nth].
    assert (E : total (fun i => S (reach (nth i (l ++ [e]) (EConst false)))) (length l) =
                total (fun i => S (reach (nth i l (EConst false)))) (length l)); [|lia].
    apply Nat.le_antisymm; apply total_le; intros i Hi; rewrite app_nth1 by assumption; lia.
  Qed.
  Lemma part_total fuel n :
    (forall i, part i = true) -> max_passes prog confs <= fuel -> exists m, run fuel (rows tr n) prog (init prog confs) = Some m.
  Proof.
    intros Hall H. pose proof (run_spec fuel n 0 _ _ start_init) as R. fold (rows tr n) in R.
    destruct (run fuel (rows tr n) prog (init prog confs)) as [m|]; [eauto|].
    specialize (R Hall). rewrite total_sum in R. unfold max_passes in H. lia.
  Qed.
End Monitor.

(** ** Programs that are future-time throughout *)
Section Whole.
  Context {I : impl}.
  Variables (prog : list instr) (confs : list qconf) (tr : trace).
  Hypothesis Hft : ft_program prog confs.
  Hypothesis Hdist : distinct_reports prog.
  Hypothesis Hample : queues_ample prog confs.
  Let all (_ : nat) := true.

  Lemma whole_part : ft_part all prog confs.
  Proof using Hft.
    destruct Hft as [H1 H2]. split; [assumption|]. split; [intros k ins j _ _ _; reflexivity|]. intros k ins c _. apply H2.
  Qed.
  Lemma whole_ample : part_ample all prog confs.
  Proof using Hample. intros k ins c conf _. apply Hample. Qed.

  Lemma run_sound fuel n m k ins t b :
    run fuel (rows tr n) prog (init prog confs) = Some m ->
    nth_error prog k = Some ins -> i_op ins = RETURN ->
    reported (reports (i_num ins) m) t b ->
    (b = true <-> sat tr (node_expr prog confs k) t) /\ t < n.
  Proof.
    intros H1 H2. exact (part_sound prog confs tr all whole_part Hdist whole_ample fuel n m k ins t b H1 H2 eq_refl).
  Qed.
  Lemma run_increasing fuel n m k ins :
    run fuel (rows tr n) prog (init prog confs) = Some m ->
    nth_error prog k = Some ins -> i_op ins = RETURN -> increasing (reports (i_num ins) m).
  Proof.
    intros H1 H2. exact (part_increasing prog confs tr all whole_part Hdist whole_ample fuel n m k ins H1 H2 eq_refl).
  Qed.
  Lemma run_timely fuel n m k ins t :
    run fuel (rows tr n) prog (init prog confs) = Some m ->
    nth_error prog k = Some ins -> i_op ins = RETURN ->
    t + reach (node_expr prog confs k) < n -> exists b, reported (reports (i_num ins) m) t b.
  Proof.
    intros H1 H2. exact (part_timely prog confs tr all whole_part Hdist whole_ample fuel n m k ins t H1 H2 eq_refl).
  Qed.
  Lemma run_total fuel n :
    max_passes prog confs <= fuel -> exists m, run fuel (rows tr n) prog (init prog confs) = Some m.
  Proof.
    exact (part_total prog confs tr all whole_part Hdist whole_ample fuel n (fun _ => eq_refl)).
  Qed.
End Whole.

Section Fuel.
Context {I : impl}.
(** Fuel only decides whether a step finishes, not what it computes. *)
Lemma step_fuel prog atoms : forall fuel fuel' m m',
  fuel <= fuel' -> step fuel atoms prog m = Some m' -> step fuel' atoms prog m = Some m'.
Proof.
  induction fuel as [|fuel IH]; intros [|fuel'] m m' Hle H; try discriminate; try lia. cbn [step] in *.
  destruct (m_progress (run_pass atoms 0 prog m)); try assumption; apply IH; auto; lia.
Qed.
Lemma run_fuel prog : forall rs fuel fuel' m m',
  fuel <= fuel' -> run fuel rs prog m = Some m' -> run fuel' rs prog m = Some m'.
Proof.
  induction rs as [|a rs IH]; intros fuel fuel' m m' Hle H; [assumption|]. cbn [run] in *.
  destruct (step fuel a prog m) as [m1|] eqn:E; [|discriminate].
  rewrite (step_fuel _ _ _ _ _ _ Hle E). eapply IH; eassumption.
Qed.
End Fuel.
