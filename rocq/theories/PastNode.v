(** * Once and historically: one visit (proof infrastructure) *)
From Coq Require Import List Arith Bool Lia.
Require Import Verif.MltlEval Verif.Scq Verif.Engine Verif.EngineLocal Verif.NodeProofs.
Import ListNotations.

(** What [do_since] does with left operand [s], as a function of the
    instruction's own state and of what it reads from the right operand. *)
Record past := Past { a_push : option verdict; a_next : nat; a_prev : verdict; a_edge : verdict }.

Section Held.
  Variables (s : bool) (lb ub ts : nat) (prev : verdict).
  Definition held_act (n : nat) (edge : verdict) : past :=
    if (snd prev - lb <=? ts + ub) && fst edge && ((snd prev - ub <? snd edge) || (snd prev <? ub)) then
      let t := Nat.min (ts + ub + lb) (snd edge + ub) in
      if fresh t prev then Past (Some (s, t)) (Nat.max n (t - ub + 1)) (true, t) edge
      else Past None n prev edge
    else Past None n prev edge.
  Definition output_act (v : verdict) (n : nat) (edge : verdict) : past :=
    if (snd prev - lb <=? n - 1) && fresh (snd v) prev
    then Past (Some v) n (true, snd v) edge else held_act n edge.
  Definition since_act (n : nat) (edge : verdict) (r1 : option verdict) : past :=
    match r1 with
    | None => held_act n edge
    | Some (b1, t1) =>
        if Bool.eqb b1 s then output_act (s, t1 + lb) (t1 + 1) (true, t1)
        else if negb (fst edge) || ((snd edge <=? snd prev - ub) && (ub <=? snd prev))
        then output_act (negb s, t1 + lb) (t1 + 1) edge
        else held_act n edge
    end.
End Held.
Definition starting (lb : nat) (prev : verdict) : bool := negb (fst prev) && (snd prev <? lb).

(** Once (s = true) and historically (s = false) in one formulation. *)
Definition once_like (s : bool) (lb ub : nat) (q val : nat -> bool) : Prop :=
  forall i, val i = s <-> exists j, j + lb <= i <= j + ub /\ q j = s.

Section Once.
  Variables (s : bool) (lb ub : nat) (q val : nat -> bool).
  Hypothesis Hval : once_like s lb ub q val.
  Hypothesis Hbounds : lb <= ub.

  (** [K] verdicts written, next read at [n], right operand within [B]. *)
  Record sinv (B K n : nat) (prev edge : verdict) : Prop := {
    si_start : (K = 0 /\ n = 0 /\ edge = (false, 0)) \/ n + lb <= K;
    si_edge : if fst edge
              then snd edge < n /\ snd edge < B /\ q (snd edge) = s /\
                   forall j, snd edge < j < n -> q j = negb s
              else forall j, j < n -> q j = negb s;
    si_prev : prev_ok K prev
  }.

  Lemma sinv_init B : sinv B 0 0 (false, 0) (false, 0).
  Proof using Hbounds. constructor; cbn; auto; [intros; lia|left; auto]. Qed.
  Lemma sinv_mono B B' K n prev edge : B <= B' -> sinv B K n prev edge -> sinv B' K n prev edge.
  Proof using Hbounds. intros HB [H1 H2 H3]. constructor; auto. destruct (fst edge); [|assumption]. intuition lia. Qed.

  Lemma once_negb i : (forall j, j + lb <= i <= j + ub -> q j <> s) -> val i = negb s.
  Proof using Hval.
    intros H. apply neq_negb. intros E. apply Hval in E as (j & Hj & Eq). exact (H j Hj Eq).
  Qed.

  Definition good (B ts K n : nat) (prev : verdict) (a : past) : Prop :=
    n <= a_next a /\
    match a_push a with
    | None => sinv B K (a_next a) (a_prev a) (a_edge a)
    | Some (b, t) => K <= t /\ S t <= B + ub /\ (forall i, K <= i <= t -> val i = b) /\
                     sinv B (S t) (a_next a) (a_prev a) (a_edge a)
    end.

  Lemma prev_snd K prev : prev_ok K prev -> snd prev = K - 1.
  Proof using Type. intros [[-> ->]|[_ ->]]; reflexivity. Qed.

  Lemma held_good B ts K n prev edge :
    n + lb <= K -> sinv B K n prev edge -> good B ts K n prev (held_act s lb ub ts prev n edge).
  Proof using Hval Hbounds.
    intros Hst HS. pose proof HS as [_ He Hp]. unfold held_act.
    assert (HN : good B ts K n prev (Past None n prev edge)) by (split; cbn; [lia|assumption]).
    destruct (fst edge) eqn:Ee; [|rewrite andb_false_r; exact HN].
    destruct (snd prev - lb <=? ts + ub); [|exact HN]. cbn [andb].
    destruct ((snd prev - ub <? snd edge) || (snd prev <? ub)); [|exact HN].
    destruct (fresh _ prev) eqn:Ef; [|exact HN].
    apply (fresh_ok K prev _ Hp) in Ef. destruct He as (E1 & E2 & E3 & E4).
    split; cbn [a_next a_push a_prev a_edge]; [lia|].
    split; [assumption|]. split; [lia|]. split.
    - intros i Hi. apply Hval. exists (snd edge). split; [lia|assumption].
    - replace (Nat.max n _) with n by lia. constructor.
      + right. lia.
      + rewrite Ee. auto.
      + right. split; [lia|]. f_equal. lia.
  Qed.

  Lemma output_good B ts K n prev edge b t1 :
    n + lb <= K -> n <= t1 -> S t1 <= B -> prev_ok K prev ->
    sinv B (Nat.max K (S t1 + lb)) (t1 + 1) (true, Nat.max K (S t1 + lb) - 1) edge ->
    (forall i, K <= i <= t1 + lb -> val i = b) ->
    good B ts K n prev (output_act s lb ub ts prev (b, t1 + lb) (t1 + 1) edge).
  Proof using Hval Hbounds.
    intros Hst Ht HB Hp HS Hv. unfold output_act.
    pose proof (prev_snd K prev Hp) as Hs. pose proof (fresh_ok K prev (t1 + lb) Hp) as Hf. cbn [snd].
    destruct (Nat.le_gt_cases K (t1 + lb)) as [Hle|Hgt].
    - assert (E1 : snd prev - lb <=? t1 + 1 - 1 = true) by (apply Nat.leb_le; lia).
      rewrite E1, (proj2 Hf Hle). cbn [andb]. split; cbn; [lia|].
      split; [assumption|]. split; [lia|]. split; [assumption|].
      replace (Nat.max K (S t1 + lb)) with (S (t1 + lb)) in HS by lia. rewrite Nat.sub_succ, Nat.sub_0_r in HS. exact HS.
    - assert (E1 : fresh (t1 + lb) prev = false).
      { destruct (fresh (t1 + lb) prev); [|reflexivity]. specialize (proj1 Hf eq_refl). lia. }
      rewrite E1, andb_false_r.
      assert (HS' : sinv B K (t1 + 1) prev edge).
      { replace (Nat.max K (S t1 + lb)) with K in HS by lia. destruct HS as [H1 H2 _]. constructor; auto. }
      destruct (held_good B ts K (t1 + 1) prev edge ltac:(lia) HS') as [G1 G2]. split; [lia|assumption].
  Qed.

  Lemma since_visit B ts K n prev edge Kq r1 :
    n + lb <= K -> sinv B K n prev edge -> view q Kq n r1 -> Kq <= B ->
    good B ts K n prev (since_act s lb ub ts prev n edge r1).
  Proof using Hval Hbounds.
    intros Hst HS Hq HB. pose proof HS as [_ He Hp]. unfold since_act.
    destruct r1 as [[b1 t1]|]; [|apply held_good; assumption].
    cbn in Hq. destruct Hq as [Ht1 Hq].
    assert (Hpk : prev_ok (Nat.max K (S t1 + lb)) (true, Nat.max K (S t1 + lb) - 1)) by (right; split; [lia|reflexivity]).
    destruct (eqb_cases b1 s) as [[-> ->]|[-> ->]].
    - apply output_good; auto; try lia.
      + constructor; [right; lia| |assumption]. cbn. split; [lia|]. split; [lia|]. split; [apply Hq; lia|]. intros; lia.
      + intros i Hi. apply Hval. exists (i - lb). split; [lia|]. apply Hq. lia.
    - destruct (negb (fst edge) || _) eqn:Ex; [|apply held_good; assumption].
      apply output_good; auto; try lia.
      + constructor; [right; lia| |assumption]. destruct (fst edge).
        * destruct He as (E1 & E2 & E3 & E4). split; [lia|]. split; [assumption|]. split; [assumption|].
          intros j Hj. destruct (Nat.lt_ge_cases j n); [apply E4; lia|apply Hq; lia].
        * intros j Hj. destruct (Nat.lt_ge_cases j n); [apply He; lia|apply Hq; lia].
      + intros i Hi. apply once_negb. intros j Hj. apply neq_negb.
        destruct (Nat.lt_ge_cases j n) as [Hjn|Hjn]; [|apply Hq; lia].
        destruct (fst edge) eqn:Ee; [|apply He; lia]. cbn [negb orb] in Ex.
        apply andb_true_iff in Ex as [X1 X2]. apply Nat.leb_le in X1, X2.
        rewrite (prev_snd K prev Hp) in X1, X2. destruct He as (E1 & E2 & E3 & E4).
        destruct (Nat.eq_dec K 0) as [->|]; [|apply E4; lia].
        assert (ub = 0) by lia. lia.
  Qed.

  (** A visit that writes nothing has read everything there is. *)
  Lemma since_quiet B ts K n prev edge Kq r1 :
    n + lb <= K -> sinv B K n prev edge -> view q Kq n r1 -> S ts <= Kq -> ts <= n ->
    a_push (since_act s lb ub ts prev n edge r1) = None ->
    S ts <= a_next (since_act s lb ub ts prev n edge r1).
  Proof using Hbounds.
    intros Hst HS Hq Hk Hn. pose proof HS as [_ He Hp]. unfold since_act.
    pose proof (prev_snd K prev Hp) as Hs.
    assert (H0 : forall e x, a_push (held_act s lb ub ts prev x e) = None -> a_next (held_act s lb ub ts prev x e) = x).
    { intros e x. unfold held_act. destruct (_ && _); [|reflexivity]. destruct (fresh _ _); [discriminate|reflexivity]. }
    assert (H1 : forall v e x, a_push (output_act s lb ub ts prev v x e) = None -> a_next (output_act s lb ub ts prev v x e) = x).
    { intros v e x. unfold output_act. destruct (_ && _); [discriminate|apply H0]. }
    destruct r1 as [[b1 t1]|].
    - cbn in Hq. destruct (Bool.eqb b1 s); [intros E; rewrite H1 by assumption; lia|].
      destruct (negb (fst edge) || _) eqn:Ex; [intros E; rewrite H1 by assumption; lia|].
      apply orb_false_iff in Ex as [Ee Ex]. apply negb_false_iff in Ee. rewrite Ee in He.
      apply andb_false_iff in Ex. rewrite !Nat.leb_gt in Ex.
      assert (Hx : K <= snd edge + ub) by lia.
      intros E. rewrite H0 by assumption.
      destruct (Nat.le_gt_cases (S ts) n) as [|Hlt]; [assumption|exfalso].
      revert E. unfold held_act. rewrite Ee.
      assert (E1 : snd prev - lb <=? ts + ub = true) by (apply Nat.leb_le; lia).
      assert (E2 : (snd prev - ub <? snd edge) || (snd prev <? ub) = true).
      { apply orb_true_iff. rewrite !Nat.ltb_lt. lia. }
      rewrite E1, E2. cbn [andb].
      rewrite (proj2 (fresh_ok K prev _ Hp)) by lia. discriminate.
    - cbn in Hq. intros E. rewrite H0 by assumption. lia.
  Qed.

  (** The verdict written first when the lower bound is positive. *)
  Lemma start_good B K n prev edge :
    sinv B K n prev edge -> starting lb prev = true ->
    K = 0 /\ n = 0 /\ 1 <= lb /\ (forall i, K <= i <= lb - 1 -> val i = negb s) /\
    sinv B lb n (true, lb - 1) edge.
  Proof using Hval Hbounds.
    intros [H1 H2 H3] Hs. unfold starting in Hs. apply andb_true_iff in Hs as [S1 S2].
    apply negb_true_iff in S1. apply Nat.ltb_lt in S2.
    assert (HK : K = 0) by (destruct H3 as [[-> _]|[_ ->]]; [reflexivity|discriminate]). subst K.
    assert (Hn : n = 0 /\ edge = (false, 0)) by (destruct H1 as [(_ & A & B0)|H1]; [auto|lia]).
    destruct Hn as [-> ->].
    repeat (split; [lia|]). split.
    - intros i Hi. apply once_negb. intros j Hj. lia.
    - constructor; [right; lia|assumption|]. right. split; [lia|reflexivity].
  Qed.
  Lemma not_starting B K n prev edge :
    sinv B K n prev edge -> starting lb prev = false -> n + lb <= K.
  Proof using Hbounds.
    intros [H1 H2 H3] Hs. destruct H1 as [(-> & -> & ->)|H1]; [|assumption].
    unfold starting in Hs. destruct H3 as [[_ ->]|[H3 _]]; [|lia]. cbn [fst snd negb andb] in Hs. apply Nat.ltb_ge in Hs. lia.
  Qed.
End Once.

Lemma once_like_S lb ub q : once_like true lb ub q (opS lb ub (fun _ => true) q).
Proof.
  intros i. rewrite opS_true. split.
  - intros (j & Hj & Hq & _). exists j. split; [lia|assumption].
  - intros (j & Hj & Hq). exists j. split; [lia|auto].
Qed.
Lemma once_like_T lb ub q : once_like false lb ub q (opT lb ub (fun _ => false) q).
Proof.
  intros i. rewrite opT_false. split.
  - intros (j & Hj & Hq & _). exists j. split; [lia|assumption].
  - intros (j & Hj & Hq). exists j. split; [lia|auto].
Qed.

(** ** The model's [do_since] in these terms *)
Section Implementation.
Context {I : impl}.

Definition write_opt (q : queue) (o : option verdict) : list slot * nat :=
  match o with Some v => scq_write (q_slots q) (q_write q) v | None => (q_slots q, q_write q) end.
Definition since_first (s : bool) (q : queue) : past :=
  Past (Some (negb s, q_lb q - 1)) (match I with C_monitor => 0 | Rust_monitor => q_next q end)
       (true, q_lb q - 1) (q_edge q).
(** What an instruction with left operand [s] does when it reads [r1]. *)
Definition since_action (s : bool) (ts : nat) (q : queue) (r1 : option verdict) : past :=
  if starting (q_lb q) (q_prev q) then since_first s q
  else since_act s (q_lb q) (q_ub q) ts (q_prev q) (q_next q) (q_edge q) r1.

Section Since.
  Variables (atoms : nat -> bool) (k : nat) (ins : instr) (m : monitor) (s : bool) (j : nat).
  Hypothesis Hk : k < length (m_queues m).
  Hypothesis Hop : i_op ins = if s then SINCE else TRIGGER.
  Hypothesis H1 : i_op1 ins = Direct s.
  Hypothesis H2 : i_op2 ins = Sub j.
  Hypothesis Hj : j <> k.
  Let q := get_queue m k.

  Lemma since_check0 m' : check_operand atoms k ins false m' = (m', Some (s, m_time m' + q_ub (get_queue m' k))).
  Proof. unfold check_operand. rewrite H1, Hop. destruct s; reflexivity. Qed.
  Lemma since_check1 x pr out :
    let f := scq_read (q_slots (get_queue m j)) (q_write (get_queue m j)) (q_next x) (q_read2 x) in
    check_operand atoms k ins true (St m k x pr out) = (St m k (with_read x true (fst f)) pr out, snd f).
  Proof.
    unfold check_operand. rewrite H2, get_St, get_St_other by congruence.
    destruct (scq_read _ _ _ _). rewrite set_St. reflexivity.
  Qed.
  Lemma edge_St x pr out v : set_edge (St m k x pr out) k v = St m k (with_edge x v) pr out.
  Proof. unfold set_edge. rewrite get_St, set_St by assumption. reflexivity. Qed.

  Lemma since_after :
    let f := scq_read (q_slots (get_queue m j)) (q_write (get_queue m j)) (q_next q) (q_read2 q) in
    let a := since_action s (m_time m) q (snd f) in
    exists r, (r = q_read2 q /\ starting (q_lb q) (q_prev q) = true \/ r = fst f) /\
    update atoms k ins m =
    St m k (Queue (fst (write_opt q (a_push a))) (snd (write_opt q (a_push a))) (q_read1 q) r (a_next a) (a_edge a)
                  (a_prev a) (q_lb q) (q_ub q))
       (match a_push a with Some _ => flag (m_progress m) | None => m_progress m end) (m_out m).
  Proof.
    intros f a.
    assert (Hup : update atoms k ins m = do_since s atoms k ins m).
    { unfold update. rewrite Hop. destruct s; reflexivity. }
    rewrite Hup. clear Hup. unfold do_since. fold q. fold (starting (q_lb q) (q_prev q)).
    unfold a, since_action. clear a.
    assert (Hm : m = St m k q (m_progress m) (m_out m)) by apply St_id.
    destruct (starting (q_lb q) (q_prev q)) eqn:Est.
    - exists (match I with C_monitor => q_read2 q | Rust_monitor => fst f end).
      split; [destruct I; [left; split; reflexivity|right; reflexivity]|].
      set (y := with_read q true (match I with C_monitor => q_read2 q | Rust_monitor => fst f end)).
      assert (E1 : match I with
                   | C_monitor => m
                   | Rust_monitor => fst (check_operand atoms k ins true (fst (check_operand atoms k ins false m)))
                   end = St m k y (m_progress m) (m_out m)).
      { rewrite since_check0. cbn [fst]. unfold y. destruct I.
        - etransitivity; [exact Hm|]. f_equal. destruct q; reflexivity.
        - rewrite Hm at 1. rewrite since_check1. reflexivity. }
      rewrite E1, push_St by assumption.
      set (z := with_slots y _ _).
      assert (E2 : match I with
                   | C_monitor => set_next (St m k z (flag (m_progress m)) (m_out m)) k 0
                   | Rust_monitor => St m k z (flag (m_progress m)) (m_out m)
                   end = St m k (with_next z (match I with C_monitor => 0 | Rust_monitor => q_next q end))
                            (flag (m_progress m)) (m_out m)).
      { rewrite next_St by assumption. destruct I; reflexivity. }
      rewrite E2, prev_St by assumption. reflexivity.
    - exists (fst f). split; [right; reflexivity|].
      rewrite since_check0.
      assert (Et : m_time m + q_ub (get_queue m k) = m_time m + q_ub q) by reflexivity. rewrite Et. clear Et.
      rewrite Hm at 1. rewrite since_check1. fold f.
      set (x := with_read q true (fst f)).
      set (pr := m_progress m). set (out := m_out m). set (ts := m_time m). set (lb := q_lb q). set (ub := q_ub q).
      set (prev := q_prev q).
      (* the continuation *)
      set (fin := fun (a : past) =>
        St m k (Queue (fst (write_opt q (a_push a))) (snd (write_opt q (a_push a))) (q_read1 q) (fst f) (a_next a) (a_edge a)
                  (a_prev a) lb ub)
       (match a_push a with Some _ => flag pr | None => pr end) out).
      change (St m k (Queue _ _ _ _ _ _ _ _ _) _ _) with (fin (since_act s lb ub ts prev (q_next q) (q_edge q) (snd f))).
      assert (Hout : forall v n e n0,
                 set_prev (set_next (push_result k v (St m k (with_edge (with_next x n0) e) pr out)) k n) k (true, snd v)
                 = fin (Past (Some v) n (true, snd v) e)).
      { intros v n e n0. rewrite push_St, next_St, prev_St by assumption. reflexivity. }
      assert (Hx : x = with_edge (with_next x (q_next q)) (q_edge q)) by reflexivity.
      assert (Hheld : forall n e,
        (let edge := q_edge (get_queue (St m k (with_edge (with_next x n) e) pr out) k) in
         if Bool.eqb s s && (snd prev - lb <=? ts + ub) && fst edge &&
            ((snd prev - ub <? snd edge) || (snd prev <? ub)) then
           let t := Nat.min (ts + ub + lb) (snd edge + ub) in
           if fresh (snd (s, t)) prev then
             set_prev (set_next (push_result k (s, t) (St m k (with_edge (with_next x n) e) pr out)) k
                (Nat.max (q_next (get_queue (St m k (with_edge (with_next x n) e) pr out) k)) (t - ub + 1))) k (true, snd (s, t))
           else St m k (with_edge (with_next x n) e) pr out
         else St m k (with_edge (with_next x n) e) pr out) = fin (held_act s lb ub ts prev n e)).
      { intros n e. rewrite !get_St by assumption. cbn [with_edge with_next q_edge q_next].
        replace (Bool.eqb s s) with true by (destruct s; reflexivity). cbn [andb]. unfold held_act.
        destruct (snd prev - lb <=? ts + ub); cbn [andb]; [|reflexivity].
        destruct (fst e); cbn [andb]; [|reflexivity].
        destruct (_ || _); [|reflexivity]. cbn zeta. cbn [snd].
        destruct (fresh _ prev); [|reflexivity]. apply Hout. }
      assert (Heq : Bool.eqb s s = true) by (destruct s; reflexivity).
      unfold since_act. destruct (snd f) as [[b1 t1]|].
      + destruct (Bool.eqb b1 s).
        * rewrite edge_St, next_St by assumption.
          replace (with_next (with_edge x (true, t1)) (t1 + 1)) with (with_edge (with_next x (t1 + 1)) (true, t1)) by reflexivity.
          unfold output_act. rewrite Nat.add_sub.
          destruct (snd prev - lb <=? t1); cbn [andb]; [|apply Hheld].
          cbn [snd]. destruct (fresh (t1 + lb) prev); [|apply Hheld]. apply Hout.
        * rewrite get_St by assumption.
          change (q_edge x) with (q_edge q). replace (negb (Bool.eqb s s)) with false by (rewrite Heq; reflexivity).
          destruct (negb (fst (q_edge q)) || _).
          -- rewrite next_St by assumption.
             replace (with_next x (t1 + 1)) with (with_edge (with_next x (t1 + 1)) (q_edge q)) by reflexivity.
             unfold output_act. rewrite Nat.add_sub.
             destruct (snd prev - lb <=? t1); cbn [andb]; [|apply Hheld].
             cbn [snd]. destruct (fresh (t1 + lb) prev); [|apply Hheld]. apply Hout.
          -- rewrite Hx, <- Hheld, !get_St by assumption. reflexivity.
      + rewrite Hx. apply Hheld.
  Qed.
End Since.
End Implementation.
