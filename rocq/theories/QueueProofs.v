(** * Connection queues (proof infrastructure) *)
From Coq Require Import List Arith NArith Bool Lia.
Require Import Verif.Scq Verif.ScqProofs Verif.Verdict Verif.VerdictProofs Verif.Queueing.
Import ListNotations.
Local Existing Instance C_monitor.

Lemma decided_known ws : decided ws = known ws.
Proof. reflexivity. Qed.
Lemma rd_says ws t b u : rd ws t = Some (b, u) -> says ws t b.
Proof.
  unfold rd. induction ws as [|v ws IH]; cbn; [discriminate|]. destruct (t <=? snd v) eqn:E.
  - intros H; injection H as ->. exists [], u, ws. split; [reflexivity|]. apply Nat.leb_le in E.
    split; [assumption|]. intros w [].
  - intros H. destruct (IH H) as (bf & u' & af & -> & H1 & H2). exists (v :: bf), u', af.
    split; [reflexivity|]. split; [assumption|]. intros w [<-|Hw]; [apply Nat.leb_gt; assumption|auto].
Qed.

Definition truth_at (ws : list verdict) (t : nat) : bool :=
  match rd ws t with Some v => fst v | None => false end.

Lemma slots_known slots write h : ring slots write h -> h <> [] -> forall j, get_slot slots j <> None.
Proof.
  intros [R1 R2 R3 R4] Hne j. destruct (Nat.lt_ge_cases j (length slots)) as [Hj|Hj].
  2:{ unfold get_slot. rewrite nth_overflow by assumption. discriminate. }
  assert (Hh : 0 < length h) by (destruct h; [congruence|cbn; lia]).
  destruct (Nat.lt_ge_cases (length h) (length slots)) as [Hl|Hl].
  - destruct (Nat.lt_ge_cases j (length h)) as [Hjh|Hjh].
    + specialize (R3 j Hjh ltac:(lia)). rewrite Nat.mod_small in R3 by assumption. congruence.
    + rewrite (R4 Hl j ltac:(lia)). unfold empty_slot. destruct (j =? 0) eqn:E; [apply Nat.eqb_eq in E; lia|discriminate].
  - (* the history index held by slot j *)
    set (L := length slots) in *.
    assert (exists i, i mod L = j /\ i < length h /\ length h <= i + L) as (i & Hi & Hi1 & Hi2).
    { pose proof (Nat.div_mod (length h - 1 - j) L ltac:(lia)) as D.
      pose proof (Nat.mod_upper_bound (length h - 1 - j) L ltac:(lia)).
      exists (L * ((length h - 1 - j) / L) + j). split; [|lia].
      rewrite Nat.add_comm, Nat.mul_comm, Nat.mod_add by lia. apply Nat.mod_small. assumption. }
    rewrite <- Hi, (R3 i Hi1 Hi2). discriminate.
Qed.

Record qinv (len readers : nat) (ws : list verdict) (pos req : nat -> nat) (q : qmem) : Prop := {
  qi_state : exists slots h,
    w_slots q = map enc slots /\ length slots = len /\ Forall slot_fits slots /\
    ring slots (w_write q) h /\ incr h /\ known h = known ws /\
    (forall n w, rd h n = Some w -> truth_at ws n = fst w) /\
    (forall i, i < readers -> reader len h (req i) (w_read q i) (pos i)) /\
    (forall v, In v h -> fits v)
}.

Lemma qinv_init len readers : 1 <= len -> qinv len readers [] (fun _ => 0) (fun _ => 0) (qmem_init len).
Proof.
  intros H. constructor. exists (None :: repeat (Some d0) (len - 1)), []. cbn [w_slots w_write w_read qmem_init].
  split; [|split; [|split; [|split; [|split; [|split; [|split; [|split]]]]]]].
  - cbn [map]. f_equal. generalize (len - 1) as k. induction k; cbn; [reflexivity|]. rewrite <- IHk. reflexivity.
  - cbn. rewrite repeat_length. lia.
  - constructor; [exact I|]. apply Forall_forall. intros s Hs. apply repeat_spec in Hs as ->. cbn. unfold fits. cbn. lia.
  - exact (@ring_init C_monitor len H).
  - exact I.
  - reflexivity.
  - cbn. discriminate.
  - intros i _. apply reader_init. lia.
  - intros v [].
Qed.

Lemma set_slot_fits slots i s : Forall slot_fits slots -> slot_fits s -> Forall slot_fits (set_slot slots i s).
Proof.
  intros H Hs. revert i; induction H as [|x l Hx H IH]; intros [|i]; cbn; constructor; auto.
Qed.

Lemma exec_answers len readers : 1 <= len -> forall ops ws pos req q,
  qinv len readers ws pos req q -> admissible len readers ws pos req ops -> answers ws ops (exec q ops).
Proof.
  intros Hlen. induction ops as [|[v|i n] ops IH]; intros ws pos req q HQ HA; [exact I| |].
  - destruct HA as (A1 & A2 & A3 & A4). cbn [exec answers].
    destruct HQ as [(slots & h & E1 & E2 & E3 & E4 & E5 & E6 & E7 & E8 & E9)].
    change (word_of v) with (enc_verdict v). rewrite E1, write_words by assumption.
    pose proof (ring_push slots (w_write q) h v E4 E5 ltac:(rewrite E6; exact A1)) as RP.
    destruct (scq_write slots (w_write q) v) as [slots' write'] eqn:Ew. destruct RP as [R1 R2]. cbn [fst snd].
    eapply IH; [|exact A4]. constructor. exists slots', (push len h v). cbn [w_slots w_write w_read].
    rewrite E2 in *. split; [reflexivity|]. split; [assumption|]. split.
    { unfold scq_write in Ew. injection Ew as <- _. apply set_slot_fits; [assumption|exact A2]. }
    split; [assumption|]. split; [apply push_incr; [assumption|rewrite E6; exact A1]|].
    split; [|split; [|split]].
    + rewrite push_known by (rewrite E6; exact A1). rewrite known_app. cbn. rewrite <- decided_known. lia.
    + apply push_sound.
      * intros m w Hw. unfold truth_at. rewrite rd_app.
        pose proof (rd_time _ _ _ Hw) as Ht. pose proof (rd_ge _ _ _ Hw) as [Hg _].
        specialize (E7 m w Hw). unfold truth_at in E7.
        destruct (rd ws m) as [x|] eqn:Ex; [assumption|].
        apply rd_none in Ex. lia.
      * intros m Hm. unfold truth_at. rewrite rd_app.
        destruct (rd ws m) as [x|] eqn:Ex.
        -- pose proof (rd_time _ _ _ Ex). pose proof (rd_ge _ _ _ Ex). lia.
        -- rewrite rd_cons. assert (m <=? snd v = true) as -> by (apply Nat.leb_le; lia). reflexivity.
    + intros i Hi. apply reader_push; auto.
      * rewrite E6. exact A1.
      * specialize (A3 i Hi). lia.
    + intros w Hw. unfold push in Hw. destruct (merges len h v); apply in_app_or in Hw as [Hw|[<-|[]]]; try exact A2; apply E9; try exact Hw.
      clear - Hw. induction h as [|x [|y h] IH]; cbn in *; [easy|easy|]. destruct Hw as [->|Hw]; auto.
  - destruct HA as (A1 & A2 & A3). cbn [exec].
    destruct HQ as [(slots & h & E1 & E2 & E3 & E4 & E5 & E6 & E7 & E8 & E9)].
    assert (Hne : get_slot slots (w_read q i) = None \/ forall j, get_slot slots j <> None).
    { destruct h as [|v0 h0] eqn:Eh.
      - left. destruct (E8 i A1) as (j & H1 & H2 & H3 & H4 & H5). destruct E4 as [R1 R2 R3 R4].
        cbn [length] in *. assert (j = 0) by lia. subst j. rewrite H1, Nat.mod_small by lia.
        rewrite R4 by lia. reflexivity.
      - right. eapply slots_known; [exact E4|discriminate]. }
    rewrite E1, read_words by assumption.
    pose proof (reader_mono _ _ _ n _ _ _ (E8 i A1) A2 (Nat.le_refl _)) as Hr. rewrite <- E2 in Hr.
    pose proof (scq_read_spec slots (w_write q) h n (w_read q i) (pos i) E4 E5 Hr) as R.
    destruct (scq_read slots (w_write q) n (w_read q i)) as [r x]. destruct R as (-> & R1 & _). cbn [fst snd].
    cbn [answers]. split.
    + destruct (rd h n) as [v|] eqn:Er; cbn [option_map answer].
      * pose proof (rd_ge _ _ _ Er) as [Hg Hin]. pose proof (rd_time _ _ _ Er) as Ht.
        assert (Hf : fits v) by (apply (E9 v Hin)).
        rewrite enc_time by exact Hf. unfold enc_verdict. rewrite pack_truth by (apply fits_31; exact Hf).
        rewrite Nnat.Nat2N.id, decided_known, <- E6. split; [lia|].
        intros s Hs. pose proof (rd_within _ _ _ s Er Hs) as Hw. specialize (E7 s v Hw). unfold truth_at in E7.
        destruct (rd ws s) as [[b u]|] eqn:Ex; [|apply rd_none in Ex; apply rd_time in Hw; lia].
        cbn in E7. rewrite <- E7. eapply rd_says; eassumption.
      * rewrite decided_known, <- E6. apply rd_none. assumption.
    + eapply IH; [|exact A3]. constructor. exists slots, h. cbn [w_slots w_write w_read].
      split; [reflexivity|]. do 6 (split; [assumption|]).
      split; [|assumption]. intros j Hj. unfold set_at. destruct (j =? i) eqn:Ej.
      * eapply reader_mono; [rewrite <- E2; exact R1|lia|]. rewrite decided_known, <- E6.
        destruct (rd h n) as [v|] eqn:Er; [apply rd_ge in Er; lia|lia].
      * apply E8. assumption.
Qed.
