(** * Shared connection queues refine unbounded lists of verdicts *)
From Coq Require Import List Arith Bool Lia.
Require Import Verif.Scq.
Import ListNotations.

(** ** The abstract queue: a list of verdicts, oldest first *)
(** The verdict for time [n]: the first that reaches [n]. *)
Definition rd (h : list verdict) (n : nat) : option verdict := find (fun v => n <=? snd v) h.
(** Times below [known h] have a verdict. *)
Definition known (h : list verdict) : nat := fold_right (fun v k => Nat.max (S (snd v)) k) 0 h.
Fixpoint incr (h : list verdict) : Prop :=
  match h with
  | [] => True
  | v :: h' => (forall w, In w h' -> snd v < snd w) /\ incr h'
  end.
Definition d0 : verdict := (false, 0).

Lemma known_cons v h : known (v :: h) = Nat.max (S (snd v)) (known h).
Proof. reflexivity. Qed.
Lemma rd_cons v h n : rd (v :: h) n = if n <=? snd v then Some v else rd h n.
Proof. reflexivity. Qed.

Lemma rd_known h n : n < known h <-> exists v, rd h n = Some v.
Proof.
  induction h as [|v h IH].
  - cbn. split; [lia | intros [? ?]; discriminate].
  - rewrite known_cons, rd_cons. destruct (n <=? snd v) eqn:E.
    + apply Nat.leb_le in E. split; [eauto | lia].
    + apply Nat.leb_gt in E. rewrite <- IH. lia.
Qed.
Lemma rd_none h n : rd h n = None <-> known h <= n.
Proof.
  destruct (rd h n) eqn:E.
  - split; [discriminate|]. intros H. assert (n < known h) by (apply rd_known; eauto). lia.
  - split; [|reflexivity]. intros _. destruct (Nat.le_gt_cases (known h) n) as [|H]; [assumption|].
    apply rd_known in H as [v H]. congruence.
Qed.
Lemma rd_ge h n v : rd h n = Some v -> n <= snd v /\ In v h.
Proof. unfold rd. intros H. apply find_some in H as [H1 H2]. apply Nat.leb_le in H2. auto. Qed.
Lemma rd_within h n v s : rd h n = Some v -> n <= s <= snd v -> rd h s = Some v.
Proof.
  unfold rd. induction h as [|w h IH]; cbn; [discriminate|].
  destruct (n <=? snd w) eqn:E; intros H Hs.
  - injection H as ->. replace (s <=? snd v) with true; [reflexivity|].
    symmetry; apply Nat.leb_le; lia.
  - apply Nat.leb_gt in E. replace (s <=? snd w) with false; [auto|].
    symmetry; apply Nat.leb_gt; lia.
Qed.
Lemma in_known h v : In v h -> snd v < known h.
Proof.
  induction h as [|w h IH]; [easy|]. rewrite known_cons. intros [->|H]; [lia|]. specialize (IH H). lia.
Qed.
Lemma known_bound h b : (forall v, In v h -> snd v < b) -> known h <= b.
Proof.
  induction h as [|w h IH]; [cbn; lia|]. rewrite known_cons. intros H.
  assert (snd w < b) by (apply H; cbn; auto). assert (known h <= b) by (apply IH; intros; apply H; cbn; auto). lia.
Qed.
Lemma rd_time h n v : rd h n = Some v -> snd v < known h.
Proof. intros H. apply in_known. apply (rd_ge _ _ _ H). Qed.

Lemma incr_app h1 h2 :
  incr (h1 ++ h2) <-> incr h1 /\ incr h2 /\ forall v w, In v h1 -> In w h2 -> snd v < snd w.
Proof.
  induction h1 as [|x h1 IH]; cbn; [firstorder|].
  rewrite IH. split.
  - intros (H1 & H2 & H3 & H4). repeat split; auto.
    + intros w Hw. apply H1. apply in_or_app; auto.
    + intros v w [->|Hv] Hw; auto. apply H1. apply in_or_app; auto.
  - intros ((H1 & H2) & H3 & H4). repeat split; auto.
    intros w Hw. apply in_app_or in Hw as [Hw|Hw]; auto.
Qed.
Lemma known_app h1 h2 : known (h1 ++ h2) = Nat.max (known h1) (known h2).
Proof. induction h1 as [|x h1 IH]; cbn [app]; [reflexivity|]. rewrite !known_cons. lia. Qed.

Lemma rd_app h1 h2 n : rd (h1 ++ h2) n = match rd h1 n with Some v => Some v | None => rd h2 n end.
Proof.
  unfold rd. induction h1 as [|x h1 IH]; cbn; [reflexivity|]. destruct (n <=? snd x); auto.
Qed.

(** Adjacent verdicts differ, except after a first verdict (false, 0). *)
Fixpoint alt (h : list verdict) : Prop :=
  match h with
  | v :: (w :: _) as h' => (v = d0 \/ fst v <> fst w) /\ alt h'
  | _ => True
  end.
Lemma alt_snoc h v : alt (h ++ [v]) <-> alt h /\ (h <> [] -> last h d0 = d0 \/ fst (last h d0) <> fst v).
Proof.
  induction h as [|x h IH]; [cbn; intuition congruence|].
  destruct h as [|y h]; [cbn; intuition congruence|].
  change ((x :: y :: h) ++ [v]) with (x :: (y :: h) ++ [v]).
  cbn [alt app] in *. rewrite IH. cbn [last].
  split; [intros (H1 & H2 & H3) | intros ((H1 & H2) & H3)]; repeat split; auto;
    intros _; apply H3; discriminate.
Qed.
Lemma alt_next h n v :
  incr h -> alt h -> rd h n = Some v -> v <> d0 -> S (snd v) < known h ->
  exists w, rd h (S (snd v)) = Some w /\ fst w <> fst v.
Proof.
  induction h as [|x h IH]; [discriminate|]. intros [Hx Hi] Ha. unfold rd. cbn [find].
  destruct (n <=? snd x) eqn:E.
  - intros H. injection H as ->. intros Hd. rewrite known_cons. intros Hk.
    replace (S (snd v) <=? snd v) with false by (symmetry; apply Nat.leb_gt; lia).
    destruct h as [|y h]; [cbn in Hk; lia|]. destruct Ha as [[Ha|Ha] _]; [congruence|].
    exists y. cbn [find]. assert (snd v < snd y) by (apply Hx; cbn; auto).
    replace (S (snd v) <=? snd y) with true by (symmetry; apply Nat.leb_le; lia). auto.
  - intros H Hd Hk. pose proof (rd_ge h n v H) as [Hge Hin]. apply Hx in Hin.
    replace (S (snd v) <=? snd x) with false by (symmetry; apply Nat.leb_gt; lia).
    rewrite known_cons in Hk. apply IH; auto; [|lia].
    destruct h as [|y h]; [exact I|]. apply Ha.
Qed.

Lemma incr_nth h i j : incr h -> i <= j < length h -> snd (nth i h d0) + (j - i) <= snd (nth j h d0).
Proof.
  revert i j; induction h as [|x h IH]; [cbn; lia|]. cbn [length incr]; intros i j [H1 H2] Hj.
  destruct i, j; cbn [nth].
  - lia.
  - destruct h as [|y h]; [cbn in Hj; lia|].
    assert (snd x < snd y) by (apply H1; cbn; auto).
    specialize (IH 0 j H2 ltac:(lia)). change (nth 0 (y :: h) d0) with y in IH. lia.
  - lia.
  - specialize (IH i j H2 ltac:(lia)). lia.
Qed.

Section Implementation.
Context {I : impl}.

(** ** Pushing *)
Definition merges (len : nat) (h : list verdict) (v : verdict) : bool :=
  (2 <=? len) && negb (length h =? 0) && Bool.eqb (fst (last h d0)) (fst v) &&
  match I with C_monitor => negb (verdict_eqb (last h d0) d0) | Rust_monitor => true end.
Definition push (len : nat) (h : list verdict) (v : verdict) : list verdict :=
  if merges len h v then removelast h ++ [v] else h ++ [v].

Lemma verdict_eqb_eq v w : verdict_eqb v w = true <-> v = w.
Proof.
  unfold verdict_eqb. destruct v as [b t], w as [b' t']; cbn.
  rewrite andb_true_iff, eqb_true_iff, Nat.eqb_eq. split; [intros [-> ->]; reflexivity|].
  intros H; injection H; auto.
Qed.
Lemma slot_eqb_eq s t : slot_eqb s t = true <-> s = t.
Proof.
  destruct s, t; cbn; try easy. rewrite verdict_eqb_eq. split; congruence.
Qed.

Lemma last_in (h : list verdict) : h <> [] -> In (last h d0) h.
Proof.
  intros H. rewrite (app_removelast_last d0 H) at 2. apply in_or_app; cbn; auto.
Qed.
Lemma known_last h : incr h -> h <> [] -> known h = S (snd (last h d0)).
Proof.
  intros Hi H. rewrite (app_removelast_last d0 H) at 1. rewrite known_app. cbn.
  assert (known (removelast h) <= S (snd (last h d0))); [|lia].
  apply known_bound. intros v Hv. rewrite (app_removelast_last d0 H) in Hi.
  apply incr_app in Hi as (_ & _ & Hi). specialize (Hi v (last h d0) Hv (or_introl eq_refl)). lia.
Qed.

Section Push.
  Variables (len : nat) (h : list verdict) (v : verdict).
  Hypothesis Hincr : incr h.
  Hypothesis Hnew : known h <= snd v.

  Lemma merges_true : merges len h v = true -> 2 <= len /\ h <> [] /\ fst (last h d0) = fst v.
  Proof.
    clear Hincr Hnew.
    unfold merges. rewrite !andb_true_iff, !negb_true_iff, Nat.leb_le, Nat.eqb_neq, eqb_true_iff.
    intros (((H1 & H2) & H3) & H4). repeat split; auto.
    intros ->; cbn in H2; lia.
  Qed.
  Lemma push_incr : incr (push len h v).
  Proof.
    unfold push. destruct (merges len h v) eqn:E.
    - apply merges_true in E as (_ & Hne & _).
      assert (Hi := Hincr). rewrite (app_removelast_last d0 Hne) in Hi. apply incr_app in Hi as (Hi & _ & _).
      apply incr_app. repeat split; auto; [cbn; easy|].
      intros x w Hx [<-|[]].
      assert (snd x < known h); [|lia]. apply in_known.
      rewrite (app_removelast_last d0 Hne). apply in_or_app; auto.
    - apply incr_app. repeat split; auto; [cbn; easy|].
      intros x w Hx [<-|[]]. apply in_known in Hx. lia.
  Qed.
  Lemma push_known : known (push len h v) = S (snd v).
  Proof.
    unfold push. destruct (merges len h v) eqn:E.
    - apply merges_true in E as (_ & Hne & _).
      rewrite known_app. cbn.
      assert (known (removelast h) <= known h); [|lia].
      rewrite (app_removelast_last d0 Hne) at 2. rewrite known_app. lia.
    - rewrite known_app. cbn. lia.
  Qed.

  Lemma push_sound (val : nat -> bool) :
    (forall n w, rd h n = Some w -> val n = fst w) ->
    (forall n, known h <= n <= snd v -> val n = fst v) ->
    forall n w, rd (push len h v) n = Some w -> val n = fst w.
  Proof.
    clear Hincr Hnew.
    intros Hs Hv n w. unfold push. destruct (merges len h v) eqn:E.
    - apply merges_true in E as (_ & Hne & Hf).
      pose proof (app_removelast_last d0 Hne) as Eh.
      set (h1 := removelast h) in *. set (l := last h d0) in *.
      rewrite rd_app. destruct (rd h1 n) as [x|] eqn:E1.
      + intros H. injection H as <-. apply Hs. rewrite Eh, rd_app, E1. reflexivity.
      + intros H. pose proof (rd_ge _ _ _ H) as [Hge [<-|[]]].
        destruct (Nat.le_gt_cases n (snd l)) as [Hl|Hl].
        * rewrite <- Hf. apply Hs. rewrite Eh, rd_app, E1. unfold rd; cbn.
          apply Nat.leb_le in Hl. rewrite Hl. reflexivity.
        * apply Hv. split; [|assumption]. rewrite Eh, known_app. cbn.
          apply rd_none in E1. lia.
    - rewrite rd_app. destruct (rd h n) as [x|] eqn:E1.
      + intros H. injection H as <-. auto.
      + intros H. pose proof (rd_ge _ _ _ H) as [Hge [<-|[]]]. apply Hv. split; [|assumption].
        apply rd_none; assumption.
  Qed.
  Lemma push_alt : 2 <= len -> alt h -> alt (push len h v).
  Proof.
    clear Hincr Hnew.
    intros Hlen Ha. unfold push. destruct (merges len h v) eqn:E.
    - apply merges_true in E as (_ & Hne & Hf).
      pose proof (app_removelast_last d0 Hne) as Eh. rewrite Eh in Ha.
      apply alt_snoc in Ha as [Ha Hl]. apply alt_snoc. split; [assumption|].
      intros Hne'. specialize (Hl Hne'). rewrite <- Hf. assumption.
    - apply alt_snoc. split; [assumption|]. intros Hne.
      unfold merges in E. apply Nat.leb_le in Hlen. rewrite Hlen in E.
      replace (length h =? 0) with false in E by (destruct h; [congruence|reflexivity]).
      cbn in E. apply andb_false_iff in E as [E|E].
      + right. intros E'. rewrite E', eqb_reflx in E. discriminate.
      + left. destruct I; [|discriminate]. apply negb_false_iff, verdict_eqb_eq in E. assumption.
  Qed.
  Lemma push_length : length (push len h v) = length h \/ length (push len h v) = S (length h).
  Proof.
    clear Hincr Hnew.
    unfold push. destruct (merges len h v) eqn:E; rewrite app_length; cbn; [|lia].
    apply merges_true in E as (_ & Hne & _). left.
    rewrite (app_removelast_last d0 Hne) at 2. rewrite app_length. reflexivity.
  Qed.
  (** Indices keep their verdict, except that the last one may be extended. *)
  Lemma push_nth j : j < length h -> snd (nth j h d0) <= snd (nth j (push len h v) d0).
  Proof.
    intros Hj. unfold push. destruct (merges len h v) eqn:E.
    - apply merges_true in E as (_ & Hne & _).
      assert (Hl : length h = S (length (removelast h)))
        by (rewrite (app_removelast_last d0 Hne) at 1; rewrite app_length; cbn; lia).
      destruct (Nat.lt_ge_cases j (length (removelast h))) as [Hj'|Hj'].
      + rewrite (app_removelast_last d0 Hne) at 1. rewrite !app_nth1 by assumption. lia.
      + rewrite (app_nth2 (removelast h)) by assumption.
        replace (j - length (removelast h)) with 0 by lia. cbn [nth].
        pose proof (nth_In h d0 Hj) as Hin. apply in_known in Hin. lia.
    - rewrite app_nth1 by assumption. lia.
  Qed.
  Lemma push_firstn j : j < length h -> firstn j (push len h v) = firstn j h.
  Proof.
    intros Hj. unfold push. destruct (merges len h v) eqn:E.
    - apply merges_true in E as (_ & Hne & _).
      assert (Hl : length h = S (length (removelast h)))
        by (rewrite (app_removelast_last d0 Hne) at 1; rewrite app_length; cbn; lia).
      rewrite (app_removelast_last d0 Hne) at 2.
      rewrite !firstn_app. replace (j - length (removelast h)) with 0 by lia. reflexivity.
    - rewrite firstn_app. replace (j - length h) with 0 by lia. cbn. apply app_nil_r.
  Qed.
End Push.

(** ** The ring buffer *)
Lemma get_set_same slots i s : i < length slots -> get_slot (set_slot slots i s) i = s.
Proof.
  unfold get_slot. revert i; induction slots as [|x slots IH]; intros [|i] H; cbn in *; try lia; auto.
  apply IH; lia.
Qed.
Lemma get_set_other slots i j s : i <> j -> get_slot (set_slot slots i s) j = get_slot slots j.
Proof.
  unfold get_slot. revert i j; induction slots as [|x slots IH]; intros [|i] [|j] H; cbn in *; try lia; auto.
Qed.
Lemma set_slot_length slots i s : length (set_slot slots i s) = length slots.
Proof. revert i; induction slots as [|x slots IH]; intros [|i]; cbn; auto. Qed.

Lemma mod_inj a b L : 0 < L -> a mod L = b mod L -> a <= b < a + L -> a = b.
Proof.
  intros HL H Hab.
  pose proof (Nat.div_mod a L ltac:(lia)) as Ha. pose proof (Nat.div_mod b L ltac:(lia)) as Hb.
  rewrite H in Ha. assert (a / L = b / L); [|nia].
  destruct (Nat.lt_trichotomy (a / L) (b / L)) as [Hlt|[Heq|Hlt]]; [nia|assumption|nia].
Qed.
Lemma succ_mod a L : 0 < L -> (a mod L + 1) mod L = S a mod L.
Proof. intros H. rewrite Nat.add_mod_idemp_l by lia. f_equal. lia. Qed.
Lemma step_back_mod a L : 0 < L -> step_back L (S a mod L) = a mod L.
Proof.
  intros H. unfold step_back. rewrite <- succ_mod by assumption.
  pose proof (Nat.mod_upper_bound a L ltac:(lia)) as Hb. set (x := a mod L) in *.
  destruct (Nat.eq_dec (x + 1) L) as [E|E].
  - rewrite E, Nat.mod_same by lia. cbn. lia.
  - rewrite Nat.mod_small by lia. destruct (x + 1 =? 0) eqn:E0; [apply Nat.eqb_eq in E0; lia|]. lia.
Qed.

(** Slots never written. *)
Definition empty_slot (i : nat) : slot :=
  match I with C_monitor => if i =? 0 then None else Some d0 | Rust_monitor => None end.

(** [slots]/[write] hold the last [length slots] verdicts of [h]. *)
Record ring (slots : list slot) (write : nat) (h : list verdict) : Prop := {
  ring_len : 0 < length slots;
  ring_write : write = length h mod length slots;
  ring_slots : forall i, i < length h -> length h <= i + length slots ->
               get_slot slots (i mod length slots) = Some (nth i h d0);
  ring_empty : length h < length slots -> forall i, length h <= i < length slots ->
               get_slot slots i = empty_slot i
}.

Definition empty_slots (n : nat) : list slot :=
  match I with
  | C_monitor => None :: repeat (Some d0) (n - 1)
  | Rust_monitor => repeat None n
  end.
Lemma empty_length n : 1 <= n -> length (empty_slots n) = n.
Proof. intros Hn. unfold empty_slots. destruct I; cbn; rewrite repeat_length; lia. Qed.
Lemma ring_init n : 1 <= n -> ring (empty_slots n) 0 [].
Proof.
  intros Hn. pose proof (empty_length n Hn) as Hl.
  constructor; rewrite ?Hl; cbn [length].
  - lia.
  - rewrite Nat.mod_small by lia. reflexivity.
  - intros i Hi; lia.
  - intros _ i Hi. unfold empty_slot, get_slot. rewrite (@nth_indep slot _ _ (Some (false, 0)) None) by (rewrite Hl; lia).
    unfold empty_slots. destruct I; [|apply nth_repeat].
    destruct i as [|i]; cbn [nth Nat.eqb]; [reflexivity|].
    rewrite (@nth_indep slot _ _ None (Some d0)) by (rewrite repeat_length; lia). apply nth_repeat.
Qed.

Lemma ring_push slots write h (v : verdict) :
  ring slots write h -> incr h -> known h <= snd v ->
  let '(slots', write') := scq_write slots write v in
  length slots' = length slots /\ ring slots' write' (push (length slots) h v).
Proof.
  intros [HL Hw Hs He] Hi Hk. set (L := length slots) in *.
  unfold scq_write. fold L.
  (* the compaction test *)
  set (c := Bool.eqb (slot_truth (get_slot slots (step_back L write))) (fst v) && _).
  assert (Hc : (if c then step_back L write else write) = (if merges L h v then step_back L write else write)).
  { destruct (Nat.eq_dec L 1) as [HL1|HL1].
    { (* one slot: both indices are 0 *)
      rewrite Hw, HL1, Nat.mod_1_r. cbn. destruct c, (merges 1 h v); reflexivity. }
    enough (E : c = merges L h v) by (rewrite E; reflexivity).
    subst c. unfold merges. destruct h as [|x h'] eqn:Eh; [|rewrite <- Eh in *].
    - rewrite Hw. cbn [length]. rewrite Nat.mod_small by lia.
      rewrite (He ltac:(cbn; lia) 0) by (cbn; lia). unfold empty_slot. cbn [Nat.eqb negb andb].
      destruct I; cbn; rewrite ?andb_false_r; reflexivity.
    - assert (Hm : length h = S (length h')) by (rewrite Eh; reflexivity).
      assert (Hlast : last h d0 = nth (length h') h d0).
      { assert (Hne : h <> []) by (rewrite Eh; discriminate).
        pose proof (app_removelast_last d0 Hne) as E.
        assert (length (removelast h) = length h')
          by (apply (f_equal (@length _)) in E; rewrite app_length in E; cbn in E; lia).
        rewrite E at 2. rewrite app_nth2 by lia. replace (length h' - length (removelast h)) with 0 by lia.
        reflexivity. }
      rewrite Hw, Hm, step_back_mod by assumption.
      rewrite Hs by lia. rewrite <- Hlast. cbn [slot_truth].
      replace (S (length h') =? 0) with false by reflexivity. cbn [negb].
      rewrite andb_true_r.
      replace (2 <=? L) with true by (symmetry; apply Nat.leb_le; lia). cbn [andb].
        destruct (Nat.lt_ge_cases (length h) L) as [Hlt|Hge].
        * rewrite Nat.mod_small by lia.
          rewrite (He Hlt (S (length h'))) by lia. unfold empty_slot.
          destruct I; cbn [Nat.eqb slot_eqb negb andb]; rewrite ?andb_true_r; reflexivity.
        * (* full ring: the slot under the write index is the oldest verdict *)
          assert (E2 : S (length h') mod L = (length h - L) mod L).
          { rewrite <- Hm. replace (length h) with ((length h - L) + 1 * L) at 1 by lia.
            apply Nat.mod_add; lia. }
          rewrite E2, Hs by lia. cbn [slot_eqb].
          pose proof (incr_nth h (length h - L) (length h') Hi ltac:(lia)) as Hn.
          rewrite <- Hlast in Hn.
          replace (verdict_eqb (last h d0) (nth (length h - L) h d0)) with false.
          2:{ symmetry. apply not_true_is_false. rewrite verdict_eqb_eq. intros E. rewrite <- E in Hn. lia. }
          replace (verdict_eqb (last h d0) d0) with false.
          2:{ symmetry. apply not_true_is_false. rewrite verdict_eqb_eq. intros E. rewrite E in Hn. cbn in Hn. lia. }
          destruct I; cbn; rewrite ?andb_true_r; reflexivity. }
  rewrite Hc. clearbody c. unfold push. destruct (merges L h v) eqn:E.
  - apply (merges_true L h v) in E as (HL2 & Hne & Hf).
    assert (Hm : length h = S (length (removelast h)))
      by (rewrite (app_removelast_last d0 Hne) at 1; rewrite app_length; cbn; lia).
    set (h1 := removelast h) in *.
    assert (Hlen : length (h1 ++ [v]) = length h) by (rewrite app_length; cbn; lia).
    rewrite Hw, Hm, step_back_mod by assumption.
    rewrite set_slot_length. split; [reflexivity|].
    constructor; rewrite ?set_slot_length; fold L; rewrite ?Hlen.
    + assumption.
    + rewrite succ_mod by assumption. rewrite Hm. reflexivity.
    + intros i Hi1 Hi2. destruct (Nat.eq_dec i (length h1)) as [->|Hn].
      * rewrite get_set_same by (apply Nat.mod_upper_bound; lia).
        rewrite app_nth2, Nat.sub_diag by lia. reflexivity.
      * rewrite get_set_other.
        2:{ intros E. apply Hn. apply mod_inj with L; [assumption|congruence|lia]. }
        rewrite Hs by lia. f_equal.
        rewrite (app_removelast_last d0 Hne) at 1. fold h1. rewrite !app_nth1 by lia. reflexivity.
    + intros Hlt i Hi1. rewrite get_set_other; [apply He; lia|].
      rewrite Nat.mod_small by lia. lia.
  - assert (Hlen : length (h ++ [v]) = S (length h)) by (rewrite app_length; cbn; lia).
    rewrite set_slot_length. split; [reflexivity|].
    constructor; rewrite ?set_slot_length; fold L; rewrite ?Hlen.
    + assumption.
    + rewrite Hw, succ_mod by assumption. reflexivity.
    + intros i Hi1 Hi2. destruct (Nat.eq_dec i (length h)) as [->|Hn].
      * rewrite Hw, get_set_same by (apply Nat.mod_upper_bound; lia).
        rewrite app_nth2, Nat.sub_diag by lia. reflexivity.
      * rewrite get_set_other.
        2:{ rewrite Hw. intros E'. apply Hn. apply mod_inj with L; [assumption|congruence|lia]. }
        rewrite Hs by lia. rewrite app_nth1 by lia. reflexivity.
    + intros Hlt i Hi1. rewrite get_set_other; [apply He; lia|].
      rewrite Hw, Nat.mod_small by lia. lia.
Qed.

(** ** Readers *)
(** Read index [r] stands at verdict number [j] of [h]; verdicts before it are
    older than [n]; the one it stands at is not older than [a]. *)
Definition reader (L : nat) (h : list verdict) (n r a : nat) : Prop :=
  exists j, r = j mod L /\ (j < length h \/ (h = [] /\ j = 0)) /\ length h <= j + L /\
            (forall i, i < j -> snd (nth i h d0) < n) /\ a <= snd (nth j h d0).

Lemma reader_mono L h n n' r a a' : reader L h n r a -> n <= n' -> a' <= a -> reader L h n' r a'.
Proof.
  intros (j & H1 & H2 & H3 & H4 & H5) Hn Ha. exists j; repeat split; auto; [|lia].
  intros i Hi. specialize (H4 i Hi). lia.
Qed.
Lemma reader_init L n : 0 < L -> reader L [] n 0 0.
Proof.
  intros HL. exists 0. rewrite Nat.mod_small by lia. cbn. repeat split; auto; lia.
Qed.
Lemma reader_push L h (v : verdict) n r a :
  incr h -> known h <= snd v -> snd v - a < L -> reader L h n r a -> reader L (push L h v) n r a.
Proof.
  intros Hi Hk Hc (j & H1 & H2 & H3 & H4 & H5). exists j.
  pose proof (push_incr L h v Hi Hk) as Hi'.
  pose proof (push_length L h v) as Hlen.
  assert (Ha : a <= snd (nth j (push L h v) d0)).
  { destruct H2 as [H2|[-> ->]].
    - pose proof (push_nth L h v Hk j H2). lia.
    - cbn in H5. lia. }
  assert (Hj : j < length (push L h v)).
  { destruct H2 as [H2|[-> ->]]; [lia|]. unfold push. destruct (merges L [] v); cbn; lia. }
  split; [assumption|]. split; [auto|]. split; [|split; [|assumption]].
  - pose proof (incr_nth (push L h v) j (length (push L h v) - 1) Hi' ltac:(lia)) as Hn.
    assert (Hlast : snd (nth (length (push L h v) - 1) (push L h v) d0) < S (snd v)).
    { rewrite <- (push_known L h v Hk). apply in_known. apply nth_In. lia. }
    lia.
  - intros i Hij. destruct H2 as [H2|[-> ->]]; [|lia].
    specialize (H4 i Hij). unfold push. destruct (merges L h v) eqn:E.
    + apply (merges_true L h v) in E as (_ & Hne & _).
      assert (Hl : length h = S (length (removelast h)))
        by (rewrite (app_removelast_last d0 Hne) at 1; rewrite app_length; cbn; lia).
      rewrite (app_removelast_last d0 Hne) in H4. rewrite app_nth1 in H4 by lia.
      rewrite app_nth1 by lia. assumption.
    + rewrite app_nth1 by lia. assumption.
Qed.

Lemma rd_skip h n j : (forall i, i < j -> snd (nth i h d0) < n) -> rd h n = rd (skipn j h) n.
Proof.
  revert j. induction h as [|x h IH]; intros j Hj; [destruct j; reflexivity|].
  destruct j as [|j]; [reflexivity|]. cbn [skipn]. rewrite <- (IH j).
  - unfold rd; cbn. pose proof (Hj 0 ltac:(lia)) as H0. cbn in H0.
    replace (n <=? snd x) with false by (symmetry; apply Nat.leb_gt; lia). reflexivity.
  - intros i Hi. apply (Hj (S i)). lia.
Qed.
Lemma skipn_nth_cons h j : j < length h -> skipn j h = nth j h d0 :: skipn (S j) h.
Proof.
  revert j; induction h as [|x h IH]; intros j Hj; cbn in Hj; [lia|].
  destruct j as [|j]; [reflexivity|]. cbn [skipn nth]. rewrite IH by lia. destruct h; reflexivity.
Qed.

Lemma read_loop_spec slots write h n :
  ring slots write h -> forall fuel j,
  j < length h -> length h <= j + length slots -> length h <= j + fuel ->
  (forall i, i < j -> snd (nth i h d0) < n) ->
  exists j', read_loop fuel slots write n (j mod length slots) = (j' mod length slots, rd h n) /\
             j <= j' < length h /\ (forall i, i < j' -> snd (nth i h d0) < n) /\
             match rd h n with Some v => v = nth j' h d0 | None => j' = length h - 1 end.
Proof.
  intros [HL Hw Hs He]. set (L := length slots) in *.
  induction fuel as [|fuel IH]; intros j Hj Hv Hf Hb; [lia|].
  cbn [read_loop]. fold L. rewrite Hs by lia.
  rewrite (rd_skip h n j Hb), (skipn_nth_cons h j Hj).
  unfold rd; cbn [find]. fold (rd (skipn (S j) h) n).
  destruct (n <=? snd (nth j h d0)) eqn:E.
  - exists j. repeat split; auto.
  - apply Nat.leb_gt in E. rewrite succ_mod by assumption.
    assert (Hb' : forall i, i < S j -> snd (nth i h d0) < n).
    { intros i Hi. destruct (Nat.eq_dec i j) as [->|]; [assumption|]. apply Hb; lia. }
    destruct (S j mod L =? write) eqn:E1.
    + apply Nat.eqb_eq in E1. rewrite Hw in E1.
      assert (S j = length h) by (apply mod_inj with L; [assumption|assumption|lia]).
      exists j. rewrite step_back_mod by assumption.
      assert (Hnil : skipn (S j) h = []) by (apply length_zero_iff_nil; rewrite skipn_length; lia).
      rewrite Hnil. cbn. repeat split; auto; lia.
    + apply Nat.eqb_neq in E1. rewrite Hw in E1.
      assert (Hj' : S j < length h).
      { destruct (Nat.eq_dec (S j) (length h)) as [E2|]; [rewrite E2 in E1; congruence|lia]. }
      destruct (IH (S j) Hj' ltac:(lia) ltac:(lia) Hb') as (j' & R1 & R2 & R3 & R4).
      exists j'. rewrite <- (rd_skip h n (S j) Hb'). repeat split; auto; lia.
Qed.

(** A read returns the abstract verdict; afterwards the reader stands at it, or
    at the newest verdict if there was none. *)
Lemma scq_read_spec slots write h n r a :
  ring slots write h -> incr h -> reader (length slots) h n r a ->
  let '(r', v) := scq_read slots write n r in
  v = rd h n /\
  reader (length slots) h n r' (match rd h n with Some v => snd v | None => known h - 1 end) /\
  reader (length slots) h n r' a.
Proof.
  intros Hr Hi (j & H1 & H2 & H3 & H4 & H5). pose proof Hr as [HL Hw Hs He].
  set (L := length slots) in *. unfold scq_read. fold L.
  destruct H2 as [H2|[-> ->]].
  - rewrite H1, Hs by lia.
    destruct (read_loop_spec slots write h n Hr L j H2 H3 H3 H4) as (j' & R1 & R2 & R3 & R4).
    fold L in R1. rewrite R1. split; [reflexivity|]. split.
    + exists j'. repeat split; auto; [lia|lia|].
      destruct (rd h n) as [v|]; [rewrite R4; lia|].
      rewrite known_last by (auto; intros ->; cbn in H2; lia).
      assert (Hne : h <> []) by (intros ->; cbn in H2; lia).
      assert (Hl : length h = S (length (removelast h)))
        by (rewrite (app_removelast_last d0 Hne) at 1; rewrite app_length; cbn; lia).
      assert (E : nth j' h d0 = last h d0).
      { rewrite (app_removelast_last d0 Hne) at 1. rewrite app_nth2 by lia.
        replace (j' - length (removelast h)) with 0 by lia. reflexivity. }
      rewrite E. lia.
    + exists j'. repeat split; auto; [lia|lia|].
      pose proof (incr_nth h j j' Hi ltac:(lia)). lia.
  - rewrite H1. cbn [length] in *. rewrite (Nat.mod_small 0) by lia.
    assert (E0 : empty_slot 0 = None) by (unfold empty_slot; destruct I; reflexivity).
    rewrite (He HL 0), E0 by lia. cbn. split; [reflexivity|].
    split; apply (reader_mono L [] n n 0 0); try lia; try (apply reader_init; assumption).
    cbn in H5. lia.
Qed.
End Implementation.
