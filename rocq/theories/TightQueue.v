(** * Short queues deliver the same verdicts (proof infrastructure)

    A queue of length [L] is compared with the history [h] of a queue that is
    long enough to merge and to keep everything. *)
From Coq Require Import List Arith Bool Lia.
Require Import Verif.Scq Verif.ScqProofs.
Import ListNotations.

Section Tight.
  Context {I : impl}.

  (** The slots of a queue of length [L] after the writes recorded in [h]: the
      ring of [ScqProofs], except that one slot never merges. *)
  Definition holding (L : nat) (slots : list slot) (w : nat) (h : list verdict) : Prop :=
    length slots = L /\
    ((2 <= L /\ ring slots w h) \/
     (L = 1 /\ w = 0 /\ slots = [match h with [] => None | _ => Some (last h d0) end])).

  Lemma push_long a b h v : 2 <= a -> 2 <= b -> push a h v = push b h v.
  Proof.
    intros Ha Hb. unfold push, merges. apply Nat.leb_le in Ha, Hb. rewrite Ha, Hb. reflexivity.
  Qed.
  Lemma push_nonempty L h v : push L h v <> [].
  Proof. unfold push. destruct (merges L h v); intros E; apply app_eq_nil in E as [_ E]; discriminate. Qed.
  Lemma push_last L h v : last (push L h v) d0 = v.
  Proof. unfold push. destruct (merges L h v); apply last_last. Qed.

  Lemma holding_init L : 1 <= L -> holding L (empty_slots L) 0 [].
  Proof.
    intros H. split; [apply empty_length; assumption|].
    destruct (Nat.eq_dec L 1) as [->|Hne]; [right|left].
    - split; [reflexivity|]. split; [reflexivity|]. unfold empty_slots. destruct I; reflexivity.
    - split; [lia|]. apply ring_init. assumption.
  Qed.
  Lemma holding_push L La slots w h v :
    holding L slots w h -> incr h -> known h <= snd v -> 2 <= La ->
    holding L (fst (scq_write slots w v)) (snd (scq_write slots w v)) (push La h v).
  Proof.
    intros [El [[HL R]|(-> & -> & ->)]] Hi Hk HLa.
    - pose proof (ring_push slots w h v R Hi Hk) as P. destruct (scq_write slots w v) as [s' w'].
      destruct P as [P1 P2]. cbn [fst snd]. split; [lia|]. left. split; [assumption|].
      rewrite (push_long La (length slots)) by lia. exact P2.
    - assert (E : forall x, scq_write [x] 0 v = ([Some v], 0)).
      { intros x. unfold scq_write. cbn [length]. change (step_back 1 0) with 0.
        destruct (_ && _); reflexivity. }
      rewrite E. cbn [fst snd]. split; [reflexivity|]. right. split; [reflexivity|]. split; [reflexivity|].
      pose proof (push_nonempty La h v) as Hne. pose proof (push_last La h v) as Hl.
      destruct (push La h v); [congruence|]. rewrite Hl. reflexivity.
  Qed.

  (** Read pointer [r] still delivers what [h] has from time [n] on; and it will
      after one more write, if that is for a time less than [x + L]. *)
  Definition ready (L : nat) (h : list verdict) (n r x : nat) : Prop :=
    (L = 1 /\ r = 0 /\ known (removelast h) <= n /\ (known h <= n \/ x <= n)) \/
    (2 <= L /\ reader L h n r (Nat.min x (known h - 1))).

  Lemma ready_mono L h n n' r x x' : ready L h n r x -> n <= n' -> x' <= x -> ready L h n' r x'.
  Proof.
    intros [(H1 & H2 & H3 & H4)|[H1 H2]] Hn Hx.
    - left. repeat split; auto; lia.
    - right. split; [assumption|]. eapply reader_mono; [exact H2|assumption|lia].
  Qed.
  Lemma ready_init L n x : 1 <= L -> ready L [] n 0 x.
  Proof.
    intros H. destruct (Nat.eq_dec L 1) as [->|Hne]; [left|right].
    - cbn. repeat split; lia.
    - split; [lia|]. cbn [known fold_right]. rewrite Nat.min_0_r. apply reader_init. lia.
  Qed.

  Lemma known_removelast h : known (removelast h) <= known h.
  Proof.
    destruct h as [|a h]; [reflexivity|].
    rewrite (app_removelast_last d0 (l := a :: h)) at 2 by discriminate. rewrite known_app. lia.
  Qed.

  Lemma ready_push L La h v n r x :
    ready L h n r x -> incr h -> known h <= snd v -> 2 <= La -> snd v < x + L -> ready L (push La h v) n r 0.
  Proof.
    intros [(-> & -> & H3 & H4)|[H1 H2]] Hi Hk HLa Hv.
    - left. split; [reflexivity|]. split; [reflexivity|]. split; [|lia].
      unfold push. destruct (merges La h v); rewrite removelast_last; lia.
    - right. split; [assumption|]. rewrite (push_long La L) by assumption. cbn [Nat.min].
      destruct H2 as (j & R1 & R2 & R3 & R4 & R5).
      destruct (Nat.le_gt_cases (S (j + 1)) (length h)) as [Hlt|Hge].
      + assert (Hx : Nat.min x (known h - 1) = x).
        { assert (Hne : h <> []) by (intros ->; cbn in Hlt; lia).
          pose proof (known_last h Hi Hne) as Kl.
          pose proof (incr_nth h j (length h - 1) Hi ltac:(lia)) as Hn.
          assert (snd (nth (length h - 1) h d0) < known h) by (apply in_known, nth_In; lia). lia. }
        rewrite Hx in R5. apply reader_mono with (n := n) (a := x); try lia.
        apply reader_push; auto; [lia|]. exists j. auto.
      + pose proof (push_length L h v) as Hlen.
        assert (Hj : j < length (push L h v)).
        { destruct R2 as [R2|[-> ->]]; [lia|]. pose proof (push_nonempty L [] v).
          destruct (push L [] v); [congruence|cbn; lia]. }
        exists j. split; [assumption|]. split; [auto|]. split; [lia|]. split; [|lia].
        intros i Hij. destruct R2 as [R2|[-> ->]]; [|lia].
        specialize (R4 i Hij). pose proof (push_firstn L h v Hk j R2) as Ef.
        assert (E : forall l : list verdict, i < length (firstn j l) -> nth i (firstn j l) d0 = nth i l d0).
        { intros l Hl. rewrite <- (firstn_skipn j l) at 2. rewrite app_nth1 by assumption. reflexivity. }
        rewrite <- (E (push L h v)) by (rewrite firstn_length; lia). rewrite Ef, E by (rewrite firstn_length; lia).
        assumption.
  Qed.

  (** Where a read leaves the pointer. *)
  Definition placed (L : nat) (h : list verdict) (n r : nat) : Prop :=
    (L = 1 /\ r = 0 /\ known (removelast h) <= n) \/
    (2 <= L /\ reader L h n r (match rd h n with Some v => snd v | None => known h - 1 end)).

  Lemma ready_read L slots w h n r x :
    holding L slots w h -> incr h -> ready L h n r x ->
    snd (scq_read slots w n r) = rd h n /\ placed L h n (fst (scq_read slots w n r)).
  Proof.
    intros [El [[HL R]|(-> & -> & ->)]] Hi [(E1 & -> & H3 & H4)|[H1 H2]]; try lia.
    - pose proof (scq_read_spec slots w h n r (Nat.min x (known h - 1)) R Hi) as P. rewrite El in P. specialize (P H2).
      destruct (scq_read slots w n r) as [r' v]. destruct P as (-> & P & _). cbn [fst snd].
      split; [reflexivity|]. right. split; assumption.
    - unfold scq_read. cbn [get_slot nth].
      destruct h as [|a h'] eqn:Eh.
      + cbn. split; [reflexivity|]. left. repeat split; auto.
      + rewrite <- Eh in *. assert (Hne : h <> []) by (rewrite Eh; discriminate).
        assert (Erd : rd h n = if n <=? snd (last h d0) then Some (last h d0) else None).
        { rewrite (app_removelast_last d0 Hne) at 1. rewrite rd_app, (proj2 (rd_none _ n) H3), rd_cons. reflexivity. }
        cbn [length read_loop get_slot nth]. rewrite Erd.
        destruct (n <=? snd (last h d0)) eqn:E; cbn [fst snd].
        * split; [reflexivity|]. left. auto.
        * change ((0 + 1) mod 1 =? 0) with true. cbn [fst snd]. split; [reflexivity|]. left. auto.
  Qed.

  (** A reader that moves on to [n'] is ready for the next write if it found
      nothing, or had already come as far as [x], or has taken the last verdict. *)
  Lemma placed_ready L h n n' r x :
    placed L h n r -> n <= n' ->
    rd h n = None \/ x <= n \/ (exists v, rd h n = Some v /\ S (snd v) = known h /\ snd v < n') ->
    ready L h n' r x.
  Proof.
    intros HP Hn Hc. destruct HP as [(-> & -> & H3)|[H1 H2]].
    - left. split; [reflexivity|]. split; [reflexivity|]. split; [lia|].
      destruct Hc as [E|[E|(v & _ & E & E')]]; [apply rd_none in E; lia|lia|lia].
    - right. split; [assumption|]. eapply reader_mono; [exact H2|assumption|].
      destruct Hc as [->|[E|(v & -> & E & E')]]; [lia| |lia].
      destruct (rd h n) as [v|] eqn:Ev; [|lia]. apply rd_ge in Ev as [Ev _]. lia.
  Qed.
  Lemma placed_ready0 L h n n' r : placed L h n r -> n <= n' -> ready L h n' r 0.
  Proof. intros HP Hn. apply (placed_ready L h n); auto. right. left. lia. Qed.
End Tight.
