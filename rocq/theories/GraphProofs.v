(** * Proofs about graph traversal and common-subexpression elimination *)
From Coq Require Import List Arith Bool Ascii Lia.
Require Import Verif.Graph Verif.GraphSpec.
Import ListNotations.

(** ** Trees *)
Fixpoint size (t : tree) : nat :=
  match t with Tree _ _ args => S (fold_right (fun t n => size t + n) 0 args) end.

Lemma size_arg k s args t : In t args -> size t < size (Tree k s args).
Proof.
  cbn [size]. induction args as [|a args IH]; intros []; cbn [fold_right].
  - subst. lia.
  - specialize (IH H). lia.
Qed.
Lemma child_smaller h T n c : denotes h T -> In c (nchildren (h n)) -> size (T c) < size (T n).
Proof. intros D H. rewrite (D n). apply size_arg, in_map, H. Qed.

(** ** The traversal *)
Lemma split_pushed (cs : list nat) e s s1 c s2 :
  map (pair false) cs ++ (true, e) :: s = s1 ++ (true, c) :: s2 ->
  (c = e /\ s1 = map (pair false) cs) \/
  (exists s1', s1 = map (pair false) cs ++ (true, e) :: s1' /\ s = s1' ++ (true, c) :: s2).
Proof.
  revert s1. induction cs as [|d cs IH]; intros s1; cbn [map app].
  - destruct s1 as [|x s1]; cbn [app]; intros H; injection H.
    + intros <- <-. left. auto.
    + intros -> <-. right. exists s1. auto.
  - destruct s1 as [|x s1]; cbn [app]; intros H; [discriminate H|]. injection H as <- H.
    apply IH in H as [[-> ->]|(s1' & -> & ->)]; [left; auto|right; exists s1'; auto].
Qed.

Definition act_ok {A} (T : nat -> tree) (R : nat -> Prop) (G : A -> list nat)
    (P : heap -> A -> list nat -> Prop) (starts : heap -> list nat) (act : nat -> heap -> A -> heap * A) : Prop :=
  forall e h a out h' a',
    P h a out -> denotes h T -> R e -> ~ In e out -> incl (G a) out ->
    (forall c, In c (nchildren (h e)) -> In c (G a)) -> act e h a = (h', a') ->
    P h' a' (e :: out) /\ denotes h' T /\ incl (G a') (e :: out) /\
    (forall n c, R n -> In c (nchildren (h' n)) -> R c) /\
    exists f, (forall n, nchildren (h' n) = map f (nchildren (h n))) /\ starts h' = map f (starts h) /\
              (forall c, c <> e -> f c = c) /\ In (f e) (G a') /\ incl (G a) (G a').

Record inv {A} (T : nat -> tree) (R : nat -> Prop) (G : A -> list nat)
    (P : heap -> A -> list nat -> Prop) (starts : heap -> list nat)
    (stack : list (bool * nat)) (vis : list nat) (h : heap) (a : A) (out : list nat) : Prop := {
  inv_P : P h a out;
  inv_D : denotes h T;
  inv_R : forall n c, R n -> In c (nchildren (h n)) -> R c;
  inv_stack_R : forall b x, In (b, x) stack -> R x;
  inv_vis : forall v, In v vis <-> In v out \/ In (true, v) stack;
  inv_rank : forall s1 c s2, stack = s1 ++ (true, c) :: s2 ->
             forall b x, In (b, x) s1 -> size (T x) < size (T c);
  inv_disj : forall v, In (true, v) stack -> ~ In v out;
  inv_open : forall s1 e s2, stack = s1 ++ (true, e) :: s2 ->
             forall c, In c (nchildren (h e)) -> In c (G a) \/ exists b, In (b, c) s1;
  inv_G : incl (G a) out;
  inv_slot : forall n c, In c (nchildren (h n)) -> In c out -> In c (G a);
  inv_done : forall n c, In n out -> In c (nchildren (h n)) -> In c (G a);
  inv_start_slot : forall c, In c (starts h) -> In c out -> In c (G a);
  inv_starts : forall s, In s (starts h) -> In s (G a) \/ exists b, In (b, s) stack
}.

Lemma existsb_in e l : existsb (Nat.eqb e) l = true <-> In e l.
Proof.
  rewrite existsb_exists. split.
  - intros (x & Hx & E). apply Nat.eqb_eq in E. subst; exact Hx.
  - intros H. exists e. split; [exact H|apply Nat.eqb_refl].
Qed.

(** Popping a node already visited. *)
Lemma inv_skip {A} T R G P starts e s vis h (a : A) out :
  inv T R G P starts ((false, e) :: s) vis h a out -> In e vis ->
  inv T R G P starts s vis h a out.
Proof.
  intros I Hv.
  assert (He : In e out).
  { apply (inv_vis _ _ _ _ _ _ _ _ _ _ I) in Hv as [Hv|[Hv|Hv]]; [exact Hv|discriminate Hv|].
    exfalso. apply in_split in Hv as (s1 & s2 & ->).
    pose proof (inv_rank _ _ _ _ _ _ _ _ _ _ I ((false, e) :: s1) e s2 eq_refl false e (or_introl eq_refl)).
    lia. }
  destruct I as [IP ID IR ISR IV IRk IDj IO IG IS IDn ISS ISt]. split; try assumption.
  - intros b x Hx. apply (ISR b). right; exact Hx.
  - intros v. rewrite IV. split; (intros [H|H]; [left; exact H|right]).
    + destruct H as [H|H]; [discriminate H|exact H].
    + right; exact H.
  - intros s1 c s2 -> b x Hx. apply (IRk ((false, e) :: s1) c s2 eq_refl b). right; exact Hx.
  - intros v Hv'. apply IDj. right; exact Hv'.
  - intros s1 d s2 -> c Hc. destruct (IO ((false, e) :: s1) d s2 eq_refl c Hc) as [H|(b & [H|H])].
    + left; exact H.
    + injection H as <- <-. left. eapply IS; [exact Hc|exact He].
    + right; exists b; exact H.
  - intros t Ht. destruct (ISt t Ht) as [H|(b & [H|H])]; [left; exact H| |right; exists b; exact H].
    injection H as <- <-. left. apply ISS; assumption.
Qed.

(** Opening a node. *)
Lemma inv_push {A} T R G P starts e s vis h (a : A) out :
  inv T R G P starts ((false, e) :: s) vis h a out -> ~ In e vis ->
  inv T R G P starts (map (pair false) (nchildren (h e)) ++ (true, e) :: s) (e :: vis) h a out.
Proof.
  intros I Hv. destruct I as [IP ID IR ISR IV IRk IDj IO IG IS IDn ISS ISt]. split; try assumption.
  - intros b x Hx. apply in_app_iff in Hx as [Hx|[Hx|Hx]].
    + apply in_map_iff in Hx as (y & [= <- <-] & Hy). apply (IR e); [|exact Hy].
      apply (ISR false). left; reflexivity.
    + injection Hx as <- <-. apply (ISR false). left; reflexivity.
    + apply (ISR b). right; exact Hx.
  - intros v. rewrite in_app_iff. cbn [In]. rewrite IV. split.
    + intros [<-|[H|[H|H]]]; [right; right; left; reflexivity|left; exact H|discriminate H|].
      right; right; right; exact H.
    + intros [H|[H|[H|H]]]; [right; left; exact H| | |right; right; right; exact H].
      * apply in_map_iff in H as (y & H & _). discriminate H.
      * injection H as <-. left; reflexivity.
  - intros s1 c s2 E b x Hx. apply split_pushed in E as [[-> ->]|(s1' & -> & ->)].
    + apply in_map_iff in Hx as (y & [= <- <-] & Hy). eapply child_smaller; eassumption.
    + assert (Hec : size (T e) < size (T c)).
      { apply (IRk ((false, e) :: s1') c s2 eq_refl false). left; reflexivity. }
      apply in_app_iff in Hx as [Hx|[Hx|Hx]].
      * apply in_map_iff in Hx as (y & [= <- <-] & Hy).
        pose proof (child_smaller _ _ _ _ ID Hy). lia.
      * injection Hx as <- <-. exact Hec.
      * apply (IRk ((false, e) :: s1') c s2 eq_refl b). right; exact Hx.
  - intros v Hv'. apply in_app_iff in Hv' as [H|[H|H]].
    + apply in_map_iff in H as (y & H & _). discriminate H.
    + injection H as <-. intros Ho. apply Hv, IV. left; exact Ho.
    + apply IDj. right; exact H.
  - intros s1 d s2 E c Hc. apply split_pushed in E as [[-> ->]|(s1' & -> & ->)].
    + right. exists false. apply in_map; exact Hc.
    + destruct (IO ((false, e) :: s1') d s2 eq_refl c Hc) as [H|(b & [H|H])].
      * left; exact H.
      * injection H as <- <-. right. exists true. apply in_app_iff. right; left; reflexivity.
      * right. exists b. apply in_app_iff. right; right; exact H.
  - intros t Ht. destruct (ISt t Ht) as [H|(b & [H|H])]; [left; exact H| |].
    + injection H as <- <-. right. exists true. apply in_app_iff. right; left; reflexivity.
    + right. exists b. apply in_app_iff. right; right; exact H.
Qed.

(** Yielding a node. *)
Lemma inv_yield {A} T R G P starts e s vis h (a : A) out act h' a' :
  act_ok T R G P starts act ->
  inv T R G P starts ((true, e) :: s) vis h a out -> act e h a = (h', a') ->
  inv T R G P starts s vis h' a' (e :: out).
Proof.
  intros Hok I Ha. destruct I as [IP ID IR ISR IV IRk IDj IO IG IS IDn ISS ISt].
  assert (Heo : ~ In e out) by (apply IDj; left; reflexivity).
  assert (Hch : forall c, In c (nchildren (h e)) -> In c (G a)).
  { intros c Hc. destruct (IO [] e s eq_refl c Hc) as [H|(b & [])]. exact H. }
  destruct (Hok e h a out h' a' IP ID (ISR true e (or_introl eq_refl)) Heo IG Hch Ha)
    as (HP & HD & HG & HR & f & Hf1 & Hf0 & Hf2 & Hf3 & Hf4).
  assert (Hnf : forall c, In c (G a) -> In (f c) (G a')).
  { intros c Hc. destruct (Nat.eq_dec c e) as [->|Hne]; [exact Hf3|]. rewrite Hf2 by exact Hne. apply Hf4, Hc. }
  split; try assumption.
  - intros b x Hx. apply (ISR b). right; exact Hx.
  - intros v. rewrite IV. cbn [In]. split.
    + intros [H|[H|H]]; [left; right; exact H|left; left; congruence|right; exact H].
    + intros [[<-|H]|H]; [right; left; reflexivity|left; exact H|right; right; exact H].
  - intros s1 c s2 -> b x Hx. apply (IRk ((true, e) :: s1) c s2 eq_refl b). right; exact Hx.
  - intros v Hv [<-|Ho].
    + apply in_split in Hv as (s1 & s2 & ->).
      pose proof (IRk ((true, e) :: s1) e s2 eq_refl true e (or_introl eq_refl)). lia.
    + revert Ho. apply IDj. right; exact Hv.
  - intros s1 d s2 -> c Hc. rewrite Hf1 in Hc. apply in_map_iff in Hc as (c0 & <- & Hc0).
    destruct (Nat.eq_dec c0 e) as [->|Hne]; [left; exact Hf3|]. rewrite Hf2 by exact Hne.
    destruct (IO ((true, e) :: s1) d s2 eq_refl c0 Hc0) as [H|(b & [H|H])].
    + left. apply Hf4, H.
    + congruence.
    + right. exists b. exact H.
  - intros n c Hc Ho. rewrite Hf1 in Hc. apply in_map_iff in Hc as (c0 & <- & Hc0).
    destruct (Nat.eq_dec c0 e) as [->|Hne]; [exact Hf3|]. rewrite Hf2 in * by exact Hne.
    destruct Ho as [Ho|Ho]; [congruence|]. apply Hf4, (IS n); assumption.
  - intros n c Hn Hc. rewrite Hf1 in Hc. apply in_map_iff in Hc as (c0 & <- & Hc0). apply Hnf.
    destruct Hn as [<-|Hn]; [apply Hch; exact Hc0|apply (IDn n); assumption].
  - intros c Hc Ho. rewrite Hf0 in Hc. apply in_map_iff in Hc as (c0 & <- & Hc0).
    destruct (Nat.eq_dec c0 e) as [->|Hne]; [exact Hf3|]. rewrite Hf2 in * by exact Hne.
    destruct Ho as [Ho|Ho]; [congruence|]. apply Hf4, ISS; assumption.
  - intros t Ht. rewrite Hf0 in Ht. apply in_map_iff in Ht as (c0 & <- & Hc0).
    destruct (Nat.eq_dec c0 e) as [->|Hne]; [left; exact Hf3|]. rewrite Hf2 by exact Hne.
    destruct (ISt c0 Hc0) as [H|(b & [H|H])]; [left; apply Hf4, H|congruence|right; exists b; exact H].
Qed.

(** Partial correctness of the loop. *)
Lemma traverse_inv {A} T R G P starts act : act_ok T R G P starts act ->
  forall fuel stack vis h (a : A) out h' a',
    inv T R G P starts stack vis h a out -> traverse act fuel stack vis h a = Some (h', a') ->
    exists vis' out', inv T R G P starts [] vis' h' a' out'.
Proof.
  intros Hok. induction fuel as [|fuel IH]; intros stack vis h a out h' a' I E; [discriminate E|].
  destruct stack as [|[[|] e] s]; cbn [traverse] in E.
  - injection E as <- <-. exists vis, out. exact I.
  - destruct (act e h a) as [h1 a1] eqn:Ha. eapply IH; [|exact E]. eapply inv_yield; eassumption.
  - destruct (existsb (Nat.eqb e) vis) eqn:Ev.
    + eapply IH; [|exact E]. apply inv_skip with e; [exact I|apply existsb_in; exact Ev].
    + eapply IH; [|exact E]. apply inv_push; [exact I|]. rewrite <- existsb_in, Ev. discriminate.
Qed.

(** ** Termination *)
(** [Q] is preserved by every action and fixes the expression of each node. *)
Lemma traverse_more {A} (act : nat -> heap -> A -> heap * A) : forall fuel stack vis h a r k,
  traverse act fuel stack vis h a = Some r -> traverse act (k + fuel) stack vis h a = Some r.
Proof.
  induction fuel as [|fuel IH]; intros stack vis h a r k E; [discriminate E|].
  rewrite Nat.add_succ_r. cbn [traverse] in *.
  destruct stack as [|[[|] e] s]; [exact E| |].
  - destruct (act e h a). apply IH; exact E.
  - destruct (existsb (Nat.eqb e) vis); apply IH; exact E.
Qed.

Lemma traverse_node_ends {A} (T : nat -> tree) (R : nat -> Prop) (Q : heap -> A -> Prop) (act : nat -> heap -> A -> heap * A) :
  (forall h a, Q h a -> denotes h T /\ forall n c, R n -> In c (nchildren (h n)) -> R c) ->
  (forall e h a h' a', Q h a -> R e -> act e h a = (h', a') -> Q h' a') ->
  forall k es, (forall e, In e es -> R e /\ size (T e) < k) ->
  forall s vis h a, Q h a -> exists n vis' h' a', Q h' a' /\
    forall fuel, traverse act (n + fuel) (map (pair false) es ++ s) vis h a = traverse act fuel s vis' h' a'.
Proof.
  intros HQ Hact. induction k as [|k IHk]; intros es.
  - destruct es as [|e es]; intros Hes.
    + intros s vis h a Hq. exists 0, vis, h, a. split; [exact Hq|reflexivity].
    + destruct (Hes e (or_introl eq_refl)) as [_ H]. lia.
  - induction es as [|e es IHes]; intros Hes s vis h a Hq.
    + exists 0, vis, h, a. split; [exact Hq|reflexivity].
    + cbn [map app].
      assert (Hes' : forall x, In x es -> R x /\ size (T x) < S k) by (intros x Hx; apply Hes; right; exact Hx).
      destruct (Hes e (or_introl eq_refl)) as [He Hsz].
      destruct (existsb (Nat.eqb e) vis) eqn:Ev.
      * destruct (IHes Hes' s vis h a Hq) as (n & vis' & h' & a' & Hq' & E).
        exists (S n), vis', h', a'. split; [exact Hq'|]. intros fuel. cbn [traverse plus]. rewrite Ev. apply E.
      * destruct (HQ _ _ Hq) as [HD HR].
        destruct (IHk (nchildren (h e))
          ltac:(intros c Hc; split; [apply (HR e); assumption|pose proof (child_smaller _ _ _ _ HD Hc); lia])
          ((true, e) :: map (pair false) es ++ s) (e :: vis) h a Hq) as (n1 & vis1 & h1 & a1 & Hq1 & E1).
        destruct (act e h1 a1) as [h2 a2] eqn:Ea.
        destruct (IHes Hes' s vis1 h2 a2 (Hact _ _ _ _ _ Hq1 He Ea)) as (n2 & vis2 & h3 & a3 & Hq3 & E3).
        exists (S (n1 + S n2)), vis2, h3, a3. split; [exact Hq3|]. intros fuel.
        cbn [plus traverse]. rewrite Ev.
        replace (n1 + S n2 + fuel) with (n1 + (S n2 + fuel)) by lia. rewrite E1.
        cbn [plus traverse]. rewrite Ea. apply E3.
Qed.

Lemma traverse_ends {A} (T : nat -> tree) (R : nat -> Prop) (Q : heap -> A -> Prop) (act : nat -> heap -> A -> heap * A) es h a :
  (forall h a, Q h a -> denotes h T /\ forall n c, R n -> In c (nchildren (h n)) -> R c) ->
  (forall e h a h' a', Q h a -> R e -> act e h a = (h', a') -> Q h' a') ->
  (forall e, In e es -> R e) -> Q h a ->
  exists n r, forall fuel, n <= fuel -> traverse act fuel (map (pair false) es) [] h a = Some r.
Proof.
  intros HQ Hact HR Hq.
  destruct (traverse_node_ends T R Q act HQ Hact (S (list_max (map (fun e => size (T e)) es))) es) with
    (s := @nil (bool * nat)) (vis := @nil nat) (h := h) (a := a) as (n & vis' & h' & a' & _ & E); [|exact Hq|].
  - intros e He. split; [apply HR; exact He|].
    enough (size (T e) <= list_max (map (fun e => size (T e)) es)) by lia.
    pose proof (proj1 (list_max_le (map (fun e => size (T e)) es) _) (le_n _)) as H.
    rewrite Forall_forall in H. apply H. apply (in_map (fun e => size (T e))). exact He.
  - exists (n + 1), (h', a'). intros fuel Hf. replace fuel with ((fuel - (n + 1)) + (n + 1)) by lia.
    apply traverse_more. rewrite <- (app_nil_r (map (pair false) es)), E. reflexivity.
Qed.

(** ** C15: the plain traversal *)
Inductive ordered_out (h : heap) : list nat -> Prop :=
| oo_nil : ordered_out h []
| oo_cons e out : ordered_out h out -> ~ In e out -> (forall c, In c (nchildren (h e)) -> In c out) ->
                  ordered_out h (e :: out).

Lemma ordered_out_nodup h out : ordered_out h out -> NoDup out.
Proof. induction 1; constructor; assumption. Qed.
Lemma ordered_out_before h out : ordered_out h out -> forall l1 e l2, out = l1 ++ e :: l2 ->
  forall c, In c (nchildren (h e)) -> In c l2.
Proof.
  induction 1 as [|x out Ho IH Hx Hc]; intros l1 e l2 E c Hin.
  - destruct l1; discriminate E.
  - destruct l1 as [|y l1]; cbn in E; injection E as -> ->; [apply Hc; exact Hin|].
    eapply IH; [reflexivity|exact Hin].
Qed.

Lemma postorder_correct h T starts : denotes h T ->
  exists fuel0 out, (forall fuel, fuel0 <= fuel -> postorder fuel h starts = Some out) /\
    NoDup out /\ (forall n, In n out <-> reachable h starts n) /\
    (forall l1 n l2, out = l1 ++ n :: l2 -> forall c, In c (nchildren (h n)) -> In c l1).
Proof.
  intros HD.
  set (act := fun (e : nat) (h : heap) (out : list nat) => (h, out ++ [e])).
  set (R := reachable h starts).
  destruct (traverse_ends T R (fun h' _ => h' = h) act (rev starts) h (@nil nat)) as (n & [h' out] & E).
  - intros h1 a ->. split; [exact HD|]. intros m c Hm Hc. eapply reach_child; eassumption.
  - intros e h1 a h2 a2 -> _ [= <- <-]. reflexivity.
  - intros e He. apply reach_start. apply in_rev; exact He.
  - reflexivity.
  - exists n, out. split.
    { intros fuel Hf. unfold postorder. fold act. rewrite (E fuel Hf). reflexivity. }
    set (P := fun (h' : heap) (a : list nat) (o : list nat) => h' = h /\ a = rev o /\ ordered_out h o /\ Forall R o).
    assert (Hok : act_ok T R (fun a => a) P (fun _ => starts) act).
    { intros e h1 a o h2 a2 (-> & -> & Ho & HRo) _ He Hno Hi Hc [= <- <-].
      split; [|split; [exact HD|]].
      - split; [reflexivity|]. split; [reflexivity|]. split; [|constructor; assumption].
        constructor; [exact Ho|exact Hno|]. intros c Hc'. apply Hi, Hc, Hc'.
      - split; [|split].
        + intros x Hx. apply in_app_iff in Hx as [Hx|[<-|[]]]; [right; apply Hi, Hx|left; reflexivity].
        + intros m c Hm Hc'. eapply reach_child; eassumption.
        + exists (fun x => x). split; [intros m; rewrite map_id; reflexivity|]. split; [rewrite map_id; reflexivity|].
          split; [reflexivity|]. split; [apply in_app_iff; right; left; reflexivity|].
          intros x Hx. apply in_app_iff. left; exact Hx. }
    destruct (traverse_inv T R (fun a => a) P (fun _ => starts) act Hok n (map (pair false) (rev starts)) [] h [] [] h' out)
      as (vis' & o & I); [|apply E; lia|].
    { split.
      - split; [reflexivity|]. split; [reflexivity|]. split; constructor.
      - exact HD.
      - intros m c Hm Hc. eapply reach_child; eassumption.
      - intros b x Hx. apply in_map_iff in Hx as (y & [= <- <-] & Hy). apply reach_start, in_rev, Hy.
      - intros v. cbn [In]. split; [intros []|]. intros [[]|H].
        apply in_map_iff in H as (y & H & _). discriminate H.
      - intros s1 c s2 Es. assert (H : In (true, c) (map (pair false) (rev starts))).
        { rewrite Es. apply in_app_iff. right; left; reflexivity. }
        apply in_map_iff in H as (y & H & _). discriminate H.
      - intros v Hv []. 
      - intros s1 c s2 Es. assert (H : In (true, c) (map (pair false) (rev starts))).
        { rewrite Es. apply in_app_iff. right; left; reflexivity. }
        apply in_map_iff in H as (y & H & _). discriminate H.
      - intros x [].
      - intros m c _ [].
      - intros m c [].
      - intros c _ [].
      - intros s Hs. right. exists false. apply in_map. rewrite <- in_rev. exact Hs. }
    destruct (inv_P _ _ _ _ _ _ _ _ _ _ I) as (-> & -> & Ho & HRo).
    split; [apply NoDup_rev, (ordered_out_nodup h), Ho|]. split.
    + intros m. rewrite <- in_rev. split.
      * rewrite Forall_forall in HRo. apply HRo.
      * induction 1 as [m Hm|m c Hm IH Hc].
        -- destruct (inv_starts _ _ _ _ _ _ _ _ _ _ I m Hm) as [H|(b & [])]. apply in_rev; exact H.
        -- apply in_rev. eapply (inv_done _ _ _ _ _ _ _ _ _ _ I); eassumption.
    + intros l1 m l2 Es c Hc. apply (f_equal (@rev nat)) in Es. rewrite rev_involutive, rev_app_distr in Es.
      cbn [rev] in Es. rewrite <- app_assoc in Es. apply in_rev.
      eapply ordered_out_before; [exact Ho|exact Es|exact Hc].
Qed.
