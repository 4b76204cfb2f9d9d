(** * Arrays, structs and set aggregation (proofs) *)
From Coq Require Import List Arith ZArith Bool Lia.
Require Import Verif.Sugar Verif.SugarSpec.
Import ListNotations.

(** ** Lists of options *)
Lemma all_some_forall2 {A B} (f : A -> option B) l r :
  all_some (map f l) = Some r <-> Forall2 (fun x y => f x = Some y) l r.
Proof.
  revert r. induction l as [|x l IH]; intros r; cbn.
  - split; [intros [= <-]; constructor | intros H; inversion H; reflexivity].
  - split.
    + unfold bind. destruct (f x) as [y|] eqn:E; [|discriminate].
      destruct (all_some (map f l)) as [r'|]; [|discriminate]. intros [= <-]. constructor; [exact E|apply IH; reflexivity].
    + intros H. inversion H as [|? y ? r' Hx Hr]; subst. rewrite Hx. apply IH in Hr. cbn. rewrite Hr. reflexivity.
Qed.
Lemma bind_some {A B} (o : option A) (f : A -> option B) r : bind o f = Some r -> exists a, o = Some a /\ f a = Some r.
Proof. destruct o as [a|]; cbn; [intros H; exists a; split; [reflexivity|exact H]|discriminate]. Qed.
Lemma forall2_nth {A B} (R : A -> B -> Prop) l m i x : Forall2 R l m -> nth_error l i = Some x ->
  exists y, nth_error m i = Some y /\ R x y.
Proof.
  intros H. revert i. induction H as [|a b l m Ha Hl IH]; intros [|i]; cbn; try discriminate.
  - intros [= <-]. exists b. split; [reflexivity|exact Ha].
  - apply IH.
Qed.
Lemma forall2_firstn {A B} (R : A -> B -> Prop) n l m : Forall2 R l m -> Forall2 R (firstn n l) (firstn n m).
Proof. intros H. revert n. induction H; intros [|n]; cbn; constructor; auto. Qed.
Lemma forall2_skipn {A B} (R : A -> B -> Prop) n l m : Forall2 R l m -> Forall2 R (skipn n l) (skipn n m).
Proof. intros H. revert n. induction H; intros [|n]; cbn; try constructor; auto. Qed.
Lemma forall2_sym {A B} (R : A -> B -> Prop) l m : Forall2 R l m -> Forall2 (fun y x => R x y) m l.
Proof. intros H. induction H; constructor; auto. Qed.
Lemma forall2_len {A B} (R : A -> B -> Prop) l m : Forall2 R l m -> length l = length m.
Proof. intros H. induction H; cbn; auto. Qed.

(** ** Induction *)
Lemma term_ind' (P : term -> Prop) :
  (forall x, P (Var x)) -> (forall h l, Forall P l -> P (Node h l)) ->
  (forall k x s b, P s -> P b -> P (Quant k x s b)) -> (forall k x s n b, P s -> P n -> P b -> P (Count k x s n b)) ->
  forall t, P t.
Proof.
  intros HV HN HQ HC. fix IH 1. intros [x|h l|k x s b|k x s n b].
  - apply HV.
  - apply HN. induction l as [|t l IHl]; constructor; [apply IH|exact IHl].
  - apply HQ; apply IH.
  - apply HC; apply IH.
Qed.

Lemma fold_and {A} (P : A -> Prop) l : fold_right (fun t Q => P t /\ Q) True l <-> Forall P l.
Proof. induction l as [|x l IH]; cbn; [split; [constructor|trivial]|rewrite IH; split; [intros [? ?]; constructor; assumption|intros H; inversion H; auto]]. Qed.

(** ** The traversal *)
Lemma unbind_some b x b' : unbind b x = Some b' <-> In x b /\ b' = filter (fun y => negb (x =? y)) b.
Proof.
  unfold unbind. destruct (existsb (Nat.eqb x) b) eqn:E.
  - apply existsb_exists in E. destruct E as (y & Hy & Exy). apply Nat.eqb_eq in Exy. subst y.
    split; [intros [= <-]; auto|intros [_ ->]; reflexivity].
  - split; [discriminate|intros [H _]]. exfalso. rewrite <- not_true_iff_false in E. apply E.
    apply existsb_exists. exists x. split; [exact H|apply Nat.eqb_refl].
Qed.
Definition left_over (b b' c : list nat) := forall y, In y b' <-> In y b /\ ~ In y c.
Definition walk_list := fix go (l : list term) (b : list nat) :=
  match l with [] => Some b | t :: l => b1 <- walk t b ;; go l b1 end.
Lemma walk_node h l b : walk (Node h l) b = walk_list l b. Proof. reflexivity. Qed.
Lemma walk_spec t : forall b,
  match walk t b with
  | Some b' => unshadowed t /\ left_over b b' (bound t)
  | None => ~ unshadowed t
  end.
Proof.
  induction t as [x|h l IH|k x s bd IHs IHb|k x s n bd IHs IHn IHb] using term_ind'; intros b.
  - cbn. split; [trivial|]. intros y. tauto.
  - rewrite walk_node. cbn [unshadowed bound]. revert b. induction IH as [|t l Ht Hl IHl]; intros b.
    + cbn. split; [trivial|]. intros y. tauto.
    + cbn [walk_list]. specialize (Ht b). destruct (walk t b) as [b1|]; cbn [bind].
      * specialize (IHl b1). destruct (walk_list l b1) as [b2|].
        -- destruct Ht as [U1 L1], IHl as [U2 L2]. split; [cbn; auto|]. intros y. cbn. rewrite in_app_iff.
           specialize (L1 y). specialize (L2 y). tauto.
        -- cbn. tauto.
      * cbn. tauto.
  - cbn [walk unshadowed bound]. specialize (IHs b). destruct (walk s b) as [b1|]; cbn [bind]; [|tauto].
    specialize (IHb (x :: b1)). destruct (walk bd (x :: b1)) as [b2|]; cbn [bind]; [|tauto].
    destruct IHs as [U1 L1], IHb as [U2 L2]. destruct (unbind b2 x) as [b3|] eqn:E.
    + apply unbind_some in E. destruct E as [Hx ->]. pose proof (proj1 (L2 x) Hx) as [_ Nx]. split; [auto|].
      intros y. rewrite filter_In. cbn. rewrite in_app_iff. specialize (L1 y). specialize (L2 y). cbn in L2.
      destruct (Nat.eqb_spec x y) as [->|Ne]; cbn; [intuition discriminate|intuition congruence].
    + intros (N & _). assert (In x b2) as Hx by (apply L2; split; [left; reflexivity|exact N]).
      assert (unbind b2 x = Some (filter (fun y => negb (x =? y)) b2)) as E' by (apply unbind_some; auto). congruence.
  - cbn [walk unshadowed bound]. specialize (IHs b). destruct (walk s b) as [b1|]; cbn [bind]; [|tauto].
    specialize (IHn b1). destruct (walk n b1) as [b2|]; cbn [bind]; [|tauto].
    specialize (IHb (x :: b2)). destruct (walk bd (x :: b2)) as [b3|]; cbn [bind]; [|tauto].
    destruct IHs as [U1 L1], IHn as [U2 L2], IHb as [U3 L3]. destruct (unbind b3 x) as [b4|] eqn:E.
    + apply unbind_some in E. destruct E as [Hx ->]. pose proof (proj1 (L3 x) Hx) as [_ Nx]. split; [auto|].
      intros y. rewrite filter_In. cbn. rewrite !in_app_iff. specialize (L1 y). specialize (L2 y). specialize (L3 y). cbn in L3.
      destruct (Nat.eqb_spec x y) as [->|Ne]; cbn; [intuition discriminate|intuition congruence].
    + intros (N & _). assert (In x b3) as Hx by (apply L3; split; [left; reflexivity|exact N]).
      assert (unbind b3 x = Some (filter (fun y => negb (x =? y)) b3)) as E' by (apply unbind_some; auto). congruence.
Qed.
Lemma walk_unshadowed t b : (exists b', walk t b = Some b') <-> unshadowed t.
Proof.
  pose proof (walk_spec t b) as H. destruct (walk t b) as [b'|].
  - split; [tauto|]. intros _. exists b'. reflexivity.
  - split; [intros [? ?]; discriminate|tauto].
Qed.
Lemma traversed_some {A} t (o : option A) r : traversed t o = Some r <-> unshadowed t /\ o = Some r.
Proof.
  unfold traversed. rewrite <- (walk_unshadowed t []). destruct (walk t []) as [b|]; cbn.
  - split; [intros H; split; [exists b; reflexivity|exact H]|tauto].
  - split; [discriminate|intros [[? ?] _]; discriminate].
Qed.

(** ** Struct accesses keep binders *)
Lemma member_in names l m e : member names l m = Some e -> In e l.
Proof.
  revert l. induction names as [|n names IH]; intros [|x l]; cbn; try discriminate.
  destruct (n =? m); [intros [= <-]; auto|]. intros H. right. apply IH, H.
Qed.
Lemma access_cases h l' t' :
  match h, l' with
  | HAccess m, [Node (HStruct names) es] => member names es m
  | _, _ => Some (Node h l')
  end = Some t' ->
  t' = Node h l' \/ exists m names es, h = HAccess m /\ l' = [Node (HStruct names) es] /\ member names es m = Some t'.
Proof.
  destruct h as [k|o| | | |r| |i|i j|names|m]; try (intros [= <-]; left; reflexivity).
  destruct l' as [|[x|[k|o| | | |r| |i|i j|names|m'] es|? ? ? ?|? ? ? ? ?] [|? ?]]; try (intros [= <-]; left; reflexivity).
  intros H. right. exists m, names, es. auto.
Qed.

Lemma flat_map_incl {A B} (f g : A -> list B) l l' : Forall2 (fun x y => incl (g y) (f x)) l l' -> incl (flat_map g l') (flat_map f l).
Proof. intros H. induction H as [|x y l l' Hx Hl IH]; cbn; [apply incl_refl|]. apply incl_app; [apply incl_appl, Hx|apply incl_appr, IH]. Qed.
Lemma in_bound_node e h l : In e l -> incl (bound e) (bound (Node h l)).
Proof. intros H y Hy. cbn. apply in_flat_map. exists e. auto. Qed.

(** A pass that only drops and moves parts of the term. *)
Definition tame (t t' : term) :=
  incl (bound t') (bound t) /\ length (bound t') <= length (bound t) /\ (unshadowed t -> unshadowed t') /\ (flat_sets t -> flat_sets t').
Lemma tame_forall2 (f : term -> option term) l l' :
  Forall (fun t => forall t', f t = Some t' -> tame t t') l -> Forall2 (fun x y => f x = Some y) l l' -> Forall2 tame l l'.
Proof. intros H F. induction F as [|x y l l' E F IH]; constructor; inversion H; subst; auto. Qed.
Lemma tame_node h h' l l' : Forall2 tame l l' -> tame (Node h l) (Node h' l').
Proof.
  intros F. split; [|split; [|split]].
  - cbn. apply flat_map_incl. induction F as [|x y l l' [I _] F IH]; constructor; auto.
  - cbn. induction F as [|x y l l' (_ & L & _) F IH]; cbn; [lia|]. rewrite !app_length. lia.
  - cbn. rewrite !fold_and. intros U. induction F as [|x y l l' (_ & _ & I & _) F IH]; constructor; inversion U; subst; auto.
  - cbn. rewrite !fold_and. intros U. induction F as [|x y l l' (_ & _ & _ & I) F IH]; constructor; inversion U; subst; auto.
Qed.
Lemma tame_trans a b c : tame a b -> tame b c -> tame a c.
Proof. intros (I & L & U & W) (J & M & V & X). split; [eapply incl_tran; eassumption|]. split; [lia|auto]. Qed.
Lemma tame_part h l e : In e l -> tame (Node h l) e.
Proof.
  intros H. split; [apply in_bound_node, H|]. split; [|cbn; rewrite !fold_and, !Forall_forall; auto].
  cbn. induction l as [|x l IH]; [contradiction|]. cbn. rewrite app_length. destruct H as [->|H]; [lia|]. specialize (IH H). lia.
Qed.
Lemma tame_slice h h' l i n : tame (Node h l) (Node h' (firstn n (skipn i l))).
Proof.
  assert (forall e, In e (firstn n (skipn i l)) -> In e l) as S.
  { intros e He. rewrite <- (firstn_skipn i l). apply in_or_app. right. rewrite <- (firstn_skipn n (skipn i l)). apply in_or_app. auto. }
  split; [|split; [|split]].
  - intros y Hy. cbn in *. apply in_flat_map in Hy. destruct Hy as (e & He & Hy). apply in_flat_map. exists e. auto.
  - cbn. rewrite <- (firstn_skipn i l) at 2. rewrite <- (firstn_skipn n (skipn i l)) at 2. rewrite !flat_map_app, !app_length. lia.
  - cbn. rewrite !fold_and, !Forall_forall. auto.
  - cbn. rewrite !fold_and, !Forall_forall. auto.
Qed.
Lemma incl_nil {A} (l : list A) : incl l [] -> l = [].
Proof. destruct l as [|x l]; [reflexivity|]. intros H. destruct (H x). left. reflexivity. Qed.
Lemma tame_quant k x s b s' b' : tame s s' -> tame b b' -> tame (Quant k x s b) (Quant k x s' b').
Proof.
  intros (I & L & U & W) (J & M & V & X). split; [|split; [|split]].
  - cbn. intros y [Hy|Hy]; [left; exact Hy|right]. rewrite in_app_iff in *. destruct Hy; auto.
  - cbn. rewrite !app_length. lia.
  - cbn. intros (N & A & B). split; [|auto]. intros H. apply N, J, H.
  - cbn. intros (E & B). split; [|auto]. rewrite E in I. apply incl_nil, I.
Qed.
Lemma tame_count k x s n b s' n' b' : tame s s' -> tame n n' -> tame b b' -> tame (Count k x s n b) (Count k x s' n' b').
Proof.
  intros (I & L & U & W) (K & O & T & Y) (J & M & V & X). split; [|split; [|split]].
  - cbn. intros y [Hy|Hy]; [left; exact Hy|right]. rewrite !in_app_iff in *. destruct Hy as [?|[?|?]]; auto.
  - cbn. rewrite !app_length. lia.
  - cbn. intros (N & A & B & C). split; [|auto]. intros H. apply N, J, H.
  - cbn. intros (E & B & C). split; [|auto]. rewrite E in I. apply incl_nil, I.
Qed.
Lemma structs_tame t : forall t', resolve_structs t = Some t' -> tame t t'.
Proof.
  induction t as [x|h l IH|k x s b IHs IHb|k x s n b IHs IHn IHb] using term_ind'; intros t' H; cbn [resolve_structs] in H.
  - injection H as <-. split; [apply incl_refl|auto].
  - apply bind_some in H. destruct H as (l' & Hl & H). apply all_some_forall2 in Hl. pose proof (tame_forall2 _ _ _ IH Hl) as F.
    apply access_cases in H. destruct H as [->|(m & names & es & -> & -> & M)]; [apply tame_node, F|].
    eapply tame_trans; [apply (tame_node _ (HAccess m)), F|]. eapply tame_trans; [apply tame_part; left; reflexivity|].
    apply tame_part. eapply member_in, M.
  - apply bind_some in H. destruct H as (s' & Hs & H). apply bind_some in H. destruct H as (b' & Hb & H). injection H as <-.
    apply tame_quant; auto.
  - apply bind_some in H. destruct H as (s' & Hs & H). apply bind_some in H. destruct H as (n' & Hn & H).
    apply bind_some in H. destruct H as (b' & Hb & H). injection H as <-. apply tame_count; auto.
Qed.

(** ** No element accesses *)
Fixpoint no_index (t : term) : Prop :=
  match t with
  | Var _ => True
  | Node h l => match h with HIndex _ | HSlice _ _ => False | _ => True end /\ fold_right (fun t P => no_index t /\ P) True l
  | Quant _ _ s b => no_index s /\ no_index b
  | Count _ _ s n b => no_index s /\ no_index n /\ no_index b
  end.
Lemma structs_no_index t : forall t', resolve_structs t = Some t' -> no_index t -> no_index t'.
Proof.
  induction t as [x|h l IH|k x s b IHs IHb|k x s n b IHs IHn IHb] using term_ind'; intros t' H N; cbn [resolve_structs] in H.
  - injection H as <-. exact N.
  - apply bind_some in H. destruct H as (l' & Hl & H). apply all_some_forall2 in Hl. cbn in N. destruct N as [Nh Nl].
    apply fold_and in Nl.
    assert (Forall no_index l') as Nl'.
    { clear H. induction Hl as [|a b l l' E Hl IHl]; constructor; inversion IH; inversion Nl; subst; auto. }
    apply access_cases in H. destruct H as [->|(m & names & es & -> & -> & M)].
    + cbn. split; [exact Nh|apply fold_and, Nl'].
    + inversion Nl'; subst. cbn in H1. destruct H1 as [_ Ne]. apply fold_and in Ne. rewrite Forall_forall in Ne.
      apply Ne. eapply member_in, M.
  - apply bind_some in H. destruct H as (s' & Hs & H). apply bind_some in H. destruct H as (b' & Hb & H). injection H as <-.
    cbn in *. destruct N; auto.
  - apply bind_some in H. destruct H as (s' & Hs & H). apply bind_some in H. destruct H as (n' & Hn & H).
    apply bind_some in H. destruct H as (b' & Hb & H). injection H as <-. cbn in *. destruct N as (? & ? & ?); auto.
Qed.
Lemma no_index_slice t : no_index t -> has_slice t = false.
Proof.
  induction t as [x|h l IH|k x s b IHs IHb|k x s n b IHs IHn IHb] using term_ind'; cbn.
  - reflexivity.
  - intros [Nh Nl]. apply fold_and in Nl. assert (existsb has_slice l = false) as E.
    { clear Nh. induction IH as [|t l Ht Hl IHl]; cbn; [reflexivity|]. inversion Nl; subst. rewrite Ht by assumption. auto. }
    destruct h; try exact E; contradiction.
  - intros [? ?]. rewrite IHs, IHb by assumption. reflexivity.
  - intros (? & ? & ?). rewrite IHs, IHn, IHb by assumption. reflexivity.
Qed.
Lemma no_index_subst x e t : no_index e -> no_index t -> no_index (subst x e t).
Proof.
  intros Ne. induction t as [y|h l IH|k y s b IHs IHb|k y s n b IHs IHn IHb] using term_ind'; cbn.
  - destruct (y =? x); auto.
  - intros [Nh Nl]. split; [exact Nh|]. rewrite fold_and in *. rewrite Forall_map. rewrite Forall_forall in *. intros z Hz. auto.
  - intros [? ?]; auto.
  - intros (? & ? & ?); auto.
Qed.
Lemma rename_subst x e t : no_index t -> unshadowed t -> rename x e t = Some (subst x e t).
Proof.
  intros N U. destruct t as [y|h l|k y s b|k y s n b]; [reflexivity| | |]; unfold rename; cbv iota beta;
    destruct (proj2 (walk_unshadowed _ []) U) as [b' ->]; cbn [bind]; rewrite no_index_slice by exact N; reflexivity.
Qed.
Lemma rename_some x e t r : rename x e t = Some r -> r = subst x e t.
Proof.
  destruct t as [y|h l|k y s b|k y s n b]; [intros [= <-]; reflexivity| | |]; unfold rename; cbv iota beta; intros H;
    apply bind_some in H; destruct H as (? & _ & H);
    match type of H with (if ?c then _ else _) = _ => destruct c; [discriminate|injection H as <-; reflexivity] end.
Qed.
Lemma bound_subst x e t : bound e = [] -> bound (subst x e t) = bound t.
Proof.
  intros E. induction t as [y|h l IH|k y s b IHs IHb|k y s n b IHs IHn IHb] using term_ind'; cbn.
  - destruct (y =? x); [exact E|reflexivity].
  - induction IH as [|t l Ht Hl IHl]; cbn; [reflexivity|]. rewrite Ht, IHl. reflexivity.
  - rewrite IHs, IHb. reflexivity.
  - rewrite IHs, IHn, IHb. reflexivity.
Qed.
Lemma bound_nil_unshadowed t : bound t = [] -> unshadowed t.
Proof.
  induction t as [y|h l IH|k y s b IHs IHb|k y s n b IHs IHn IHb] using term_ind'; cbn; try discriminate; [trivial|].
  intros E. apply fold_and. induction IH as [|t l Ht Hl IHl]; constructor; cbn in E; apply app_eq_nil in E; destruct E; auto.
Qed.
Lemma flat_subst x e t : bound e = [] -> flat_sets t -> flat_sets (subst x e t).
Proof.
  intros E. assert (forall e, bound e = [] -> flat_sets e) as F.
  { clear. induction e as [y|h l IH|k y s b IHs IHb|k y s n b IHs IHn IHb] using term_ind'; cbn; try discriminate; [trivial|].
    intros E. apply fold_and. induction IH as [|t l Ht Hl IHl]; constructor; cbn in E; apply app_eq_nil in E; destruct E; auto. }
  induction t as [y|h l IH|k y s b IHs IHb|k y s n b IHs IHn IHb] using term_ind'; cbn; intros U.
  - destruct (y =? x); [apply F, E|exact I].
  - rewrite fold_and in *. rewrite Forall_map. rewrite Forall_forall in *. auto.
  - destruct U as (A & B). rewrite bound_subst by exact E. auto.
  - destruct U as (A & M & B). rewrite bound_subst by exact E. auto.
Qed.
Lemma unshadowed_subst x e t : bound e = [] -> unshadowed t -> unshadowed (subst x e t).
Proof.
  intros E. induction t as [y|h l IH|k y s b IHs IHb|k y s n b IHs IHn IHb] using term_ind'; cbn; intros U.
  - destruct (y =? x); [apply bound_nil_unshadowed, E|exact I].
  - rewrite fold_and in *. rewrite Forall_map. rewrite Forall_forall in *. auto.
  - destruct U as (N & A & B). rewrite bound_subst by exact E. auto.
  - destruct U as (N & A & M & B). rewrite bound_subst by exact E. auto.
Qed.

Section Meaning.
  Variable real : Type.
  Variable real_rel : rel -> real -> real -> bool.
  Variable leaf : nat -> stream real.
  Variable ops : nat -> list (stream real) -> option (stream real).
  Notation eval := (eval real_rel leaf ops).
  Notation apply := (apply real_rel leaf ops).
  Notation den := (den real).

  (** ** The same value *)
  Lemma den_ind' (P : den -> Prop) :
    (forall s, P (Val s)) -> (forall l, Forall P l -> P (Arr l)) -> (forall l, Forall (fun p => P (snd p)) l -> P (Rec l)) ->
    forall d, P d.
  Proof.
    intros HV HA HR. fix IH 1. intros [s|l|l].
    - apply HV.
    - apply HA. induction l as [|d l IHl]; constructor; [apply IH|exact IHl].
    - apply HR. induction l as [|d l IHl]; constructor; [apply IH|exact IHl].
  Qed.
  Lemma same_stream_refl (s : stream real) : same_stream s s.
  Proof. destruct s; constructor; reflexivity. Qed.
  Lemma same_refl (d : den) : same d d.
  Proof.
    induction d as [s|l IH|l IH] using den_ind'; constructor.
    - apply same_stream_refl.
    - induction IH; constructor; auto.
    - induction IH; constructor; auto.
  Qed.
  Lemma same_stream_trans (a b c : stream real) : same_stream a b -> same_stream b c -> same_stream a c.
  Proof. intros H K. destruct H; inversion K; subst; constructor; intros t; etransitivity; eauto. Qed.
  Lemma same_trans (a b c : den) : same a b -> same b c -> same a c.
  Proof.
    revert b c. induction a as [s|l IH|l IH] using den_ind'; intros b c H K.
    - inversion H; subst. inversion K; subst. constructor. eapply same_stream_trans; eassumption.
    - inversion H as [|? m F|]; subst. inversion K as [|? m' G|]; subst. constructor. clear H K.
      revert m m' F G. induction IH as [|x l Hx Hl IHl]; intros m m' F G.
      + inversion F; subst. inversion G; subst. constructor.
      + inversion F as [|? y ? mr Fx Fr]; subst. inversion G as [|? z ? mr' Gx Gr]; subst. constructor; eauto.
    - inversion H as [| |? m F]; subst. inversion K as [| |? m' G]; subst. constructor. clear H K.
      revert m m' F G. induction IH as [|x l Hx Hl IHl]; intros m m' F G.
      + inversion F; subst. inversion G; subst. constructor.
      + inversion F as [|? y ? mr Fx Fr]; subst. inversion G as [|? z ? mr' Gx Gr]; subst. constructor; [|eauto].
        destruct Fx, Gx. split; [congruence|eauto].
  Qed.
  Lemma vals_same (ds ds' : list den) ss : Forall2 same ds ds' -> all_some (map val ds) = Some ss ->
    exists ss', all_some (map val ds') = Some ss' /\ Forall2 same_stream ss ss'.
  Proof.
    intros F. revert ss. induction F as [|d d' ds ds' Hd F IH]; intros ss H; cbn in *.
    - injection H as <-. exists []. auto.
    - apply bind_some in H. destruct H as (s & Hs & H). apply bind_some in H. destruct H as (r & Hr & H). injection H as <-.
      destruct (IH _ Hr) as (r' & Er & Fr). destruct Hd as [a b E| |]; try discriminate. injection Hs as <-.
      cbn. rewrite Er. cbn. eauto.
  Qed.
  Lemma bits_same (ds ds' : list den) fs : Forall2 same ds ds' -> all_some (map bits ds) = Some fs ->
    exists gs, all_some (map bits ds') = Some gs /\ Forall2 (fun f g : nat -> bool => forall t, f t = g t) fs gs.
  Proof.
    intros F. revert fs. induction F as [|d d' ds ds' Hd F IH]; intros ss H; cbn in *.
    - injection H as <-. exists []. auto.
    - apply bind_some in H. destruct H as (s & Hs & H). apply bind_some in H. destruct H as (r & Hr & H). injection H as <-.
      destruct (IH _ Hr) as (r' & Er & Fr). destruct Hd as [a b E| |]; try discriminate. destruct E as [f g E| |]; try discriminate.
      injection Hs as <-. cbn. rewrite Er. cbn. eauto.
  Qed.
  Lemma ints_same (ss ss' : list (stream real)) fs : Forall2 same_stream ss ss' -> all_some (map ints ss) = Some fs ->
    exists gs, all_some (map ints ss') = Some gs /\ Forall2 (fun f g : nat -> Z => forall t, f t = g t) fs gs.
  Proof.
    intros F. revert fs. induction F as [|d d' ds ds' Hd F IH]; intros fs H; cbn in *.
    - injection H as <-. exists []. auto.
    - apply bind_some in H. destruct H as (s & Hs & H). apply bind_some in H. destruct H as (r & Hr & H). injection H as <-.
      destruct (IH _ Hr) as (r' & Er & Fr).
      destruct Hd as [f g E|f g E|f g E]; try discriminate; injection Hs as <-; cbn; rewrite Er; cbn; eexists; split; try reflexivity;
        constructor; auto. intros t. rewrite E. reflexivity.
  Qed.
  Lemma forallb_same (fs gs : list (nat -> bool)) t : Forall2 (fun f g : nat -> bool => forall t, f t = g t) fs gs ->
    forallb (fun f => f t) fs = forallb (fun f => f t) gs.
  Proof. intros F. induction F as [|f g fs gs E F IH]; cbn; [reflexivity|]. rewrite E, IH. reflexivity. Qed.
  Lemma existsb_same (fs gs : list (nat -> bool)) t : Forall2 (fun f g : nat -> bool => forall t, f t = g t) fs gs ->
    existsb (fun f => f t) fs = existsb (fun f => f t) gs.
  Proof. intros F. induction F as [|f g fs gs E F IH]; cbn; [reflexivity|]. rewrite E, IH. reflexivity. Qed.
  Lemma total_same (fs gs : list (nat -> Z)) t : Forall2 (fun f g : nat -> Z => forall t, f t = g t) fs gs ->
    total (map (fun f => f t) fs) = total (map (fun f => f t) gs).
  Proof. intros F. unfold total. induction F as [|f g fs gs E F IH]; cbn; [reflexivity|]. rewrite E, IH. reflexivity. Qed.
  Lemma rel_stream_same r (a a' b b' : stream real) f : same_stream a a' -> same_stream b b' -> rel_stream real_rel r a b = Some f ->
    exists g, rel_stream real_rel r a' b' = Some g /\ forall t, f t = g t.
  Proof.
    intros [p p' E|p p' E|p p' E] [q q' F|q q' F|q q' F]; cbn; try discriminate; intros [= <-]; eexists; split; try reflexivity;
      intros t; cbn; rewrite E, F; reflexivity.
  Qed.
  Definition rel_list r := fix go (l m : list den) :=
     match l, m with
     | [], [] => Some (fun _ : nat => true)
     | x :: l, y :: m => f <- rel_den real_rel r x y ;; g <- go l m ;; Some (fun t => f t && g t)
     | _, _ => None
     end.
  Lemma rel_den_arr r l m : rel_den real_rel r (Arr l) (Arr m) = rel_list r l m. Proof. reflexivity. Qed.
  Lemma rel_den_same r : forall d d' e e' f, same d d' -> same e e' -> rel_den real_rel r d e = Some f ->
    exists g, rel_den real_rel r d' e' = Some g /\ forall t, f t = g t.
  Proof.
    induction d as [s|l IH|l IH] using den_ind'; intros d' e e' f H K R.
    - inversion H; subst. destruct K; try discriminate. cbn in *. eapply rel_stream_same; eassumption.
    - inversion H as [|? l' F|]; subst. destruct K as [|m m' G|]; try discriminate. rewrite rel_den_arr in *. clear H.
      revert l' m m' f F G R. induction IH as [|x l Hx Hl IHl]; intros l' m m' f F G R.
      + inversion F; subst. destruct G; try discriminate. cbn in *. exists f. auto.
      + inversion F as [|? x' ? lr Fx Fr]; subst. destruct G as [|y y' m m' Gy Gm]; [discriminate|]. cbn [rel_list] in *.
        apply bind_some in R. destruct R as (p & Hp & R). apply bind_some in R. destruct R as (q & Hq & R). injection R as <-.
        destruct (Hx _ _ _ _ Fx Gy Hp) as (p' & -> & Ep). destruct (IHl _ _ _ _ Fr Gm Hq) as (q' & -> & Eq). cbn [bind].
        eexists. split; [reflexivity|]. intros t. rewrite Ep, Eq. reflexivity.
    - destruct e; discriminate.
  Qed.
  Lemma field_same l l' m d : Forall2 (fun p q : nat * den => fst p = fst q /\ same (snd p) (snd q)) l l' -> field l m = Some d ->
    exists d', field l' m = Some d' /\ same d d'.
  Proof.
    intros F. induction F as [|[n x] [n' x'] l l' [E S] F IH]; cbn in *; [discriminate|]. subst n'.
    destruct (n =? m); [intros [= <-]; eauto|exact IH].
  Qed.
  Lemma apply_same h ds ds' d : extensional ops -> Forall2 same ds ds' -> apply h ds = Some d ->
    exists d', apply h ds' = Some d' /\ same d d'.
  Proof.
    intros X F H. destruct h as [k|o| | | |r| |i|i j|names|m]; cbn [SugarSpec.apply] in *.
    - injection H as <-. eexists. split; [reflexivity|apply same_refl].
    - apply bind_some in H. destruct H as (ss & Hs & H). destruct (vals_same _ _ _ F Hs) as (ss' & -> & Fs). cbn [bind].
      specialize (X o _ _ Fs). destruct (ops o ss) as [a|]; [|discriminate]. destruct (ops o ss') as [b|]; [|contradiction].
      injection H as <-. eexists. split; [reflexivity|constructor; exact X].
    - apply bind_some in H. destruct H as (fs & Hs & H). destruct (bits_same _ _ _ F Hs) as (gs & -> & Fs). cbn [bind].
      injection H as <-. eexists. split; [reflexivity|]. constructor. constructor. intros t. apply forallb_same, Fs.
    - apply bind_some in H. destruct H as (fs & Hs & H). destruct (bits_same _ _ _ F Hs) as (gs & -> & Fs). cbn [bind].
      injection H as <-. eexists. split; [reflexivity|]. constructor. constructor. intros t. apply existsb_same, Fs.
    - apply bind_some in H. destruct H as (ss & Hs & H). destruct (vals_same _ _ _ F Hs) as (ss' & -> & Fs). cbn [bind].
      apply bind_some in H. destruct H as (fs & Hf & H). destruct (ints_same _ _ _ Fs Hf) as (gs & -> & Gs). cbn [bind].
      injection H as <-. eexists. split; [reflexivity|]. constructor. constructor. intros t. f_equal. apply total_same, Gs.
    - destruct F as [|a a' ? ? Fa F]; [discriminate|]. destruct F as [|b b' ? ? Fb F]; [discriminate|]. destruct F; [|discriminate].
      apply bind_some in H. destruct H as (f & Hf & H). injection H as <-.
      destruct (rel_den_same _ _ _ _ _ _ Fa Fb Hf) as (g & -> & E). cbn. eexists. split; [reflexivity|]. constructor. constructor. exact E.
    - destruct F as [|a a' ? ? Fa F]; [discriminate|]. injection H as <-. eexists. split; [reflexivity|]. constructor. constructor; assumption.
    - destruct F as [|a a' ? ? Fa F]; [discriminate|]. destruct F; [|destruct a; discriminate]. destruct Fa as [|l l' L|]; try discriminate.
      eapply forall2_nth in H; [|exact L]. exact H.
    - destruct F as [|a a' ? ? Fa F]; [discriminate|]. destruct F; [|destruct a; discriminate]. destruct Fa as [|l l' L|]; try discriminate.
      rewrite <- (forall2_len _ _ _ L). destruct ((i <=? j) && (j <? length l)); [|discriminate]. injection H as <-.
      eexists. split; [reflexivity|]. constructor. apply forall2_firstn, forall2_skipn, L.
    - rewrite <- (forall2_len _ _ _ F). destruct (length names =? length ds); [|discriminate]. injection H as <-.
      eexists. split; [reflexivity|]. constructor. revert names. induction F as [|x y l m E F IH]; intros [|n names]; cbn; constructor; auto.
    - destruct F as [|a a' ? ? Fa F]; [discriminate|]. destruct F; [|destruct a; discriminate]. destruct Fa as [| |l l' L]; try discriminate.
      eapply field_same; eassumption.
  Qed.

  (** ** Environments *)
  Lemma eval_mono t : forall v w d, (forall x e, v x = Some e -> w x = Some e) -> eval t v = Some d -> eval t w = Some d.
  Proof.
    induction t as [x|h l IH|k x s b IHs IHb|k x s n b IHs IHn IHb] using term_ind'; intros v w d L H; cbn [SugarSpec.eval] in *.
    - apply L, H.
    - apply bind_some in H. destruct H as (ds & Hd & H). apply all_some_forall2 in Hd.
      assert (all_some (map (fun t => eval t w) l) = Some ds) as ->.
      { apply all_some_forall2. clear H. induction Hd as [|a b l ds E Hd IHd]; constructor; inversion IH; subst; eauto. }
      exact H.
    - destruct (eval s v) as [[|[|d0 ds]|]|] eqn:Es; try discriminate. rewrite (IHs _ _ _ L Es).
      apply bind_some in H. destruct H as (fs & Hf & H).
      assert (all_some (map (fun d => b0 <- eval b (with_var w x d) ;; bits b0) (d0 :: ds)) = Some fs) as ->; [|exact H].
      apply all_some_forall2 in Hf. apply all_some_forall2. clear H Es.
      induction Hf as [|a c l1 l2 E Hd IHd]; constructor; [|exact IHd]. apply bind_some in E. destruct E as (b0 & Eb & E).
      rewrite (IHb (with_var v x a) (with_var w x a) b0); [exact E| |exact Eb].
      intros y e. unfold with_var. destruct (y =? x); [auto|apply L].
    - destruct (eval s v) as [[|[|d0 ds]|]|] eqn:Es; try discriminate. rewrite (IHs _ _ _ L Es).
      apply bind_some in H. destruct H as (nd & Hn & H). rewrite (IHn _ _ _ L Hn). cbn [bind].
      apply bind_some in H. destruct H as (ns & Hns & H). rewrite Hns. cbn [bind].
      apply bind_some in H. destruct H as (ni & Hni & H). rewrite Hni. cbn [bind].
      apply bind_some in H. destruct H as (fs & Hf & H).
      assert (all_some (map (fun d => b0 <- eval b (with_var w x d) ;; bits b0) (d0 :: ds)) = Some fs) as ->; [|exact H].
      apply all_some_forall2 in Hf. apply all_some_forall2. clear H Es.
      induction Hf as [|a c l1 l2 E Hd IHd]; constructor; [|exact IHd]. apply bind_some in E. destruct E as (b0 & Eb & E).
      rewrite (IHb (with_var v x a) (with_var w x a) b0); [exact E| |exact Eb].
      intros y e. unfold with_var. destruct (y =? x); [auto|apply L].
  Qed.
  Lemma eval_ext t : forall v w, (forall x, v x = w x) -> eval t v = eval t w.
  Proof.
    intros v w E. destruct (eval t v) as [d|] eqn:Hv.
    - symmetry. eapply eval_mono; [|exact Hv]. intros x e Hx. rewrite <- E. exact Hx.
    - destruct (eval t w) as [d|] eqn:Hw; [|reflexivity]. rewrite <- Hv. eapply eval_mono; [|exact Hw].
      intros x e Hx. rewrite E. exact Hx.
  Qed.
  Lemma map_eq_Forall {A B} (f g : A -> B) l : Forall (fun x => f x = g x) l -> map f l = map g l.
  Proof. intros H. induction H; cbn; congruence. Qed.
  Lemma eval_subst x e d : (forall v, eval e v = Some d) -> forall t v, ~ In x (bound t) ->
    eval (subst x e t) v = eval t (with_var v x d).
  Proof.
    intros E. induction t as [y|h l IH|k y s b IHs IHb|k y s n b IHs IHn IHb] using term_ind'; intros v N; cbn [subst].
    - cbn [SugarSpec.eval]. unfold with_var. destruct (y =? x); [apply E|reflexivity].
    - cbn [SugarSpec.eval]. rewrite map_map. f_equal. f_equal. apply map_eq_Forall. rewrite Forall_forall in *. intros t Ht. apply IH; [exact Ht|].
      intros Hx. apply N. cbn. apply in_flat_map. exists t. auto.
    - cbn [SugarSpec.eval]. cbn in N. rewrite in_app_iff in N. rewrite IHs by tauto.
      destruct (eval s (with_var v x d)) as [[|[|d0 ds]|]|]; try reflexivity. f_equal. f_equal. apply map_ext. intros d1.
      rewrite IHb by tauto. f_equal. apply eval_ext. intros z. unfold with_var.
      destruct (Nat.eqb_spec z y) as [Hzy|Hzy], (Nat.eqb_spec z x) as [Hzx|Hzx]; try reflexivity. subst. tauto.
    - cbn [SugarSpec.eval]. cbn in N. rewrite !in_app_iff in N. rewrite IHs by tauto. rewrite IHn by tauto.
      destruct (eval s (with_var v x d)) as [[|[|d0 ds]|]|]; try reflexivity.
      f_equal.
      assert (forall d1 : den, (b0 <- eval (subst x e b) (with_var v y d1) ;; bits b0) = (b0 <- eval b (with_var (with_var v x d) y d1) ;; bits b0)) as EE.
      { intros d1. rewrite IHb by tauto. f_equal. apply eval_ext. intros z. unfold with_var.
        destruct (Nat.eqb_spec z y) as [Hzy|Hzy], (Nat.eqb_spec z x) as [Hzx|Hzx]; try reflexivity. subst. tauto. }
      rewrite (map_ext _ _ EE). reflexivity.
  Qed.

  (** ** Struct accesses *)
  Lemma member_eval names es ds m d v : Forall2 (fun e d => eval e v = Some d) es ds ->
    field (combine names ds) m = Some d -> exists e, member names es m = Some e /\ eval e v = Some d.
  Proof.
    intros F. revert names. induction F as [|e x es ds E F IH]; intros [|n names]; cbn; try discriminate.
    destruct (n =? m); [intros [= <-]; eauto|apply IH].
  Qed.
  Lemma structs_eval t : forall v d, eval t v = Some d ->
    exists t', resolve_structs t = Some t' /\ (forall w e, eval t w = Some e -> eval t' w = Some e).
  Proof.
    induction t as [x|h l IH|k x s b IHs IHb|k x s n b IHs IHn IHb] using term_ind'; intros v d H; cbn [SugarSpec.eval] in H.
    - exists (Var x). split; [reflexivity|auto].
    - apply bind_some in H. destruct H as (ds & Hd & H). apply all_some_forall2 in Hd.
      assert (exists l', all_some (map resolve_structs l) = Some l' /\
                Forall2 (fun t t' => forall w e, eval t w = Some e -> eval t' w = Some e) l l') as (l' & Hl & Fl).
      { clear H. induction Hd as [|a c l ds E Hd IHd]; [exists []; auto|]. inversion IH as [|? ? Ha IHl]; subst.
        destruct (Ha _ _ E) as (a' & Ea & Fa). destruct (IHd IHl) as (l' & El & Fl). exists (a' :: l'). cbn. rewrite Ea, El. auto. }
      assert (forall w ds, all_some (map (fun t => eval t w) l) = Some ds -> all_some (map (fun t => eval t w) l') = Some ds) as T.
      { clear - Fl. intros w ds. rewrite !all_some_forall2. revert ds. induction Fl as [|a c l l' E F IHd]; intros ds G; inversion G; subst; constructor; auto. }
      assert (forall w e, eval (Node h l) w = Some e -> eval (Node h l') w = Some e) as T2.
      { intros w e G. cbn [SugarSpec.eval] in *. apply bind_some in G. destruct G as (es & Ge & G). rewrite (T _ _ Ge). exact G. }
      cbn [resolve_structs]. rewrite Hl. cbn [bind].
      assert (exists t', match h, l' with HAccess m, [Node (HStruct names) es] => member names es m | _, _ => Some (Node h l') end = Some t' /\
                forall w e, eval (Node h l') w = Some e -> eval t' w = Some e) as (t' & Et & Ft).
      { destruct h as [k|o| | | |r| |i|i j|names|m]; try (eexists; split; [reflexivity|auto]; fail).
        destruct l' as [|[x|[k|o| | | |r| |i|i j|names|m'] es|? ? ? ?|? ? ? ? ?] [|? ?]];
          try (eexists; split; [reflexivity|auto]; fail).
        assert (forall w e, eval (Node (HAccess m) [Node (HStruct names) es]) w = Some e -> exists e', member names es m = Some e' /\ eval e' w = Some e) as K.
        { intros w e G. cbn [SugarSpec.eval map] in G. apply bind_some in G. destruct G as (ds0 & G0 & G). cbn [all_some] in G0.
          apply bind_some in G0. destruct G0 as (r & Gr & G0). cbn [bind] in G0. injection G0 as <-.
          apply bind_some in Gr. destruct Gr as (es0 & Ges & Gr). cbn [SugarSpec.apply] in *.
          destruct (length names =? length es0); [|discriminate]. injection Gr as <-. apply all_some_forall2 in Ges.
          eapply member_eval; eassumption. }
        assert (eval (Node (HAccess m) l) v = Some d) as E0.
        { cbn [SugarSpec.eval]. apply all_some_forall2 in Hd. rewrite Hd. exact H. }
        destruct (K _ _ (T2 _ _ E0)) as (t' & Et & _). exists t'. split; [exact Et|]. intros w e G.
        destruct (K _ _ G) as (t'' & Et' & Fe). congruence. }
      exists t'. split; [exact Et|]. intros w e G. apply Ft, T2, G.
    - destruct (eval s v) as [[|[|d0 ds]|]|] eqn:Es; try discriminate.
      destruct (IHs _ _ Es) as (s' & Hs & Fs). apply bind_some in H. destruct H as (fs & Hf & _). cbn [map all_some] in Hf.
      apply bind_some in Hf. destruct Hf as (f0 & Hf & _). apply bind_some in Hf. destruct Hf as (b0 & Hb & _).
      destruct (IHb _ _ Hb) as (b' & Hb' & Fb). exists (Quant k x s' b'). cbn [resolve_structs]. rewrite Hs, Hb'. split; [reflexivity|].
      intros w e G. cbn [SugarSpec.eval] in *. destruct (eval s w) as [[|[|e0 es]|]|] eqn:Ews; try discriminate. rewrite (Fs _ _ Ews).
      apply bind_some in G. destruct G as (gs & Hg & G).
      assert (all_some (map (fun d => b0 <- eval b' (with_var w x d) ;; bits b0) (e0 :: es)) = Some gs) as ->; [|exact G].
      apply all_some_forall2 in Hg. apply all_some_forall2. clear - Hg Fb. induction Hg as [|? ? ? ? E F IHd]; constructor; [|exact IHd].
      apply bind_some in E. destruct E as (b0 & Eb & E). rewrite (Fb _ _ Eb). exact E.
    - destruct (eval s v) as [[|[|d0 ds]|]|] eqn:Es; try discriminate.
      destruct (IHs _ _ Es) as (s' & Hs & Fs). apply bind_some in H. destruct H as (nd & Hn & H).
      destruct (IHn _ _ Hn) as (n' & Hn' & Fn).
      apply bind_some in H. destruct H as (? & _ & H). apply bind_some in H. destruct H as (? & _ & H).
      apply bind_some in H. destruct H as (fs & Hf & _). cbn [map all_some] in Hf.
      apply bind_some in Hf. destruct Hf as (f0 & Hf & _). apply bind_some in Hf. destruct Hf as (b0 & Hb & _).
      destruct (IHb _ _ Hb) as (b' & Hb' & Fb). exists (Count k x s' n' b'). cbn [resolve_structs]. rewrite Hs, Hn', Hb'. split; [reflexivity|].
      intros w e G. cbn [SugarSpec.eval] in *. destruct (eval s w) as [[|[|e0 es]|]|] eqn:Ews; try discriminate. rewrite (Fs _ _ Ews).
      apply bind_some in G. destruct G as (nd' & Hn2 & G). rewrite (Fn _ _ Hn2). cbn [bind].
      apply bind_some in G. destruct G as (ns & Hns & G). rewrite Hns. cbn [bind].
      apply bind_some in G. destruct G as (ni & Hni & G). rewrite Hni. cbn [bind].
      apply bind_some in G. destruct G as (gs & Hg & G).
      assert (all_some (map (fun d => b0 <- eval b' (with_var w x d) ;; bits b0) (e0 :: es)) = Some gs) as ->; [|exact G].
      apply all_some_forall2 in Hg. apply all_some_forall2. clear - Hg Fb. induction Hg as [|? ? ? ? E F IHd]; constructor; [|exact IHd].
      apply bind_some in E. destruct E as (b1 & Eb & E). rewrite (Fb _ _ Eb). exact E.
  Qed.
End Meaning.
