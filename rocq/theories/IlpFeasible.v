(** * Extraction by integer programming: solutions exist (proofs) *)
From Coq Require Import List Arith ZArith Bool Lia.
Require Import Verif.Mltl Verif.Transform Verif.Egglog Verif.Ilp Verif.IlpSpec Verif.IlpProofs.
Import ListNotations.
Local Open Scope list_scope.
Local Open Scope nat_scope.

Section Solve.
  Variables (g : graph) (ext : bool) (w : Z).
  Hypothesis W : well_formed g.
  Hypothesis B : bounded g w.
  Hypothesis Hw : (0 <= w)%Z.

  (** [ready k c]: the class holds an allowed term of height at most [k]. *)
  Definition usable (n : enode) : bool := ext || negb (is_extended (op_of n)).
  Fixpoint ready (k c : nat) : bool :=
    match k with
    | 0 => false
    | S k => existsb (fun n => usable n && forallb (ready k) (kids n)) (members g c)
    end.
  Lemma ready_mono k : forall c, ready k c = true -> ready (S k) c = true.
  Proof using.
    induction k as [|k IH]; intros c E; [discriminate|].
    change (existsb (fun n => usable n && forallb (ready (S k)) (kids n)) (members g c) = true).
    cbn [ready] in E. apply existsb_exists in E as (n & I & E). apply existsb_exists. exists n. split; [exact I|].
    apply andb_true_iff in E as [U E]. rewrite U. cbn [andb]. apply forallb_forall. intros x X. apply IH.
    exact (proj1 (forallb_forall _ _) E x X).
  Qed.
  Lemma ready_le k k' c : k <= k' -> ready k c = true -> ready k' c = true.
  Proof using. induction 1; auto using ready_mono. Qed.

  Variable K : nat.
  (** The least height, searched upwards. *)
  Fixpoint least (fuel k c : nat) : nat :=
    match fuel with
    | 0 => k
    | S fuel => if ready k c then k else least fuel (S k) c
    end.
  Lemma least_spec c : forall fuel k, ready (fuel + k) c = true ->
    ready (least fuel k c) c = true /\ k <= least fuel k c <= fuel + k /\ (forall j, k <= j < least fuel k c -> ready j c = false).
  Proof using.
    induction fuel as [|fuel IH]; intros k E; cbn [least].
    - repeat split; auto; try lia.
    - destruct (ready k c) eqn:R; [repeat split; auto; try lia|].
      rewrite Nat.add_succ_l, <- Nat.add_succ_r in E. destruct (IH _ E) as (A & C & D). repeat split; auto; try lia.
      intros j J. destruct (Nat.eq_dec j k) as [->|N]; [exact R|]. apply D. lia.
  Qed.
  Definition live (c : nat) : bool := (c <? length (classes g)) && ready K c.
  Definition height (c : nat) : nat := least K 0 c.
  Lemma height_spec c : live c = true -> ready (height c) c = true /\ 1 <= height c <= K.
  Proof using.
    intros L. apply andb_true_iff in L as [_ L]. destruct (least_spec c K 0) as (A & C & _); [rewrite Nat.add_0_r; exact L|].
    split; [exact A|]. unfold height. destruct (least K 0 c) eqn:E; [discriminate A|]. lia.
  Qed.
  Fixpoint find_index (f : enode -> bool) (i : nat) (ns : list enode) : option nat :=
    match ns with
    | [] => None
    | n :: ns => if f n then Some i else find_index f (S i) ns
    end.
  Lemma find_index_spec f ns : forall i j, find_index f i ns = Some j -> exists k n, j = i + k /\ nth_error ns k = Some n /\ f n = true.
  Proof using.
    induction ns as [|n ns IH]; intros i j E; cbn [find_index] in E; [discriminate|]. destruct (f n) eqn:Fn.
    - injection E as <-. exists 0, n. rewrite Nat.add_0_r. auto.
    - destruct (IH _ _ E) as (k & m & -> & A & C). exists (S k), m. rewrite Nat.add_succ_r. auto.
  Qed.
  Lemma find_index_some f ns : forall i, existsb f ns = true -> exists j, find_index f i ns = Some j.
  Proof using.
    induction ns as [|n ns IH]; intros i E; cbn [existsb find_index] in *; [discriminate|]. destruct (f n); [eauto|]. exact (IH _ E).
  Qed.
  Definition choice (c : nat) : option nat :=
    if live c then find_index (fun n => usable n && forallb (ready (pred (height c))) (kids n)) 0 (members g c) else None.
  Lemma choice_spec c : live c = true -> exists i n, choice c = Some i /\ node_at g c i = Some n /\ usable n = true /\
    Forall (fun k => live k = true /\ height k < height c) (kids n).
  Proof using W.
    intros L. destruct (height_spec c L) as [R H]. unfold choice. rewrite L.
    destruct (height c) as [|h] eqn:Eh; [lia|]. cbn [pred]. cbn [ready] in R.
    destruct (find_index_some _ _ 0 R) as (j & J). destruct (find_index_spec _ _ _ _ J) as (k & n & -> & E & U).
    exists k, n. split; [exact J|]. split; [exact E|]. apply andb_true_iff in U as [U A]. split; [exact U|].
    apply Forall_forall. intros x X. pose proof (proj1 (forallb_forall _ _) A x X) as Rx. cbn beta in Rx.
    pose proof (proj2 W c n (nth_error_In _ _ E)) as [_ Q]. rewrite Forall_forall in Q. specialize (Q x X).
    assert (Lx : live x = true).
    { unfold live. rewrite (proj2 (Nat.ltb_lt _ _) Q). apply (ready_le h K x); [lia|exact Rx]. }
    split; [exact Lx|]. unfold height. destruct (Nat.ltb_spec (least K 0 x) (S h)) as [G|G]; [exact G|exfalso].
    destruct (least_spec x K 0) as (_ & _ & D). { rewrite Nat.add_0_r. apply andb_true_iff in Lx as [_ Lx]. exact Lx. }
    rewrite (D h) in Rx by lia. discriminate.
  Qed.
  Lemma choice_live c i : choice c = Some i -> live c = true.
  Proof using. unfold choice. destruct (live c); [reflexivity|discriminate]. Qed.

  (** Delays, from the chosen nodes upwards. *)
  Section Delay.
    Variable f : nat -> enode -> list Z -> Z.
    Fixpoint delay (fuel c : nat) : Z :=
      match fuel with
      | 0 => 0%Z
      | S fuel =>
          match choice c with
          | Some i => match node_at g c i with Some n => f c n (map (delay fuel) (kids n)) | None => 0%Z end
          | None => 0%Z
          end
      end.
    Lemma delay_stable k : forall c, (live c = true -> height c <= k) -> delay k c = delay (S k) c.
    Proof using W.
      induction k as [|k IH]; intros c H.
      - cbn [delay]. destruct (choice c) as [i|] eqn:C; [|reflexivity]. apply choice_live in C. pose proof (height_spec c C). specialize (H C). lia.
      - change (delay (S k) c) with (match choice c with
          | Some i => match node_at g c i with Some n => f c n (map (delay k) (kids n)) | None => 0%Z end | None => 0%Z end).
        change (delay (S (S k)) c) with (match choice c with
          | Some i => match node_at g c i with Some n => f c n (map (delay (S k)) (kids n)) | None => 0%Z end | None => 0%Z end).
        destruct (choice c) as [i|] eqn:C; [|reflexivity]. pose proof (choice_live c i C) as L.
        destruct (choice_spec c L) as (j & n & C' & E & _ & A). rewrite C in C'. injection C' as <-. rewrite E. f_equal.
        apply map_ext_in. intros x X. rewrite Forall_forall in A. specialize (A x X). apply IH. intros _. specialize (H L). lia.
    Qed.
    Definition of_class (c : nat) : Z := delay K c.
    Lemma of_class_eq c : of_class c = match choice c with
      | Some i => match node_at g c i with Some n => f c n (map of_class (kids n)) | None => 0%Z end | None => 0%Z end.
    Proof using W.
      unfold of_class. rewrite delay_stable; [reflexivity|]. intros L. apply (height_spec c L).
    Qed.
    Lemma of_class_range (hi : Z) : (0 <= hi)%Z ->
      (forall c n l, In n (members g c) -> (forall x, In x l -> 0 <= x <= hi)%Z -> (0 <= f c n l <= hi)%Z) ->
      forall c, (0 <= of_class c <= hi)%Z.
    Proof using.
      intros Hi H. unfold of_class. induction K as [|k IH]; intros c; cbn [delay]; [lia|].
      destruct (choice c) as [i|]; [|lia]. destruct (node_at g c i) as [n|] eqn:E; [|lia]. apply H; [exact (node_in _ _ _ _ E)|].
      intros x X. apply in_map_iff in X as (y & <- & _). apply IH.
    Qed.
    Lemma of_class_nonneg :
      (forall c n l, In n (members g c) -> (forall x, In x l -> 0 <= x)%Z -> (0 <= f c n l)%Z) -> forall c, (0 <= of_class c)%Z.
    Proof using.
      intros H. unfold of_class. induction K as [|k IH]; intros c; cbn [delay]; [lia|].
      destruct (choice c) as [i|]; [|lia]. destruct (node_at g c i) as [n|] eqn:E; [|lia]. apply H; [exact (node_in _ _ _ _ E)|].
      intros x X. apply in_map_iff in X as (y & <- & _). apply IH.
    Qed.
  End Delay.

  Definition worst (c : nat) (n : enode) (l : list Z) : Z :=
    (if existsb (fun m => is_leaf (op_of m)) (members g c) then 0
     else zmax l + match interval_of (op_of n) with Some (_, u) => u | None => 0 end)%Z.
  Definition best (c : nat) (n : enode) (l : list Z) : Z :=
    (if existsb (fun m => is_leaf (op_of m)) (members g c) then 0
     else match interval_of (op_of n) with Some (l', _) => zmin l + l' | None => zmax l end)%Z.
  Definition at_node (f : nat -> enode -> list Z -> Z) (c i : nat) : Z :=
    match node_at g c i with Some n => f c n (map (of_class f) (kids n)) | None => 0%Z end.
  Definition solution : values :=
    Values (fun c => if live c then 1 else 0)%Z
      (fun c i => match choice c with Some j => if (i =? j)%nat then 1 else 0 | None => 0 end)%Z
      (fun c => if live c then Z.of_nat (height c) else 1)%Z
      (of_class worst) (of_class best) (at_node worst) (at_node best).

  Lemma zmax_nonneg l : (0 <= zmax l)%Z.
  Proof using. unfold zmax. induction l as [|a l IH]; cbn [fold_right]; lia. Qed.
  Lemma zmax_le l hi : (0 <= hi)%Z -> (forall x, In x l -> x <= hi)%Z -> (zmax l <= hi)%Z.
  Proof using.
    unfold zmax. intros Hi. induction l as [|a l IH]; cbn [fold_right]; intros H; [lia|].
    assert (a <= hi)%Z by (apply H; left; reflexivity). assert (fold_right Z.max 0 l <= hi)%Z by (apply IH; intros x I; apply H; right; exact I). lia.
  Qed.
  Lemma zmin_zero l : (forall x, In x l -> 0 <= x)%Z -> zmin l = 0%Z.
  Proof using.
    unfold zmin. induction l as [|a l IH]; cbn [fold_right]; intros H; [lia|].
    assert (0 <= a)%Z by (apply H; left; reflexivity). rewrite IH by (intros x I; apply H; right; exact I). lia.
  Qed.
  Lemma worst_nonneg c n l : In n (members g c) -> (forall x, In x l -> 0 <= x)%Z -> (0 <= worst c n l)%Z.
  Proof using B.
    intros I _. unfold worst. destruct (existsb _ _); [lia|]. pose proof (zmax_nonneg l).
    destruct (interval_of (op_of n)) as [[a u]|] eqn:E; [|lia]. pose proof (B c n a u I E). lia.
  Qed.
  Lemma best_range c n l : In n (members g c) -> (forall x, In x l -> 0 <= x <= w)%Z -> (0 <= best c n l <= w)%Z.
  Proof using B Hw.
    intros I H. unfold best. destruct (existsb _ _); [lia|].
    destruct (interval_of (op_of n)) as [[a u]|] eqn:E.
    - rewrite zmin_zero by (intros x X; apply H, X). pose proof (B c n a u I E). lia.
    - split; [apply zmax_nonneg|]. apply zmax_le; [exact Hw|]. intros x X. apply H, X.
  Qed.
  Lemma at_worst c i : (0 <= at_node worst c i)%Z.
  Proof using B.
    unfold at_node. destruct (node_at g c i) as [n|] eqn:E; [|lia]. apply worst_nonneg; [exact (node_in _ _ _ _ E)|].
    intros x X. apply in_map_iff in X as (y & <- & _). apply of_class_nonneg, worst_nonneg.
  Qed.
  Lemma at_best c i : (0 <= at_node best c i <= w)%Z.
  Proof using B Hw.
    unfold at_node. destruct (node_at g c i) as [n|] eqn:E; [|lia]. apply best_range; [exact (node_in _ _ _ _ E)|].
    intros x X. apply in_map_iff in X as (y & <- & _). apply of_class_range; [exact Hw|]. exact best_range.
  Qed.
  Lemma sum_at (j n : nat) (h : nat -> Z) : forall s, s <= j < s + n ->
    zsum (map (fun i => (if (i =? j)%nat then 1 else 0) * h i)%Z (seq s n)) = h j.
  Proof using.
    induction n as [|n IH]; intros s H; [lia|]. cbn [seq map zsum fold_right]. fold (zsum (map (fun i => (if (i =? j)%nat then 1 else 0) * h i)%Z (seq (S s) n))).
    destruct (Nat.eqb_spec s j) as [->|N].
    - rewrite Z.mul_1_l. enough (Z0 : zsum (map (fun i => (if (i =? j)%nat then 1 else 0) * h i)%Z (seq (S j) n)) = 0%Z) by lia.
      clear. assert (G : forall s, j < s -> zsum (map (fun i => (if (i =? j)%nat then 1 else 0) * h i)%Z (seq s n)) = 0%Z).
      { induction n as [|n IH]; intros s L; [reflexivity|]. cbn [seq map zsum fold_right].
        fold (zsum (map (fun i => (if (i =? j)%nat then 1 else 0) * h i)%Z (seq (S s) n))). rewrite IH by lia.
        destruct (Nat.eqb_spec s j); [lia|]. lia. }
      apply G. lia.
    - rewrite IH by lia. lia.
  Qed.
  Lemma sum_none c (h : nat -> Z) : zsum (over g c (fun i => 0 * h i)%Z) = 0%Z.
  Proof using.
    unfold over. generalize (seq 0 (length (members g c))). intros l. unfold zsum. induction l as [|a l IH]; cbn [map fold_right]; [reflexivity|].
    rewrite IH. lia.
  Qed.
  (** A sum over the chosen nodes of a class is the value at its choice. *)
  Lemma sum_choice c (h : nat -> Z) : zsum (over g c (fun i => chosen solution c i * h i)%Z) =
    match choice c with Some j => h j | None => 0%Z end.
  Proof using W.
    cbn [chosen solution]. destruct (choice c) as [j|] eqn:C; [|apply sum_none].
    destruct (choice_spec c (choice_live _ _ C)) as (j' & n & C' & E & _). rewrite C in C'. injection C' as <-.
    unfold over. apply sum_at. split; [lia|]. cbn. apply nth_error_Some. unfold node_at in E. congruence.
  Qed.
  Lemma max_sib_nonneg v c : (0 <= max_sib g v c)%Z.
  Proof using. apply zmax_nonneg. Qed.

  Lemma solution_feasible : ready K (root g) = true -> feasible g ext w solution.
  Proof using W B Hw.
    intros R. constructor.
    - intros c L. split; [cbn; unfold binary; destruct (live c); auto|]. split; [|split].
      + cbn. destruct (live c); lia.
      + apply of_class_nonneg, worst_nonneg.
      + apply (of_class_range best w Hw), best_range.
    - intros c i n E. split; [|split; [apply at_worst|apply at_best]].
      cbn. unfold binary. destruct (choice c) as [j|]; auto. destruct (i =? j); auto.
    - cbn. unfold live. rewrite (proj2 (Nat.ltb_lt _ _) (proj1 W)), R. reflexivity.
    - intros X c i n E Y. cbn. destruct (choice c) as [j|] eqn:C; [|reflexivity]. destruct (Nat.eqb_spec i j) as [->|]; [|reflexivity].
      destruct (choice_spec c (choice_live _ _ C)) as (j' & n' & C' & E' & U & _). rewrite C in C'. injection C' as <-.
      rewrite E in E'. injection E' as <-. unfold usable in U. rewrite X, Y in U. discriminate.
    - intros c i n E. cbn [chosen solution]. destruct (choice c) as [j|] eqn:C; [|lia]. destruct (Nat.eqb_spec i j) as [->|]; [|lia].
      destruct (choice_spec c (choice_live _ _ C)) as (j' & n' & C' & E' & _ & A). rewrite C in C'. injection C' as <-.
      rewrite E in E'. injection E' as <-. f_equal. clear - A. induction A as [|k ks [L _] A IH]; [reflexivity|].
      cbn [length map zsum fold_right eclass solution]. rewrite L. rewrite Nat2Z.inj_succ.
      change (fold_right Z.add 0%Z (map (fun c => if live c then 1%Z else 0%Z) ks)) with (zsum (map (eclass solution) ks)). lia.
    - intros c L. transitivity (zsum (over g c (fun i => chosen solution c i * 1)%Z)).
      + rewrite (sum_choice c (fun _ => 1%Z)). cbn. destruct (live c) eqn:Lc.
        * destruct (choice_spec c Lc) as (j & n & C & _). rewrite C. reflexivity.
        * unfold choice. rewrite Lc. reflexivity.
      + unfold over. f_equal. apply map_ext. intros i. lia.
    - intros c i n E. cbn [wpd_node bpd_node wpd_class bpd_class solution]. unfold at_node. rewrite E. split; reflexivity.
    - intros c L. split.
      + rewrite (sum_choice c (wpd_node solution c)). cbn [wpd_class solution wpd_node]. rewrite of_class_eq. unfold at_node. reflexivity.
      + rewrite (sum_choice c (bpd_node solution c)). cbn [bpd_class solution bpd_node]. rewrite of_class_eq. unfold at_node. reflexivity.
    - intros c i n E _. pose proof (max_sib_nonneg solution c). pose proof (at_best c i). cbn [bpd_node solution]. lia.
    - intros c i n k E I. pose proof (node_in _ _ _ _ E) as In'. cbn [chosen rank solution].
      assert (P : (1 <= if live c then Z.of_nat (height c) else 1)%Z).
      { destruct (live c) eqn:L; [|lia]. pose proof (height_spec c L). lia. }
      destruct (choice c) as [j|] eqn:C; [|lia]. destruct (Nat.eqb_spec i j) as [->|]; [|lia].
      pose proof (choice_live _ _ C) as L. destruct (choice_spec c L) as (j' & n' & C' & E' & _ & A).
      rewrite C in C'. injection C' as <-. rewrite E in E'. injection E' as <-.
      rewrite Forall_forall in A. destruct (A k I) as [Lk Hk]. rewrite L, Lk. lia.
  Qed.
End Solve.

(** ** Terms have heights *)
Scheme holds_term_mut := Induction for holds_term Sort Prop with hold_terms_mut := Induction for hold_terms Sort Prop.
Definition children_of (t : eterm) : list eterm := subterms t.
Lemma term_children o ts t : term_of o ts = Some t -> subterms t = ts.
Proof.
  destruct o, ts as [|? [|? [|? [|? [|]]]]]; cbn; intros E; try discriminate; injection E as <-; reflexivity.
Qed.
Lemma term_core o ts t : term_of o ts = Some t -> core t -> is_extended o = false /\ Forall core ts.
Proof.
  destruct o, ts as [|? [|? [|? [|? [|]]]]]; cbn; intros E C; try discriminate; injection E as <-; cbn [core] in C;
    (split; [reflexivity || contradiction|]); try contradiction; repeat constructor; tauto.
Qed.
Lemma held_ready g ext c t : holds_term g c t -> allowed ext t -> exists k, ready g ext k c = true.
Proof.
  intros H. revert c t H.
  apply (holds_term_mut g (fun c t _ => allowed ext t -> exists k, ready g ext k c = true)
    (fun cs ts _ => (forall t, In t ts -> allowed ext t) -> exists k, forall c, In c cs -> ready g ext k c = true)).
  - intros c n ts t I _ IH E A.
    assert (Q : forall x, In x ts -> allowed ext x).
    { intros x X Y. destruct (term_core _ _ _ E (A Y)) as [_ C]. rewrite Forall_forall in C. exact (C x X). }
    destruct (IH Q) as (k & R). exists (S k). cbn [ready]. apply existsb_exists. exists n. split; [exact I|].
    apply andb_true_iff. split.
    + unfold usable. destruct ext eqn:X; [reflexivity|]. destruct (term_core _ _ _ E (A eq_refl)) as [-> _]. reflexivity.
    + apply forallb_forall. exact R.
  - intros _. exists 0. intros c [].
  - intros c cs t ts _ IH1 _ IH2 A. destruct (IH1 (A t (or_introl eq_refl))) as (k & R).
    destruct IH2 as (k' & R'). { intros x X. apply A. right; exact X. }
    exists (Nat.max k k'). intros x [<-|X]; [apply (ready_le g ext k); [lia|exact R]|apply (ready_le g ext k'); [lia|apply R', X]].
Qed.
Lemma solvable g ext w t : well_formed g -> bounded g w -> (0 <= w)%Z -> holds_term g (root g) t -> allowed ext t ->
  exists v, feasible g ext w v.
Proof.
  intros W B Hw H A. destruct (held_ready g ext (root g) t H A) as (K & R).
  exists (solution g ext K). exact (solution_feasible g ext w W B Hw K R).
Qed.
Lemma solvable_iff g ext w : well_formed g -> bounded g w -> (0 <= w)%Z ->
  (exists v, feasible g ext w v) <-> (exists t, holds_term g (root g) t /\ allowed ext t).
Proof.
  intros W B Hw. split.
  - intros (v & F). destruct (extraction g ext w v W F) as (t & _ & H & A & _). eauto.
  - intros (t & H & A). exact (solvable g ext w t W B Hw H A).
Qed.
