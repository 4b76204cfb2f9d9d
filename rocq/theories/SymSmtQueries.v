(** * The answers of the equivalence check over symbolic bounds (proofs) *)
From Coq Require Import List Arith ZArith Bool Lia.
From Verif Require Import Mltl MltlShape MltlEval Smt SmtSpec SmtQueries SmtFunctions SymSmt SymSmtSpec SymSmtProofs.
Import ListNotations.
Local Open Scope Z_scope.

Lemma instance_future M v p : all_nodes future_op (instance M v p).
Proof. induction p; cbn; tauto. Qed.

Lemma no_mission_false fl p : no_mission fl p <-> existsb cmission (constraints fl) || smission p = false.
Proof.
  unfold no_mission. rewrite untimed_smission, orb_false_iff.
  assert (H : (forall c, In c (constraints fl) -> untimed (left_side c) /\ untimed (right_side c)) <->
              existsb cmission (constraints fl) = false).
  { induction (constraints fl) as [|c l IH]; cbn [existsb].
    - split; [reflexivity|intros _ ? []].
    - rewrite orb_false_iff, <- IH. unfold cmission. rewrite orb_false_iff, <- !untimed_bmission. split.
      + intros H. split; [apply H; left; reflexivity|]. intros c' Hc. apply H. right. exact Hc.
      + intros [H1 H2] c' [->|Hc]; auto. }
  rewrite H. reflexivity.
Qed.

Lemma no_mission_pair fl p q : no_mission fl p -> no_mission fl q -> no_mission fl (sdiffer p q).
Proof.
  intros [H1 H2] [_ H3]. split; [exact H1|]. cbn [sdiffer intervals]. intros lb ub H. apply in_app_iff in H.
  destruct H as [H|H]; [exact (H2 _ _ H)|exact (H3 _ _ H)].
Qed.

Section File.
Variables (fl : equiv_file) (p q : sform).
Hypothesis Hp : In p (formulas fl).
Hypothesis Hq : In q (formulas fl).
Hypothesis Lp : starts_later fl p.
Hypothesis Lq : starts_later fl q.

Lemma bounds_pair n : In n (svars (sdiffer p q)) -> In n (bounds fl).
Proof using Hp Hq.
  cbn [sdiffer svars]. rewrite in_app_iff. intros H. unfold bounds. apply in_app_iff. right. apply in_flat_map.
  destruct H; eauto.
Qed.
Lemma bounds_constraint c n : In c (constraints fl) -> In n (cvars c) -> In n (bounds fl).
Proof. intros Hc Hn. unfold bounds. apply in_app_iff. left. apply in_flat_map. eauto. Qed.

(** The assertions other than the last, for some interpretation of the bounds. *)
Lemma asserts_admit (T : Z -> (nat -> Z) -> Prop) (U : nat -> (nat -> nat) -> Prop) :
  (forall Mz rho M v, Mz = Z.of_nat M -> agree rho v (svars (sdiffer p q)) -> admits fl p q M v ->
     (T Mz rho <-> U M v)) ->
  ((exists Mz rho, Mz >= 0 /\ Forall (fun n => rho n >= 0) (bounds fl) /\ Forall (cterm Mz rho) (constraints fl) /\
      sasserts Mz rho (sdiffer p q) /\ T Mz rho)
   <-> exists M v, admits fl p q M v /\ U M v).
Proof using Hp Hq Lp Lq.
  intros HTU.
  assert (Hadm : forall Mz rho M v, Mz = Z.of_nat M -> (forall n, In n (bounds fl) -> rho n = Z.of_nat (v n)) ->
            (Forall (cterm Mz rho) (constraints fl) /\ sasserts Mz rho (sdiffer p q) <-> admits fl p q M v)).
  { intros Mz rho M v HM HA.
    assert (Hc : Forall (cterm Mz rho) (constraints fl) <-> forall c, In c (constraints fl) -> meets M v c).
    { rewrite Forall_forall. split; intros H c Hc;
        (apply (cterm_meets Mz rho M v HM c); [intros n Hn; apply HA; exact (bounds_constraint c n Hc Hn)|exact (H c Hc)]). }
    assert (Ap : agree rho v (svars p)) by (intros n Hn; apply HA, bounds_pair; cbn; apply in_app_iff; tauto).
    assert (Aq : agree rho v (svars q)) by (intros n Hn; apply HA, bounds_pair; cbn; apply in_app_iff; tauto).
    unfold admits. rewrite Hc. cbn [sdiffer sasserts].
    rewrite (sasserts_proper Mz rho M v HM p Ap), (sasserts_proper Mz rho M v HM q Aq). split.
    - intros (H & H1 & H2). split; [exact H|]. split; (split; [assumption|]).
      + intros lb ub Hi. exact (Lp M v lb ub H Hi).
      + intros lb ub Hi. exact (Lq M v lb ub H Hi).
    - tauto. }
  split.
  - intros (Mz & rho & HM & Hb & Hc & Hs & HT). exists (Z.to_nat Mz), (fun n => Z.to_nat (rho n)).
    rewrite Forall_forall in Hb.
    assert (HA : forall n, In n (bounds fl) -> rho n = Z.of_nat (Z.to_nat (rho n))) by (intros n Hn; specialize (Hb n Hn); lia).
    assert (HM' : Mz = Z.of_nat (Z.to_nat Mz)) by lia.
    pose proof (proj1 (Hadm Mz rho _ _ HM' HA) (conj Hc Hs)) as Had. split; [exact Had|].
    apply (HTU Mz rho _ _ HM'); [intros n Hn; exact (HA n (bounds_pair n Hn))|exact Had|exact HT].
  - intros (M & v & Had & HU). exists (Z.of_nat M), (fun n => Z.of_nat (v n)).
    destruct (proj2 (Hadm (Z.of_nat M) (fun n => Z.of_nat (v n)) M v eq_refl (fun n _ => eq_refl)) Had) as [Hc Hs].
    split; [lia|]. split; [apply Forall_forall; intros n _; lia|]. split; [exact Hc|]. split; [exact Hs|].
    apply (HTU _ _ M v eq_refl); [intros n _; reflexivity|exact Had|exact HU].
Qed.

Lemma admits_proper M v : admits fl p q M v -> proper M v (sdiffer p q).
Proof. intros (_ & H1 & H2). exact (proj2 (proper_app M v p q (sdiffer p q) eq_refl) (conj H1 H2)). Qed.

Lemma squery_form strict : squery strict fl (sdiffer p q) <->
  exists Mz rho, Mz >= 0 /\ Forall (fun n => rho n >= 0) (bounds fl) /\ Forall (cterm Mz rho) (constraints fl) /\
    sasserts Mz rho (sdiffer p q) /\
    exists f, if strict then exists len, sterm Mz rho f len (sdiffer p q) 0
              else sterm Mz rho f (if existsb cmission (constraints fl) || smission (sdiffer p q) then Mz + 1
                                   else slen Mz rho (sdiffer p q)) (sdiffer p q) 0.
Proof.
  unfold squery. split.
  - intros (Mz & rho & f & H1 & H2 & H3 & H4 & H5). exists Mz, rho. repeat (split; [assumption|]). exists f. exact H5.
  - intros (Mz & rho & H1 & H2 & H3 & H4 & f & H5). exists Mz, rho, f. repeat (split; [assumption|]). exact H5.
Qed.

(** Without a mission time: every trace. *)
Lemma symbolic_exact : no_mission fl p -> no_mission fl q ->
  (squery false fl (sdiffer p q) <->
   exists M v, admits fl p q M v /\ satisfiable (differ (instance M v p) (instance M v q))).
Proof using Hp Hq Lp Lq.
  intros Np Nq. pose proof (proj1 (no_mission_false fl _) (no_mission_pair fl p q Np Nq)) as E.
  rewrite squery_form, E. apply asserts_admit. intros Mz rho M v HM HA Had.
  pose proof (admits_proper M v Had) as P. unfold satisfiable.
  change (differ (instance M v p) (instance M v q)) with (instance M v (sdiffer p q)). split.
  - intros (f & H). exists (trace_of f). apply (sterm_long Mz rho M v HM f _ HA P (slen Mz rho (sdiffer p q)) 0); [lia|exact H].
  - intros (tr & H). exists (function_of tr).
    apply (sterm_long Mz rho M v HM _ _ HA P (slen Mz rho (sdiffer p q)) 0); [lia|].
    apply (sat_ext tr); [apply instance_future| |exact H]. intros t a. symmetry. apply trace_of_function.
Qed.
Lemma symbolic_equivalent : no_mission fl p -> no_mission fl q ->
  (~ squery false fl (sdiffer p q) <-> always_equivalent fl p q).
Proof using Hp Hq Lp Lq.
  intros Np Nq. rewrite (symbolic_exact Np Nq). split.
  - intros H M v Had. apply differ_satisfiable; try apply instance_future. intros Hs. apply H. exists M, v. tauto.
  - intros H (M & v & Had & Hs). revert Hs. apply differ_satisfiable; try apply instance_future. exact (H M v Had).
Qed.

(** With one: traces that last the mission. *)
Hypothesis Ep : plain_eventually p.
Hypothesis Eq : plain_eventually q.

Lemma differ_finite Mz rho M v len : Mz = Z.of_nat M -> agree rho v (svars (sdiffer p q)) -> admits fl p q M v ->
  ((exists f, sterm Mz rho f len (sdiffer p q) 0) <-> differ_on (Z.to_nat len) M v p q).
Proof using Ep Eq.
  intros HM HA Had. pose proof (admits_proper M v Had) as P. unfold differ_on.
  assert (PE : plain_eventually (sdiffer p q)) by exact (conj Ep Eq). split.
  - intros (f & H). exists (trace_of f). exact (proj1 (sterm_finite Mz rho M v HM f _ HA P PE len 0) H).
  - intros (tr & H). exists (function_of tr).
    apply (sterm_finite Mz rho M v HM _ _ HA P PE len 0). intros Hi. apply H. cbn [sdiffer instance] in Hi.
    assert (X : forall e, fsat (Z.to_nat len) tr e 0 <-> fsat (Z.to_nat len) (trace_of (function_of tr)) e 0).
    { intros e. apply fsat_ext. intros t a. symmetry. apply trace_of_function. }
    rewrite !X. exact Hi.
Qed.

Lemma symbolic_mission : ~ (no_mission fl p /\ no_mission fl q) ->
  (squery false fl (sdiffer p q) <-> exists M v, admits fl p q M v /\ differ_on (M + 1) M v p q).
Proof using Hp Hq Lp Lq Ep Eq.
  intros N.
  assert (E : existsb cmission (constraints fl) || smission (sdiffer p q) = true).
  { destruct (existsb cmission (constraints fl) || smission (sdiffer p q)) eqn:E; [reflexivity|exfalso].
    apply no_mission_false in E. destruct E as [E1 E2]. apply N. split; (split; [exact E1|]);
      intros lb ub H; apply (E2 lb ub); cbn [sdiffer intervals]; apply in_app_iff; tauto. }
  rewrite squery_form, E. apply asserts_admit. intros Mz rho M v HM HA Had.
  rewrite (differ_finite Mz rho M v _ HM HA Had). replace (Z.to_nat (Mz + 1)) with (M + 1)%nat by lia. reflexivity.
Qed.
Lemma symbolic_strict : squery true fl (sdiffer p q) <-> exists M v, admits fl p q M v /\ exists len, differ_on len M v p q.
Proof using Hp Hq Lp Lq Ep Eq.
  rewrite squery_form. apply asserts_admit. intros Mz rho M v HM HA Had. split.
  - intros (f & len & H). exists (Z.to_nat len). apply (differ_finite Mz rho M v len HM HA Had). exists f. exact H.
  - intros (len & H). rewrite <- (Nat2Z.id len) in H. apply (differ_finite Mz rho M v _ HM HA Had) in H.
    destruct H as (f & H). exists f, (Z.of_nat len). exact H.
Qed.
End File.

(** ** The printed word *)
Lemma check_not_equiv l : forall ok, fst (fold_left check_pair l (NotEquiv, ok)) = NotEquiv.
Proof. induction l as [|a l IH]; intros ok; [reflexivity|]. cbn [fold_left]. destruct a as [| |[]]; cbn [check_pair]; apply IH. Qed.
Lemma check_spec l : forall v ok,
  (fst (fold_left check_pair l (v, ok)) = NotEquiv <-> v = NotEquiv \/ In (Answered Sat) l) /\
  (fst (fold_left check_pair l (v, ok)) = Equiv <->
   v = Equiv /\ forall a, In a l -> a = Skipped \/ a = Unencoded \/ a = Answered Unsat) /\
  (snd (fold_left check_pair l (v, ok)) = true <->
   ok = true /\ forall a, In a l -> a <> Unencoded /\ a <> Answered Other).
Proof.
  induction l as [|a l IH]; intros v ok; cbn [fold_left].
  - cbn. intuition.
  - destruct (check_pair (v, ok) a) as [v' ok'] eqn:E. destruct (IH v' ok') as (H1 & H2 & H3). rewrite H1, H2, H3.
    clear IH H1 H2 H3. cbn [In].
    destruct a as [| |[]]; cbn [check_pair] in E; injection E as <- <-; rewrite ?andb_true_r, ?andb_false_r;
      (split; [|split]);
      try (split;
           [intros [H1 H2]; split; [try exact H1|intros a [<-|Ha]; [try (split; discriminate); tauto|exact (H2 a Ha)]]
           |intros [H1 H2]; split; [try exact H1|intros a Ha; apply H2; right; exact Ha]]; fail).
    all: try (split; [intros [H|H]; auto|intros [H|[H|H]]; auto; discriminate H]; fail).
    all: try (split; [intros [H _]; (discriminate H || (destruct v; discriminate H))
                     |intros [H1 H2]; (destruct (H2 _ (or_introl eq_refl)) as [H|[H|H]]; discriminate H)]; fail).
    all: try (split; [intros [H _]; discriminate H|intros [_ H]; destruct (H _ (or_introl eq_refl)) as [H1 H2]; congruence]; fail).
    all: try (split; [intros _; right; left; reflexivity|intros _; left; reflexivity]; fail).
    all: destruct v; split; intros H; try (destruct H as [H|H]); auto; try discriminate; try (destruct H as [H|H]; auto; discriminate).
Qed.

Section Whole.
Variables (fl : equiv_file) (answers : list answer).
Hypothesis mission : forall p, In p (formulas fl) -> no_mission fl p.
Hypothesis later : forall p, In p (formulas fl) -> starts_later fl p.
Hypothesis sound : Forall2 (fun pq a => exists s, a = Answered s /\ right (squery false fl (sdiffer (fst pq) (snd pq))) s)
                           (adjacent (formulas fl)) answers.

Lemma adjacent_in {A} (l : list A) x y : In (x, y) (adjacent l) -> In x l /\ In y l.
Proof.
  induction l as [|a [|b l] IH]; cbn [adjacent]; intros H; try contradiction.
  destruct H as [E|H]; [injection E as <- <-; split; [left|right; left]; reflexivity|].
  destruct (IH H). split; right; assumption.
Qed.
Lemma adjacent_all {A} (R : A -> A -> Prop) : (forall x, R x x) -> (forall x y, R x y -> R y x) ->
  (forall x y z, R x y -> R y z -> R x z) -> forall l, (forall x y, In (x, y) (adjacent l) -> R x y) ->
  forall x y, In x l -> In y l -> R x y.
Proof.
  intros Rr Rs Rt l. induction l as [|a [|b l] IH]; intros H x y Hx Hy.
  - destruct Hx.
  - destruct Hx as [<-|[]], Hy as [<-|[]]. apply Rr.
  - assert (IH' := IH (fun x y Hxy => H x y (or_intror Hxy))). assert (Hab : R a b) by (apply H; left; reflexivity).
    assert (Ha : forall z, In z (b :: l) -> R a z) by (intros z Hz; apply (Rt a b z Hab); apply IH'; [left; reflexivity|exact Hz]).
    destruct Hx as [<-|Hx], Hy as [<-|Hy]; auto.
Qed.
Lemma forall2_left {A B} (R : A -> B -> Prop) l m x : Forall2 R l m -> In x l -> exists y, In y m /\ R x y.
Proof. induction 1 as [|a b l m Hab H IH]; [intros []|]. intros [<-|Hx]; [exists b; cbn; tauto|]. destruct (IH Hx) as (y & Hy & Hr). exists y. cbn. tauto. Qed.
Lemma forall2_right {A B} (R : A -> B -> Prop) l m y : Forall2 R l m -> In y m -> exists x, In x l /\ R x y.
Proof. induction 1 as [|a b l m Hab H IH]; [intros []|]. intros [<-|Hy]; [exists a; cbn; tauto|]. destruct (IH Hy) as (x & Hx & Hr). exists x. cbn. tauto. Qed.

Lemma file_equivalent : fst (check_equiv answers) = Equiv -> all_equivalent fl.
Proof using mission later sound.
  intros H M v [Hc Hpr] p q Hp Hq.
  assert (G : In p (formulas fl) /\ In q (formulas fl) -> equivalent (instance M v p) (instance M v q)); [|apply G; auto].
  intros _. revert p q Hp Hq.
  apply (adjacent_all (fun p q => equivalent (instance M v p) (instance M v q))).
  - intros p tr i. reflexivity.
  - intros p q H' tr i. symmetry. apply H'.
  - intros p q r H1 H2 tr i. rewrite (H1 tr i). apply H2.
  - intros p q Hpq. destruct (adjacent_in _ _ _ Hpq) as [Hp Hq].
    destruct (forall2_left _ _ _ _ sound Hpq) as (a & Ha & s & -> & Hs). cbn [fst snd] in Hs.
    destruct (check_spec answers Equiv true) as (_ & H2 & _). apply H2 in H. destruct H as [_ H].
    destruct (H _ Ha) as [E|[E|E]]; try discriminate. injection E as ->. cbn in Hs.
    apply (symbolic_equivalent fl p q Hp Hq (later p Hp) (later q Hq) (mission p Hp) (mission q Hq)) in Hs.
    apply (Hs M v). split; [exact Hc|]. split; auto.
Qed.
Lemma file_different : fst (check_equiv answers) = NotEquiv ->
  exists M v p q, In (p, q) (adjacent (formulas fl)) /\ admits fl p q M v /\ ~ equivalent (instance M v p) (instance M v q).
Proof using mission later sound.
  intros H. destruct (check_spec answers Equiv true) as (H1 & _). apply H1 in H. destruct H as [H|H]; [discriminate|].
  destruct (forall2_right _ _ _ _ sound H) as ((p & q) & Hpq & s & E & Hs). injection E as <-. cbn in Hs.
  destruct (adjacent_in _ _ _ Hpq) as [Hp Hq].
  apply (symbolic_exact fl p q Hp Hq (later p Hp) (later q Hq) (mission p Hp) (mission q Hq)) in Hs.
  destruct Hs as (M & v & Had & Hs). exists M, v, p, q. split; [exact Hpq|]. split; [exact Had|].
  intros He. revert Hs. apply differ_satisfiable; try apply instance_future. exact He.
Qed.
End Whole.

(** ** Where it does not *)
Definition b0 := BVar 0.
Definition n0 := BNum 0.
Definition n1 := BNum 1.
Definition a0 := SAtom 0.
(** "F[b0-1,b0-1] a0 -> F[0,b0] a0" and "true". *)
Definition early : sform := SImpl (SF (BSub b0 n1) (BSub b0 n1) a0) (SF n0 b0 a0).
Definition early_file := File [] [early; SConst true].
Lemma early_equivalent : always_equivalent early_file early (SConst true).
Proof.
  intros M v (_ & P & _) tr i. cbn [instance early sat]. split; [reflexivity|]. intros _ (j & Hj & H).
  exists j. split; [|exact H]. specialize (P (BSub b0 n1) (BSub b0 n1) (or_introl eq_refl)). cbn [value b0 n1 n0] in *. lia.
Qed.
Lemma early_answer : squery false early_file (sdiffer early (SConst true)).
Proof.
  exists 0, (fun _ => 0), (fun _ k => k =? -1). cbn. unfold early_file, early, sdiffer.
  split; [lia|]. split; [repeat (constructor; [lia|]); constructor|]. split; [constructor|]. split; [cbn; lia|].
  cbn [sterm is_num b0 n0 n1 andb bterm smission bmission orb constraints existsb].
  intros H. destruct (proj2 H eq_refl) as (Hl & i & Hi & Hi' & H' & E).
  - cbn. split; [lia|]. exists (-1). repeat split; lia.
  - cbn in Hi, Hi'. apply Z.eqb_eq in E. lia.
Qed.

(** test/equiv: "F[1,1] (F[0,M] a0)" and "F[1,M] a0". *)
Definition late1 : sform := SF n1 n1 (SF n0 BMission a0).
Definition late2 : sform := SF n1 BMission a0.
Definition late_file := File [] [late1; late2].
Lemma late_answer : ~ squery false late_file (sdiffer late1 late2).
Proof.
  intros (M & rho & f & HM & _ & _ & Hs & H). cbn [sdiffer late1 late2 sasserts is_num n0 n1 andb orb bterm] in Hs.
  cbn [sdiffer late1 late2 sterm smission bmission is_num n0 n1 andb orb bterm a0 late_file constraints existsb] in H.
  cbn in Hs, H. apply H. split.
  - intros [H1|(H1 & i & Hi & Hi' & H2 & H3)]; [lia|]. split; [lia|]. exists i. repeat split; try lia. exact H3.
  - intros (H1 & i & Hi & Hi' & H2 & H3). right. split; [lia|]. exists i. repeat split; try lia. exact H3.
Qed.
Lemma late_different : ~ always_equivalent late_file late1 late2.
Proof.
  intros H. specialize (H 1%nat (fun _ => 0%nat)).
  assert (A : admits late_file late1 late2 1 (fun _ => 0%nat)).
  { split; [intros c []|]. split; intros lb ub; cbn [late1 late2 a0 intervals In].
    - intros [E|[E|[]]]; injection E as <- <-; cbn; lia.
    - intros [E|[]]; injection E as <- <-; cbn; lia. }
  specialize (H A (fun t _ => (t =? 2)%nat) 0%nat). apply proj1 in H. cbn in H. destruct H as (j & Hj & H).
  - exists 1%nat. split; [lia|]. exists 2%nat. split; [lia|reflexivity].
  - apply Nat.eqb_eq in H. lia.
Qed.

(** "G[2,1] a0" and "F[0,b0] a0": no values at all. *)
Definition backwards : sform := SG (BNum 2) n1 a0.
Definition backwards_file := File [] [backwards; SF n0 b0 a0].
Lemma backwards_answer : ~ squery false backwards_file (sdiffer backwards (SF n0 b0 a0)).
Proof. intros (M & rho & f & _ & _ & _ & [Hs _] & _). cbn in Hs. lia. Qed.
Lemma backwards_different M v : ~ equivalent (instance M v backwards) (instance M v (SF n0 b0 a0)).
Proof.
  intros H. specialize (H (fun _ _ => false) 0%nat). cbn in H. destruct (proj1 H) as (j & _ & E); [|discriminate].
  intros j Hj. lia.
Qed.

Lemma verdict_spec answers :
  (fst (check_equiv answers) = NotEquiv <-> In (Answered Sat) answers) /\
  (fst (check_equiv answers) = Equiv <->
   forall a, In a answers -> a = Skipped \/ a = Unencoded \/ a = Answered Unsat) /\
  (snd (check_equiv answers) = true <-> forall a, In a answers -> a <> Unencoded /\ a <> Answered Other).
Proof.
  destruct (check_spec answers Equiv true) as (H1 & H2 & H3). unfold check_equiv. rewrite H1, H2, H3.
  split; [|split]; intuition discriminate.
Qed.

Lemma negative_refuted :
  exists fl p q, In p (formulas fl) /\ In q (formulas fl) /\ no_mission fl p /\ no_mission fl q /\
                 always_equivalent fl p q /\ squery false fl (sdiffer p q).
Proof.
  exists early_file, early, (SConst true). split; [left; reflexivity|]. split; [right; left; reflexivity|].
  split; [|split; [split; [intros ? []|intros ? ? []]|split; [exact early_equivalent|exact early_answer]]].
  split; [intros ? []|]. intros lb ub [E|[E|[]]]; injection E as <- <-; cbn; tauto.
Qed.
Lemma mission_refuted :
  exists fl p q, In p (formulas fl) /\ In q (formulas fl) /\ starts_later fl p /\ starts_later fl q /\
                 ~ squery false fl (sdiffer p q) /\ ~ always_equivalent fl p q.
Proof.
  exists late_file, late1, late2. split; [left; reflexivity|]. split; [right; left; reflexivity|].
  split; [|split; [|exact (conj late_answer late_different)]].
  - intros M v lb ub _ [E|[E|[]]]; injection E as <- <-; cbn; lia.
  - intros M v lb ub _ [E|[]]; injection E as <- <-; cbn; lia.
Qed.
Lemma backwards_refuted :
  exists fl p q, In p (formulas fl) /\ In q (formulas fl) /\ ~ squery false fl (sdiffer p q) /\
                 (forall M v, ~ admits fl p q M v) /\ forall M v, ~ equivalent (instance M v p) (instance M v q).
Proof.
  exists backwards_file, backwards, (SF n0 b0 a0). split; [left; reflexivity|]. split; [right; left; reflexivity|].
  split; [exact backwards_answer|]. split; [|exact backwards_different].
  intros M v (_ & P & _). specialize (P (BNum 2) n1 (or_introl eq_refl)). cbn in P. lia.
Qed.
Lemma unencoded_refuted : exists answers, In Unencoded answers /\ fst (check_equiv answers) = Equiv.
Proof. exists [Unencoded]. split; [left|]; reflexivity. Qed.
