(** * What the equivalence check over symbolic bounds decides (proofs) *)
From Coq Require Import List Arith ZArith Bool Lia.
From Verif Require Import Mltl MltlShape MltlEval Smt SmtSpec SmtQueries SmtFunctions SymSmt SymSmtSpec.
Import ListNotations.
Local Open Scope Z_scope.

Lemma untimed_bmission b : untimed b <-> bmission b = false.
Proof. induction b; cbn; rewrite ?orb_false_iff; try tauto; split; (discriminate || tauto). Qed.
Lemma untimed_smission p : (forall lb ub, In (lb, ub) (intervals p) -> untimed lb /\ untimed ub) <-> smission p = false.
Proof.
  induction p; cbn [intervals smission]; rewrite ?orb_false_iff; try (split; [reflexivity|intros _ ? ? []]); try assumption;
    try (rewrite <- IHp1, <- IHp2; setoid_rewrite in_app_iff; split;
         [intros H; split; intros lb' ub' Hin; apply H; tauto
         |intros [H1 H2] lb' ub' [H|H]; [exact (H1 _ _ H)|exact (H2 _ _ H)]]).
  1,2: rewrite <- IHp, <- !untimed_bmission; split;
    [intros H; split; [apply (H lb ub); left; reflexivity|intros l u Hin; apply H; right; exact Hin]
    |intros [H1 H2] l u [E|Hin]; [injection E as <- <-; exact H1|exact (H2 _ _ Hin)]].
  1,2: rewrite <- IHp1, <- IHp2, <- !untimed_bmission; split;
    [intros H; split; [split; [apply (H lb ub); left; reflexivity|]|]; intros l u Hin; apply H; right; apply in_app_iff; tauto
    |intros [[H1 H2] H3] l u [E|Hin]; [injection E as <- <-; exact H1|apply in_app_iff in Hin; destruct Hin as [Hin|Hin]; auto]].
Qed.

Section Proper.
Variables (M : nat) (v : nat -> nat).
Lemma proper_app p q pq : intervals pq = intervals p ++ intervals q -> proper M v pq <-> proper M v p /\ proper M v q.
Proof.
  intros E. unfold proper. rewrite E. setoid_rewrite in_app_iff.
  split; [intros H; split; intros lb ub Hn; apply H; tauto|intros [H1 H2] lb ub [H|H]; [exact (H1 _ _ H)|exact (H2 _ _ H)]].
Qed.
Lemma proper_cons lb ub p pq : intervals pq = (lb, ub) :: intervals p ->
  proper M v pq <-> 0 <= value M v lb <= value M v ub /\ proper M v p.
Proof.
  intros E. unfold proper. rewrite E. split.
  - intros H. split; [apply H; left; reflexivity|]. intros l u Hin. apply H. right. exact Hin.
  - intros [H1 H2] l u [Hin|Hin]; [injection Hin as <- <-; exact H1|exact (H2 _ _ Hin)].
Qed.
Lemma proper_cons2 lb ub p q pq : intervals pq = (lb, ub) :: intervals p ++ intervals q ->
  proper M v pq <-> 0 <= value M v lb <= value M v ub /\ proper M v p /\ proper M v q.
Proof.
  intros E. rewrite (proper_cons lb ub (SAnd p q) pq E), (proper_app p q (SAnd p q) eq_refl). reflexivity.
Qed.

End Proper.

Section Agree.
Variables (Mz : Z) (rho : nat -> Z) (M : nat) (v : nat -> nat).
Hypothesis mission_agrees : Mz = Z.of_nat M.

Definition agree (ns : list nat) : Prop := forall n, In n ns -> rho n = Z.of_nat (v n).
Lemma agree_app l m : agree (l ++ m) <-> agree l /\ agree m.
Proof. unfold agree. setoid_rewrite in_app_iff. split; [intros H; split; intros n Hn; apply H; tauto|intros [H1 H2] n [H|H]; auto]. Qed.

Lemma bterm_value b : agree (bvars b) -> bterm Mz rho b = value M v b.
Proof using mission_agrees.
  induction b; cbn [bvars bterm value]; rewrite ?agree_app; intros H; try reflexivity.
  - apply H. left. reflexivity.
  - exact mission_agrees.
  - destruct H. rewrite IHb1, IHb2 by assumption. reflexivity.
  - destruct H. rewrite IHb1, IHb2 by assumption. reflexivity.
  - destruct H. rewrite IHb1, IHb2 by assumption. reflexivity.
  - destruct H. rewrite IHb1, IHb2 by assumption. destruct (Z.leb_spec (value M v b1) (value M v b2)); lia.
  - destruct H. rewrite IHb1, IHb2 by assumption. destruct (Z.leb_spec (value M v b2) (value M v b1)); lia.
Qed.
Lemma cterm_meets c : agree (cvars c) -> (cterm Mz rho c <-> meets M v c).
Proof using mission_agrees.
  intros H. apply agree_app in H. destruct H as [H1 H2]. unfold cterm, meets. rewrite !bterm_value by assumption.
  destruct (rel c); lia.
Qed.

Lemma is_num_eq w b : is_num w b = true <-> b = BNum w.
Proof using. destruct b; cbn; try (split; discriminate). rewrite N.eqb_eq. split; congruence. Qed.

Lemma slen_value p : agree (svars p) -> proper M v p -> 1 <= slen Mz rho p.
Proof using mission_agrees.
  induction p; cbn [svars slen]; rewrite ?agree_app; intros A P; try lia;
    try (apply IHp; assumption);
    try (rewrite (proper_app M v p1 p2) in P by reflexivity; destruct A as [A1 A2], P as [P1 P2];
         specialize (IHp1 A1 P1); specialize (IHp2 A2 P2); destruct (Z.leb_spec (slen Mz rho p2) (slen Mz rho p1)); lia).
  1,2: rewrite (proper_cons M v lb ub p) in P by reflexivity; destruct A as (A1 & A2 & A3), P as [P1 P2];
    specialize (IHp A3 P2); rewrite (bterm_value ub A2); lia.
  1,2: rewrite (proper_cons2 M v lb ub p1 p2) in P by reflexivity; destruct A as (A1 & A2 & A3 & A4), P as (P1 & P2 & P3);
    specialize (IHp1 A3 P2); specialize (IHp2 A4 P3); rewrite (bterm_value ub A2);
    destruct (Z.ltb_spec (slen Mz rho p2) (slen Mz rho p1 - 1)); lia.
Qed.

(** The assertions on the intervals. *)
Lemma sasserts_proper p : agree (svars p) ->
  (proper M v p <-> sasserts Mz rho p /\ forall lb ub, In (lb, ub) (intervals p) -> 0 <= value M v lb).
Proof using mission_agrees.
  assert (Happ : forall p q pq, intervals pq = intervals p ++ intervals q ->
            ((forall lb ub, In (lb, ub) (intervals pq) -> 0 <= value M v lb) <->
             (forall lb ub, In (lb, ub) (intervals p) -> 0 <= value M v lb) /\
             (forall lb ub, In (lb, ub) (intervals q) -> 0 <= value M v lb))).
  { intros p' q' pq E. rewrite E. setoid_rewrite in_app_iff.
    split; [intros H; split; intros lb ub Hn; apply (H lb ub); tauto|intros [H1 H2] lb ub [H|H]; eauto]. }
  assert (Hcons : forall lb ub l, ((forall lb' ub', In (lb', ub') ((lb, ub) :: l) -> 0 <= value M v lb') <->
             0 <= value M v lb /\ (forall lb ub : bexpr, In (lb, ub) l -> 0 <= value M v lb))).
  { intros lb ub l. split.
    - intros H. split; [apply (H lb ub); left; reflexivity|]. intros l' u Hin. apply (H l' u). right. exact Hin.
    - intros [H1 H2] l' u [Hin|Hin]; [injection Hin as <- <-; exact H1|exact (H2 _ _ Hin)]. }
  induction p; cbn [svars sasserts]; rewrite ?agree_app; intros A;
    try (rewrite (proper_app M v p1 p2) by reflexivity; rewrite (Happ p1 p2) by reflexivity; rewrite (IHp1 (proj1 A)), (IHp2 (proj2 A)); tauto).
  - split; [intros _; split; [exact Logic.I|intros ? ? []]|intros _ ? ? []].
  - split; [intros _; split; [exact Logic.I|intros ? ? []]|intros _ ? ? []].
  - exact (IHp A).
  - destruct A as (A1 & A2 & A3). rewrite (proper_cons M v lb ub p) by reflexivity. rewrite (IHp A3). cbn [intervals]. rewrite Hcons.
    destruct ((is_num 0 lb && is_num 0 ub) || (is_num 1 lb && is_num 1 ub)) eqn:E.
    + apply orb_prop in E. destruct E as [E|E]; apply andb_prop in E; destruct E as [E1 E2];
        apply is_num_eq in E1, E2; subst lb ub; cbn [value]; intuition lia.
    + rewrite (bterm_value lb A1), (bterm_value ub A2). intuition lia.
  - destruct A as (A1 & A2 & A3). rewrite (proper_cons M v lb ub p) by reflexivity. rewrite (IHp A3). cbn [intervals]. rewrite Hcons.
    destruct ((is_num 0 lb && is_num 0 ub) || (is_num 1 lb && is_num 1 ub)) eqn:E.
    + apply orb_prop in E. destruct E as [E|E]; apply andb_prop in E; destruct E as [E1 E2];
        apply is_num_eq in E1, E2; subst lb ub; cbn [value]; intuition lia.
    + rewrite (bterm_value lb A1), (bterm_value ub A2). intuition lia.
  - destruct A as (A1 & A2 & A3 & A4). rewrite (proper_cons2 M v lb ub p1 p2) by reflexivity. rewrite (IHp1 A3), (IHp2 A4).
    cbn [intervals]. rewrite Hcons. fold (intervals (SAnd p1 p2)). rewrite (Happ p1 p2 (SAnd p1 p2) eq_refl).
    rewrite (bterm_value lb A1), (bterm_value ub A2). intuition lia.
  - destruct A as (A1 & A2 & A3 & A4). rewrite (proper_cons2 M v lb ub p1 p2) by reflexivity. rewrite (IHp1 A3), (IHp2 A4).
    cbn [intervals]. rewrite Hcons. fold (intervals (SAnd p1 p2)). rewrite (Happ p1 p2 (SAnd p1 p2) eq_refl).
    rewrite (bterm_value lb A1), (bterm_value ub A2). intuition lia.
Qed.

Variable f : nat -> Z -> bool.

(** A trace long enough for the formula. *)
Lemma sterm_long p : agree (svars p) -> proper M v p -> forall len i,
  Z.of_nat i + slen Mz rho p <= len ->
  (sterm Mz rho f len p (Z.of_nat i) <-> sat (trace_of f) (instance M v p) i).
Proof using mission_agrees.
  induction p as [b|a|p IH|p1 IH1 p2 IH2|p1 IH1 p2 IH2|p1 IH1 p2 IH2|p1 IH1 p2 IH2
                 |lb ub p IH|lb ub p IH|lb ub p1 IH1 p2 IH2|lb ub p1 IH1 p2 IH2];
    cbn [svars slen]; rewrite ?agree_app; intros A P len i Hi; cbn [sterm instance sat fold_right].
  - reflexivity.
  - unfold trace_of. split; [tauto|]. intros H. split; [lia|exact H].
  - rewrite (IH A P len i Hi). reflexivity.
  - rewrite (proper_app M v p1 p2) in P by reflexivity. destruct A as [A1 A2], P as [P1 P2].
    destruct (Z.leb_spec (slen Mz rho p2) (slen Mz rho p1)); rewrite (IH1 A1 P1 len i), (IH2 A2 P2 len i) by lia; tauto.
  - rewrite (proper_app M v p1 p2) in P by reflexivity. destruct A as [A1 A2], P as [P1 P2].
    destruct (Z.leb_spec (slen Mz rho p2) (slen Mz rho p1)); rewrite (IH1 A1 P1 len i), (IH2 A2 P2 len i) by lia; tauto.
  - rewrite (proper_app M v p1 p2) in P by reflexivity. destruct A as [A1 A2], P as [P1 P2].
    destruct (Z.leb_spec (slen Mz rho p2) (slen Mz rho p1)); rewrite (IH1 A1 P1 len i), (IH2 A2 P2 len i) by lia; tauto.
  - rewrite (proper_app M v p1 p2) in P by reflexivity. destruct A as [A1 A2], P as [P1 P2].
    destruct (Z.leb_spec (slen Mz rho p2) (slen Mz rho p1)); rewrite (IH1 A1 P1 len i), (IH2 A2 P2 len i) by lia; tauto.
  - rewrite (proper_cons M v lb ub p) in P by reflexivity. destruct A as (A1 & A2 & A3), P as [P1 P2].
    pose proof (slen_value p A3 P2) as Hs. specialize (IH A3 P2 len).
    rewrite (bterm_value ub A2) in Hi. rewrite (bterm_value lb A1), (bterm_value ub A2).
    set (l := value M v lb) in *. set (u := value M v ub) in *.
    assert (Hgen : (len <= l + Z.of_nat i \/ (forall j, l + Z.of_nat i <= j /\ j <= u + Z.of_nat i -> sterm Mz rho f len p j))
                   <-> (forall j, (i + Z.to_nat l <= j <= i + Z.to_nat u)%nat -> sat (trace_of f) (instance M v p) j)).
    { split.
      - intros [H|H] j Hj; [lia|]. apply IH; [lia|]. apply H. lia.
      - intros H. right. intros j Hj. rewrite <- (Z2Nat.id j) by lia. apply IH; [lia|]. apply H. lia. }
    destruct (is_num 0 lb && is_num 0 ub) eqn:E0; [|destruct (is_num 1 lb && is_num 1 ub) eqn:E1; [|exact Hgen]].
    + apply andb_prop in E0. destruct E0 as [E1 E2]. apply is_num_eq in E1, E2. subst lb ub. rewrite <- Hgen.
      subst l u. cbn [value] in *. split.
      * intros [H|H]; [left; lia|right]. intros j Hj. replace j with (Z.of_nat i) by lia. exact H.
      * intros [H|H]; [left; lia|right]. apply H. lia.
    + apply andb_prop in E1. destruct E1 as [E1 E2]. apply is_num_eq in E1, E2. subst lb ub. rewrite <- Hgen.
      subst l u. cbn [value] in *. split.
      * intros [H|H]; [left; lia|right]. intros j Hj. replace j with (1 + Z.of_nat i) by lia. exact H.
      * intros [H|H]; [left; lia|right]. apply H. lia.
  - rewrite (proper_cons M v lb ub p) in P by reflexivity. destruct A as (A1 & A2 & A3), P as [P1 P2].
    pose proof (slen_value p A3 P2) as Hs. specialize (IH A3 P2 len).
    rewrite (bterm_value ub A2) in Hi. rewrite (bterm_value lb A1), (bterm_value ub A2).
    set (l := value M v lb) in *. set (u := value M v ub) in *.
    assert (Hgen : (len > l + Z.of_nat i /\ (exists j, l + Z.of_nat i <= j /\ j <= u + Z.of_nat i /\ sterm Mz rho f len p j))
                   <-> (exists j, (i + Z.to_nat l <= j <= i + Z.to_nat u)%nat /\ sat (trace_of f) (instance M v p) j)).
    { split.
      - intros [_ (j & Hj & Hj' & H)]. exists (Z.to_nat j). split; [lia|]. apply IH; [lia|].
        rewrite Z2Nat.id by lia. exact H.
      - intros (j & Hj & H). split; [lia|]. exists (Z.of_nat j). split; [lia|]. split; [lia|]. apply IH; [lia|exact H]. }
    destruct (is_num 0 lb && is_num 0 ub) eqn:E0; [|destruct (is_num 1 lb && is_num 1 ub) eqn:E1; [|exact Hgen]].
    + apply andb_prop in E0. destruct E0 as [E1 E2]. apply is_num_eq in E1, E2. subst lb ub. rewrite <- Hgen.
      subst l u. cbn [value] in *. split.
      * intros [H|H]; [lia|]. split; [lia|]. exists (Z.of_nat i). split; [lia|]. split; [lia|exact H].
      * intros [_ (j & Hj & Hj' & H)]. right. replace (Z.of_nat i) with j by lia. exact H.
    + apply andb_prop in E1. destruct E1 as [E1 E2]. apply is_num_eq in E1, E2. subst lb ub. rewrite <- Hgen.
      subst l u. cbn [value] in *. split.
      * intros [H|H]; [lia|]. split; [lia|]. exists (1 + Z.of_nat i). split; [lia|]. split; [lia|exact H].
      * intros [_ (j & Hj & Hj' & H)]. right. replace (1 + Z.of_nat i) with j by lia. exact H.
  - rewrite (proper_cons2 M v lb ub p1 p2) in P by reflexivity. destruct A as (A1 & A2 & A3 & A4), P as (P1 & P2 & P3).
    pose proof (slen_value p1 A3 P2) as Hs1. pose proof (slen_value p2 A4 P3) as Hs2.
    specialize (IH1 A3 P2 len). specialize (IH2 A4 P3 len).
    rewrite (bterm_value ub A2) in Hi. rewrite (bterm_value lb A1), (bterm_value ub A2).
    set (l := value M v lb) in *. set (u := value M v ub) in *.
    assert (Hb : Z.of_nat i + u + slen Mz rho p2 <= len /\ Z.of_nat i + u + slen Mz rho p1 - 1 <= len)
      by (destruct (Z.ltb_spec (slen Mz rho p2) (slen Mz rho p1 - 1)); lia).
    split.
    + intros [_ (j & Hj & Hj' & H & HA)]. exists (Z.to_nat j). split; [lia|]. split.
      * apply IH2; [lia|]. rewrite Z2Nat.id by lia. exact H.
      * intros k Hk. apply IH1; [lia|]. apply HA. lia.
    + intros (j & Hj & H & HA). split; [lia|]. exists (Z.of_nat j). split; [lia|]. split; [lia|]. split.
      * apply IH2; [lia|exact H].
      * intros k Hk. rewrite <- (Z2Nat.id k) by lia. apply IH1; [lia|]. apply HA. lia.
  - rewrite (proper_cons2 M v lb ub p1 p2) in P by reflexivity. destruct A as (A1 & A2 & A3 & A4), P as (P1 & P2 & P3).
    pose proof (slen_value p1 A3 P2) as Hs1. pose proof (slen_value p2 A4 P3) as Hs2.
    specialize (IH1 A3 P2 len). specialize (IH2 A4 P3 len).
    rewrite (bterm_value ub A2) in Hi. rewrite (bterm_value lb A1), (bterm_value ub A2).
    set (l := value M v lb) in *. set (u := value M v ub) in *.
    assert (Hb : Z.of_nat i + u + slen Mz rho p2 <= len /\ Z.of_nat i + u + slen Mz rho p1 - 1 <= len)
      by (destruct (Z.ltb_spec (slen Mz rho p2) (slen Mz rho p1 - 1)); lia).
    split.
    + intros [H|H] j Hj Hq; [lia|]. destruct (H (Z.of_nat j)) as [H'|(k & Hk & Hk' & H')]; [lia| |].
      * exfalso. apply Hq. apply IH2; [lia|exact H'].
      * exists (Z.to_nat k). split; [lia|]. apply IH1; [lia|]. rewrite Z2Nat.id by lia. exact H'.
    + intros H. right. intros j Hj. destruct (sat_decidable (trace_of f) (instance M v p2) (Z.to_nat j)) as [Hq|Hq].
      * left. rewrite <- (Z2Nat.id j) by lia. apply IH2; [lia|exact Hq].
      * right. destruct (H (Z.to_nat j) ltac:(lia) Hq) as (k & Hk & H'). exists (Z.of_nat k). split; [lia|]. split; [lia|].
        apply IH1; [lia|exact H'].
Qed.

(** A trace of any length, read as the documentation reads finite traces. *)
Lemma sterm_finite p : agree (svars p) -> proper M v p -> plain_eventually p -> forall len i,
  sterm Mz rho f len p (Z.of_nat i) <-> fsat (Z.to_nat len) (trace_of f) (instance M v p) i.
Proof using mission_agrees.
  induction p as [b|a|p IH|p1 IH1 p2 IH2|p1 IH1 p2 IH2|p1 IH1 p2 IH2|p1 IH1 p2 IH2
                 |lb ub p IH|lb ub p IH|lb ub p1 IH1 p2 IH2|lb ub p1 IH1 p2 IH2];
    cbn [svars plain_eventually]; rewrite ?agree_app; intros A P Pl len i; cbn [sterm instance fsat fold_right].
  - reflexivity.
  - unfold trace_of. split; intros [H1 H2]; (split; [lia|exact H2]).
  - rewrite (IH A P Pl len i). reflexivity.
  - rewrite (proper_app M v p1 p2) in P by reflexivity. destruct A as [A1 A2], P as [P1 P2], Pl as [L1 L2].
    rewrite (IH1 A1 P1 L1 len i), (IH2 A2 P2 L2 len i). tauto.
  - rewrite (proper_app M v p1 p2) in P by reflexivity. destruct A as [A1 A2], P as [P1 P2], Pl as [L1 L2].
    rewrite (IH1 A1 P1 L1 len i), (IH2 A2 P2 L2 len i). tauto.
  - rewrite (proper_app M v p1 p2) in P by reflexivity. destruct A as [A1 A2], P as [P1 P2], Pl as [L1 L2].
    rewrite (IH1 A1 P1 L1 len i), (IH2 A2 P2 L2 len i). tauto.
  - rewrite (proper_app M v p1 p2) in P by reflexivity. destruct A as [A1 A2], P as [P1 P2], Pl as [L1 L2].
    rewrite (IH1 A1 P1 L1 len i), (IH2 A2 P2 L2 len i). tauto.
  - rewrite (proper_cons M v lb ub p) in P by reflexivity. destruct A as (A1 & A2 & A3), P as [P1 P2].
    specialize (IH A3 P2 Pl len). rewrite (bterm_value lb A1), (bterm_value ub A2).
    set (l := value M v lb) in *. set (u := value M v ub) in *.
    assert (Hgen : (len <= l + Z.of_nat i \/ (forall j, l + Z.of_nat i <= j /\ j <= u + Z.of_nat i -> sterm Mz rho f len p j))
                   <-> ((Z.to_nat len <= i + Z.to_nat l)%nat \/
                        forall j, (i + Z.to_nat l <= j <= i + Z.to_nat u)%nat -> fsat (Z.to_nat len) (trace_of f) (instance M v p) j)).
    { split.
      - intros [H|H]; [left; lia|right]. intros j Hj. apply IH. apply H. lia.
      - intros [H|H]; [left; lia|right]. intros j Hj. rewrite <- (Z2Nat.id j) by lia. apply IH. apply H. lia. }
    destruct (is_num 0 lb && is_num 0 ub) eqn:E0; [|destruct (is_num 1 lb && is_num 1 ub) eqn:E1; [|exact Hgen]].
    + apply andb_prop in E0. destruct E0 as [E1 E2]. apply is_num_eq in E1, E2. subst lb ub. rewrite <- Hgen.
      subst l u. cbn [value] in *. split.
      * intros [H|H]; [left; lia|right]. intros j Hj. replace j with (Z.of_nat i) by lia. exact H.
      * intros [H|H]; [left; lia|right]. apply H. lia.
    + apply andb_prop in E1. destruct E1 as [E1 E2]. apply is_num_eq in E1, E2. subst lb ub. rewrite <- Hgen.
      subst l u. cbn [value] in *. split.
      * intros [H|H]; [left; lia|right]. intros j Hj. replace j with (1 + Z.of_nat i) by lia. exact H.
      * intros [H|H]; [left; lia|right]. apply H. lia.
  - rewrite (proper_cons M v lb ub p) in P by reflexivity. destruct A as (A1 & A2 & A3), P as [P1 P2], Pl as [L1 L2].
    specialize (IH A3 P2 L2 len). rewrite (bterm_value lb A1), (bterm_value ub A2).
    set (l := value M v lb) in *. set (u := value M v ub) in *.
    destruct (is_num 0 lb && is_num 0 ub) eqn:E0.
    { exfalso. apply andb_prop in E0. destruct E0 as [E1 E2]. apply is_num_eq in E1, E2. apply L1. subst lb ub. tauto. }
    destruct (is_num 1 lb && is_num 1 ub) eqn:E1.
    { exfalso. apply andb_prop in E1. destruct E1 as [E1 E2]. apply is_num_eq in E1, E2. apply L1. subst lb ub. tauto. }
    split.
    + intros [Hl (j & Hj & Hj' & H)]. split; [lia|]. exists (Z.to_nat j). split; [lia|]. apply IH.
      rewrite Z2Nat.id by lia. exact H.
    + intros [Hl (j & Hj & H)]. split; [lia|]. exists (Z.of_nat j). split; [lia|]. split; [lia|]. apply IH. exact H.
  - rewrite (proper_cons2 M v lb ub p1 p2) in P by reflexivity. destruct A as (A1 & A2 & A3 & A4), P as (P1 & P2 & P3), Pl as [L1 L2].
    specialize (IH1 A3 P2 L1 len). specialize (IH2 A4 P3 L2 len).
    rewrite (bterm_value lb A1), (bterm_value ub A2).
    set (l := value M v lb) in *. set (u := value M v ub) in *. split.
    + intros [Hl (j & Hj & Hj' & H & HA)]. split; [lia|]. exists (Z.to_nat j). split; [lia|]. split.
      * apply IH2. rewrite Z2Nat.id by lia. exact H.
      * intros k Hk. apply IH1. apply HA. lia.
    + intros [Hl (j & Hj & H & HA)]. split; [lia|]. exists (Z.of_nat j). split; [lia|]. split; [lia|]. split.
      * apply IH2. exact H.
      * intros k Hk. rewrite <- (Z2Nat.id k) by lia. apply IH1. apply HA. lia.
  - rewrite (proper_cons2 M v lb ub p1 p2) in P by reflexivity. destruct A as (A1 & A2 & A3 & A4), P as (P1 & P2 & P3), Pl as [L1 L2].
    specialize (IH1 A3 P2 L1 len). specialize (IH2 A4 P3 L2 len).
    rewrite (bterm_value lb A1), (bterm_value ub A2).
    set (l := value M v lb) in *. set (u := value M v ub) in *. split.
    + intros [H|H]; [left; lia|right]. intros j Hj Hq. destruct (H (Z.of_nat j)) as [H'|(k & Hk & Hk' & H')]; [lia| |].
      * exfalso. apply Hq. apply IH2. exact H'.
      * exists (Z.to_nat k). split; [lia|]. apply IH1. rewrite Z2Nat.id by lia. exact H'.
    + intros [H|H]; [left; lia|right]. intros j Hj.
      destruct (fsat_dec (Z.to_nat len) (trace_of f) (instance M v p2) (Z.to_nat j)) as [Hq|Hq].
      * left. rewrite <- (Z2Nat.id j) by lia. apply IH2. exact Hq.
      * right. destruct (H (Z.to_nat j) ltac:(lia) Hq) as (k & Hk & H'). exists (Z.of_nat k). split; [lia|]. split; [lia|].
        apply IH1. exact H'.
Qed.
End Agree.
