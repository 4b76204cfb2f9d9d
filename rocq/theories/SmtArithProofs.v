(** * What queries about integer inputs decide (proofs) *)
From Coq Require Import List Arith ZArith Bool Lia.
From Verif Require Import Mltl MltlShape MltlEval Binary Booleanizer BooleanizerSpec.
From Verif Require Import Smt SmtSpec SmtQueries SmtFunctions SmtArith SmtArithSpec.
Import ListNotations.
Local Open Scope nat_scope.

(** ** Division *)
Lemma euclid_unique (b q r q' r' : Z) : (b * q + r = b * q' + r' -> 0 <= r < Z.abs b -> 0 <= r' < Z.abs b -> q = q' /\ r = r')%Z.
Proof. intros E Hr Hr'. assert (q = q') by nia. subst. lia. Qed.
Lemma smt_division d0 m0 a b : (b <> 0 -> a = b * smt_div d0 a b + smt_mod m0 a b /\ 0 <= smt_mod m0 a b < Z.abs b)%Z.
Proof.
  intros H. unfold smt_div, smt_mod. destruct (Z.eqb_spec b 0); [contradiction|].
  pose proof (Z.mod_pos_bound a (Z.abs b) ltac:(lia)) as Hm. split; [|exact Hm].
  pose proof (Z.div_mod a (Z.abs b) ltac:(lia)) as Hd.
  destruct (Z.ltb_spec 0 b); [rewrite (Z.abs_eq b) in * by lia; lia|].
  rewrite (Z.abs_neq b) in * by lia. nia.
Qed.

(** ** Terms *)
Section Values.
Variables (x : Z -> Z -> Z) (d0 m0 : Z -> Z).

Lemma aterm_exact e k : safe_divisors e -> forall v, aterm x d0 m0 e k = Some v <-> exactly (fun s => x s k) e v.
Proof.
  induction e as [s|w| |o e IH|o e1 IH1 e2 IH2|w e IH]; cbn [aterm safe_divisors]; intros Hs v.
  - split; [intros E; injection E as <-; exact (x_signal (fun s => x s k) s)|intros H; inversion H; reflexivity].
  - destruct w; (split; [intros E; try discriminate; injection E as <-; constructor|intros H; inversion H; reflexivity]).
  - split; [discriminate|intros H; inversion H].
  - destruct o; try (split; [discriminate|intros H; inversion H; fail]). split.
    + intros E. destruct (aterm x d0 m0 e k) as [a|] eqn:Ea; [|discriminate]. injection E as <-. constructor. apply IH; auto.
    + intros H. inversion H as [| |? a Ha| | | | |]; subst. apply IH in Ha; [|exact Hs]. rewrite Ha. reflexivity.
  - destruct Hs as (H1 & H2 & H3). specialize (IH1 H1). specialize (IH2 H2). split.
    + intros E. destruct (aterm x d0 m0 e1 k) as [a|] eqn:Ea; [|discriminate].
      destruct (aterm x d0 m0 e2 k) as [b|] eqn:Eb; [|discriminate].
      pose proof (proj1 (IH1 a) eq_refl) as Ha. pose proof (proj1 (IH2 b) eq_refl) as Hb.
      destruct o; try discriminate; injection E as <-; try (constructor; assumption).
      * destruct H3 as (z & -> & Hz). injection Eb as <-. destruct (smt_division d0 m0 a z Hz) as [D1 D2].
        exact (x_div _ _ _ a z _ _ Ha Hb D1 D2).
      * destruct H3 as (z & -> & Hz). injection Eb as <-. destruct (smt_division d0 m0 a z Hz) as [D1 D2].
        exact (x_mod _ _ _ a z _ _ Ha Hb D1 D2).
    + intros H. inversion H as [| | |? ? a b Ha Hb|? ? a b Ha Hb|? ? a b Ha Hb|? ? a b q r Ha Hb Hd Hr|? ? a b q r Ha Hb Hd Hr]; subst;
        apply IH1 in Ha; apply IH2 in Hb; rewrite Ha, Hb; try reflexivity.
      * assert (Hn : b <> 0%Z) by lia. destruct (smt_division d0 m0 (b * v + r) b Hn) as [D1 D2].
        destruct (euclid_unique _ _ _ _ _ D1 Hr D2) as [<- _]. reflexivity.
      * assert (Hn : b <> 0%Z) by lia. destruct (smt_division d0 m0 (b * q + v) b Hn) as [D1 D2].
        destruct (euclid_unique _ _ _ _ _ D1 Hr D2) as [_ <-]. reflexivity.
  - split; [discriminate|intros H; inversion H].
Qed.
Lemma encodable_some e k : encodable e = true -> exists v, aterm x d0 m0 e k = Some v.
Proof.
  induction e as [s|w| |o e IH|o e1 IH1 e2 IH2|w e IH]; cbn [encodable aterm]; intros H; try discriminate; eauto.
  - destruct w; [eauto|discriminate].
  - destruct o; try discriminate. destruct (IH H) as (v & ->). eexists. reflexivity.
  - destruct o; try discriminate; apply andb_prop in H; destruct H as [H1 H2];
      destruct (IH1 H1) as (a & ->), (IH2 H2) as (b & ->); eexists; reflexivity.
Qed.

Definition compareb (o : arith2) (a b : Z) : bool :=
  match o with
  | Eq => (a =? b)%Z | Neq => negb (a =? b)%Z | Lt => (a <? b)%Z | Le => (a <=? b)%Z | Gt => (b <? a)%Z | Ge => (b <=? a)%Z
  | _ => false
  end.
Lemma compareb_spec o a b : compareb o a b = true <-> compares o a b.
Proof.
  destruct o; cbn; try (split; [discriminate|contradiction]);
    rewrite ?negb_true_iff, ?Z.eqb_eq, ?Z.eqb_neq, ?Z.ltb_lt, ?Z.leb_le; reflexivity.
Qed.
(** The truth of an atomic formula within the trace. *)
Definition atomb (f : nat -> Z -> bool) (a : natom) (k : Z) : bool :=
  match a with
  | ABool s => f s k
  | ACompare o e1 e2 =>
      match aterm x d0 m0 e1 k, aterm x d0 m0 e2 k with Some v, Some w => compareb o v w | _, _ => false end
  end.
Lemma atomb_spec f len a k : (k < len)%Z -> (atom_term x d0 m0 f len a k <-> atomb f a k = true).
Proof.
  intros Hk. destruct a as [s|o e1 e2]; cbn [atom_term atomb].
  - split; [tauto|]. intros H. split; [lia|exact H].
  - destruct (aterm x d0 m0 e1 k) as [v|], (aterm x d0 m0 e2 k) as [w|]; try (split; [contradiction|discriminate]).
    rewrite compareb_spec. destruct o; cbn; try reflexivity; lia.
Qed.
Lemma atomb_shows f a k : safe_atom a -> (atomb f a k = true <->
  match a with
  | ABool s => f s k = true
  | ACompare o e1 e2 => exists v w, exactly (fun s => x s k) e1 v /\ exactly (fun s => x s k) e2 w /\ compares o v w
  end).
Proof.
  destruct a as [s|o e1 e2]; cbn [atomb safe_atom]; [reflexivity|]. intros [H1 H2]. split.
  - intros H. destruct (aterm x d0 m0 e1 k) as [v|] eqn:E1; [|discriminate].
    destruct (aterm x d0 m0 e2 k) as [w|] eqn:E2; [|discriminate].
    exists v, w. split; [apply (aterm_exact e1 k H1); exact E1|]. split; [apply (aterm_exact e2 k H2); exact E2|].
    apply compareb_spec. exact H.
  - intros (v & w & Hv & Hw & Hc). apply (aterm_exact e1 k H1) in Hv. apply (aterm_exact e2 k H2) in Hw.
    rewrite Hv, Hw. apply compareb_spec. exact Hc.
Qed.
End Values.

(** ** Temporal operators *)
Lemma num_long xs d0 m0 table f tr len e :
  (forall a t, (Z.of_nat t < len)%Z -> (atom_term xs d0 m0 f len (table a) (Z.of_nat t) <-> tr t a = true)) ->
  all_nodes quantified_op e -> all_nodes measured_op e -> legal e -> forall i,
  (Z.of_nat i + cplen e <= len)%Z -> (num_term xs d0 m0 table f len e (Z.of_nat i) <-> sat tr e i).
Proof.
  intros Hat.
  induction e as [b|a|e IH|es IH|es IH|p q IHp IHq|p q IHp IHq|p q IHp IHq|p q IHp IHq
                 |lb ub e IH|lb ub e IH|lb ub p q IHp IHq|lb ub p q IHp IHq| | | |] using expr_ind';
    intros [Hop Hn] [Hme Hm] Hl i Hi; try (cbn in Hop; contradiction); cbn [cplen] in Hi; cbn [num_term sat]; try reflexivity.
  - apply Hat. lia.
  - rewrite (IH Hn Hm Hl i Hi). reflexivity.
  - apply conj_ext. cbn in Hme. destruct es as [|x [|y [|z es]]]; try discriminate.
    cbn [map] in Hi. destruct Hl as (Hl1 & Hl2 & _), Hn as (Hn1 & Hn2 & _), Hm as (Hm1 & Hm2 & _).
    inversion IH as [|? ? Hx H]; subst. inversion H as [|? ? Hy _]; subst.
    destruct (Z.leb_spec (cplen y) (cplen x)); constructor;
      [apply Hx|constructor; [apply Hy|constructor]|apply Hx|constructor; [apply Hy|constructor]]; auto; lia.
  - apply disj_ext. cbn in Hme. destruct es as [|x [|y [|z es]]]; try discriminate.
    cbn [map] in Hi. destruct Hl as (Hl1 & Hl2 & _), Hn as (Hn1 & Hn2 & _), Hm as (Hm1 & Hm2 & _).
    inversion IH as [|? ? Hx H]; subst. inversion H as [|? ? Hy _]; subst.
    destruct (Z.leb_spec (cplen y) (cplen x)); constructor;
      [apply Hx|constructor; [apply Hy|constructor]|apply Hx|constructor; [apply Hy|constructor]]; auto; lia.
  - destruct Hn, Hm, Hl. destruct (Z.leb_spec (cplen q) (cplen p)); (rewrite (IHp H H1 H3 i), (IHq H0 H2 H4 i) by lia); reflexivity.
  - destruct Hn, Hm, Hl. destruct (Z.leb_spec (cplen q) (cplen p)); (rewrite (IHp H H1 H3 i), (IHq H0 H2 H4 i) by lia); reflexivity.
  - destruct Hn, Hm, Hl, Hme as [Hp Hq]. pose proof (temporal_free_cplen p Hp). pose proof (temporal_free_cplen q Hq).
    rewrite (IHp H H1 H3 i), (IHq H0 H2 H4 i) by lia. reflexivity.
  - destruct Hl as [Hle Hl]. pose proof (cplen_pos e) as Hc.
    assert (Hgen : (len > Z.of_nat lb + Z.of_nat i /\ (exists j, Z.of_nat lb + Z.of_nat i <= j <= Z.of_nat ub + Z.of_nat i /\ num_term xs d0 m0 table f len e j))%Z
                   <-> (exists j, i + lb <= j <= i + ub /\ sat tr e j)).
    { split.
      - intros [_ (j & Hj & H)]. exists (Z.to_nat j). split; [lia|]. apply (IH Hn Hm Hl); [lia|].
        rewrite Z2Nat.id by lia. exact H.
      - intros (j & Hj & H). split; [lia|]. exists (Z.of_nat j). split; [lia|]. apply (IH Hn Hm Hl); [lia|exact H]. }
    destruct ((lb =? 0) && (ub =? 0))%nat eqn:E0; [|destruct ((lb =? 1) && (ub =? 1))%nat eqn:E1; [|exact Hgen]].
    + apply andb_prop in E0. destruct E0 as [E1 E2]. apply Nat.eqb_eq in E1, E2. subst. rewrite <- Hgen. split.
      * intros [H|H]; [lia|]. split; [lia|]. exists (Z.of_nat i). split; [lia|exact H].
      * intros [_ (j & Hj & H)]. right. replace (Z.of_nat i) with j by lia. exact H.
    + apply andb_prop in E1. destruct E1 as [E1 E2]. apply Nat.eqb_eq in E1, E2. subst. rewrite <- Hgen. split.
      * intros [H|H]; [lia|]. split; [lia|]. exists (1 + Z.of_nat i)%Z. split; [lia|exact H].
      * intros [_ (j & Hj & H)]. right. replace (1 + Z.of_nat i)%Z with j by lia. exact H.
  - destruct Hl as [Hle Hl]. pose proof (cplen_pos e) as Hc.
    assert (Hgen : (len <= Z.of_nat lb + Z.of_nat i \/ (forall j, Z.of_nat lb + Z.of_nat i <= j <= Z.of_nat ub + Z.of_nat i -> num_term xs d0 m0 table f len e j))%Z
                   <-> (forall j, i + lb <= j <= i + ub -> sat tr e j)).
    { split.
      - intros [H|H] j Hj; [lia|]. apply (IH Hn Hm Hl); [lia|]. apply H. lia.
      - intros H. right. intros j Hj. rewrite <- (Z2Nat.id j) by lia. apply (IH Hn Hm Hl); [lia|]. apply H. lia. }
    destruct ((lb =? 0) && (ub =? 0))%nat eqn:E0; [|destruct ((lb =? 1) && (ub =? 1))%nat eqn:E1; [|exact Hgen]].
    + apply andb_prop in E0. destruct E0 as [E1 E2]. apply Nat.eqb_eq in E1, E2. subst. rewrite <- Hgen. split.
      * intros [H|H]; [left; lia|right]. intros j Hj. replace j with (Z.of_nat i) by lia. exact H.
      * intros [H|H]; [left; lia|right]. apply H. lia.
    + apply andb_prop in E1. destruct E1 as [E1 E2]. apply Nat.eqb_eq in E1, E2. subst. rewrite <- Hgen. split.
      * intros [H|H]; [left; lia|right]. intros j Hj. replace j with (1 + Z.of_nat i)%Z by lia. exact H.
      * intros [H|H]; [left; lia|right]. apply H. lia.
  - destruct Hl as (Hle & Hl1 & Hl2), Hn as [Hn1 Hn2], Hm as [Hm1 Hm2].
    pose proof (cplen_pos p) as Hc1. pose proof (cplen_pos q) as Hc2.
    assert (Hb : (Z.of_nat i + Z.of_nat ub + cplen q <= len /\ Z.of_nat i + Z.of_nat ub + cplen p - 1 <= len)%Z)
      by (destruct (Z.ltb_spec (cplen q) (cplen p - 1)); lia).
    split.
    + intros [_ (j & Hj & H & HA)]. exists (Z.to_nat j). split; [lia|]. split.
      * apply (IHq Hn2 Hm2 Hl2); [lia|]. rewrite Z2Nat.id by lia. exact H.
      * intros k Hk. apply (IHp Hn1 Hm1 Hl1); [lia|]. apply HA. lia.
    + intros (j & Hj & H & HA). split; [lia|]. exists (Z.of_nat j). split; [lia|]. split.
      * apply (IHq Hn2 Hm2 Hl2); [lia|exact H].
      * intros k Hk. rewrite <- (Z2Nat.id k) by lia. apply (IHp Hn1 Hm1 Hl1); [lia|]. apply HA. lia.
  - destruct Hl as (Hle & Hl1 & Hl2), Hn as [Hn1 Hn2], Hm as [Hm1 Hm2].
    pose proof (cplen_pos p) as Hc1. pose proof (cplen_pos q) as Hc2.
    assert (Hb : (Z.of_nat i + Z.of_nat ub + cplen q <= len /\ Z.of_nat i + Z.of_nat ub + cplen p - 1 <= len)%Z)
      by (destruct (Z.ltb_spec (cplen q) (cplen p - 1)); lia).
    split.
    + intros [H|H] j Hj Hq; [lia|]. destruct (H (Z.of_nat j)) as [H'|(k & Hk & H')]; [lia| |].
      * exfalso. apply Hq. apply (IHq Hn2 Hm2 Hl2); [lia|exact H'].
      * exists (Z.to_nat k). split; [lia|]. apply (IHp Hn1 Hm1 Hl1); [lia|]. rewrite Z2Nat.id by lia. exact H'.
    + intros H. right. intros j Hj. destruct (sat_decidable tr q (Z.to_nat j)) as [Hq|Hq].
      * left. rewrite <- (Z2Nat.id j) by lia. apply (IHq Hn2 Hm2 Hl2); [lia|exact Hq].
      * right. destruct (H (Z.to_nat j) ltac:(lia) Hq) as (k & Hk & H'). exists (Z.of_nat k). split; [lia|].
        apply (IHp Hn1 Hm1 Hl1); [lia|exact H'].
Qed.

(** ** The query *)
Section Query.
Variables (table : nat -> natom) (e : expr).
Hypothesis Hq : all_nodes quantified_op e.
Hypothesis Hm : all_nodes measured_op e.
Hypothesis Hl : legal e.
Hypothesis Hs : forall a, safe_atom (table a).

Lemma num_exact : num_query table e <-> exists f x tr, shows table f x tr /\ sat tr e 0.
Proof using Hq Hm Hl Hs.
  split.
  - intros (x & f & d0 & m0 & H).
    exists (fun t s => f s (Z.of_nat t)), (fun t s => x s (Z.of_nat t)), (fun t a => atomb x d0 m0 f (table a) (Z.of_nat t)).
    split.
    + intros t a. rewrite (atomb_shows x d0 m0 f (table a) (Z.of_nat t) (Hs a)). reflexivity.
    + refine (proj1 (num_long x d0 m0 table f _ (cplen e) e _ Hq Hm Hl 0 _) H); [|lia].
      intros a t Ht. apply atomb_spec. exact Ht.
  - intros (f & x & tr & Hsh & H).
    exists (fun s k => x (Z.to_nat k) s), (fun s k => f (Z.to_nat k) s), (fun _ => 0%Z), (fun _ => 0%Z).
    refine (proj2 (num_long _ _ _ table _ tr (cplen e) e _ Hq Hm Hl 0 _) H); [|lia].
    intros a t Ht. rewrite (atomb_spec _ _ _ _ _ _ _ Ht), (atomb_shows _ _ _ _ _ _ (Hs a)), (Hsh t a).
    destruct (table a); rewrite Nat2Z.id; reflexivity.
Qed.
End Query.

(** ** The monitor's values *)
Lemma exactly_unique x e v w : exactly x e v -> exactly x e w -> v = w.
Proof.
  intros H. revert w. induction H; intros w' H'; inversion H'; subst; try reflexivity;
    repeat match goal with
      | IH : forall w, exactly _ ?e w -> _ = w, K : exactly _ ?e _ |- _ => apply IH in K; subst
    end; try reflexivity.
  - match goal with K : (_ * _ + _ = _ * _ + _)%Z |- _ => destruct (euclid_unique _ _ _ _ _ K) as [-> _]; try assumption; reflexivity end.
  - match goal with K : (_ * _ + _ = _ * _ + _)%Z |- _ => destruct (euclid_unique _ _ _ _ _ K) as [_ ->]; try assumption; reflexivity end.
Qed.
Lemma wraps_small v z : int32 z -> (wraps v z <-> v = z).
Proof.
  unfold wraps, int32. intros Hz. split.
  - intros (Hv & k & E). assert (k = 0%Z) by lia. lia.
  - intros ->. split; [exact Hz|]. exists 0%Z. lia.
Qed.
Lemma calm_yields F inp t x e : (forall s, inp t s = VInt (x s)) -> calm x e ->
  exists v, exactly x e v /\ int32 v /\ yields F inp t e (VInt v).
Proof.
  intros Hi H. induction H as [s Hx|z Hz|e v H IH Hv Hr|o e1 e2 v Ho H1 IH1 H2 IH2 Hv Hr|o e1 e2 a b Ho H1 IH1 H2 IH2 Ha Hb Hp Hn].
  - exists (x s). split; [constructor|]. split; [exact Hx|]. rewrite <- Hi. constructor.
  - exists z. split; [constructor|]. split; [exact Hz|constructor].
  - destruct IH as (a & Ha & Hra & Hy). exists v. split; [exact Hv|]. split; [exact Hr|].
    inversion Hv as [| |? a' Ha'| | | | |]; subst. rewrite (exactly_unique _ _ _ _ Ha' Ha) in *.
    apply (y_unary_int F inp t Neg e a _ Hy). apply wraps_small; auto.
  - destruct IH1 as (a & Ha & Hra & Hya), IH2 as (b & Hb & Hrb & Hyb). exists v. split; [exact Hv|]. split; [exact Hr|].
    apply (y_binary_int F inp t o e1 e2 a b v Hya Hyb).
    destruct Ho as [->|[->| ->]]; inversion Hv as [| | |? ? a' b' Ha' Hb'|? ? a' b' Ha' Hb'|? ? a' b' Ha' Hb'| |]; subst;
      rewrite (exactly_unique _ _ _ _ Ha' Ha), (exactly_unique _ _ _ _ Hb' Hb) in *; cbn; apply wraps_small; auto.
  - destruct IH1 as (a' & Ha' & Hra & Hya), IH2 as (b' & Hb' & Hrb & Hyb).
    rewrite (exactly_unique _ _ _ _ Ha' Ha), (exactly_unique _ _ _ _ Hb' Hb) in *. clear Ha' Hb' a' b'.
    destruct (smt_division (fun _ => 0%Z) (fun _ => 0%Z) a b Hn) as [D1 D2].
    set (q := smt_div _ a b) in *. set (r := smt_mod _ a b) in *.
    assert (Hq : int32 q) by (unfold int32 in *; nia).
    destruct Ho as [->| ->].
    + exists q. split; [exact (x_div _ _ _ a b q r Ha Hb D1 D2)|]. split; [exact Hq|].
      apply (y_binary_int F inp t Div e1 e2 a b q Hya Hyb). split; [exact Hq|]. exists r. split; [exact D1|]. nia.
    + exists r. split; [exact (x_mod _ _ _ a b q r Ha Hb D1 D2)|]. split; [unfold int32 in *; lia|].
      apply (y_binary_int F inp t Mod e1 e2 a b r Hya Hyb). exists q. split; [exact Hq|]. split; [exact D1|]. nia.
Qed.
