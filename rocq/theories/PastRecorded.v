(** * The delays recorded on past-time expressions (proofs) *)
From Coq Require Import List Arith NArith ZArith Bool Lia.
Require Import Verif.Mltl Verif.MltlShape Verif.Transform Verif.Rewrite Verif.Definitions Verif.Pipeline.
Require Import Verif.TightSize Verif.PastSize Verif.DefaultSpec Verif.Recorded Verif.RecordedProofs.
Import ListNotations.
Local Open Scope list_scope.
Local Open Scope nat_scope.

(** Every object has the delays it would get if it were created now. *)
Fixpoint fresh (e : dx) : Prop :=
  match e with
  | DConst _ | DAtom _ => True
  | D1 o d p => d = delay_of (new1 o p) /\ fresh p
  | D2 o d p q => d = delay_of (new2 o p q) /\ fresh p /\ fresh q
  end.
Lemma fresh_new1 o p : fresh p -> fresh (new1 o p).
Proof. intros H. unfold new1. destruct (delay_of p) eqn:E. cbn [fresh]. split; [|exact H]. unfold new1. rewrite E. reflexivity. Qed.
Lemma fresh_new2 o p q : fresh p -> fresh q -> fresh (new2 o p q).
Proof.
  intros H1 H2. unfold new2. destruct (delay_of p) eqn:E, (delay_of q) eqn:E2. cbn [fresh]. split; [|auto]. unfold new2. rewrite E, E2. reflexivity.
Qed.
(** Past-time formulas over once and historically. *)
Definition past1 (o : op1) : Prop := match o with DNot => True | DO lb ub | DH lb ub => lb <= ub | _ => False end.
Definition past2 (o : op2) : Prop := match o with DU _ _ | DR _ _ | DS _ _ | DT _ _ => False | _ => True end.
Fixpoint past (A : nat -> Prop) (e : dx) : Prop :=
  match e with
  | DConst _ => False
  | DAtom a => A a
  | D1 o _ p => past1 o /\ past A p
  | D2 o _ p q => past2 o /\ past A p /\ past A q
  end.
Lemma past_new1 A o p : past1 o -> past A p -> past A (new1 o p).
Proof. intros. unfold new1. destruct (delay_of p). cbn. auto. Qed.
Lemma past_new2 A o p q : past2 o -> past A p -> past A q -> past A (new2 o p q).
Proof. intros. unfold new2. destruct (delay_of p), (delay_of q). cbn. auto. Qed.
Lemma past_mono (A B : nat -> Prop) e : (forall a, A a -> B a) -> past A e -> past B e.
Proof. intros H. induction e; cbn; intuition. Qed.
Lemma new1_delay o p p' : delay_of p' = delay_of p -> delay_of (new1 o p') = delay_of (new1 o p).
Proof. intros H. unfold new1. rewrite H. destruct (delay_of p). reflexivity. Qed.
Lemma new2_delay o p p' q q' : delay_of p' = delay_of p -> delay_of q' = delay_of q -> delay_of (new2 o p' q') = delay_of (new2 o p q).
Proof. intros H H2. unfold new2. rewrite H, H2. destruct (delay_of p), (delay_of q). reflexivity. Qed.

(** ** Steps that change no delay *)
Definition steady (A B : nat -> Prop) (f : dx -> dx) (e : dx) : Prop :=
  past A e -> fresh e -> past B (f e) /\ fresh (f e) /\ delay_of (f e) = delay_of e.
Lemma expand_steady (A B : nat -> Prop) t e :
  (forall a, A a -> match dlookup t a with Some d => past B d /\ fresh d /\ delay_of d = (0, 0)%Z | None => B a end) ->
  steady A B (dmap (dexpand_node t)) e.
Proof.
  intros H. unfold steady. induction e as [b|a|o d p IH|o d p IHp q IHq]; cbn [dmap dexpand_node]; intros F S0.
  - destruct F.
  - specialize (H a F). destruct (dlookup t a) as [b|]; [exact H|]. split; [exact H|]. split; [exact S0|reflexivity].
  - destruct F as [F1 F2], S0 as [S1 S2]. destruct (IH F2 S2) as (G1 & G2 & G3). split; [split; assumption|].
    split; [|reflexivity]. split; [|exact G2]. rewrite (new1_delay o p) by exact G3. exact S1.
  - destruct F as (F1 & F2 & F3), S0 as (S1 & S2 & S3). destruct (IHp F2 S2) as (G1 & G2 & G3). destruct (IHq F3 S3) as (G4 & G5 & G6).
    split; [split; [assumption|split; assumption]|]. split; [|reflexivity]. split; [|split; assumption].
    rewrite (new2_delay o p _ q) by assumption. exact S1.
Qed.
Lemma rw_node_steady A e : steady A A drw_node e.
Proof.
  intros F S0. assert (Keep : past A e /\ fresh e /\ delay_of e = delay_of e) by auto.
  unfold drw_node. destruct e as [b|a|o d p|o d p q]; try exact Keep; destruct o; try exact Keep; try (destruct F as [F _]; contradiction F).
  - destruct p as [[]|a|o d1 p|o d1 p q]; try exact Keep; cbn in F; try tauto. destruct o; try exact Keep; cbn in F; try tauto.
    cbn [drw_not]. destruct F as (_ & _ & F), S0 as (E & E1 & S0). split; [exact F|]. split; [exact S0|]. cbn [delay_of]. subst d d1.
    unfold new1. cbn [delay_of]. destruct (delay_of p). reflexivity.
  - destruct F as (_ & F & G). destruct p as [b|a|o d1 p|o d1 p p2]; try exact Keep; destruct o; try exact Keep; cbn in F; try tauto.
  - destruct F as (_ & F & G). destruct p as [b|a|o d1 p|o d1 p p2]; try exact Keep; destruct o; try exact Keep; cbn in F; try tauto.
Qed.
Lemma rewrites_steady A e : steady A A (dmap drw_node) e.
Proof.
  unfold steady. induction e as [b|a|o d p IH|o d p IHp q IHq]; cbn [dmap]; intros F S0; try exact (rw_node_steady A _ F S0).
  - destruct F as [F1 F2], S0 as [S1 S2]. destruct (IH F2 S2) as (G1 & G2 & G3).
    apply (rw_node_steady A (D1 o d (dmap drw_node p))); split; try assumption. rewrite (new1_delay o p) by exact G3. exact S1.
  - destruct F as (F1 & F2 & F3), S0 as (S1 & S2 & S3). destruct (IHp F2 S2) as (G1 & G2 & G3). destruct (IHq F3 S3) as (G4 & G5 & G6).
    apply (rw_node_steady A (D2 o d (dmap drw_node p) (dmap drw_node q))); split; auto. rewrite (new2_delay o p _ q) by assumption. exact S1.
Qed.

(** ** Removal of extended operators *)
(** What the delays of an object must cover. *)
Definition leads (d : delay) (e : expr) : Prop := (wpd e <= fst d /\ snd d <= - Z.of_nat (ahead e))%Z.
Fixpoint led (e : dx) : Prop :=
  leads (delay_of e) (erase e) /\
  match e with D1 _ _ p => led p | D2 _ _ p q => led p /\ led q | _ => True end.
Lemma led_here e : led e -> leads (delay_of e) (erase e).
Proof. destruct e; intros H; apply H. Qed.
Lemma leads_enough d e : leads d e -> enough d e.
Proof. unfold leads, enough. lia. Qed.
Lemma led_const b : led (DConst b).
Proof. split; [split; cbn; lia|exact I]. Qed.
Ltac seen := cbn [erase erase1 erase2 wpd ahead map zmax_list fold_left fold_right fst snd].
Lemma led_new1 p : led p -> led (new1 DNot p).
Proof.
  intros H. pose proof (led_here p H) as [H1 H2]. unfold new1. destruct (delay_of p) as [w b]. cbn [fst snd] in *. cbn [led delay_of]. split; [|exact H].
  unfold leads. seen. lia.
Qed.
Lemma led_new2 o p q : past2 o -> led p -> led q -> led (new2 o p q).
Proof.
  intros F Sp Sq. pose proof (led_here p Sp) as [H1 H2]. pose proof (led_here q Sq) as [H3 H4].
  unfold new2. destruct (delay_of p) as [w b], (delay_of q) as [w' b']. cbn [fst snd] in *. cbn [led delay_of]. split; [|auto].
  unfold leads. destruct o; cbn [past2] in F; try contradiction; seen; lia.
Qed.
Definition settled (e c : dx) : Prop :=
  led c /\ leads (delay_of e) (erase c) /\ (timeless (erase c) = true -> delay_of e = (0, 0)%Z /\ delay_of c = (0, 0)%Z).
Lemma core_led A e : past A e -> fresh e -> flat_formula (erase (dmap dcore_node e)) -> settled e (dmap dcore_node e).
Proof.
  unfold settled. induction e as [b|a|o d p IH|o d p IHp q IHq]; intros F S0 Fl.
  - destruct F.
  - cbn [dmap dcore_node]. split; [split; [split; cbn; lia|exact I]|]. split; [split; cbn; lia|]. auto.
  - destruct F as [F1 F2], S0 as [S1 S2]. cbn [dmap] in Fl |- *. unfold new1 in S1.
    destruct (delay_of p) as [w b] eqn:Ep. cbn [delay_of] in S1.
    destruct o; cbn [past1] in F1; try contradiction; cbn [dcore_node] in Fl |- *.
    + rewrite erase_new2 in Fl |- *. cbn [erase erase2] in Fl |- *. destruct Fl as (Fo & _ & Fl). cbn [flat_op] in Fo.
      destruct (IH F2 S2 Fl) as (G1 & [G2 G3] & G4). destruct (G4 Fo) as [E1 E2]. injection E1 as -> ->. cbn [fst snd] in G2, G3.
      unfold new2. rewrite E2. cbn [delay_of led]. split; [split|]; [|split; [apply led_const|exact G1]|].
      * unfold leads. seen. lia.
      * split; [|seen; discriminate]. rewrite S1. unfold leads. seen. lia.
    + rewrite erase_new2 in Fl |- *. cbn [erase erase2] in Fl |- *. destruct Fl as (Fo & _ & Fl). cbn [flat_op] in Fo.
      destruct (IH F2 S2 Fl) as (G1 & [G2 G3] & G4). destruct (G4 Fo) as [E1 E2]. injection E1 as -> ->. cbn [fst snd] in G2, G3.
      unfold new2. rewrite E2. cbn [delay_of led]. split; [split|]; [|split; [apply led_const|exact G1]|].
      * unfold leads. seen. lia.
      * split; [|seen; discriminate]. rewrite S1. unfold leads. seen. lia.
    + cbn [erase erase1] in Fl |- *. destruct Fl as [_ Fl]. destruct (IH F2 S2 Fl) as (G1 & [G2 G3] & G4). cbn [fst snd] in G2, G3. cbn [delay_of led].
      rewrite S1. split; [split; [|exact G1]; unfold leads; seen; lia|]. split; [unfold leads; seen; lia|]. intros T. destruct (G4 T) as [E _]. auto.
  - destruct F as (F1 & F2 & F3), S0 as (S1 & S2 & S3). cbn [dmap] in Fl |- *. unfold new2 in S1.
    destruct (delay_of p) as [w b] eqn:Ep, (delay_of q) as [w' b'] eqn:Eq. cbn [delay_of] in S1.
    assert (Fs : flat_formula (erase (dmap dcore_node p)) /\ flat_formula (erase (dmap dcore_node q))).
    { unfold flat_formula in *. destruct o; cbn [past2] in F1; try contradiction; cbn [dcore_node] in Fl; rewrite ?erase_new1, ?erase_new2 in Fl; cbn [erase erase1 erase2 all_nodes fold_right] in Fl;
        rewrite ?erase_new1, ?erase_new2 in Fl; cbn [erase erase1 erase2 all_nodes fold_right] in Fl; tauto. }
    destruct Fs as [Fp Fq]. destruct (IHp F2 S2 Fp) as (G1 & [G2 G3] & G4). destruct (IHq F3 S3 Fq) as (K1 & [K2 K3] & K4). cbn [fst snd] in *.
    destruct o; cbn [past2] in F1; try contradiction; cbn [dcore_node delay_of]; rewrite S1.
    + cbn [erase erase2 led delay_of]. split; [split; [|auto]; unfold leads; seen; lia|]. split; [unfold leads; seen; lia|].
      cbn [timeless forallb]. intros T. apply andb_true_iff in T as [T1 T2]. rewrite andb_true_r in T2.
      destruct (G4 T1) as [E _], (K4 T2) as [E' _]. injection E as -> ->. injection E' as -> ->. auto.
    + cbn [erase erase2 led delay_of]. split; [split; [|auto]; unfold leads; seen; lia|]. split; [unfold leads; seen; lia|].
      cbn [timeless forallb]. intros T. apply andb_true_iff in T as [T1 T2]. rewrite andb_true_r in T2.
      destruct (G4 T1) as [E _], (K4 T2) as [E' _]. injection E as -> ->. injection E' as -> ->. auto.
    + split; [apply led_new1, led_new2; auto; exact I|]. rewrite erase_new1, erase_new2. cbn [erase1 erase2]. split; [unfold leads; seen; lia|].
      cbn [timeless]. intros T. apply andb_true_iff in T as [T1 T2]. destruct (G4 T1) as [E E2], (K4 T2) as [E' E2']. injection E as -> ->. injection E' as -> ->.
      split; [reflexivity|]. unfold new2. rewrite E2, E2'. reflexivity.
    + split; [apply led_new2; [exact I|apply led_new1; exact G1|exact K1]|]. rewrite erase_new2, erase_new1. cbn [erase1 erase2]. split; [unfold leads; seen; lia|].
      cbn [timeless forallb]. intros T. apply andb_true_iff in T as [T1 T2]. rewrite andb_true_r in T2. destruct (G4 T1) as [E E2], (K4 T2) as [E' E2']. injection E as -> ->. injection E' as -> ->.
      split; [reflexivity|]. unfold new1. rewrite E2. unfold new2. cbn [delay_of]. rewrite E2'. reflexivity.
    + cbn [erase erase2 led delay_of]. split; [split; [|auto]; unfold leads; seen; lia|]. split; [unfold leads; seen; lia|].
      cbn [timeless]. intros T. apply andb_true_iff in T as [T1 T2]. destruct (G4 T1) as [E _], (K4 T2) as [E' _]. injection E as -> ->. injection E' as -> ->. auto.
Qed.
Lemma compile_led A e : past A e -> fresh e -> flat_formula (compile_expr (erase e)) -> led (dcompile e).
Proof.
  intros F S0 Fl. rewrite <- erase_compile in Fl. unfold dcompile in *. destruct (rewrites_steady A e F S0) as (F1 & S1 & _).
  apply (core_led A _ F1 S1 Fl).
Qed.

(** ** Formulas of the present have no delay *)
Lemma timeless_delay A e : past A e -> fresh e -> timeless (erase e) = true -> delay_of e = (0, 0)%Z.
Proof.
  induction e as [b|a|o d p IH|o d p IHp q IHq]; cbn [past fresh]; intros F S0 T; try reflexivity.
  - destruct F as [F1 F2], S0 as [S1 S2]. destruct o; cbn [past1] in F1; try contradiction; cbn [erase erase1 timeless] in T; try discriminate.
    cbn [delay_of]. rewrite S1. unfold new1. rewrite (IH F2 S2 T). reflexivity.
  - destruct F as (F1 & F2 & F3), S0 as (S1 & S2 & S3).
    assert (Ts : timeless (erase p) = true /\ timeless (erase q) = true).
    { destruct o; cbn [past2] in F1; try contradiction; cbn [erase erase2 timeless forallb] in T; rewrite ?andb_true_r in T; apply andb_true_iff in T; exact T. }
    destruct Ts as [T1 T2]. cbn [delay_of]. rewrite S1. unfold new2. rewrite (IHp F2 S2 T1), (IHq F3 S3 T2). destruct o; cbn [past2] in F1; try contradiction; reflexivity.
Qed.
