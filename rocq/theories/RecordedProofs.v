(** * The delays recorded on expressions (proofs) *)
From Coq Require Import List Arith NArith ZArith Bool Ascii String Lia.
Require Import Verif.MapFile Verif.Mltl Verif.MltlShape Verif.MltlEval Verif.Transform Verif.Rewrite Verif.Definitions Verif.Pipeline.
Require Import Verif.PipelineProofs Verif.Monitoring Verif.TightSize Verif.RewriteProofs Verif.Recorded.
Import ListNotations.
Local Open Scope list_scope.
Local Open Scope nat_scope.

(** ** Without the delays, the passes are those of the other files *)
Lemma erase_new1 o p : erase (new1 o p) = erase1 o (erase p).
Proof. unfold new1. destruct (delay_of p). reflexivity. Qed.
Lemma erase_new2 o p q : erase (new2 o p q) = erase2 o (erase p) (erase q).
Proof. unfold new2. destruct (delay_of p), (delay_of q). reflexivity. Qed.
Lemma erase_dmap f g e : (forall e, erase (f e) = g (erase e)) -> erase (dmap f e) = expr_map g (erase e).
Proof.
  intros H. induction e as [b|a|o d p IH|o d p IHp q IHq]; cbn [dmap]; rewrite H; cbn [erase].
  - reflexivity.
  - reflexivity.
  - rewrite IH. destruct o; reflexivity.
  - rewrite IHp, IHq. destruct o; reflexivity.
Qed.
Ltac ifs := repeat match goal with |- context [if ?b then _ else _] => destruct b end.
Ltac erased := rewrite ?erase_new1, ?erase_new2; cbn [erase erase1 erase2]; rewrite ?erase_new1, ?erase_new2; cbn [erase erase1 erase2]; rewrite ?erase_new1, ?erase_new2; reflexivity.
Lemma erase_not p : option_map erase (drw_not p) = rw_not (erase p).
Proof.
  destruct p as [[]|a|o d p|o d p q]; try reflexivity.
  - destruct o; try reflexivity; destruct p as [[]|a'|o' d' p'|o' d' p' q']; try reflexivity; destruct o'; try reflexivity; cbn [drw_not option_map rw_not erase erase1]; erased.
  - destruct o; reflexivity.
Qed.
Lemma erase_global lb ub p : option_map erase (drw_global lb ub p) = rw_global lb ub (erase p).
Proof.
  destruct p as [[]|a|o d p|o d p q]; try (destruct o); cbn [drw_global rw_global erase erase1 erase2]; ifs; cbn [option_map]; try reflexivity; erased.
Qed.
Lemma erase_future lb ub p : option_map erase (drw_future lb ub p) = rw_future lb ub (erase p).
Proof.
  destruct p as [[]|a|o d p|o d p q]; try (destruct o); cbn [drw_future rw_future erase erase1 erase2]; ifs; cbn [option_map]; try reflexivity; erased.
Qed.
Lemma erase_and p q : option_map erase (drw_and p q) = rw_and [erase p; erase q].
Proof.
  destruct p as [b|a|o d p|o d p p2]; try (destruct o); try reflexivity; destruct q as [b'|a'|o' d' q|o' d' q q2]; try (destruct o'); try reflexivity;
    cbn [drw_and rw_and erase erase1 erase2]; unfold same, drw_merge, rw_merge; ifs; cbn [option_map]; try reflexivity; erased.
Qed.
Lemma erase_or p q : option_map erase (drw_or p q) = rw_or [erase p; erase q].
Proof.
  destruct p as [b|a|o d p|o d p p2]; try (destruct o); try reflexivity; destruct q as [b'|a'|o' d' q|o' d' q q2]; try (destruct o'); try reflexivity;
    cbn [drw_or rw_or erase erase1 erase2]; unfold same, drw_merge, rw_merge; ifs; cbn [option_map]; try reflexivity; erased.
Qed.
Lemma erase_rw e : erase (drw_node e) = rw_node (erase e).
Proof.
  destruct e as [b|a|o d p|o d p q]; try reflexivity; destruct o; try reflexivity; unfold drw_node, rw_node; cbn [erase erase1 erase2].
  - rewrite <- erase_future. destruct (drw_future lb ub p); reflexivity.
  - rewrite <- erase_global. destruct (drw_global lb ub p); reflexivity.
  - rewrite <- erase_not. destruct (drw_not p); reflexivity.
  - rewrite <- erase_and. destruct (drw_and p q); reflexivity.
  - rewrite <- erase_or. destruct (drw_or p q); reflexivity.
Qed.
Lemma erase_core e : erase (dcore_node e) = core_node (erase e).
Proof. destruct e as [b|a|o d p|o d p q]; try reflexivity; destruct o; try reflexivity; cbn [dcore_node]; erased. Qed.
Lemma erase_binary e : to_binary (erase e) = erase e.
Proof.
  induction e as [b|a|o d p IH|o d p IHp q IHq]; try reflexivity; destruct o; unfold to_binary in *; cbn [erase erase1 erase2 expr_map map]; rewrite ?IH, ?IHp, ?IHq; reflexivity.
Qed.
Lemma erase_compile e : erase (dcompile e) = compile_expr (erase e).
Proof.
  unfold compile_expr, dcompile, remove_extended, optimize_rewrites.
  rewrite <- (erase_dmap _ _ e erase_rw), erase_binary, <- (erase_dmap _ _ _ erase_core), erase_binary. reflexivity.
Qed.

Notation strip := (map (fun d : nat * dx => (fst d, erase (snd d)))).
Lemma erase_lookup t s : lookup (strip t) s = option_map erase (dlookup t s).
Proof. induction t as [|[x e] t IH]; [reflexivity|]. cbn. destruct (x =? s); [reflexivity|exact IH]. Qed.
Lemma erase_expand_node t e : erase (dexpand_node t e) = expand_node (strip t) (erase e).
Proof.
  destruct e as [b|a|o d p|o d p q]; try reflexivity; try (destruct o; reflexivity). cbn. rewrite erase_lookup. destruct (dlookup t a); reflexivity.
Qed.
Lemma erase_expand_body t b : erase (dexpand_body t b) = expand_body (strip t) (erase b).
Proof.
  destruct b as [b|a|o d p|o d p q]; try reflexivity; cbn [dexpand_body]; rewrite (erase_dmap _ _ _ (erase_expand_node t)); destruct o; reflexivity.
Qed.
Lemma strip_app t u : strip (t ++ u) = strip t ++ strip u.
Proof. apply map_app. Qed.
Lemma erase_definitions : forall ds t, strip (fold_left (fun t d => t ++ [(fst d, dexpand_body t (snd d))]) ds t) =
  fold_left (fun t d => t ++ [(fst d, expand_body t (snd d))]) (strip ds) (strip t).
Proof. induction ds as [|d ds IH]; intros t; [reflexivity|]. cbn [fold_left map]. rewrite IH, strip_app. cbn [map fst snd]. rewrite erase_expand_body. reflexivity. Qed.
Lemma erase_specs ds : forall fs t, strip (fold_left (fun t f => t ++ [(fst f, dmap (dexpand_node (ds ++ t)) (snd f))]) fs t) =
  fold_left (fun t f => t ++ [(fst f, expr_map (expand_node (strip ds ++ t)) (snd f))]) (strip fs) (strip t).
Proof.
  induction fs as [|d fs IH]; intros t; [reflexivity|]. cbn [fold_left map]. rewrite IH, strip_app. cbn [map fst snd].
  rewrite (erase_dmap _ _ _ (erase_expand_node _)), strip_app. reflexivity.
Qed.
Lemma erase_expand ds fs : strip (dexpand ds fs) = expand (strip ds) (strip fs).
Proof.
  unfold dexpand, expand, dexpand_specs, expand_specs. rewrite erase_specs. unfold dexpand_definitions, expand_definitions. rewrite erase_definitions. reflexivity.
Qed.

(** ** Enough recorded *)
(** Delays that do not promise too much, at every object. *)
Definition enough (d : delay) (e : expr) : Prop := (wpd e <= fst d /\ snd d <= Z.of_nat (soonest e))%Z.
Fixpoint sound (e : dx) : Prop :=
  enough (delay_of e) (erase e) /\
  match e with D1 _ _ p => sound p | D2 _ _ p q => sound p /\ sound q | _ => True end.
Lemma sound_here e : sound e -> enough (delay_of e) (erase e).
Proof. destruct e; intros H; apply H. Qed.
(** Future-time formulas; [c]: with constants. *)
Definition fut1 (o : op1) : Prop := match o with DNot => True | DF lb ub | DG lb ub => lb <= ub | _ => False end.
Definition fut2 (o : op2) : Prop := match o with DU lb ub | DR lb ub => lb <= ub | DS _ _ | DT _ _ => False | _ => True end.
Fixpoint fut (c : bool) (A : nat -> Prop) (e : dx) : Prop :=
  match e with
  | DConst _ => c = true
  | DAtom a => A a
  | D1 o _ p => fut1 o /\ fut c A p
  | D2 o _ p q => fut2 o /\ fut c A p /\ fut c A q
  end.
Lemma fut_wpd c A e : fut c A e -> (0 <= wpd (erase e))%Z.
Proof.
  induction e as [b|a|o d p IH|o d p IHp q IHq]; cbn [fut erase].
  - cbn. lia.
  - cbn. lia.
  - intros [F1 F2]. specialize (IH F2). destruct o; cbn [fut1] in F1; try contradiction; cbn [erase1 wpd]; lia.
  - intros (F1 & F2 & F3). specialize (IHp F2). specialize (IHq F3). destruct o; cbn [fut2] in F1; try contradiction; cbn [erase2 wpd map zmax_list fold_left]; lia.
Qed.
Definition better (e e' : expr) : Prop := (wpd e' <= wpd e)%Z /\ soonest e <= soonest e'.
Lemma better_refl e : better e e.
Proof. split; [apply Z.le_refl|apply le_n]. Qed.
Lemma better_trans e f g : better e f -> better f g -> better e g.
Proof. unfold better. lia. Qed.
Lemma enough_better d e e' : better e e' -> enough d e -> enough d e'.
Proof. unfold better, enough. lia. Qed.
Ltac shown := cbn [erase1 erase2 wpd soonest map zmax_list fold_left fold_right].
Ltac shown_in H := cbn [erase1 erase2 wpd soonest map zmax_list fold_left fold_right] in H.
Lemma better1 o p p' : fut1 o -> better p p' -> better (erase1 o p) (erase1 o p').
Proof. unfold better. intros F [H1 H2]. destruct o; cbn [fut1] in F; try contradiction; shown; lia. Qed.
Lemma better2 o p p' q q' : fut2 o -> better p p' -> better q q' -> better (erase2 o p q) (erase2 o p' q').
Proof. unfold better. intros F [H1 H2] [H3 H4]. destruct o; cbn [fut2] in F; try contradiction; shown; lia. Qed.
Lemma sound_new1 o p : fut1 o -> sound p -> sound (new1 o p).
Proof.
  intros F Sp. pose proof (sound_here p Sp) as [H1 H2]. unfold new1. destruct (delay_of p) as [w b]. cbn [fst snd] in H1, H2. cbn [sound delay_of erase]. split; [|exact Sp].
  unfold enough. destruct o; cbn [fut1] in F; try contradiction; shown; cbn [fst snd]; lia.
Qed.
Lemma sound_new2 o p q : fut2 o -> sound p -> sound q -> sound (new2 o p q).
Proof.
  intros F Sp Sq. pose proof (sound_here p Sp) as [H1 H2]. pose proof (sound_here q Sq) as [H3 H4].
  unfold new2. destruct (delay_of p) as [w b], (delay_of q) as [w' b']. cbn [fst snd] in H1, H2, H3, H4. cbn [sound delay_of erase]. split; [|auto].
  unfold enough. destruct o; cbn [fut2] in F; try contradiction; shown; cbn [fst snd]; lia.
Qed.
Lemma fut_new1 c A o p : fut1 o -> fut c A p -> fut c A (new1 o p).
Proof. intros. unfold new1. destruct (delay_of p). cbn. auto. Qed.
Lemma fut_new2 c A o p q : fut2 o -> fut c A p -> fut c A q -> fut c A (new2 o p q).
Proof. intros. unfold new2. destruct (delay_of p), (delay_of q). cbn. auto. Qed.

Definition improves c A (f : dx -> dx) (e : dx) : Prop :=
  fut c A e -> sound e -> fut c A (f e) /\ sound (f e) /\ better (erase e) (erase (f e)).
Lemma dmap_improves c A f : (forall e, improves c A f e) -> forall e, improves c A (dmap f) e.
Proof.
  intros H. induction e as [b|a|o d p IH|o d p IHp q IHq]; cbn [dmap]; try exact (H _); intros F S0.
  - destruct F as [F1 F2], S0 as [S1 S2]. destruct (IH F2 S2) as (G1 & G2 & G3). cbn [delay_of erase] in S1.
    pose proof (better1 o _ _ F1 G3) as B. destruct (H (D1 o d (dmap f p))) as (K1 & K2 & K3).
    + split; assumption.
    + split; [|exact G2]. exact (enough_better _ _ _ B S1).
    + split; [exact K1|]. split; [exact K2|]. exact (better_trans _ _ _ B K3).
  - destruct F as (F1 & F2 & F3), S0 as (S1 & S2 & S3). destruct (IHp F2 S2) as (G1 & G2 & G3). destruct (IHq F3 S3) as (G4 & G5 & G6). cbn [delay_of erase] in S1.
    pose proof (better2 o _ _ _ _ F1 G3 G6) as B. destruct (H (D2 o d (dmap f p) (dmap f q))) as (K1 & K2 & K3).
    + split; [assumption|split; assumption].
    + split; [|split; assumption]. exact (enough_better _ _ _ B S1).
    + split; [exact K1|]. split; [exact K2|]. exact (better_trans _ _ _ B K3).
Qed.

(** *** Rewriting *)
Lemma same_eq p q : same p q = true -> erase p = erase q.
Proof. apply expr_eqb_true. Qed.
Ltac fresh_ok := repeat first [apply fut_new1 | apply fut_new2 | apply sound_new1 | apply sound_new2]; cbn [fut1 fut2]; try assumption; try exact Logic.I; try lia.
Ltac nearer := rewrite ?erase_new1, ?erase_new2; unfold better; shown; rewrite ?erase_new1, ?erase_new2; shown; rewrite ?erase_new1, ?erase_new2; shown; lia.
Definition improved A (e : dx) (n : dx) : Prop := fut false A n /\ sound n /\ better (erase e) (erase n).
Lemma not_improves A d p n : fut false A (D1 DNot d p) -> sound p -> drw_not p = Some n -> improved A (D1 DNot d p) n.
Proof.
  intros [_ F] S0 E. destruct p as [b|a|o d1 p|o d1 p q]; cbn in F; try discriminate.
  - destruct o; try discriminate; cbn in F.
    + destruct p as [b|a|[] d2 p|o d2 p q]; try discriminate. injection E as <-. cbn in F, S0. unfold improved. cbn [erase]. split; [fresh_ok; tauto|]. split; [fresh_ok; tauto|]. nearer.
    + destruct p as [b|a|[] d2 p|o d2 p q]; try discriminate. injection E as <-. cbn in F, S0. unfold improved. cbn [erase]. split; [fresh_ok; tauto|]. split; [fresh_ok; tauto|]. nearer.
    + injection E as <-. cbn in S0. unfold improved. cbn [erase]. split; [tauto|]. split; [tauto|]. nearer.
Qed.
Lemma global_improves A d lb ub p n : fut false A (D1 (DG lb ub) d p) -> sound p -> drw_global lb ub p = Some n -> improved A (D1 (DG lb ub) d p) n.
Proof.
  intros [Fo F] S0 E. cbn [fut1] in Fo.
  assert (Z : (if (lb =? 0) && (ub =? 0) then Some p else None) = Some n -> improved A (D1 (DG lb ub) d p) n).
  { destruct (Nat.eqb_spec lb 0), (Nat.eqb_spec ub 0); cbn; intros K; try discriminate. injection K as <-. split; [exact F|]. split; [exact S0|]. cbn [erase]. nearer. }
  destruct p as [b|a|o d1 p|o d1 p q]; cbn in F; try (subst; discriminate); try exact (Z E).
  destruct o; try exact (Z E); cbn [drw_global] in E; cbn in F, S0.
  - destruct F as [F1 F2], S0 as [_ S0]. destruct (Nat.eqb_spec lb ub).
    { injection E as <-. split; [fresh_ok|]. split; [fresh_ok|]. cbn [erase]. nearer. }
    destruct (Nat.eqb_spec lb0 ub0); [|exact (Z E)]. injection E as <-. split; [fresh_ok|]. split; [fresh_ok|]. cbn [erase]. nearer.
  - destruct F as [F1 F2], S0 as [_ S0]. injection E as <-. split; [fresh_ok|]. split; [fresh_ok|]. cbn [erase]. nearer.
Qed.
Lemma future_improves A d lb ub p n : fut false A (D1 (DF lb ub) d p) -> sound p -> drw_future lb ub p = Some n -> improved A (D1 (DF lb ub) d p) n.
Proof.
  intros [Fo F] S0 E. cbn [fut1] in Fo.
  assert (Z : (if (lb =? 0) && (ub =? 0) then Some p else None) = Some n -> improved A (D1 (DF lb ub) d p) n).
  { destruct (Nat.eqb_spec lb 0), (Nat.eqb_spec ub 0); cbn; intros K; try discriminate. injection K as <-. split; [exact F|]. split; [exact S0|]. cbn [erase]. nearer. }
  destruct p as [b|a|o d1 p|o d1 p q]; cbn in F; try (subst; discriminate); try exact (Z E).
  destruct o; try exact (Z E); cbn [drw_future] in E; cbn in F, S0.
  - destruct F as [F1 F2], S0 as [_ S0]. injection E as <-. split; [fresh_ok|]. split; [fresh_ok|]. cbn [erase]. nearer.
  - destruct F as [F1 F2], S0 as [_ S0]. destruct (Nat.eqb_spec lb ub).
    { injection E as <-. split; [fresh_ok|]. split; [fresh_ok|]. cbn [erase]. nearer. }
    destruct (Nat.eqb_spec lb0 ub0); [|exact (Z E)]. injection E as <-. split; [fresh_ok|]. split; [fresh_ok|]. cbn [erase]. nearer.
Qed.
Ltac bools := repeat match goal with
  | H : context [?a <=? ?b] |- _ => destruct (Nat.leb_spec a b); cbn [andb] in H
  end.
Ltac settle E := try discriminate E; injection E as <-; (split; [fresh_ok|]); (split; [fresh_ok|]); cbn [erase]; nearer.
Lemma and_improves A d p q n : fut false A (D2 DAnd d p q) -> sound p -> sound q -> drw_and p q = Some n -> improved A (D2 DAnd d p q) n.
Proof.
  intros (_ & F & G) S0 S1 E. destruct p as [b|a|o d1 p|o d1 p p2]; try discriminate; destruct o; try discriminate;
    destruct q as [b'|a'|o' d2 q|o' d2 q q2]; try discriminate; destruct o'; try discriminate; cbn [drw_and] in E; cbn in F, G, S0, S1.
  - destruct F as [F1 F2], G as [G1 G2], S0 as [_ S0], S1 as [_ S1]. destruct (same p q) eqn:Eq; [|discriminate]. apply same_eq in Eq.
    bools; unfold improved; cbn [erase]; rewrite <- Eq; settle E.
  - destruct F as [F1 F2], G as [G1 G2], S0 as [_ S0], S1 as [_ S1]. destruct (same p q) eqn:Eq.
    + apply same_eq in Eq. unfold drw_merge in E. bools; unfold improved; cbn [erase]; rewrite <- Eq; settle E.
    + unfold improved. settle E.
  - destruct F as (F1 & F2 & F3), G as (G1 & G2 & G3), S0 as (_ & S0 & S0'), S1 as (_ & S1 & S1').
    destruct (same p2 q2) eqn:Eq; [|discriminate]. apply same_eq in Eq. destruct (Nat.eqb_spec lb lb0); [|discriminate]. cbn [andb] in E.
    unfold improved; cbn [erase]; rewrite <- Eq. settle E.
Qed.
Lemma or_improves A d p q n : fut false A (D2 DOr d p q) -> sound p -> sound q -> drw_or p q = Some n -> improved A (D2 DOr d p q) n.
Proof.
  intros (_ & F & G) S0 S1 E. destruct p as [b|a|o d1 p|o d1 p p2]; try discriminate; destruct o; try discriminate;
    destruct q as [b'|a'|o' d2 q|o' d2 q q2]; try discriminate; destruct o'; try discriminate; cbn [drw_or] in E; cbn in F, G, S0, S1;
    destruct F as [F1 F2], G as [G1 G2], S0 as [_ S0], S1 as [_ S1]; destruct (same p q) eqn:Eq.
  - apply same_eq in Eq. unfold drw_merge in E. bools; unfold improved; cbn [erase]; rewrite <- Eq; settle E.
  - unfold improved. settle E.
  - apply same_eq in Eq. bools; unfold improved; cbn [erase]; rewrite <- Eq; settle E.
  - discriminate.
Qed.
Lemma rw_improves A e : improves false A drw_node e.
Proof.
  intros F S0. assert (Keep : fut false A e /\ sound e /\ better (erase e) (erase e)) by (split; [exact F|split; [exact S0|apply better_refl]]).
  unfold drw_node. destruct e as [b|a|o d p|o d p q]; try exact Keep; destruct o; try exact Keep.
  - destruct (drw_future lb ub p) as [n|] eqn:E; [|exact Keep]. exact (future_improves A d lb ub p n F (proj2 S0) E).
  - destruct (drw_global lb ub p) as [n|] eqn:E; [|exact Keep]. exact (global_improves A d lb ub p n F (proj2 S0) E).
  - destruct (drw_not p) as [n|] eqn:E; [|exact Keep]. exact (not_improves A d p n F (proj2 S0) E).
  - destruct (drw_and p q) as [n|] eqn:E; [|exact Keep]. exact (and_improves A d p q n F (proj1 (proj2 S0)) (proj2 (proj2 S0)) E).
  - destruct (drw_or p q) as [n|] eqn:E; [|exact Keep]. exact (or_improves A d p q n F (proj1 (proj2 S0)) (proj2 (proj2 S0)) E).
Qed.

(** *** Removal of extended operators *)
Lemma sound_const b : sound (DConst b).
Proof. split; [|exact Logic.I]. split; cbn; lia. Qed.
Lemma core_improves A e : improves true A dcore_node e.
Proof.
  intros F S0. assert (Keep : fut true A e /\ sound e /\ better (erase e) (erase e)) by (split; [exact F|split; [exact S0|apply better_refl]]).
  destruct e as [b|a|o d p|o d p q]; try exact Keep; destruct o; try exact Keep; cbn [dcore_node]; destruct F as [F1 F2]; cbn [fut1 fut2] in F1; try contradiction.
  - destruct S0 as [_ S0]. pose proof (fut_wpd _ _ _ F2). pose proof (sound_const true). split; [fresh_ok; reflexivity|]. split; [fresh_ok|]. cbn [erase]. rewrite erase_new2. unfold better. cbn [erase]. shown. lia.
  - destruct S0 as [_ S0]. pose proof (fut_wpd _ _ _ F2). pose proof (sound_const false). split; [fresh_ok; reflexivity|]. split; [fresh_ok|]. cbn [erase]. rewrite erase_new2. unfold better. cbn [erase]. shown. lia.
  - destruct S0 as (_ & S1 & S2), F2 as [F2 F3]. split; [fresh_ok|]. split; [fresh_ok|]. cbn [erase]. nearer.
  - destruct S0 as (_ & S1 & S2), F2 as [F2 F3]. split; [fresh_ok|]. split; [fresh_ok|]. cbn [erase]. nearer.
Qed.
Lemma fut_weaken c (A B : nat -> Prop) e : (forall a, A a -> B a) -> fut c A e -> fut true B e.
Proof. intros H. induction e; cbn; intuition. Qed.
Lemma compile_sound A e : fut false A e -> sound e -> sound (dcompile e).
Proof.
  intros F S0. destruct (dmap_improves false A drw_node (rw_improves A) e F S0) as (F1 & S1 & _). unfold dcompile.
  apply (dmap_improves true A dcore_node (core_improves A)); [|exact S1]. exact (fut_weaken _ _ _ _ (fun _ K => K) F1).
Qed.

(** *** Expansion of names *)
Definition instantly (B : nat -> Prop) (d : dx) : Prop := fut false B d /\ sound d /\ (wpd (erase d) <= 0)%Z.
Lemma expand_improves (A B : nat -> Prop) t e :
  (forall a, A a -> match dlookup t a with Some d => instantly B d | None => B a end) ->
  fut false A e -> sound e ->
  fut false B (dmap (dexpand_node t) e) /\ sound (dmap (dexpand_node t) e) /\ better (erase e) (erase (dmap (dexpand_node t) e)).
Proof.
  intros H. induction e as [b|a|o d p IH|o d p IHp q IHq]; cbn [dmap dexpand_node]; intros F S0.
  - discriminate F.
  - specialize (H a F). destruct (dlookup t a) as [b|]; [|split; [exact H|]; split; [exact S0|]; apply better_refl].
    destruct H as (H1 & H2 & H3). split; [exact H1|]. split; [exact H2|]. unfold better. cbn [erase wpd soonest]. lia.
  - destruct F as [F1 F2], S0 as [S1 S2]. destruct (IH F2 S2) as (G1 & G2 & G3). cbn [delay_of erase] in S1.
    pose proof (better1 o _ _ F1 G3) as B0. split; [split; assumption|]. split; [|exact B0]. split; [|exact G2]. exact (enough_better _ _ _ B0 S1).
  - destruct F as (F1 & F2 & F3), S0 as (S1 & S2 & S3). destruct (IHp F2 S2) as (G1 & G2 & G3). destruct (IHq F3 S3) as (G4 & G5 & G6). cbn [delay_of erase] in S1.
    pose proof (better2 o _ _ _ _ F1 G3 G6) as B0. split; [split; [assumption|split; assumption]|]. split; [|exact B0].
    split; [|split; assumption]. exact (enough_better _ _ _ B0 S1).
Qed.
