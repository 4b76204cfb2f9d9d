(** * Comparison of arrays, and the whole of desugaring (proofs) *)
From Coq Require Import List Arith ZArith Bool Lia.
Require Import Verif.Sugar Verif.SugarSpec Verif.SugarProofs Verif.SugarUnroll.
Import ListNotations.

Fixpoint size (t : term) : nat :=
  match t with
  | Var _ => 1
  | Node _ l => S (fold_right (fun t n => size t + n) 0 l)
  | Quant _ _ s b => S (size s + size b)
  | Count _ _ s n b => S (size s + size n + size b)
  end.
Definition array_rel (h : head) (l : list term) : Prop := exists r a b, h = HRel r /\ l = [Node HArray a; Node HArray b].
Lemma array_rel_cases f h l :
  array_rel h l \/
  (~ array_rel h l /\ unroll_arrays (S f) (Node h l) = (l' <- all_some (map (unroll_arrays f) l) ;; Some (Node h l'))).
Proof.
  destruct h as [k|o| | | |r| |i|i j|names|m]; try (right; split; [intros (? & ? & ? & ? & ?); discriminate|reflexivity]).
  destruct l as [|[x|[k|o| | | |r'| |i|i j|names|m'] es|? ? ? ?|? ? ? ? ?] l];
    try (right; split; [intros (? & ? & ? & ? & ?); discriminate|reflexivity]).
  destruct l as [|[x|[k|o| | | |r'| |i|i j|names|m'] es2|? ? ? ?|? ? ? ? ?] [|? l]];
    try (right; split; [intros (? & ? & ? & ? & ?); discriminate|reflexivity]).
  left. exists r, es, es2. auto.
Qed.
Lemma unroll_arrays_head f t es : unroll_arrays f t = Some (Node HArray es) -> exists es0, t = Node HArray es0.
Proof.
  destruct f as [|f]; [discriminate|]. destruct t as [x|h l|k x s b|k x s n b]; try discriminate.
  - destruct (array_rel_cases f h l) as [(r & a & b & -> & ->)|[_ ->]].
    + cbn. intros H. apply bind_some in H. destruct H as (? & _ & H). apply bind_some in H. destruct H as (? & _ & H).
      apply bind_some in H. destruct H as (? & _ & H). discriminate.
    + intros H. apply bind_some in H. destruct H as (? & _ & H). injection H as -> _. eauto.
  - cbn. intros H. apply bind_some in H. destruct H as (? & _ & H). apply bind_some in H. destruct H as (? & _ & H). discriminate.
  - cbn. intros H. apply bind_some in H. destruct H as (? & _ & H). apply bind_some in H. destruct H as (? & _ & H).
    apply bind_some in H. destruct H as (? & _ & H). discriminate.
Qed.
Lemma unroll_arrays_more fuel : forall fuel' t t', fuel <= fuel' -> unroll_arrays fuel t = Some t' -> unroll_arrays fuel' t = Some t'.
Proof.
  induction fuel as [|fuel IH]; intros fuel' t t' L H; [discriminate|]. destruct fuel' as [|fuel']; [lia|].
  assert (forall l l', all_some (map (unroll_arrays fuel) l) = Some l' -> all_some (map (unroll_arrays fuel') l) = Some l') as M.
  { intros l l'. apply all_some_mono. intros x y. apply IH. lia. }
  destruct t as [x|h l|k x s b|k x s n b].
  - exact H.
  - destruct (array_rel_cases fuel h l) as [(r & a & b & -> & ->)|[Na E]].
    + cbn [unroll_arrays] in *. apply bind_some in H. destruct H as (ps & Hp & H). rewrite Hp. cbn [bind].
      apply bind_some in H. destruct H as (new & Hn & H). rewrite Hn. cbn [bind].
      apply bind_some in H. destruct H as (l & Hl & H). rewrite (M _ _ Hl). exact H.
    + destruct (array_rel_cases fuel' h l) as [A|[_ E']]; [contradiction|]. rewrite E in H. rewrite E'.
      apply bind_some in H. destruct H as (l' & Hl & H). rewrite (M _ _ Hl). exact H.
  - cbn [unroll_arrays] in *. apply bind_some in H. destruct H as (s' & Hs & H). rewrite (IH fuel' _ _ ltac:(lia) Hs). cbn [bind].
    apply bind_some in H. destruct H as (b' & Hb & H). rewrite (IH fuel' _ _ ltac:(lia) Hb). exact H.
  - cbn [unroll_arrays] in *. apply bind_some in H. destruct H as (s' & Hs & H). rewrite (IH fuel' _ _ ltac:(lia) Hs). cbn [bind].
    apply bind_some in H. destruct H as (n' & Hn & H). rewrite (IH fuel' _ _ ltac:(lia) Hn). cbn [bind].
    apply bind_some in H. destruct H as (b' & Hb & H). rewrite (IH fuel' _ _ ltac:(lia) Hb). exact H.
Qed.
Lemma desugar_more fuel fuel' t t' : fuel <= fuel' -> desugar fuel t = Some t' -> desugar fuel' t = Some t'.
Proof.
  intros L H. unfold desugar in *.
  apply bind_some in H. destruct H as (t1 & H1 & H). rewrite H1. cbn [bind].
  apply bind_some in H. destruct H as (t2 & H2 & H). rewrite H2. cbn [bind].
  apply bind_some in H. destruct H as (t3 & H3 & H). rewrite (unroll_more _ _ _ _ L H3). cbn [bind].
  apply bind_some in H. destruct H as (t4 & H4 & H). rewrite H4. cbn [bind].
  apply bind_some in H. destruct H as (t5 & H5 & H). rewrite (unroll_arrays_more _ _ _ _ L H5). exact H.
Qed.

Lemma index_range fuel i es : length es <= i -> desugar fuel (Node (HIndex i) [Node HArray es]) = None.
Proof.
  intros L. destruct (desugar fuel _) as [t'|] eqn:E; [|reflexivity]. exfalso. unfold desugar in E.
  apply bind_some in E. destruct E as (t1 & H1 & E). apply traversed_some in H1. destruct H1 as [_ H1].
  cbn [resolve_structs map all_some] in H1. apply bind_some in H1. destruct H1 as (l1 & Hl & H1). apply bind_some in Hl. destruct Hl as (a & Ha & Hl).
  cbn in Hl. injection Hl as <-. apply bind_some in Ha. destruct Ha as (es1 & He & Ha). injection Ha as <-. injection H1 as <-.
  apply all_some_forall2 in He. apply forall2_len in He.
  apply bind_some in E. destruct E as (t2 & H2 & _). apply traversed_some in H2. destruct H2 as [_ H2].
  cbn [resolve_arrays map all_some] in H2. apply bind_some in H2. destruct H2 as (l2 & Hl & H2). apply bind_some in Hl. destruct Hl as (a & Ha & Hl).
  cbn in Hl. injection Hl as <-. apply bind_some in Ha. destruct Ha as (es2 & He2 & Ha). injection Ha as <-.
  apply all_some_forall2 in He2. apply forall2_len in He2. cbn [kids] in H2.
  assert (nth_error es2 i = None) as N by (apply nth_error_None; lia). congruence.
Qed.

(** A comparison of two arrays keeps its shape through the passes before it is
    unrolled. *)
Lemma pair_shape (pass : term -> option term) r l m t :
  (l1 <- all_some (map pass [Node HArray l; Node HArray m]) ;; Some (Node (HRel r) l1)) = Some t ->
  (forall l, pass (Node HArray l) = l1 <- all_some (map pass l) ;; Some (Node HArray l1)) ->
  exists l' m', t = Node (HRel r) [Node HArray l'; Node HArray m'] /\ length l' = length l /\ length m' = length m.
Proof.
  intros E Hp. apply bind_some in E. destruct E as (l1 & Hl & E). injection E as <-. cbn [map all_some] in Hl. rewrite !Hp in Hl.
  apply bind_some in Hl. destruct Hl as (a & Ha & Hl). apply bind_some in Ha. destruct Ha as (l' & Hl' & Ha). injection Ha as <-.
  apply bind_some in Hl. destruct Hl as (b & Hb & Hl). apply bind_some in Hb. destruct Hb as (b' & Hb & Hc).
  apply bind_some in Hb. destruct Hb as (m' & Hm' & Hb). injection Hb as <-. cbn in Hc. injection Hc as <-. injection Hl as <-.
  exists l', m'. split; [reflexivity|]. split; [apply all_some_forall2, forall2_len in Hl'|apply all_some_forall2, forall2_len in Hm']; congruence.
Qed.
Lemma pair_up_longer r : forall l m, length m < length l -> pair_up r l m = None.
Proof.
  induction l as [|x l IH]; intros [|y m] L; cbn in *; try reflexivity; try lia. rewrite IH by lia. reflexivity.
Qed.
Lemma longer_left fuel r l m : length m < length l -> desugar fuel (Node (HRel r) [Node HArray l; Node HArray m]) = None.
Proof.
  intros L. destruct (desugar fuel _) as [t'|] eqn:E; [|reflexivity]. exfalso. unfold desugar in E.
  apply bind_some in E. destruct E as (t1 & H1 & E). apply traversed_some in H1. destruct H1 as [_ H1].
  destruct (pair_shape resolve_structs r l m t1 H1 (fun _ => eq_refl)) as (l1 & m1 & -> & L1 & M1).
  apply bind_some in E. destruct E as (t2 & H2 & E). apply traversed_some in H2. destruct H2 as [_ H2].
  destruct (pair_shape resolve_arrays r l1 m1 t2 H2 (fun _ => eq_refl)) as (l2 & m2 & -> & L2 & M2).
  apply bind_some in E. destruct E as (t3 & H3 & E). destruct fuel as [|fuel]; [discriminate H3|].
  assert (Q : exists l3 m3, t3 = Node (HRel r) [Node HArray l3; Node HArray m3] /\ length l3 = length l2 /\ length m3 = length m2).
  { destruct fuel as [|fuel]; [discriminate H3|].
    cbn [unroll map all_some] in H3. fold unroll in H3.
    apply bind_some in H3. destruct H3 as (q & Hl & H3). injection H3 as <-.
    apply bind_some in Hl. destruct Hl as (a & Ha & Hl). apply bind_some in Ha. destruct Ha as (l' & Hl' & Ha). injection Ha as <-.
    apply bind_some in Hl. destruct Hl as (b & Hb & Hl). apply bind_some in Hb. destruct Hb as (b' & Hb & Hc).
    apply bind_some in Hb. destruct Hb as (m' & Hm' & Hb). injection Hb as <-. cbn in Hc. injection Hc as <-. injection Hl as <-.
    exists l', m'. split; [reflexivity|]. split; [apply all_some_forall2, forall2_len in Hl'|apply all_some_forall2, forall2_len in Hm']; congruence. }
  destruct Q as (l3 & m3 & -> & L3 & M3). 
  apply bind_some in E. destruct E as (t4 & H4 & E). apply traversed_some in H4. destruct H4 as [_ H4].
  destruct (pair_shape resolve_structs r l3 m3 t4 H4 (fun _ => eq_refl)) as (l4 & m4 & -> & L4 & M4).
  apply bind_some in E. destruct E as (t5 & H5 & _). cbn [unroll_arrays] in H5. rewrite pair_up_longer in H5 by lia. discriminate H5.
Qed.

Section Meaning.
  Variable real : Type.
  Variable real_rel : rel -> real -> real -> bool.
  Variable leaf : nat -> stream real.
  Variable ops : nat -> list (stream real) -> option (stream real).
  Notation eval := (eval real_rel leaf ops).
  Notation apply := (apply real_rel leaf ops).
  Notation den := (den real).
  Hypothesis X : extensional ops.

  Lemma pair_up_eval r l m dl dm f :
    Forall2 (fun t d => eval t nothing = Some d) l dl -> Forall2 (fun t d => eval t nothing = Some d) m dm ->
    rel_list real real_rel r dl dm = Some f ->
    exists ps fs, pair_up r l m = Some ps /\ length ps = length l /\
      Forall2 (fun t f => eval t nothing = Some (Val (Bits f))) ps fs /\ (forall t, f t = forallb (fun g => g t) fs) /\
      (forall p, In p ps -> exists a b, In a l /\ In b m /\ p = Node (HRel r) [a; b]).
  Proof.
    intros F. revert m dm f. induction F as [|a da l dl Ea F IH]; intros m dm f G R.
    - destruct G; [|discriminate]. injection R as <-. exists [], []. split; [reflexivity|]. split; [reflexivity|]. split; [constructor|]. split; [reflexivity|contradiction].
    - destruct G as [|b db m dm Eb G]; [discriminate|]. cbn [rel_list] in R. apply bind_some in R. destruct R as (g & Hg & R).
      apply bind_some in R. destruct R as (gs & Hgs & R). injection R as <-.
      destruct (IH _ _ _ G Hgs) as (ps & fs & Hp & Len & Fp & E & I). exists (Node (HRel r) [a; b] :: ps), (g :: fs).
      cbn [pair_up]. rewrite Hp. split; [reflexivity|]. split; [cbn; lia|]. split; [|split].
      + constructor; [|exact Fp]. apply eval_node. exists [da; db]. split; [auto|]. cbn. rewrite Hg. reflexivity.
      + intros t. cbn. rewrite E. reflexivity.
      + intros p [<-|Hp']; [exists a, b; cbn; auto|]. destruct (I _ Hp') as (a' & b' & ? & ? & ->). exists a', b'. cbn. auto.
  Qed.
  Lemma rel_arrays r a b d : eval (Node (HRel r) [Node HArray a; Node HArray b]) nothing = Some d ->
    exists ps fs, pair_up r a b = Some ps /\ ps <> [] /\ operator HAnd ps = Some (Node HAnd ps) /\
      Forall2 (fun t f => eval t nothing = Some (Val (Bits f))) ps fs /\
      (exists f, d = Val (Bits f) /\ forall t, f t = forallb (fun g => g t) fs) /\
      (forall p, In p ps -> exists x y, In x a /\ In y b /\ p = Node (HRel r) [x; y]).
  Proof.
    intros E. apply eval_node in E. destruct E as (ds & F & A). inversion F as [|? d1 ? ? E1 F1]; subst. inversion F1 as [|? d2 ? ? E2 F2]; subst. inversion F2; subst.
    apply eval_node in E1. destruct E1 as (da & Fa & A1). apply eval_node in E2. destruct E2 as (db & Fb & A2).
    cbn [SugarSpec.apply] in *. destruct da as [|da0 da]; [discriminate|]. destruct db as [|db0 db]; [discriminate|].
    injection A1 as <-. injection A2 as <-. apply bind_some in A. destruct A as (f & Hf & A). injection A as <-.
    rewrite rel_den_arr in Hf. destruct (pair_up_eval _ _ _ _ _ _ Fa Fb Hf) as (ps & fs & Hp & Len & Fp & Ef & I).
    exists ps, fs. split; [exact Hp|]. assert (ps <> []) as Ne by (intros ->; inversion Fa; subst; discriminate).
    split; [exact Ne|]. split; [destruct ps; [congruence|reflexivity]|]. split; [exact Fp|]. split; [exists f; auto|exact I].
  Qed.
  Lemma all_bits (fs : list (nat -> bool)) : all_some (map bits (map (fun f => Val (Bits f) : den) fs)) = Some fs.
  Proof. induction fs as [|f fs IH]; [reflexivity|]. cbn in *. rewrite IH. reflexivity. Qed.

  Lemma unroll_arrays_sound fuel : forall t t' d, unroll_arrays fuel t = Some t' -> bound t = [] -> cleared t -> eval t nothing = Some d ->
    plain t' /\ exists d', eval t' nothing = Some d' /\ same d d'.
  Proof.
    induction fuel as [|fuel IH]; intros t t' d H B C E; [discriminate|].
    assert (forall l l', all_some (map (unroll_arrays fuel) l) = Some l' -> Forall (fun t => bound t = []) l -> Forall cleared l ->
              forall ds, Forall2 (fun t d => eval t nothing = Some d) l ds ->
              Forall plain l' /\ exists ds', Forall2 (fun t d => eval t nothing = Some d) l' ds' /\ Forall2 same ds ds') as L.
    { intros l l' Hl Bl Cl ds F. apply all_some_forall2 in Hl. revert ds F. induction Hl as [|a a' l l' Ea Hl IHl]; intros ds F; inversion F; subst.
      - split; [constructor|]. exists []. auto.
      - inversion Bl; inversion Cl; subst. destruct (IH a a' y Ea ltac:(assumption) ltac:(assumption) ltac:(assumption)) as (Pa & da & Ea' & Sa).
        destruct (IHl ltac:(assumption) ltac:(assumption) _ ltac:(eassumption)) as (Pl & ds' & Fl & Sl).
        split; [auto|]. exists (da :: ds'). auto. }
    destruct t as [x|h l|k x s b|k x s n b]; try discriminate.
    assert (Forall (fun t => bound t = []) l) as Bl by (apply (bound_kids (Node h l)), B).
    cbn in C. destruct C as [Ch Cl]. apply fold_and in Cl.
    destruct (array_rel_cases fuel h l) as [(r & a & b & -> & ->)|[Na Eq]].
    - destruct (rel_arrays _ _ _ _ E) as (ps & fs & Hp & Ne & Ho & Fp & (f & -> & Ef) & I).
      cbn [unroll_arrays] in H. rewrite Hp in H. cbn [bind] in H. rewrite Ho in H. cbn [bind kids] in H.
      apply bind_some in H. destruct H as (l' & Hl' & H). injection H as <-.
      inversion Bl as [|? ? Ba Bl']; inversion Cl as [|? ? Ca Cl']; subst. inversion Bl' as [|? ? Bb _]; inversion Cl' as [|? ? Cb _]; subst.
      apply (bound_kids (Node HArray a)) in Ba. apply (bound_kids (Node HArray b)) in Bb. cbn [kids] in Ba, Bb. cbn in Ca, Cb.
      destruct Ca as [_ Ca], Cb as [_ Cb]. apply fold_and in Ca. apply fold_and in Cb. rewrite Forall_forall in Ba, Bb, Ca, Cb.
      destruct (L ps l' Hl') with (ds := map (fun f => Val (Bits f) : den) fs) as (Pl & ds' & Fl & Sl).
      + apply Forall_forall. intros p Hin. destruct (I p Hin) as (x & y & Hx & Hy & ->). cbn. rewrite (Ba x Hx), (Bb y Hy). reflexivity.
      + apply Forall_forall. intros p Hin. destruct (I p Hin) as (x & y & Hx & Hy & ->). cbn. auto.
      + clear - Fp. induction Fp; cbn; constructor; auto.
      + split; [cbn; split; [trivial|apply fold_and, Pl]|].
        destruct (apply_same _ real_rel leaf ops HAnd _ _ (Val (Bits (fun t => forallb (fun g => g t) fs))) X Sl) as (d' & A & S).
        { cbn. rewrite all_bits. reflexivity. }
        exists d'. split; [apply eval_node; eauto|]. eapply same_trans; [|exact S]. constructor. constructor. exact Ef.
    - rewrite Eq in H. apply bind_some in H. destruct H as (l' & Hl & H). injection H as <-.
      apply eval_node in E. destruct E as (ds & F & A). destruct (L _ _ Hl Bl Cl _ F) as (Pl & ds' & Fl & Sl). split.
      + cbn. split; [|apply fold_and, Pl]. apply all_some_forall2 in Hl.
        assert (~ array_rel h l') as Na'.
        { intros (r & a & b & -> & ->). apply Na. inversion Hl as [|? ? ? ? E1 Hl1]; subst. inversion Hl1 as [|? ? ? ? E2 Hl2]; subst. inversion Hl2; subst.
          destruct (unroll_arrays_head _ _ _ E1) as (e1 & ->). destruct (unroll_arrays_head _ _ _ E2) as (e2 & ->). exists r, e1, e2. auto. }
        destruct h as [k|o| | | |r| |i|i j|names|m]; try exact I; try contradiction.
        destruct l' as [|[x|[k|o| | | |r'| |i|i j|names|m'] es|? ? ? ?|? ? ? ? ?] l']; try exact I.
        destruct l' as [|[x|[k|o| | | |r'| |i|i j|names|m'] es2|? ? ? ?|? ? ? ? ?] [|? l']]; try exact I.
        apply Na'. exists r, es, es2. auto.
      + destruct (apply_same _ real_rel leaf ops _ _ _ _ X Sl A) as (d' & A' & S). exists d'. split; [apply eval_node; eauto|exact S].
  Qed.

  Lemma size_in t l : In t l -> size t <= fold_right (fun t n => size t + n) 0 l.
  Proof. induction l as [|x l IH]; [contradiction|]. cbn. intros [->|H]; [lia|]. specialize (IH H). lia. Qed.
  Lemma unroll_arrays_total fuel : forall t d, size t <= fuel -> bound t = [] -> eval t nothing = Some d -> exists t', unroll_arrays fuel t = Some t'.
  Proof.
    induction fuel as [|fuel IH]; intros t d L B E; [destruct t; cbn in L; lia|].
    assert (forall l ds, Forall (fun t => size t <= fuel) l -> Forall (fun t => bound t = []) l ->
       Forall2 (fun t d => eval t nothing = Some d) l ds -> exists l', all_some (map (unroll_arrays fuel) l) = Some l') as A.
    { intros l ds Sl Bl F. induction F as [|a da l ds Ea F IHF]; [exists []; reflexivity|]. inversion Sl; inversion Bl; subst.
      destruct (IH a da) as (a' & Ha); auto. destruct IHF as (l' & Hl); auto. exists (a' :: l'). cbn. rewrite Ha, Hl. reflexivity. }
    destruct t as [x|h l|k x s b|k x s n b]; try discriminate.
    assert (Forall (fun t => bound t = []) l) as Bl by (apply (bound_kids (Node h l)), B).
    assert (Forall (fun t => size t <= fuel) l) as Sl.
    { apply Forall_forall. intros t Ht. pose proof (size_in _ _ Ht). cbn in L. lia. }
    destruct (array_rel_cases fuel h l) as [(r & a & b & -> & ->)|[Na Eq]].
    - destruct (rel_arrays _ _ _ _ E) as (ps & fs & Hp & Ne & Ho & Fp & _ & I).
      cbn [unroll_arrays]. rewrite Hp. cbn [bind]. rewrite Ho. cbn [bind kids].
      inversion Bl as [|? ? Ba Bl']; subst. inversion Bl' as [|? ? Bb _]; subst.
      apply (bound_kids (Node HArray a)) in Ba. apply (bound_kids (Node HArray b)) in Bb. cbn [kids] in Ba, Bb. rewrite Forall_forall in Ba, Bb.
      destruct (A ps (map (fun f => Val (Bits f) : den) fs)) as (l' & ->).
      + apply Forall_forall. intros p Hin. destruct (I p Hin) as (x & y & Hx & Hy & ->).
        pose proof (size_in _ _ Hx). pose proof (size_in _ _ Hy). cbn in L |- *. lia.
      + apply Forall_forall. intros p Hin. destruct (I p Hin) as (x & y & Hx & Hy & ->). cbn. rewrite (Ba x Hx), (Bb y Hy). reflexivity.
      + clear - Fp. induction Fp; cbn; constructor; auto.
      + eexists. reflexivity.
    - rewrite Eq. apply eval_node in E. destruct E as (ds & F & _). destruct (A _ _ Sl Bl F) as (l' & ->). eexists. reflexivity.
  Qed.

  (** ** The whole *)
  Lemma plain_structs t : plain t -> resolve_structs t = Some t.
  Proof.
    induction t as [x|h l IH|k x s b IHs IHb|k x s n b IHs IHn IHb] using term_ind'; cbn [plain]; try contradiction.
    intros [Ph Pl]. apply fold_and in Pl. cbn [resolve_structs].
    assert (all_some (map resolve_structs l) = Some l) as ->.
    { clear Ph. apply all_some_forall2. induction l as [|t l IHl]; constructor; inversion IH; inversion Pl; subst; auto. }
    cbn [bind]. destruct h; try reflexivity. contradiction.
  Qed.
  Lemma plain_bound t : plain t -> bound t = [].
  Proof.
    induction t as [x|h l IH|k x s b IHs IHb|k x s n b IHs IHn IHb] using term_ind'; cbn [plain]; try contradiction.
    intros [_ Pl]. apply fold_and in Pl. cbn. induction l as [|t l IHl]; [reflexivity|]. inversion IH; inversion Pl; subst. cbn.
    rewrite IHl by assumption. rewrite H1 by assumption. reflexivity.
  Qed.
  Lemma desugar_sound fuel t t' d : (forall t1, resolve_structs t = Some t1 -> direct t1) -> eval t nothing = Some d ->
    desugar fuel t = Some t' -> plain t' /\ exists d', eval t' nothing = Some d' /\ same d d'.
  Proof.
    intros D E H. unfold desugar in H.
    apply bind_some in H. destruct H as (t1 & H1 & H). apply traversed_some in H1. destruct H1 as [U H1].
    pose proof (structs_eval' _ real_rel leaf ops _ _ _ _ H1 E) as E1. specialize (D _ H1).
    apply bind_some in H. destruct H as (t2 & H2 & H). apply traversed_some in H2. destruct H2 as [U1 H2].
    destruct (arrays_eval _ real_rel leaf ops _ D _ _ E1) as (t2' & H2' & N2 & _ & K2). rewrite H2 in H2'. injection H2' as <-.
    pose proof (K2 _ _ E1) as E2. destruct (arrays_tame _ _ H2) as (_ & _ & U2 & _). specialize (U2 U1).
    apply bind_some in H. destruct H as (t3 & H3 & H).
    destruct (unroll_sound _ real_rel leaf ops X _ _ _ _ H3 N2 U2 E2) as (N3 & B3 & d3 & E3 & S3).
    apply bind_some in H. destruct H as (t4 & H4 & H). apply traversed_some in H4. destruct H4 as [_ H4].
    pose proof (structs_eval' _ real_rel leaf ops _ _ _ _ H4 E3) as E4.
    pose proof (structs_cleared _ real_rel leaf ops _ N3 _ E3 _ H4) as C4.
    destruct (structs_tame _ _ H4) as (B4 & _). rewrite B3 in B4. apply incl_nil in B4.
    apply bind_some in H. destruct H as (t5 & H5 & H). apply traversed_some in H. destruct H as [_ H].
    destruct (unroll_arrays_sound _ _ _ _ H5 B4 C4 E4) as (P5 & d5 & E5 & S5).
    rewrite (plain_structs _ P5) in H. injection H as <-. split; [exact P5|]. exists d5. split; [exact E5|]. eapply same_trans; eassumption.
  Qed.
  Lemma desugar_total t d : (forall t1, resolve_structs t = Some t1 -> direct t1) -> unshadowed t -> flat_sets t -> eval t nothing = Some d ->
    exists fuel t', forall fuel', fuel <= fuel' -> desugar fuel' t = Some t'.
  Proof.
    intros D U P E. destruct (structs_eval _ real_rel leaf ops _ _ _ E) as (t1 & H1 & K1). pose proof (K1 _ _ E) as E1. specialize (D _ H1).
    destruct (structs_tame _ _ H1) as (_ & _ & U1 & P1). specialize (U1 U). specialize (P1 P).
    destruct (arrays_eval _ real_rel leaf ops _ D _ _ E1) as (t2 & H2 & N2 & _ & K2). pose proof (K2 _ _ E1) as E2.
    destruct (arrays_tame _ _ H2) as (_ & _ & U2 & P2). specialize (U2 U1). specialize (P2 P1).
    destruct (unroll_total _ real_rel leaf ops (length (bound t2)) t2 d (le_n _) N2 U2 P2 E2) as (f & t3 & H3).
    destruct (unroll_sound _ real_rel leaf ops X _ _ _ _ H3 N2 U2 E2) as (N3 & B3 & d3 & E3 & _).
    destruct (structs_eval _ real_rel leaf ops _ _ _ E3) as (t4 & H4 & K4). pose proof (K4 _ _ E3) as E4.
    destruct (structs_tame _ _ H4) as (B4 & _). rewrite B3 in B4. apply incl_nil in B4.
    pose proof (structs_cleared _ real_rel leaf ops _ N3 _ E3 _ H4) as C4.
    destruct (unroll_arrays_total (size t4) t4 d3 (le_n _) B4 E4) as (t5 & H5).
    destruct (unroll_arrays_sound _ _ _ _ H5 B4 C4 E4) as (P5 & _).
    exists (max f (size t4)), t5. intros fuel' L. apply (desugar_more (max f (size t4))); [exact L|]. unfold desugar.
    rewrite (proj2 (traversed_some _ _ _) (conj U H1)). cbn [bind].
    rewrite (proj2 (traversed_some _ _ _) (conj U1 H2)). cbn [bind].
    rewrite (unroll_more f _ _ _ (Nat.le_max_l _ _) H3). cbn [bind].
    rewrite (proj2 (traversed_some _ _ _) (conj (bound_nil_unshadowed _ B3) H4)). cbn [bind].
    rewrite (unroll_arrays_more _ _ _ _ (Nat.le_max_r _ _) H5). cbn [bind].
    apply traversed_some. split; [apply bound_nil_unshadowed, plain_bound, P5|apply plain_structs, P5].
  Qed.
End Meaning.
