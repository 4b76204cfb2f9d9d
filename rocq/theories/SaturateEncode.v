(** * Equality saturation: the commands denote the formula (proofs) *)
From Coq Require Import List Arith NArith ZArith Bool Lia.
Require Import Verif.Mltl Verif.Egglog Verif.EgglogProofs Verif.Saturate Verif.SaturateSpec.
Import ListNotations.
Local Open Scope nat_scope.
Local Open Scope list_scope.

Section Encode.
Variable g : list gnode.

Lemma stands_inv p e : stands g p e -> exists n es, nth_error g p = Some n /\
  all_stand g (match gop n with NAtomic _ => [] | _ => gargs n end) es /\ applied (gop n) es = Some e.
Proof. intros H. destruct H. eauto. Qed.
Lemma all_inv ps es : all_stand g ps es -> match ps, es with
  | [], [] => True
  | p :: ps, e :: es => stands g p e /\ all_stand g ps es
  | _, _ => False
  end.
Proof. destruct 1; auto. Qed.

(** What the bindings say about the positions done so far. *)
Definition faithful (m : list (option nat)) (b : binding) : Prop :=
  forall p k t e, number m p = Some k -> bound b k = Some t -> stands g p e -> of_eterm t = e.
Definition small (m : list (option nat)) (b : binding) (cnt : nat) : Prop :=
  (forall p k, number m p = Some k -> k < cnt) /\ (forall k, cnt <= k -> bound b k = None).

Lemma number_old m x p k : number m p = Some k -> number (m ++ [x]) p = Some k.
Proof.
  unfold number. destruct (nth_error m p) as [o|] eqn:E; [|discriminate].
  rewrite nth_error_app1 by (apply nth_error_Some; congruence). rewrite E. auto.
Qed.
Lemma number_new m x p k : number (m ++ [x]) p = Some k -> number m p = Some k \/ (p = length m /\ x = Some k).
Proof.
  unfold number. destruct (Nat.lt_ge_cases p (length m)) as [L|G].
  - rewrite nth_error_app1 by exact L. auto.
  - rewrite nth_error_app2 by exact G. destruct (p - length m) as [|d] eqn:D.
    + cbn. destruct x; [|discriminate]. intros E. right. split; [lia|congruence].
    + cbn. destruct d; discriminate.
Qed.
Lemma bound_evaluated m b ps ks es : faithful m b -> numbers m ps = Some ks -> all_stand g ps es ->
  forall ts, map (bound b) ks = map Some ts -> map of_eterm ts = es.
Proof.
  intros F. revert ks es. induction ps as [|p ps IH]; intros ks es N A ts E; cbn in N; apply all_inv in A.
  - injection N as <-. destruct es; [|contradiction]. destruct ts; [reflexivity|discriminate].
  - destruct (number m p) as [k|] eqn:Np; [|discriminate]. destruct (numbers m ps) as [ks'|]; [|discriminate].
    injection N as <-. destruct es as [|e es]; [contradiction|]. destruct A as [S A].
    destruct ts as [|t ts]; [discriminate|]. cbn in E |- *. injection E as B E. f_equal; [exact (F _ _ _ _ Np B S)|].
    eapply IH; eauto.
Qed.
Lemma sound_step m b n c t e es : faithful m b -> command_of m n = Some (Some c) -> evaluated b c = Some t ->
  all_stand g (match gop n with NAtomic _ => [] | _ => gargs n end) es -> applied (gop n) es = Some e -> of_eterm t = e.
Proof.
  intros F C V A P.
  assert (One : forall (f : nat -> command) (h : eterm -> eterm) (h' : expr -> expr),
    (match nth_error (gargs n) 0 with Some p => option_map (fun k => Some (f k)) (number m p) | None => None end = Some (Some c)) ->
    (forall k, f k = c -> option_map h (bound b k) = Some t) ->
    (exists p, es = [p] /\ h' p = e) -> all_stand g (gargs n) es -> (forall x, of_eterm (h x) = h' (of_eterm x)) -> of_eterm t = e).
  { intros f h h' C1 V1 (p & -> & <-) A1 K. apply all_inv in A1.
    destruct (gargs n) as [|q qs]; [contradiction|]. cbn in C1.
    destruct (number m q) as [k|] eqn:Nq; [|discriminate]. injection C1 as E. specialize (V1 k E).
    destruct (bound b k) as [x|] eqn:B; [|discriminate]. injection V1 as <-.
    rewrite K. f_equal. exact (F _ _ _ _ Nq B (proj1 A1)). }
  assert (Two : forall (f : nat -> nat -> command) (h : eterm -> eterm -> eterm) (h' : expr -> expr -> expr),
    (match nth_error (gargs n) 0, nth_error (gargs n) 1 with
     | Some p, Some q => match number m p, number m q with Some k, Some j => Some (Some (f k j)) | _, _ => None end
     | _, _ => None end = Some (Some c)) ->
    (forall k j, f k j = c -> match bound b k, bound b j with Some p, Some q => Some (h p q) | _, _ => None end = Some t) ->
    (exists p q, es = [p; q] /\ h' p q = e) -> all_stand g (gargs n) es ->
    (forall x y, of_eterm (h x y) = h' (of_eterm x) (of_eterm y)) -> of_eterm t = e).
  { intros f h h' C1 V1 (p & q & -> & <-) A1 K. apply all_inv in A1.
    destruct (gargs n) as [|p' ps]; [contradiction|]. destruct A1 as [A1 A2]. apply all_inv in A2.
    destruct ps as [|q' qs]; [contradiction|]. cbn in C1.
    destruct (number m p') as [k|] eqn:Np; [|discriminate]. destruct (number m q') as [j|] eqn:Nq; [|discriminate].
    injection C1 as E. specialize (V1 k j E).
    destruct (bound b k) as [x|] eqn:B; [|discriminate]. destruct (bound b j) as [y|] eqn:B'; [|discriminate].
    injection V1 as <-. rewrite K. f_equal; [exact (F _ _ _ _ Np B A1)|exact (F _ _ _ _ Nq B' (proj1 A2))]. }
  unfold command_of in C. destruct (gop n) as [v|id| | | | | |l u|l u|l u|l u| |]; cbn [applied] in P.
  - injection C as <-. injection V as <-. destruct es; [|discriminate]. injection P as <-. reflexivity.
  - injection C as <-. injection V as <-. injection P as <-. reflexivity.
  - eapply (One LNot TNot ENot C); [intros k <-; exact V| |exact A|reflexivity].
    destruct es as [|p [|]]; try discriminate. injection P as <-. eauto.
  - destruct (numbers m (gargs n)) as [ks|] eqn:N; [|discriminate]. injection C as <-. injection P as <-. cbn [evaluated] in V.
    pose proof (bound_evaluated m b _ _ _ F N A) as W.
    destruct (map (bound b) ks) as [|[p|] [|[q|] [|[r|] [|[s|] [|]]]]] eqn:Q; try discriminate; injection V as <-;
      [rewrite <- (W [p; q] eq_refl)|rewrite <- (W [p; q; r] eq_refl)|rewrite <- (W [p; q; r; s] eq_refl)]; reflexivity.
  - destruct (numbers m (gargs n)) as [ks|] eqn:N; [|discriminate]. injection C as <-. injection P as <-. cbn [evaluated] in V.
    pose proof (bound_evaluated m b _ _ _ F N A) as W.
    destruct (map (bound b) ks) as [|[p|] [|[q|] [|[r|] [|[s|] [|]]]]] eqn:Q; try discriminate; injection V as <-;
      [rewrite <- (W [p; q] eq_refl)|rewrite <- (W [p; q; r] eq_refl)|rewrite <- (W [p; q; r; s] eq_refl)]; reflexivity.
  - eapply (Two LImplies TImplies EImpl C); [intros k j <-; exact V| |exact A|reflexivity].
    destruct es as [|p [|q [|]]]; try discriminate. injection P as <-. eauto.
  - eapply (Two LEquiv TEquiv EEquiv C); [intros k j <-; exact V| |exact A|reflexivity].
    destruct es as [|p [|q [|]]]; try discriminate. injection P as <-. eauto.
  - eapply (One (LGlobal l u) (TGlobal (Z.of_nat l) (Z.of_nat u)) (EG l u) C); [intros k <-; exact V| |exact A|].
    + destruct es as [|p [|]]; try discriminate. injection P as <-. eauto.
    + intros x. cbn [of_eterm]. rewrite !Nat2Z.id. reflexivity.
  - eapply (One (LFuture l u) (TFuture (Z.of_nat l) (Z.of_nat u)) (EF l u) C); [intros k <-; exact V| |exact A|].
    + destruct es as [|p [|]]; try discriminate. injection P as <-. eauto.
    + intros x. cbn [of_eterm]. rewrite !Nat2Z.id. reflexivity.
  - eapply (Two (LUntil l u) (TUntil (Z.of_nat l) (Z.of_nat u)) (EU l u) C); [intros k j <-; exact V| |exact A|].
    + destruct es as [|p [|q [|]]]; try discriminate. injection P as <-. eauto.
    + intros x y. cbn [of_eterm]. rewrite !Nat2Z.id. reflexivity.
  - eapply (Two (LRelease l u) (TRelease (Z.of_nat l) (Z.of_nat u)) (ER l u) C); [intros k j <-; exact V| |exact A|].
    + destruct es as [|p [|q [|]]]; try discriminate. injection P as <-. eauto.
    + intros x y. cbn [of_eterm]. rewrite !Nat2Z.id. reflexivity.
  - discriminate.
  - discriminate.
Qed.

Definition skipped (n : gnode) : bool := match gop n with NBool => true | _ => false end.
Lemma commands_cons m cnt n rest :
  commands m cnt (n :: rest) =
  if skipped n then commands (m ++ [None]) cnt rest else
  match command_of m n with
  | None => None
  | Some c =>
      match commands (m ++ [Some cnt]) (S cnt) rest with
      | None => None
      | Some (cs, m') => Some (match c with Some c => (cnt, c) :: cs | None => cs end, m')
      end
  end.
Proof. cbn [commands]. unfold skipped. destruct (gop n); reflexivity. Qed.
Lemma stands_skipped p e n : stands g p e -> nth_error g p = Some n -> skipped n = false.
Proof.
  intros H E. apply stands_inv in H as (n' & es & E' & _ & P). assert (n' = n) as -> by congruence.
  unfold skipped. destruct (gop n); try reflexivity. discriminate.
Qed.
Lemma small_skip m b cnt : small m b cnt -> small (m ++ [None]) b cnt.
Proof.
  intros [A B]. split; [|exact B]. intros p k H. apply number_new in H as [H|[_ H]]; [eauto|discriminate].
Qed.
Lemma small_next m b cnt : small m b cnt -> small (m ++ [Some cnt]) b (S cnt).
Proof.
  intros [A B]. split.
  - intros p k H. apply number_new in H as [H|[_ H]]; [apply A in H; lia|injection H as <-; lia].
  - intros k H. apply B. lia.
Qed.
Lemma small_bind m b cnt t : small m b (S cnt) -> small m ((cnt, t) :: b) (S cnt).
Proof.
  intros [A B]. split; [exact A|]. intros k H. cbn [bound]. destruct (cnt =? k) eqn:E; [apply Nat.eqb_eq in E; lia|apply B, H].
Qed.
Lemma position m n rest : g = firstn (length m) g ++ n :: rest ->
  nth_error g (length m) = Some n /\ forall x : option nat, g = firstn (length (m ++ [x])) g ++ rest.
Proof.
  intros G. assert (Len : length m <= length g).
  { apply (f_equal (@length gnode)) in G. rewrite app_length, firstn_length in G. cbn in G. lia. }
  split.
  - rewrite G, nth_error_app2 by (rewrite firstn_length; lia). rewrite firstn_length_le by exact Len. rewrite Nat.sub_diag. reflexivity.
  - intros x. rewrite app_length. cbn [length].
    assert (E : firstn (length m + 1) g = firstn (length m) g ++ [n]).
    { rewrite G at 1. rewrite firstn_app, firstn_firstn, firstn_length_le by exact Len.
      replace (Nat.min (length m + 1) (length m)) with (length m) by lia.
      replace (length m + 1 - length m) with 1 by lia. reflexivity. }
    rewrite E, <- app_assoc. exact G.
Qed.
Lemma faithful_skip m b : faithful m b -> faithful (m ++ [None]) b.
Proof. intros F p k t e N. apply number_new in N as [N|[_ N]]; [eauto|discriminate]. Qed.
Lemma faithful_hole m b cnt : faithful m b -> small m b cnt -> faithful (m ++ [Some cnt]) b.
Proof.
  intros F [_ B] p k t e N V. apply number_new in N as [N|[_ N]]; [eauto|].
  injection N as <-. rewrite B in V by lia. discriminate.
Qed.
Lemma faithful_bind m b cnt n c t : faithful m b -> small m b cnt -> nth_error g (length m) = Some n ->
  command_of m n = Some (Some c) -> evaluated b c = Some t -> faithful (m ++ [Some cnt]) ((cnt, t) :: b).
Proof.
  intros F [A B] G C V p k t' e N V' H. cbn [bound] in V'. apply number_new in N as [N|[-> N]].
  - pose proof (A _ _ N). destruct (cnt =? k) eqn:E; [apply Nat.eqb_eq in E; lia|]. exact (F _ _ _ _ N V' H).
  - injection N as <-. rewrite Nat.eqb_refl in V'. injection V' as <-.
    apply stands_inv in H as (n' & es & G' & H & P). assert (n' = n) as -> by congruence.
    exact (sound_step _ _ _ _ _ _ _ F C V H P).
Qed.
Lemma commands_sound : forall rest m cnt b cs m' b',
  g = firstn (length m) g ++ rest -> faithful m b -> small m b cnt ->
  commands m cnt rest = Some (cs, m') -> run b cs = Some b' -> faithful m' b'.
Proof.
  induction rest as [|n rest IH]; intros m cnt b cs m' b' G F S C R.
  - cbn in C. injection C as <- <-. injection R as <-. exact F.
  - rewrite commands_cons in C. destruct (position _ _ _ G) as [Gn G']. destruct (skipped n) eqn:Sk.
    + exact (IH _ _ _ _ _ _ (G' _) (faithful_skip _ _ F) (small_skip _ _ _ S) C R).
    + destruct (command_of m n) as [c|] eqn:Cn; [|discriminate].
      destruct (commands (m ++ [Some cnt]) (Datatypes.S cnt) rest) as [[cs0 m0]|] eqn:C0; [|discriminate].
      destruct c as [c|]; injection C as <- <-.
      * cbn [run] in R. rewrite (proj2 S cnt (le_n _)) in R. destruct (evaluated b c) as [t|] eqn:V; [|discriminate].
        exact (IH _ _ _ _ _ _ (G' _) (faithful_bind _ _ _ _ _ _ F S Gn Cn V) (small_bind _ _ _ _ (small_next _ _ _ S)) C0 R).
      * exact (IH _ _ _ _ _ _ (G' _) (faithful_hole _ _ _ F S) (small_next _ _ _ S) C0 R).
Qed.

(** ** Every expressible formula gets through *)
Definition total (m : list (option nat)) (b : binding) : Prop :=
  forall p e, p < length m -> stands g p e -> exists k t, number m p = Some k /\ bound b k = Some t.

Lemma total_numbers m b : total m b -> forall ps es, all_stand g ps es -> (forall q, In q ps -> q < length m) ->
  exists ks ts, numbers m ps = Some ks /\ map (bound b) ks = map Some ts /\ length ts = length ps.
Proof.
  intros T. induction ps as [|p ps IH]; intros es A L; apply all_inv in A.
  - exists [], []. auto.
  - destruct es as [|e es]; [contradiction|]. destruct A as [S A].
    destruct (T p e (L p (or_introl eq_refl)) S) as (k & t & N & B).
    destruct (IH es A (fun q I => L q (or_intror I))) as (ks & ts & Ns & Bs & Ln).
    exists (k :: ks), (t :: ts). cbn. rewrite N, Ns, B, Bs, Ln. auto.
Qed.
Lemma all_length ps es : all_stand g ps es -> length es = length ps.
Proof. induction 1; cbn; congruence. Qed.
Lemma total_step m b n e : total m b -> in_order g -> nth_error g (length m) = Some n -> stands g (length m) e -> expressible e ->
  exists c t, command_of m n = Some (Some c) /\ evaluated b c = Some t.
Proof.
  intros T O G H X. apply stands_inv in H as (n' & es & G' & A & P). assert (n' = n) as -> by congruence. clear G'.
  assert (L : forall q, In q (gargs n) -> q < length m) by (intros q I; exact (O _ _ _ G I)).
  pose proof (all_length _ _ A) as Ln.
  unfold command_of.
  destruct (gop n) as [v|id| | | | | |l u|l u|l u|l u| |]; cbn [applied] in P;
    try (destruct es as [|p es]; [discriminate|]); try (eexists; eexists; split; reflexivity).
  all: try (destruct (total_numbers m b T _ _ A L) as (ks & ts & N & B & Lt)).
  all: try discriminate.
  all: try (destruct es as [|q es]; [|discriminate]; destruct (gargs n) as [|i [|]]; try discriminate;
    cbn [nth_error]; cbn [numbers] in N; destruct (number m i) as [k|]; [|discriminate]; injection N as <-;
    destruct ts as [|t ts]; [discriminate|]; cbn in B; injection B as B _;
    eexists; eexists; split; [reflexivity|]; cbn [evaluated]; rewrite B; reflexivity).
  all: try (destruct es as [|q es]; [discriminate|]; destruct es; [|discriminate];
    destruct (gargs n) as [|i [|j [|]]]; try discriminate;
    cbn [nth_error]; cbn [numbers] in N; destruct (number m i) as [k|]; [|discriminate];
    destruct (number m j) as [k'|]; [|discriminate]; injection N as <-;
    destruct ts as [|t [|t' ts]]; try discriminate; cbn in B; injection B as B B' _;
    eexists; eexists; split; [reflexivity|]; cbn [evaluated]; rewrite B, B'; reflexivity).
  - injection P as <-; cbn [expressible] in X; destruct X as [X _]; rewrite Ln, <- Lt in X;
      rewrite N; exists (LAnd ks); cbn [option_map evaluated]; rewrite B;
      destruct ts as [|t1 [|t2 [|t3 [|t4 [|]]]]]; cbn in X; try lia; cbn; eexists; split; reflexivity.
  - injection P as <-; cbn [expressible] in X; destruct X as [X _]; rewrite Ln, <- Lt in X;
      rewrite N; exists (LOr ks); cbn [option_map evaluated]; rewrite B;
      destruct ts as [|t1 [|t2 [|t3 [|t4 [|]]]]]; cbn in X; try lia; cbn; eexists; split; reflexivity.
Qed.
Lemma commands_total : forall rest m cnt b, all_expressible g -> in_order g ->
  g = firstn (length m) g ++ rest -> length m + length rest = length g -> total m b -> small m b cnt ->
  exists cs m' b', commands m cnt rest = Some (cs, m') /\ run b cs = Some b' /\ total m' b' /\ length m' = length g.
Proof.
  induction rest as [|n rest IH]; intros m cnt b Gd O G Ln T S.
  - exists [], m, b. cbn in Ln. repeat split; auto. lia.
  - rewrite commands_cons. destruct (position _ _ _ G) as [Gn G'].
    assert (Ln' : forall x : option nat, length (m ++ [x]) + length rest = length g)
      by (intros x; rewrite app_length; cbn in *; lia).
    destruct (Gd _ _ Gn) as [Op|(e & H & X)].
    + assert (Sk : skipped n = true) by (unfold skipped; rewrite Op; reflexivity). rewrite Sk.
      apply IH; auto using small_skip. intros p e L H. rewrite app_length in L. cbn in L.
      destruct (Nat.eq_dec p (length m)) as [->|Ne].
      * rewrite (stands_skipped _ _ _ H Gn) in Sk. discriminate.
      * destruct (T p e ltac:(lia) H) as (k & t & N & B). exists k, t. split; [apply number_old, N|exact B].
    + rewrite (stands_skipped _ _ _ H Gn).
      destruct (total_step m b n e T O Gn H X) as (c & t & Cn & V). rewrite Cn.
      destruct (IH (m ++ [Some cnt]) (Datatypes.S cnt) ((cnt, t) :: b) Gd O (G' _) (Ln' _)) as (cs & m' & b' & C & R & T' & L').
      * intros p e' L H'. rewrite app_length in L. cbn in L. destruct (Nat.eq_dec p (length m)) as [->|Ne].
        -- exists cnt, t. split; [|cbn [bound]; rewrite Nat.eqb_refl; reflexivity].
           unfold number. rewrite nth_error_app2, Nat.sub_diag by lia. reflexivity.
        -- destruct (T p e' ltac:(lia) H') as (k & t' & N & B). exists k, t'. split; [apply number_old, N|].
           cbn [bound]. pose proof (proj1 S _ _ N). destruct (cnt =? k) eqn:E; [apply Nat.eqb_eq in E; lia|exact B].
      * apply small_bind, small_next, S.
      * rewrite C. exists ((cnt, c) :: cs), m', b'. repeat split; auto. cbn [run].
        rewrite (proj2 S cnt (le_n _)), V. exact R.
Qed.
Lemma encoding_sound cs k t e : to_egglog g = Some (cs, k) -> root_term cs k = Some t -> stands g (pred (length g)) e -> of_eterm t = e.
Proof.
  unfold to_egglog, root_term. intros E R H.
  destruct (commands [] 0 g) as [[cs0 m]|] eqn:C; [|discriminate].
  destruct (number m (pred (length g))) as [k0|] eqn:N; [|discriminate]. injection E as <- <-.
  destruct (run [] cs0) as [b|] eqn:Rn; [|discriminate].
  refine (commands_sound g [] 0 [] cs0 m b eq_refl _ _ C Rn _ _ _ _ N R H).
  - intros p j t' e' D. unfold number in D. destruct p; discriminate.
  - split; [intros p j D; unfold number in D; destruct p; discriminate|reflexivity].
Qed.
Lemma encoding_total e : all_expressible g -> in_order g -> stands g (pred (length g)) e ->
  exists cs k t, to_egglog g = Some (cs, k) /\ root_term cs k = Some t.
Proof.
  intros Gd O H.
  destruct (commands_total g [] 0 [] Gd O eq_refl eq_refl) as (cs & m & b & C & R & T & L).
  - intros p e' L. cbn in L. lia.
  - split; [intros p j D; unfold number in D; destruct p; discriminate|reflexivity].
  - unfold to_egglog, root_term. rewrite C.
    assert (P : pred (length g) < length m).
    { apply stands_inv in H as (n & _ & N & _). assert (K : nth_error g (pred (length g)) <> None) by congruence.
      apply nth_error_Some in K. lia. }
    destruct (T _ _ P H) as (k & t & N & B). exists cs, k, t. rewrite N, R. auto.
Qed.
End Encode.
