(** * The type checker: accepted expressions do not go wrong *)
From Coq Require Import List Arith ZArith Bool Lia.
Require Import Verif.TypeCheck Verif.TypeSpec Verif.TypeProofs.
Import ListNotations.

Ltac split_check H :=
  repeat match type of H with
  | bind (guard _) _ = Some _ => let G := fresh "G" in apply guarded in H; destruct H as [G H]
  | bind (check _ _ _) _ = Some _ =>
      let t := fresh "t" in let s := fresh "s" in let C := fresh "C" in
      apply bind_some in H; destruct H as [[t s] [C H]]; cbn beta iota in H
  | bind _ _ = Some _ => let a := fresh "a" in let C := fresh "C" in apply bind_some in H; destruct H as [a [C H]]; cbn beta iota in H
  | match ?t with _ => _ end = Some _ => is_var t; destruct t as [| | | |? ?|?|?]; try discriminate H; cbn beta iota in H
  end.

(** ** What checking does to the variables *)
Lemma unbind_lookup : forall s x s', unbind s x = Some s' ->
  bound_in (bound s) x = true /\ vars s' = vars s /\ forall y, lookup (bound s') y = if y =? x then None else lookup (bound s) y.
Proof.
  intros s x s' E; unfold unbind in E; destruct (bound_in (bound s) x) eqn:B; [|discriminate]; injection E as <-; cbn.
  refine (conj eq_refl (conj eq_refl _)). intros y. clear B. induction (bound s) as [|[z t] l IH]; cbn; [destruct (y =? x); reflexivity|].
  destruct (x =? z) eqn:D; cbn; rewrite IH.
  - apply Nat.eqb_eq in D; subst; destruct (y =? z); reflexivity.
  - destruct (y =? z) eqn:D1; [|reflexivity]. apply Nat.eqb_eq in D1; subst. rewrite Nat.eqb_sym, D; reflexivity.
Qed.
Lemma mem_app : forall x l m, mem x (l ++ m) = mem x l || mem x m.
Proof. intros; apply existsb_app. Qed.

Definition scoped (c : ctx) (e : tx) : Prop := forall s t s', check c e s = Some (t, s') ->
  (forall x, lookup (bound s') x = if mem x (binders e) then None else lookup (bound s) x) /\
  (forall x t, lookup (vars s') x = Some t -> lookup (vars s) x = Some t \/ In x (binders e)).
Definition scoped_list (c : ctx) (es : list tx) : Prop := forall s ts s', checks c es s = Some (ts, s') ->
  (forall x, lookup (bound s') x = if mem x (flat_map binders es) then None else lookup (bound s) x) /\
  (forall x t, lookup (vars s') x = Some t -> lookup (vars s) x = Some t \/ In x (flat_map binders es)).
Lemma check_arr : forall c es s, check c (XArr es) s =
  ('(ts, s) <- checks c es s ;; let t := last ts TNo in _ <- guard (forallb (fun u => ty_eq u t) ts) ;; Some (TArray t (Some (length es)), s)).
Proof. reflexivity. Qed.
Lemma check_new : forall c n es s, check c (XNew n es) s =
  ('(ts, s) <- checks c es s ;; l <- lookup (c_structs c) n ;;
   _ <- guard (forallb (fun p => ty_eq (fst p) (snd p)) (combine (map snd l) ts)) ;; Some (TStruct n, s)).
Proof. reflexivity. Qed.
Lemma scoped_seq : forall (b1 b2 : list nat) (s s1 s2 : st),
  ((forall x, lookup (bound s1) x = if mem x b1 then None else lookup (bound s) x) /\
   (forall x t, lookup (vars s1) x = Some t -> lookup (vars s) x = Some t \/ In x b1)) ->
  ((forall x, lookup (bound s2) x = if mem x b2 then None else lookup (bound s1) x) /\
   (forall x t, lookup (vars s2) x = Some t -> lookup (vars s1) x = Some t \/ In x b2)) ->
  ((forall x, lookup (bound s2) x = if mem x (b1 ++ b2) then None else lookup (bound s) x) /\
   (forall x t, lookup (vars s2) x = Some t -> lookup (vars s) x = Some t \/ In x (b1 ++ b2))).
Proof.
  intros b1 b2 s s1 s2 [H1 V1] [H2 V2]; split.
  - intros x; rewrite H2, H1, mem_app; destruct (mem x b1), (mem x b2); reflexivity.
  - intros x t E; rewrite in_app_iff; destruct (V2 _ _ E) as [E'|]; [destruct (V1 _ _ E')|]; tauto.
Qed.
Lemma scoped_binder : forall (x : nat) (u : ty) (b : list nat) (s s1 s2 : st),
  ((forall y, lookup (bound s1) y = if mem y b then None else lookup ((x, u) :: bound s) y) /\
   (forall y t, lookup (vars s1) y = Some t -> lookup (vars s) y = Some t \/ In y b)) ->
  unbind s1 x = Some s2 ->
  mem x b = false /\
  ((forall y, lookup (bound s2) y = if mem y (x :: b) then None else lookup (bound s) y) /\
   (forall y t, lookup ((x, u) :: vars s2) y = Some t -> lookup (vars s) y = Some t \/ In y (x :: b))).
Proof.
  intros x u b s s1 s2 [H1 V1] E. destruct (unbind_lookup _ _ _ E) as [B [V L]].
  assert (N : mem x b = false) by (destruct (mem x b) eqn:M; [|reflexivity]; unfold bound_in in B; rewrite H1, M in B; discriminate).
  split; [exact N|split].
  - intros y; rewrite L, H1; cbn [lookup]. change (mem y (x :: b)) with ((y =? x) || mem y b). destruct (y =? x), (mem y b); reflexivity.
  - intros y t; cbn [lookup]. destruct (y =? x) eqn:D; [apply Nat.eqb_eq in D; subst; right; left; reflexivity|].
    rewrite V; intros F; destruct (V1 _ _ F); [left|right; right]; assumption.
Qed.
Lemma check_scoped : forall c e, scoped c e.
Proof.
  intros c; induction e as
    [b|z|m e|  |x|x|es IH|e i IH|e i j IH|e m IH|n es IH|k x a b IHa IHb|k x a b d IHa IHb IHd
    |k lb ub e IH|k lb ub a b IHa IHb|e IH|k a b IHa IHb|e IH|k a b IHa IHb|k e IH|k a b IHa IHb|k a b IHa IHb|a b IHa IHb]
    using tx_induction; intros s t s' E;
    try (assert (L : scoped_list c es);
         [clear - IH; induction es as [|e es IHes]; intros s ts s' E;
          [injection E as <- <-; split; [reflexivity|auto]
          |cbn [checks] in E; inversion IH; subst; split_check E; destruct a as [ts' s1]; injection E as <- <-;
           cbn [flat_map]; eapply scoped_seq; [eapply H1; eassumption|eapply IHes; eassumption]]|]);
    try (rewrite check_arr in E); try (rewrite check_new in E); try (cbn [check] in E);
    split_check E; try (injection E as <- <-);
    try (split; [reflexivity|auto]; fail);
    try (eapply IH; eassumption);
    try (cbn [binders]; eapply scoped_seq; [eapply IHa; eassumption|eapply IHb; eassumption]).
  - destruct a as [ts s1]; split_check E; injection E as <- <-; eapply L; eassumption.
  - destruct a as [ts s1]; split_check E; injection E as <- <-; eapply L; eassumption.
  - change (binders (XQuant k x a b)) with (x :: binders a ++ binders b).
    destruct (scoped_binder _ _ _ _ _ _ (IHb _ _ _ C0) C1) as [_ X].
    pose proof (scoped_seq _ _ _ _ (St (bound a0) ((x, t0) :: vars a0)) (IHa _ _ _ C) X) as [Y1 Y2]. cbn [bound vars] in *. split.
    + intros y; rewrite Y1. rewrite mem_app. change (mem y (x :: binders b)) with ((y =? x) || mem y (binders b)).
      change (mem y (x :: binders a ++ binders b)) with ((y =? x) || mem y (binders a ++ binders b)). rewrite mem_app.
      destruct (y =? x), (mem y (binders a)), (mem y (binders b)); reflexivity.
    + intros y u F; destruct (Y2 _ _ F) as [|I]; [left; assumption|right]. apply in_app_iff in I; cbn in I |- *; rewrite in_app_iff; tauto.
  - change (binders (XCount k x a b d)) with (x :: binders a ++ binders b ++ binders d).
    destruct (scoped_binder _ _ _ _ _ _ (IHd _ _ _ C1) C2) as [_ X].
    pose proof (scoped_seq _ _ _ _ (St (bound a0) ((x, t0) :: vars a0)) (scoped_seq _ _ _ _ _ (IHa _ _ _ C) (IHb _ _ _ C0)) X) as [Y1 Y2]. cbn [bound vars] in *. split.
    + intros y; rewrite Y1. rewrite !mem_app. change (mem y (x :: binders d)) with ((y =? x) || mem y (binders d)).
      change (mem y (x :: binders a ++ binders b ++ binders d)) with ((y =? x) || mem y (binders a ++ binders b ++ binders d)). rewrite !mem_app.
      destruct (y =? x), (mem y (binders a)), (mem y (binders b)), (mem y (binders d)); reflexivity.
    + intros y u F; destruct (Y2 _ _ F) as [|I]; [left; assumption|right]. rewrite !in_app_iff in I; cbn in I |- *; rewrite !in_app_iff; tauto.
Qed.

Section Sound.
  Variable A : arithmetic.
  Variable structs : list (nat * list (nat * ty)).
  Variable enums : list (nat * list nat).
  Notation belongs := (belongs A structs enums).
  Notation members := (members enums).
  Notation good := (good A structs enums).
  Notation eval := (eval A structs enums).
  Hypothesis Sep : separate structs enums.
  Variable c : ctx.
  Variable v : env A.

  (** The checker's tables describe the values. *)
  Record consistent : Prop := {
    con_structs : forall s l, lookup (c_structs c) s = Some l -> lookup structs s = Some l;
    con_enums : known_enums enums c;
    con_sigs : forall x t, lookup (c_sigs c) x = Some t -> exists d, lookup (e_sigs v) x = Some d /\ belongs d t = true;
    con_defs : forall x k t, lookup (c_defs c) x = Some (k, t) ->
      exists r, lookup (e_defs v) x = Some r /\ good r t /\ (k = true -> basic t = true);
    con_nodef : forall x, lookup (c_defs c) x = None -> lookup (e_defs v) x = None;
    con_sig_def : forall x t k u, lookup (c_sigs c) x = Some t -> lookup (c_defs c) x = Some (k, u) ->
      k = false /\ exists w n, u = TArray w n;
    con_struct_def : forall x l, lookup (c_structs c) x = Some l -> lookup (c_defs c) x = None;
    con_specs : forall x, mem x (c_specs c) = true -> exists r, lookup (e_specs v) x = Some r /\ good r TBool;
    con_nospec : forall x, mem x (c_specs c) = false -> lookup (e_specs v) x = None }.
  Hypothesis Con : consistent.

  (** Names free for bound variables. *)
  Definition apart (x : nat) : Prop := lookup (c_defs c) x = None /\ mem x (c_specs c) = false /\ mem x members = false.
  Record st_ok (s : st) (b : list (nat * den A)) : Prop := {
    so_bound : forall x t, lookup (bound s) x = Some t -> exists d, lookup b x = Some d /\ belongs d t = true;
    so_free : forall x, lookup (bound s) x = None -> lookup b x = None;
    so_apart : forall x t, lookup (bound s) x = Some t -> apart x;
    so_vars : forall x t, lookup (vars s) x = Some t -> apart x }.
  Definition room (s : st) (l : list nat) : Prop := forall x, In x l -> apart x /\ lookup (bound s) x = None.

  Lemma st_ok_ext : forall s s' b l, st_ok s b -> room s l ->
    ((forall x, lookup (bound s') x = if mem x l then None else lookup (bound s) x) /\
     (forall x t, lookup (vars s') x = Some t -> lookup (vars s) x = Some t \/ In x l)) -> 
    st_ok s' b /\ forall x, lookup (bound s') x = lookup (bound s) x.
  Proof using Type.
    intros s s' b l [O1 O2 O3 O4] R [L V].
    assert (E : forall x, lookup (bound s') x = lookup (bound s) x).
    { intros x; rewrite L; destruct (mem x l) eqn:M; [|reflexivity]. apply mem_in in M; destruct (R _ M); congruence. }
    split; [|exact E]. constructor; intros x; try (rewrite E; eauto).
    intros t F; destruct (V _ _ F) as [|I]; [eauto|exact (proj1 (R _ I))].
  Qed.
  Lemma room_ext : forall s s' l, room s l -> (forall x, lookup (bound s') x = lookup (bound s) x) -> room s' l.
  Proof using Type. intros s s' l R E x I; rewrite E; exact (R x I). Qed.
  Lemma room_app : forall s l m, room s (l ++ m) -> room s l /\ room s m.
  Proof using Type. intros s l m R; split; intros x I; apply R, in_app_iff; auto. Qed.
  Lemma after : forall e s t s' b, check c e s = Some (t, s') -> st_ok s b -> room s (binders e) ->
    st_ok s' b /\ forall x, lookup (bound s') x = lookup (bound s) x.
  Proof using Type. intros e s t s' b E O R; eapply st_ok_ext; [exact O|exact R|exact (check_scoped _ _ _ _ _ E)]. Qed.
  (** Inside a binder. *)
  Lemma inside : forall x u d s b l, st_ok s b -> apart x -> belongs d u = true -> room s l -> mem x l = false ->
    st_ok (St ((x, u) :: bound s) (vars s)) ((x, d) :: b) /\ room (St ((x, u) :: bound s) (vars s)) l.
  Proof using Type.
    intros x u d s b l [O1 O2 O3 O4] N D R M. split.
    - constructor; cbn [bound vars lookup]; intros y.
      + intros t; destruct (y =? x); [intros E; injection E as <-; eauto|apply O1].
      + destruct (y =? x); [discriminate|apply O2].
      + intros t; destruct (y =? x) eqn:E; [apply Nat.eqb_eq in E; subst; intros _; exact N|apply O3].
      + apply O4.
    - intros y I; destruct (R _ I) as [R1 R2]. split; [exact R1|]. cbn. destruct (y =? x) eqn:E; [|exact R2].
      apply Nat.eqb_eq in E; subst. apply mem_false in M; tauto.
  Qed.

  Lemma bind_good : forall r u t (f : den A -> res (den A)), good r u -> (forall d, belongs d u = true -> good (f d) t) -> good (rbind r f) t.
  Proof using Type. intros [d|g|] u t f H1 H2; [apply H2; exact H1|exact Logic.I|exact H1]. Qed.
  Lemma also_good : forall r1 r2 u1 u2 t (f : den A * den A -> res (den A)), good r1 u1 -> good r2 u2 ->
    (forall d1 d2, belongs d1 u1 = true -> belongs d2 u2 = true -> good (f (d1, d2)) t) -> good (rbind (also r1 r2) f) t.
  Proof using Type.
    intros [d1|g1|] [d2|g2|] u1 u2 t f H1 H2 H3; cbn; try contradiction; try exact Logic.I. apply H3; assumption.
  Qed.
  Lemma all_good : forall rs ts, Forall2 good rs ts ->
    match all_ok rs with Ok ds => Forall2 (fun d t => belongs d t = true) ds ts | Gap _ => True | Wrong => False end.
  Proof using Type.
    induction 1 as [|r t rs ts R _ IH]; cbn; [constructor|].
    destruct r as [d|g|], (all_ok rs); cbn; try contradiction; try exact Logic.I. constructor; assumption.
  Qed.
  Lemma bits_good : forall d, belongs d TBool = true -> exists f, d = DBool f.
  Proof using Type. intros [f|f|f|r f|m|l|r l|r] E; try discriminate E; exists f; reflexivity. Qed.
  Lemma is_bool_eq : forall t, is_bool t = true -> t = TBool.
  Proof using Type. intros [] E; try discriminate E; reflexivity. Qed.

  Lemma variable_sound : forall s b x t, st_ok s b -> variable_type c s x = Some t -> good (variable A enums v b x) t.
  Proof using Con.
    intros s b x t [O1 O2 O3 O4] E; unfold variable_type in E; unfold variable.
    destruct (lookup (bound s) x) as [u|] eqn:B.
    - injection E as ->. destruct (O1 _ _ B) as [d [-> D]]; exact D.
    - rewrite (O2 _ B).
      destruct (lookup (vars s) x) as [u|] eqn:V.
      + destruct (O4 _ _ V) as [N1 [N2 N3]]. rewrite (con_nodef Con _ N1), (con_nospec Con _ N2), N3. exact Logic.I.
      + destruct (lookup (c_defs c) x) as [[k u]|] eqn:D.
        * injection E as <-. destruct (con_defs Con _ _ _ D) as [r [-> [R _]]]; exact R.
        * rewrite (con_nodef Con _ D).
          destruct (bound_in (c_structs c) x || bound_in (c_enums c) x); [discriminate|].
          destruct (mem x (c_specs c)) eqn:M.
          { injection E as <-. destruct (con_specs Con _ M) as [r [-> R]]; exact R. }
          rewrite (con_nospec Con _ M).
          destruct (mem x (c_contracts c)); [discriminate|].
          destruct (existsb _ (c_enums c)) eqn:X; [injection E as <-|discriminate].
          destruct (mem x members) eqn:N; [cbn; rewrite Nat.eqb_refl, N; reflexivity|exact Logic.I].
  Qed.

  Lemma forallb_belongs : forall ds ts t, Forall2 (fun d u => belongs d u = true) ds ts -> forallb (fun u => ty_eq u t) ts = true ->
    Forall (fun d => belongs d t = true) ds.
  Proof using Type.
    induction 1 as [|d u ds ts D _ IH]; intros E; constructor; cbn in E; apply andb_true_iff in E; destruct E as [E1 E2]; auto.
    rewrite <- (belongs_eq _ _ _ _ _ _ E1); exact D.
  Qed.
  Lemma array_value : forall d t n, belongs d (TArray t n) = true -> exists l, d = DArr l /\ Forall (fun d => belongs d t = true) l.
  Proof using Type.
    intros [f|f|f|r f|m|l|r l|r] t n E; try discriminate E. exists l; split; [reflexivity|]. cbn in E; rewrite Forall_forall. rewrite forallb_forall in E. exact E.
  Qed.
  Lemma struct_value : forall d t n l, symbol_of t = Some n -> lookup structs n = Some l -> belongs d t = true ->
    exists fs, d = DRec n fs /\ fields A structs enums fs l = true.
  Proof using Sep.
    destruct Sep as [S1 S2]. intros d t n l Y L B. pose proof (bound_in_some _ _ _ L) as N. pose proof (S1 _ N) as N1.
    assert (X : t = TStruct n \/ t = TEnum n) by (destruct t; try discriminate Y; injection Y as ->; auto).
    destruct X as [-> | ->]; destruct d as [f|f|f|r f|m|k|r k|r]; try discriminate B; try (rewrite belongs_rec in B);
      cbn in B; try discriminate B; apply andb_true_iff in B; destruct B as [B B1]; try (apply Nat.eqb_eq in B; subst).
    - congruence.
    - rewrite L in B1. exists k; auto.
    - apply andb_true_iff in B; destruct B as [B B0]; apply Nat.eqb_eq in B; subst. rewrite N in B0; discriminate.
    - congruence.
    - destruct (S2 _ B1); congruence.
  Qed.
  Lemma field_value : forall m u fs l, fields A structs enums fs l = true -> lookup l m = Some u ->
    exists d, lookup fs m = Some d /\ belongs d u = true.
  Proof using Type.
    intros m u; induction fs as [|[n d] fs IH]; intros [|[k t] l] E L; try discriminate.
    cbn in E; apply andb_true_iff in E; destruct E as [E E2]; apply andb_true_iff in E; destruct E as [E0 E1]; apply Nat.eqb_eq in E0; subst n.
    cbn in L |- *. destruct (m =? k); [injection L as <-; eauto|exact (IH _ E2 L)].
  Qed.
  Lemma new_fields : forall ds ts l, Forall2 (fun d t => belongs d t = true) ds ts -> length ts = length l ->
    forallb (fun p => ty_eq (fst p) (snd p)) (combine (map snd l) ts) = true ->
    forallb (fun q => belongs (fst q) (snd q)) (combine ds (map snd l)) = true /\
    fields A structs enums (combine (map fst l) ds) l = true.
  Proof using Type.
    intros ds ts l F; revert l; induction F as [|d t ds ts D _ IH]; intros [|[m u] l] E G; try discriminate E; [split; reflexivity|].
    cbn in E, G; apply andb_true_iff in G; destruct G as [G1 G2]. injection E as E. destruct (IH _ E G2) as [X Y]. cbn.
    rewrite (belongs_eq _ _ _ _ _ _ G1), D, X, Y, Nat.eqb_refl; split; reflexivity.
  Qed.
  Lemma checks_length : forall es s ts s', checks c es s = Some (ts, s') -> length ts = length es.
  Proof using Type.
    induction es as [|e es IH]; intros s ts s' E; [injection E as <- <-; reflexivity|].
    cbn [checks] in E. split_check E. destruct a as [ts' s1]. injection E as <- <-. cbn; erewrite IH; eauto.
  Qed.
  Lemma bool_members : forall (l : list (den A)) (g : den A -> res (den A)),
    (forall d, In d l -> good (g d) TBool) ->
    match all_ok (map (fun d => rbind (g d) (bits A)) l) with Wrong => False | _ => True end.
  Proof using Type.
    intros l g H; induction l as [|d l IH]; cbn; [exact Logic.I|].
    assert (X : good (g d) TBool) by (apply H; left; reflexivity).
    assert (Y := IH (fun d I => H d (or_intror I))).
    destruct (g d) as [r|q|]; [destruct (bits_good _ X) as [f ->]| |contradiction]; cbn [rbind bits];
      destruct (all_ok (map (fun d => rbind (g d) (bits A)) l)); try contradiction; exact Logic.I.
  Qed.

  Definition sound (e : tx) : Prop := forall s b t s', st_ok s b -> room s (binders e) -> check c e s = Some (t, s') -> good (eval v b e) t.
  Lemma sound_pair : forall e1 e2, sound e1 -> sound e2 -> forall s b t1 s1 t2 s2,
    st_ok s b -> room s (binders e1 ++ binders e2) -> check c e1 s = Some (t1, s1) -> check c e2 s1 = Some (t2, s2) ->
    good (eval v b e1) t1 /\ good (eval v b e2) t2.
  Proof using Type.
    intros e1 e2 S1 S2 s b t1 s1 t2 s2 O R C1 C2; apply room_app in R; destruct R as [R1 R2].
    destruct (after _ _ _ _ _ C1 O R1) as [O1 E1].
    split; [exact (S1 _ _ _ _ O R1 C1)|eapply S2; [exact O1|exact (room_ext _ _ _ R2 E1)|exact C2]].
  Qed.
  Lemma sound_list : forall es, Forall sound es -> forall s b ts s',
    st_ok s b -> room s (flat_map binders es) -> checks c es s = Some (ts, s') -> Forall2 good (map (eval v b) es) ts.
  Proof using Type.
    induction 1 as [|e es S1 _ IH]; intros s b ts s' O R E; [injection E as <- <-; constructor|].
    cbn [checks] in E; split_check E; destruct a as [ts' s1]; injection E as <- <-.
    cbn [flat_map] in R; apply room_app in R; destruct R as [R1 R2].
    destruct (after _ _ _ _ _ C O R1) as [O1 E1].
    constructor; [exact (S1 _ _ _ _ O R1 C)|eapply IH; [exact O1|exact (room_ext _ _ _ R2 E1)|exact C0]].
  Qed.

  (** The body of an aggregation. *)
  Lemma sound_body : forall x a bd s b ta s1 n l s2 tb s3,
    sound bd -> st_ok s b -> room s (x :: binders a ++ binders bd) -> check c a s = Some (TArray ta n, s1) ->
    Forall (fun d => belongs d ta = true) l ->
    check c bd (St ((x, ta) :: bound s1) (vars s1)) = Some (tb, s2) -> unbind s2 x = Some s3 -> is_bool tb = true ->
    match all_ok (map (fun d => rbind (eval v ((x, d) :: b) bd) (bits A)) l) with Wrong => False | _ => True end.
  Proof using Type.
    intros x a bd s b ta s1 n l s2 tb s3 S O R Ca F Cb U B. apply is_bool_eq in B; subst tb.
    assert (R0 := proj1 (R x (or_introl eq_refl))).
    assert (R' : room s (binders a ++ binders bd)) by (intros y I; apply R; right; exact I).
    apply room_app in R'; destruct R' as [R1 R2].
    destruct (after _ _ _ _ _ Ca O R1) as [O1 E1]. pose proof (room_ext _ _ _ R2 E1) as R3.
    destruct (scoped_binder _ _ _ _ _ _ (check_scoped _ _ _ _ _ Cb) U) as [M _].
    apply (bool_members l (fun d => eval v ((x, d) :: b) bd)). intros d I.
    rewrite Forall_forall in F. destruct (inside x ta d _ _ _ O1 R0 (F _ I) R3 M) as [O4 R4].
    eapply S; [exact O4|exact R4|exact Cb].
  Qed.

  Lemma check_sound : forall e, sound e.
  Proof using Sep Con.
    induction e as
      [x|z|m e|  |x|x|es IH|e i IH|e i j IH|e m IH|n es IH|k x e1 e2 IH1 IH2|k x e1 e2 e3 IH1 IH2 IH3
      |k lb ub e IH|k lb ub e1 e2 IH1 IH2|e IH|k e1 e2 IH1 IH2|e IH|k e1 e2 IH1 IH2|k e IH|k e1 e2 IH1 IH2|k e1 e2 IH1 IH2|e1 e2 IH1 IH2]
      using tx_induction; intros s b t s' O R E;
      try (rewrite check_arr in E); try (rewrite check_new in E); try (cbn [check] in E);
      split_check E;
      try (destruct (sound_pair _ _ IH1 IH2 _ _ _ _ _ _ O R C C0) as [P1 P2]);
      try (pose proof (IH _ _ _ _ O R C) as P); cbn [TypeSpec.eval].
    - injection E as <- <-; reflexivity.
    - injection E as <- <-. unfold ensure.
      replace ((- 2 ^ 31 <=? z) && (z <? 2 ^ 31))%Z with true; [reflexivity|]. symmetry. apply Z.ltb_lt in G.
      apply andb_true_iff; split; [apply Z.leb_le|apply Z.ltb_lt]; lia.
    - injection E as <- <-; reflexivity.
    - injection E as <- <-; reflexivity.
    - injection E as <- <-. destruct (con_sigs Con _ _ C) as [d [-> D]]; exact D.
    - injection E as <- <-. eapply variable_sound; eassumption.
    - destruct a as [ts s1]; split_check E; injection E as <- <-.
      pose proof (all_good _ _ (sound_list _ IH _ _ _ _ O R C)) as L.
      destruct (all_ok (map (eval v b) es)) as [ds|q|]; [|exact Logic.I|exact L]. cbn [rbind].
      pose proof (forallb_belongs _ _ _ L G) as F.
      destruct ds as [|d ds]; [reflexivity|]. unfold ensure.
      replace (forallb (same_sort A d) (d :: ds)) with true; [cbn [rbind TypeProofs.good]|].
      + cbn [TypeSpec.belongs]. apply forallb_forall. rewrite Forall_forall in F. exact F.
      + symmetry; apply forallb_forall. rewrite Forall_forall in F. intros e I. eapply same_type; [exact Sep|apply F; left; reflexivity|apply F; exact I].
    - injection E as <- <-. eapply bind_good; [exact P|]. intros d D. destruct (array_value _ _ _ D) as [l [-> F]]. cbn [array rbind].
      unfold ensure_or; destruct (in_range A l i) eqn:I; [|exact Logic.I].
      unfold in_range in I; apply andb_true_iff in I; destruct I as [I1 I2]; apply Z.leb_le in I1; apply Z.ltb_lt in I2.
      destruct (nth_error l (Z.to_nat i)) as [d|] eqn:N; [rewrite Forall_forall in F; apply F; eapply nth_error_In; exact N|].
      apply nth_error_None in N; lia.
    - injection E as <- <-. eapply bind_good; [exact P|]. intros d D. destruct (array_value _ _ _ D) as [l [-> F]]. cbn [array rbind].
      unfold ensure_or; destruct (in_range A l i && in_range A l j) eqn:I; [|exact Logic.I].
      apply andb_true_iff in I; destruct I as [Ii Ij]. unfold in_range in Ii, Ij; apply andb_true_iff in Ii, Ij.
      destruct Ii as [Ii _], Ij as [Ij _]; apply Z.leb_le in Ii, Ij. apply Z.leb_le in G0.
      unfold ensure. replace (i <=? j)%Z with true by (symmetry; apply Z.leb_le; lia). cbn [rbind TypeProofs.good TypeSpec.belongs].
      apply forallb_forall; intros d I; rewrite Forall_forall in F; apply F. rewrite <- (firstn_skipn (Z.to_nat i) l), in_app_iff; right.
      rewrite <- (firstn_skipn (Z.to_nat (j - i + 1)) (skipn (Z.to_nat i) l)), in_app_iff; left; exact I.
    - injection E as <- <-. eapply bind_good; [exact P|]. intros d D.
      destruct (struct_value _ _ _ _ C0 (con_structs Con _ _ C1) D) as [fs [-> F]].
      destruct (field_value _ _ _ _ F C2) as [d [-> X]]. exact X.
    - destruct a as [ts s1]; split_check E; injection E as <- <-. rename C0 into L.
      pose proof (all_good _ _ (sound_list _ IH _ _ _ _ O R C)) as P.
      destruct (all_ok (map (eval v b) es)) as [ds|q|]; [|exact Logic.I|exact P]. cbn [rbind].
      rewrite (con_structs Con _ _ L). unfold ensure_or. destruct (length es =? length a) eqn:N; [|exact Logic.I]. apply Nat.eqb_eq in N.
      rewrite <- (checks_length _ _ _ _ C) in N. destruct (new_fields _ _ _ P N G) as [X Y]. unfold ensure; rewrite X. cbn [rbind TypeProofs.good].
      rewrite belongs_rec, Nat.eqb_refl, (con_structs Con _ _ L). exact Y.
    - injection E as <- <-. cbn [binders] in R.
      match type of C with check _ _ _ = Some (TArray ?u ?n, _) => rename u into ta; rename n into na end. 
      assert (P : good (eval v b e1) (TArray ta na)).
      { eapply IH1; [exact O| |exact C]. intros y I; apply R; right; apply in_app_iff; auto. }
      eapply bind_good; [exact P|]. intros d D. destruct (array_value _ _ _ D) as [l [-> F]]. cbn [array rbind].
      pose proof (sound_body _ _ _ _ _ _ _ _ _ _ _ _ IH2 O R C F C0 C1 G) as Q.
      destruct (all_ok _); [reflexivity|exact Logic.I|exact Q].
    - injection E as <- <-. cbn [binders] in R. 
      match type of C with check _ _ _ = Some (TArray ?u ?n, _) => rename u into ta; rename n into na end. 
      assert (R' : room s (binders e1 ++ binders e2)) by (intros y I; apply R; right; rewrite app_assoc; apply in_app_iff; auto).
      destruct (sound_pair _ _ IH1 IH2 _ _ _ _ _ _ O R' C C0) as [P1 P2]. apply room_app in R'; destruct R' as [Ra Rb].
      eapply also_good; [exact P1|exact P2|]. intros d1 d2 D1 D2. destruct (array_value _ _ _ D1) as [l [-> F]]. cbn [fst snd array rbind].
      apply andb_true_iff in G; destruct G as [G B]; apply andb_true_iff in G; destruct G as [_ N].
      assert (X : count_of A d2 <> Wrong) by (destruct t1; try discriminate N; destruct d2; try discriminate D2; discriminate).
      destruct (count_of A d2) as [f|q|]; [|exact Logic.I|congruence]. cbn [rbind].
      destruct (after _ _ _ _ _ C O Ra) as [O1 E1]. destruct (after _ _ _ _ _ C0 O1 (room_ext _ _ _ Rb E1)) as [O2 E2].
      apply is_bool_eq in B; subst.
      assert (M : mem x (binders e3) = false) by (eapply scoped_binder; [exact (check_scoped _ _ _ _ _ C1)|exact C2]).
      pose proof (bool_members l (fun d => eval v ((x, d) :: b) e3)) as Q.
      assert (Q' : match all_ok (map (fun d => rbind (eval v ((x, d) :: b) e3) (bits A)) l) with Wrong => False | _ => True end).
      { apply Q. intros d I. rewrite Forall_forall in F.
        assert (R3 : room s1 (binders e3)).
        { eapply room_ext; [eapply room_ext; [|exact E1]|exact E2]. intros y J; apply R; right; rewrite !in_app_iff; auto. }
        destruct (inside x ta d _ _ _ O2 (proj1 (R x (or_introl eq_refl))) (F _ I) R3 M) as [O4 R4].
        eapply IH3; [exact O4|exact R4|exact C1]. }
      destruct (all_ok _); [reflexivity|exact Logic.I|exact Q'].
    - injection E as <- <-. rewrite !andb_true_iff in G. destruct G as [[G _] G2]. apply is_bool_eq in G; subst.
      eapply bind_good; [exact P|]. intros d D; destruct (bits_good _ D) as [f ->]; unfold ensure; rewrite G2; reflexivity.
    - injection E as <- <-. rewrite !andb_true_iff in G. destruct G as [[[G1 G2] _] G3]. apply is_bool_eq in G1, G2; subst.
      eapply also_good; [exact P1|exact P2|]. intros d1 d2 D1 D2; destruct (bits_good _ D1) as [f ->], (bits_good _ D2) as [g ->]; unfold ensure; rewrite G3; reflexivity.
    - injection E as <- <-. apply is_bool_eq in G; subst. eapply bind_good; [exact P|]. intros d D; destruct (bits_good _ D) as [f ->]; reflexivity.
    - injection E as <- <-. rewrite !andb_true_iff in G. destruct G as [G1 G2]. apply is_bool_eq in G1, G2; subst.
      eapply also_good; [exact P1|exact P2|]. intros d1 d2 D1 D2; destruct (bits_good _ D1) as [f ->], (bits_good _ D2) as [g ->]; reflexivity.
    - injection E as <- <-. rewrite !andb_true_iff in G. destruct G as [_ G]. eapply bind_good; [exact P|]. intros d D.
      destruct t0; try discriminate G; destruct d; try discriminate D; reflexivity || exact Logic.I.
    - injection E as <- <-. rewrite !andb_true_iff in G. destruct G as [[_ G] T].
      eapply also_good; [exact P1|exact P2|]. intros d1 d2 D1 D2. rewrite (belongs_eq _ _ _ _ _ _ T) in D2.
      pose proof (same_type _ _ _ Sep _ _ _ D1 D2) as SS. cbn [fst snd].
      destruct t0; try discriminate G; destruct d1; try discriminate D1; destruct d2; try discriminate SS; cbn [bit_op2]; try rewrite SS; reflexivity || exact Logic.I.
    - injection E as <- <-. rewrite !andb_true_iff in G. destruct G as [_ G]. eapply bind_good; [exact P|]. intros d D.
      destruct d; try exact Logic.I; destruct t0; try discriminate D; destruct k; reflexivity || discriminate G.
    - injection E as <- <-. rewrite !andb_true_iff in G. destruct G as [[_ T] W].
      eapply also_good; [exact P1|exact P2|]. intros d1 d2 D1 D2. rewrite (belongs_eq _ _ _ _ _ _ T) in D2.
      pose proof (same_type _ _ _ Sep _ _ _ D1 D2) as SS. cbn [fst snd]. unfold arith_op2.
      replace (match k with Div => ensure (negb (is_zero e2)) | _ => Ok tt end) with (@Ok unit tt).
      2:{ destruct k; try reflexivity. cbn in W; rewrite W; reflexivity. }
      cbn [rbind].
      destruct d1; destruct d2; try discriminate SS; try (rewrite SS; exact Logic.I); try exact Logic.I.
      + destruct t0; try discriminate D1.
        replace (match k with Pow => ensure (negb (is_negative e2)) | _ => Ok tt end) with (@Ok unit tt).
        2:{ destruct k; try reflexivity. cbn in W. destruct e2; cbn in W |- *; try discriminate W; try rewrite W; reflexivity. }
        cbn [rbind]. unfold ensure_or. match goal with |- context [if ?x then _ else _] => destruct x end; [reflexivity|exact Logic.I].
      + unfold ensure_or. match goal with |- context [if ?x then _ else _] => destruct x end; [exact D1|exact Logic.I].
    - injection E as <- <-. eapply also_good; [exact P1|exact P2|]. intros d1 d2 D1 D2. cbn [fst snd].
      pose proof (compare_sound _ _ _ Sep _ (con_enums Con) k _ _ _ _ _ C1 D1 D2) as X.
      destruct (related A enums k d1 d2); [reflexivity|exact Logic.I|congruence].
    - injection E as <- <-. eapply also_good; [exact P1|exact P2|]. intros d1 d2 D1 D2. cbn [fst snd].
      eapply prev_sound; [exact Sep|exact (con_enums Con)|exact C1|reflexivity| | |exact D1|exact D2].
      + intros k u HD. apply bind_some in HD; destruct HD as [x [Nm L]].
        destruct e1; try discriminate Nm; cbn in Nm; injection Nm as ->.
        * cbn [check] in C. split_check C. destruct (con_sig_def Con _ _ _ _ C2 L) as [-> [w [n ->]]]. left; repeat split; discriminate.
        * cbn [check] in C. split_check C. injection C as <- <-. right.
          destruct (con_defs Con _ _ _ L) as [r [L' [_ B]]].
          assert (X : a0 = u).
          { unfold variable_type in C2. destruct (lookup (bound s) x) eqn:B1; [destruct (so_apart _ _ O _ _ B1); congruence|].
            destruct (lookup (vars s) x) eqn:B2; [destruct (so_vars _ _ O _ _ B2); congruence|]. rewrite L in C2. injection C2 as <-; reflexivity. }
          subst u. refine (conj eq_refl (conj _ B)).
          cbn [is_named]. unfold bound_in. destruct (lookup (bound s) x) eqn:B1; [destruct (so_apart _ _ O _ _ B1); congruence|].
          rewrite (so_free _ _ O _ B1), L'; reflexivity.
        * rewrite check_new in C. split_check C. destruct a0 as [ts0 s3]. split_check C. rewrite (con_struct_def Con _ _ C3) in L; discriminate.
      + intros _ K. exact (constant_basic _ _ _ _ _ K C).
  Qed.
End Sound.
