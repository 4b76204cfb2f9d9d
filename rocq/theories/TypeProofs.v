(** * The type checker: proofs about expressions *)
From Coq Require Import List Arith ZArith Bool Lia.
Require Import Verif.TypeCheck Verif.TypeSpec.
Import ListNotations.

(** ** Induction over expressions *)
Section Induction.
  Variable P : tx -> Prop.
  Hypothesis HBool : forall b, P (XBool b).
  Hypothesis HInt : forall z, P (XInt z).
  Hypothesis HFloat : forall m e, P (XFloat m e).
  Hypothesis HTime : P XTime.
  Hypothesis HSig : forall s, P (XSig s).
  Hypothesis HVar : forall s, P (XVar s).
  Hypothesis HArr : forall es, Forall P es -> P (XArr es).
  Hypothesis HIdx : forall e i, P e -> P (XIdx e i).
  Hypothesis HSlice : forall e i j, P e -> P (XSlice e i j).
  Hypothesis HAcc : forall e m, P e -> P (XAcc e m).
  Hypothesis HNew : forall s es, Forall P es -> P (XNew s es).
  Hypothesis HQuant : forall k x a b, P a -> P b -> P (XQuant k x a b).
  Hypothesis HCount : forall k x a b c, P a -> P b -> P c -> P (XCount k x a b c).
  Hypothesis HT1 : forall k lb ub e, P e -> P (XT1 k lb ub e).
  Hypothesis HT2 : forall k lb ub a b, P a -> P b -> P (XT2 k lb ub a b).
  Hypothesis HNot : forall e, P e -> P (XNot e).
  Hypothesis HLog : forall k a b, P a -> P b -> P (XLog k a b).
  Hypothesis HBit1 : forall e, P e -> P (XBit1 e).
  Hypothesis HBit2 : forall k a b, P a -> P b -> P (XBit2 k a b).
  Hypothesis HAr1 : forall k e, P e -> P (XAr1 k e).
  Hypothesis HAr2 : forall k a b, P a -> P b -> P (XAr2 k a b).
  Hypothesis HRel : forall k a b, P a -> P b -> P (XRel k a b).
  Hypothesis HPrev : forall a b, P a -> P b -> P (XPrev a b).
  Fixpoint tx_induction (e : tx) : P e :=
    let list := fix list es : Forall P es :=
      match es with [] => Forall_nil P | e :: es => Forall_cons e (tx_induction e) (list es) end in
    match e with
    | XBool b => HBool b | XInt z => HInt z | XFloat m e => HFloat m e | XTime => HTime
    | XSig s => HSig s | XVar s => HVar s
    | XArr es => HArr es (list es)
    | XIdx e i => HIdx e i (tx_induction e)
    | XSlice e i j => HSlice e i j (tx_induction e)
    | XAcc e m => HAcc e m (tx_induction e)
    | XNew s es => HNew s es (list es)
    | XQuant k x a b => HQuant k x a b (tx_induction a) (tx_induction b)
    | XCount k x a b c => HCount k x a b c (tx_induction a) (tx_induction b) (tx_induction c)
    | XT1 k lb ub e => HT1 k lb ub e (tx_induction e)
    | XT2 k lb ub a b => HT2 k lb ub a b (tx_induction a) (tx_induction b)
    | XNot e => HNot e (tx_induction e)
    | XLog k a b => HLog k a b (tx_induction a) (tx_induction b)
    | XBit1 e => HBit1 e (tx_induction e)
    | XBit2 k a b => HBit2 k a b (tx_induction a) (tx_induction b)
    | XAr1 k e => HAr1 k e (tx_induction e)
    | XAr2 k a b => HAr2 k a b (tx_induction a) (tx_induction b)
    | XRel k a b => HRel k a b (tx_induction a) (tx_induction b)
    | XPrev a b => HPrev a b (tx_induction a) (tx_induction b)
    end.
End Induction.

(** ** Small facts *)
Lemma bind_some : forall {A B} (o : option A) (f : A -> option B) b, bind o f = Some b -> exists a, o = Some a /\ f a = Some b.
Proof. intros A B [a|] f b E; [exists a; auto|discriminate]. Qed.
Lemma guard_some : forall b u, guard b = Some u -> b = true.
Proof. intros [|] u E; [reflexivity|discriminate]. Qed.
Lemma guarded : forall {A} b (r : option A) x, bind (guard b) (fun _ => r) = Some x -> b = true /\ r = Some x.
Proof. intros A [|] r x E; [split; [reflexivity|exact E]|discriminate]. Qed.
Lemma ty_eq_refl : forall a, ty_eq a a = true.
Proof. induction a; cbn; try reflexivity; try apply Nat.eqb_refl. rewrite IHa; destruct size; [apply Nat.eqb_refl|reflexivity]. Qed.
Lemma ty_eq_sym : forall a b, ty_eq a b = ty_eq b a.
Proof.
  induction a; destruct b; cbn; try reflexivity; try apply Nat.eqb_sym.
  rewrite IHa; destruct size, size0; try reflexivity; rewrite (Nat.eqb_sym n n0); reflexivity.
Qed.
Lemma mem_in : forall x l, mem x l = true <-> In x l.
Proof.
  intros x l; unfold mem; rewrite existsb_exists; split.
  - intros [y [I E]]; apply Nat.eqb_eq in E; subst; exact I.
  - intros I; exists x; split; [exact I|apply Nat.eqb_refl].
Qed.
Lemma mem_false : forall x l, mem x l = false <-> ~ In x l.
Proof. intros x l; rewrite <- mem_in; destruct (mem x l); split; intros H; try discriminate; try reflexivity; elim H; reflexivity. Qed.
Lemma lookup_in : forall {A} l x (a : A), lookup l x = Some a -> In (x, a) l.
Proof.
  induction l as [|[y b] l IH]; intros x a E; [discriminate|cbn in E].
  destruct (x =? y) eqn:D; [apply Nat.eqb_eq in D; injection E as <-; subst; left; reflexivity|right; exact (IH _ _ E)].
Qed.
Lemma in_lookup : forall {A} l x (a : A), NoDup (map fst l) -> In (x, a) l -> lookup l x = Some a.
Proof.
  induction l as [|[y b] l IH]; intros x a N I; [destruct I|]; cbn.
  inversion N as [|? ? Nin N']; subst.
  destruct I as [E|I].
  - injection E as -> ->; rewrite Nat.eqb_refl; reflexivity.
  - destruct (x =? y) eqn:D; [|exact (IH _ _ N' I)].
    apply Nat.eqb_eq in D; subst; elim Nin; change y with (fst (y, a)); apply in_map; exact I.
Qed.
Lemma lookup_none : forall {A} (l : list (nat * A)) x, lookup l x = None <-> ~ In x (map fst l).
Proof.
  induction l as [|[y b] l IH]; intros x; cbn; [tauto|].
  destruct (x =? y) eqn:D.
  - apply Nat.eqb_eq in D; subst; split; [discriminate|intros H; elim H; left; reflexivity].
  - apply Nat.eqb_neq in D; rewrite IH; split; intros H; [intros [E|I]; [congruence|tauto]|tauto].
Qed.
Lemma bound_in_in : forall {A} (l : list (nat * A)) x, bound_in l x = true <-> In x (map fst l).
Proof.
  intros A l x; unfold bound_in; destruct (lookup l x) eqn:E.
  - split; [intros _|reflexivity]. apply lookup_in in E; change x with (fst (x, a)); apply in_map; exact E.
  - split; [discriminate|intros I; apply lookup_none in E; tauto].
Qed.
Lemma bound_in_some : forall {A} (l : list (nat * A)) x a, lookup l x = Some a -> bound_in l x = true.
Proof. intros A l x a E; unfold bound_in; rewrite E; reflexivity. Qed.
Lemma bound_in_lookup : forall {A} (l : list (nat * A)) x, bound_in l x = true -> exists a, lookup l x = Some a.
Proof. intros A l x E; unfold bound_in in E; destruct (lookup l x) as [a|]; [exists a; reflexivity|discriminate]. Qed.

Section Sound.
  Variable A : arithmetic.
  Variable structs : list (nat * list (nat * ty)).
  Variable enums : list (nat * list nat).
  Notation den := (den A).
  Notation belongs := (belongs A structs enums).
  Notation members := (members enums).

  (** Names of structs, enums and members of enums differ. *)
  Definition separate : Prop :=
    (forall s, bound_in structs s = true -> bound_in enums s = false) /\
    (forall m, mem m members = true -> bound_in structs m = false /\ bound_in enums m = false).
  Hypothesis Sep : separate.

  Fixpoint fields (l : list (nat * den)) (ms : list (nat * ty)) : bool :=
    match l, ms with
    | [], [] => true
    | (n, d) :: l, (m, t) :: ms => (n =? m) && belongs d t && fields l ms
    | _, _ => false
    end.
  Lemma belongs_rec : forall r l s,
    belongs (DRec r l) (TStruct s) = (r =? s) && match lookup structs r with Some ms => fields l ms | None => false end.
  Proof using Type.
    intros; reflexivity.
  Qed.
  Lemma belongs_eq : forall t u d, ty_eq t u = true -> belongs d t = belongs d u.
  Proof using Type.
    assert (X : forall s s0 d, s =? s0 = true -> belongs d (TStruct s) = belongs d (TStruct s0) /\ belongs d (TEnum s) = belongs d (TEnum s0))
      by (intros s s0 d E; apply Nat.eqb_eq in E; subst; split; reflexivity).
    induction t; intros [| | | |u m|s0|s0] d E; cbn in E; try discriminate; try reflexivity.
    - apply andb_true_iff in E; destruct E as [E _].
      destruct d as [f|f|f|r f|k|l|r l|r]; try reflexivity; cbn [TypeSpec.belongs].
      induction l as [|d l IHl]; cbn; [reflexivity|rewrite (IHt _ d E), IHl; reflexivity].
    - apply X; exact E.
    - apply X; exact E.
  Qed.

  (** Values of one type are of one sort. *)
  Lemma same_type : forall d e t, belongs d t = true -> belongs e t = true -> same_sort A d e = true.
  Proof using Sep.
    destruct Sep as [S1 S2].
    intros d e t D E.
    destruct t as [| | | |t n|s|s]; destruct d as [f|f|f|r f|k|l|r l|r]; try discriminate D;
      destruct e as [f'|f'|f'|r' f'|k'|l'|r' l'|r']; try discriminate E; try reflexivity; cbn in D, E |- *;
      repeat match goal with H : _ && _ = true |- _ => apply andb_true_iff in H; destruct H end;
      repeat match goal with H : (_ =? _) = true |- _ => apply Nat.eqb_eq in H; subst end;
      try apply Nat.eqb_refl; exfalso;
      repeat match goal with
      | H : negb _ = true |- _ => apply negb_true_iff in H
      | H : mem ?m members = true |- _ => destruct (S2 m H); clear H
      | H : match lookup structs ?s with _ => _ end = true |- _ =>
          let E := fresh in destruct (lookup structs s) eqn:E; [|discriminate H]; clear H; apply bound_in_some in E
      end; try congruence;
      match goal with H : bound_in structs ?s = true |- _ => specialize (S1 _ H); congruence end.
  Qed.

  (** ** Operations *)
  Definition good (r : res den) (t : ty) : Prop :=
    match r with Ok d => belongs d t = true | Gap _ => True | Wrong => False end.

  Lemma related_same : forall k t d e, belongs d t = true -> belongs e t = true -> related A enums k d e <> Wrong.
  Proof using Sep.
    intros k; induction t; intros d e D E; pose proof (same_type _ _ _ D E) as SS;
      destruct d as [f|f|f|r f|m|l|r l|r]; try discriminate D;
      destruct e as [f'|f'|f'|r' f'|m'|l'|r' l'|r']; try discriminate E; try discriminate SS; cbn [related]; try discriminate.
    - unfold ensure_or; destruct (is_equality k); discriminate.
    - clear SS; cbn in D, E. revert l' D E; induction l as [|d l IHl]; intros [|e l'] D E; try discriminate.
      cbn in D, E; apply andb_true_iff in D, E; destruct D as [D D'], E as [E E'].
      specialize (IHt _ _ D E); specialize (IHl _ D' E').
      destruct (related A enums k d e); [|discriminate|congruence]; cbn.
      match goal with |- rbind ?x _ <> _ => destruct x; [discriminate|discriminate|congruence] end.
    - cbn in SS; rewrite SS; discriminate.
    - rewrite SS; discriminate.
    - rewrite SS; discriminate.
    - cbn in SS; rewrite SS; discriminate.
    - rewrite SS; discriminate.
  Qed.

  Variable c : ctx.
  Definition known_enums : Prop := forall s l, lookup (c_enums c) s = Some l -> lookup enums s = Some l.
  Hypothesis KE : known_enums.

  Lemma enum_value : forall b l e, enum_of c b = Some l -> belongs e b = true ->
    exists s f, e = DEnum s f /\ lookup enums s = Some l /\ symbol_of b = Some s.
  Proof using Sep KE.
    destruct Sep as [S1 S2]. intros b l e E B; unfold enum_of in E; apply bind_some in E; destruct E as [s [Hs E]]; apply KE in E.
    pose proof (bound_in_some _ _ _ E) as N.
    assert (X : b = TStruct s \/ b = TEnum s) by (destruct b; try discriminate Hs; injection Hs as ->; auto).
    destruct X as [-> | ->]; destruct e as [f|f|f|r f|m|k|r k|r]; try discriminate B; try (rewrite belongs_rec in B);
      cbn in B; try discriminate B; apply andb_true_iff in B; destruct B as [B B1]; try (apply Nat.eqb_eq in B; subst r).
    - exists s, f; auto.
    - destruct (lookup structs s) eqn:L; [|discriminate]. apply bound_in_some in L; rewrite (S1 _ L) in N; discriminate.
    - apply andb_true_iff in B; destruct B as [B _]; apply Nat.eqb_eq in B; subst r. rewrite N in B1; discriminate.
    - exists s, f; auto.
    - apply Nat.eqb_eq in B; subst m; destruct (S2 _ B1); congruence.
  Qed.
  Lemma loose_value : forall a m d, loose_member c a = Some m -> belongs d a = true ->
    a = TEnum m /\ lookup (c_enums c) m = None /\ (d = DMember m \/ exists f, d = DEnum m f /\ bound_in enums m = true).
  Proof using Type.
    intros a m d L B. destruct a; try discriminate L. cbn in L. destruct (lookup (c_enums c) s) eqn:E; [discriminate|]. injection L as ->.
    split; [reflexivity|split; [exact E|]].
    destruct d as [f|f|f|r f|k|k|r k|r]; try discriminate B; cbn in B; apply andb_true_iff in B; destruct B as [B B1]; apply Nat.eqb_eq in B; subst; eauto.
  Qed.
  Lemma in_members : forall s l m, lookup enums s = Some l -> mem m l = true -> mem m members = true.
  Proof using Type.
    intros s l m L M; apply mem_in; apply mem_in in M; unfold TypeSpec.members; apply in_flat_map; exists (s, l); split; [apply lookup_in; exact L|exact M].
  Qed.
  (** A member beside its enum. *)
  Lemma member_of_enum : forall a b m l d e, loose_member c a = Some m -> enum_of c b = Some l -> mem m l = true ->
    belongs d a = true -> belongs e b = true ->
    exists s f, d = DMember m /\ e = DEnum s f /\ member_number A enums s m = Ok (code A s m) /\ symbol_of b = Some s.
  Proof using Sep KE.
    intros a b m l d e LA EB M D E.
    destruct (enum_value _ _ _ EB E) as [s [f [-> [L Y]]]]. destruct (loose_value _ _ _ LA D) as [-> [_ [-> | [g [-> N]]]]].
    - exists s, f; unfold member_number; rewrite L, M; auto.
    - pose proof (in_members _ _ _ L M) as M'; apply Sep in M'; destruct M'; congruence.
  Qed.
  Lemma compare_sound : forall k a b d e u, compare c a b = Some u -> belongs d a = true -> belongs e b = true ->
    related A enums k d e <> Wrong.
  Proof using Sep KE.
    intros k a b d e u E D B; unfold compare in E.
    assert (X : forall v, guard (ty_eq a b) = Some v -> related A enums k d e <> Wrong).
    { intros v T; apply guard_some in T; apply related_same with (t := b); [rewrite <- (belongs_eq _ _ d T)|]; assumption. }
    destruct (loose_member c a) as [m|] eqn:LA; [destruct (enum_of c b) as [l|] eqn:EB|].
    - apply guard_some in E. destruct (member_of_enum _ _ _ _ _ _ LA EB E D B) as [s [f [-> [-> [N _]]]]].
      cbn; rewrite N; discriminate.
    - destruct (loose_member c b) as [m'|] eqn:LB; [destruct (enum_of c a) as [l|] eqn:EA; [|discriminate]|exact (X _ E)].
      apply guard_some in E. destruct (member_of_enum _ _ _ _ _ _ LB EA E B D) as [s [f [-> [-> [N _]]]]].
      cbn; rewrite N; discriminate.
    - destruct (loose_member c b) as [m'|] eqn:LB; [destruct (enum_of c a) as [l|] eqn:EA|]; try exact (X _ E).
      apply guard_some in E. destruct (member_of_enum _ _ _ _ _ _ LB EA E B D) as [s [f [-> [-> [N _]]]]].
      cbn; rewrite N; discriminate.
  Qed.

  (** Values of the simplest types. *)
  Definition basic (t : ty) : bool := match t with TBool | TInt | TFloat => true | _ => false end.
  Lemma previous_basic : forall named t d e, basic t = true -> belongs d t = true -> belongs e t = true -> good (previous A enums named d e) t.
  Proof using Type.
    intros named t d e N D E; destruct t; try discriminate N; destruct d; try discriminate D; destruct e; try discriminate E; reflexivity.
  Qed.
  Lemma constant_basic : forall e s t s', is_constant e = true -> check c e s = Some (t, s') -> basic t = true.
  Proof using Type.
    intros e s t s' K E; destruct e; try discriminate K; cbn in E.
    - injection E as <- <-; reflexivity.
    - apply bind_some in E; destruct E as [? [_ E]]; injection E as <- <-; reflexivity.
    - injection E as <- <-; reflexivity.
  Qed.
  (** [def]: the definition the initial value names, with the type it has. *)
  Lemma prev_sound : forall e1 e2 a b t def named d e,
    prev_type c e1 e2 a b = Some t ->
    (x <- name_of e1 ;; lookup (c_defs c) x) = def ->
    (forall k u, def = Some (k, u) -> (k = false /\ basic u = false /\ (forall s, u <> TEnum s)) \/ (u = a /\ named = true /\ (k = true -> basic u = true))) ->
    (def = None -> is_constant e1 = true -> basic a = true) ->
    belongs d a = true -> belongs e b = true -> good (previous A enums named d e) t.
  Proof using Sep KE.
    intros e1 e2 a b t def named d e P HD H1 H2 D E; unfold prev_type in P; rewrite HD in P.
    apply bind_some in P; destruct P as [a' [P Q]].
    assert (R : (exists m s f, d = DMember m /\ e = DEnum s f /\ member_number A enums s m = Ok (code A s m) /\ a = TEnum m /\ (a' = b /\ (b = TEnum s \/ b = TStruct s)))
                \/ (a' = a /\ ty_eq a b = true /\ forall s, a <> TEnum s)).
    { assert (Y : forall v, enum_of c a = None ->
                 match loose_member c a with Some _ => match loose_member c b with Some _ => None | None => (_ <- guard (ty_eq a b) ;; Some a) end | None => (_ <- guard (ty_eq a b) ;; Some a) end = Some v ->
                 v = a /\ ty_eq a b = true /\ forall s, a <> TEnum s).
      { intros v EA X. assert (X1 : (_ <- guard (ty_eq a b) ;; Some a) = Some v) by (destruct (loose_member c a), (loose_member c b); try discriminate X; exact X).
        apply guarded in X1; destruct X1 as [T X1]; injection X1 as <-. split; [reflexivity|split; [exact T|]].
        intros s ->. destruct b; try discriminate T. cbn in T; apply Nat.eqb_eq in T; subst. unfold enum_of in EA; cbn in EA, X. rewrite EA in X; discriminate. }
      destruct (loose_member c a) as [m|] eqn:LA; [destruct (enum_of c b) as [l|] eqn:EB|].
      - apply guarded in P; destruct P as [M P]; injection P as <-. left.
        destruct (member_of_enum _ _ _ _ _ _ LA EB M D E) as [s [f [-> [-> [N Y']]]]]. exists m, s, f.
        destruct (loose_value _ _ _ LA D) as [-> _]. repeat split; auto. destruct b; try discriminate Y'; injection Y' as ->; auto.
      - right. destruct (enum_of c a) eqn:EA; [discriminate|]. apply Y; [exact eq_refl|exact P].
      - right. destruct (enum_of c a) eqn:EA; [discriminate|]. apply Y; [exact eq_refl|exact P]. }
    assert (F : forall k u, def = Some (k, u) -> k || match u with TEnum _ => true | _ => false end = true -> t = u -> good (previous A enums named d e) t).
    { intros k u Hd K ->. destruct (H1 _ _ Hd) as [[-> [_ N]] | [-> [-> B]]]; [destruct u; try discriminate K; elim (N _ eq_refl)|].
      destruct R as [[m [s [f [-> [-> [N _]]]]]] | [-> [T Na]]]; [exact Logic.I|].
      destruct k; [|destruct a; try discriminate K; elim (Na _ eq_refl)].
      apply previous_basic; [auto|exact D|rewrite (belongs_eq _ _ _ T); exact E]. }
    destruct def as [[k u]|].
    - apply guarded in Q; destruct Q as [K Q]; apply guarded in Q; destruct Q as [_ Q]; injection Q as <-. eapply F; eauto.
    - apply guarded in Q; destruct Q as [K Q]; apply guarded in Q; destruct Q as [_ Q]; injection Q as <-.
      destruct R as [[m [s [f [-> [-> [N [-> [-> B]]]]]]]] | [-> [T Na]]].
      + destruct B as [-> | ->].
        * unfold previous; rewrite N; unfold ensure_or; destruct (negb named); exact E || exact Logic.I.
        * destruct (is_constant e1) eqn:C; [specialize (H2 eq_refl eq_refl); discriminate|discriminate K].
      + destruct (is_constant e1) eqn:C; [|destruct a; try discriminate K; elim (Na _ eq_refl)].
        apply previous_basic; [auto|exact D|rewrite (belongs_eq _ _ _ T); exact E].
  Qed.
End Sound.
