(** * Reading the results of equality saturation back keeps the record complete *)
From Coq Require Import List Arith ZArith Bool Ascii Lia.
Require Import Verif.Graph Verif.GraphSpec Verif.GraphProofs Verif.CseProofs Verif.Parents Verif.ParentsSpec Verif.ParentsProofs.
Import ListNotations.
Local Open Scope nat_scope.

(** ** Constructing the result *)
Definition operands (b : tree -> nat -> graph -> nat * nat * graph) :=
  fix operands (ts : list tree) (next : nat) (g : graph) : list nat * nat * graph :=
    match ts with
    | [] => ([], next, g)
    | t :: ts =>
        let '(r, next, g) := b t next g in
        let '(rs, next, g) := operands ts next g in (r :: rs, next, g)
    end.
Lemma build_eq k s args next g : build (Tree k s args) next g =
  let '(rs, next, g) := operands build args next g in (next, S next, construct next k s rs g).
Proof. reflexivity. Qed.

(** A new tree occupies the references from [a] to [b]. *)
Record grown (a b : nat) (g g' : graph) : Prop := {
  gr_order : a <= b;
  gr_heap : forall n, ~ (a <= n < b) -> fst g' n = fst g n;
  gr_parents : forall n, ~ (a <= n < b) -> snd g' n = snd g n;
  gr_down : forall p c, a <= p < b -> In c (nchildren (fst g' p)) -> a <= c < p /\ snd g' c = [p] }.
Definition rooted (a b : nat) (rs : list nat) (g : graph) : Prop :=
  (forall c, a <= c < b -> ~ In c rs -> exists p, a <= p < b /\ c < p /\ In c (nchildren (fst g p)) /\ snd g c = [p]) /\
  (forall c, In c rs -> a <= c < b /\ snd g c = []).
Definition named (atomic : list ascii -> option nat) (a b : nat) (xs : list nat) (g : graph) : Prop :=
  forall n x, a <= n < b -> nkind (fst g n) = KLeaf -> atomic (nsym (fst g n)) = Some x -> In x xs.

Lemma construct_grown a b g g' k s rs : grown a b g g' -> rooted a b rs g' -> (forall n, b <= n -> snd g' n = []) ->
  grown a (S b) g (construct b k s rs g') /\ rooted a (S b) [b] (construct b k s rs g').
Proof.
  intros [G1 G2 G3 G4] [R1 R2] Fr.
  assert (Hm : forall n, mem n rs = true -> a <= n < b) by (intros n Hn; apply R2, mem_in; exact Hn).
  assert (Hh : forall n, fst (construct b k s rs g') n = if n =? b then Node k s rs else fst g' n) by reflexivity.
  assert (Hp : forall n, snd (construct b k s rs g') n = if mem n rs then b :: snd g' n else snd g' n) by reflexivity.
  split; split.
  - lia.
  - intros n Hn. rewrite Hh. destruct (Nat.eqb_spec n b); [lia|apply G2; lia].
  - intros n Hn. rewrite Hp. destruct (mem n rs) eqn:E; [apply Hm in E; lia|apply G3; lia].
  - intros p c Hp' Hc. rewrite Hh in Hc. rewrite Hp. destruct (Nat.eqb_spec p b) as [->|N].
    + cbn in Hc. destruct (R2 c Hc) as [Rc Ec]. split; [lia|]. rewrite (proj2 (mem_in c rs) Hc), Ec. reflexivity.
    + destruct (G4 p c ltac:(lia) Hc) as [Gc Ec]. split; [lia|]. destruct (mem c rs) eqn:E; [|exact Ec].
      apply mem_in in E. destruct (R2 c E). congruence.
  - intros c Hc Nc. rewrite Hp. destruct (mem c rs) eqn:E.
    + apply mem_in in E. exists b. rewrite Hh, Nat.eqb_refl. destruct (R2 c E) as [Rc Ec]. rewrite Ec. cbn. repeat split; auto; lia.
    + destruct (R1 c) as (p & Hp1 & Hp2 & Hp3 & Hp4).
      { cbn in Nc. lia. }
      { rewrite <- mem_in. congruence. }
      exists p. rewrite Hh. destruct (Nat.eqb_spec p b); [lia|]. repeat split; auto; lia.
  - intros c [<-|[]]. split; [lia|]. rewrite Hp. destruct (mem b rs) eqn:E; [apply Hm in E; lia|]. apply Fr. lia.
Qed.

Lemma grown_trans a b c g g' g'' rs rs' : grown a b g g' -> rooted a b rs g' -> grown b c g' g'' -> rooted b c rs' g'' ->
  grown a c g g'' /\ rooted a c (rs ++ rs') g''.
Proof.
  intros [A1 A2 A3 A4] [R1 R2] [B1 B2 B3 B4] [S1 S2]. split; split.
  - lia.
  - intros n Hn. rewrite B2 by lia. apply A2. lia.
  - intros n Hn. rewrite B3 by lia. apply A3. lia.
  - intros p x Hp Hx. destruct (le_lt_dec b p) as [L|L].
    + destruct (B4 p x ltac:(lia) Hx). split; [lia|assumption].
    + rewrite B2 in Hx by lia. destruct (A4 p x ltac:(lia) Hx) as [H1 H2]. split; [lia|]. rewrite B3 by lia. exact H2.
  - intros x Hx Nx. rewrite in_app_iff in Nx. destruct (le_lt_dec b x) as [L|L].
    + destruct (S1 x ltac:(lia) ltac:(tauto)) as (p & H1 & H2 & H3 & H4). exists p. repeat split; auto; lia.
    + destruct (R1 x ltac:(lia) ltac:(tauto)) as (p & H1 & H2 & H3 & H4). exists p. rewrite B2, B3 by lia. repeat split; auto; lia.
  - intros x Hx. apply in_app_iff in Hx as [Hx|Hx].
    + destruct (R2 x Hx) as [H1 H2]. split; [lia|]. rewrite B3 by lia. exact H2.
    + destruct (S2 x Hx) as [H1 H2]. split; [lia|exact H2].
Qed.

Lemma build_grown atomic t : forall next g, (forall n, next <= n -> snd g n = []) ->
  forall r next' g', build t next g = (r, next', g') ->
  next' = S r /\ next <= r /\ grown next next' g g' /\ rooted next next' [r] g' /\ named atomic next next' (atomics_of atomic t) g' /\
  nkind (fst g' r) = match t with Tree k _ _ => k end.
Proof.
  induction t as [k s args IH] using tree_ind'. intros next g Fr r next' g' E. rewrite build_eq in E.
  assert (L : forall next g, (forall n, next <= n -> snd g n = []) -> forall rs next' g', operands build args next g = (rs, next', g') ->
    grown next next' g g' /\ rooted next next' rs g' /\ named atomic next next' (flat_map (atomics_of atomic) args) g').
  { clear r next' g' E next g Fr. induction args as [|t args IHa]; intros next g Fr rs next' g' E.
    - injection E as <- <- <-. split; [split; auto; intros; lia|]. split; [split; [intros; lia|intros c []]|]. intros n x Hn. lia.
    - inversion IH as [|? ? IH1 IH2]; subst. cbn [operands] in E.
      destruct (build t next g) as [[r n1] g1] eqn:E1. fold (operands build) in E.
      destruct (operands build args n1 g1) as [[rs0 n2] g2] eqn:E2. injection E as <- <- <-.
      destruct (IH1 next g Fr _ _ _ E1) as (En & Hr & G1 & R1 & N1 & _).
      assert (Fr1 : forall n, n1 <= n -> snd g1 n = []).
      { intros n Hn. rewrite (gr_parents _ _ _ _ G1) by lia. apply Fr. lia. }
      destruct (IHa IH2 n1 g1 Fr1 _ _ _ E2) as (G2 & R2 & N2).
      destruct (grown_trans _ _ _ _ _ _ _ _ G1 R1 G2 R2) as [G R]. split; [exact G|]. split; [exact R|].
      intros n x Hn Hk Ha. cbn [flat_map]. apply in_app_iff. destruct (le_lt_dec n1 n) as [Ln|Ln].
      + right. eapply N2; [|exact Hk|exact Ha]. lia.
      + left. rewrite (gr_heap _ _ _ _ G2) in Hk, Ha by lia. eapply N1; [|exact Hk|exact Ha]. lia. }
  destruct (operands build args next g) as [[rs n1] g1] eqn:E1. injection E as <- <- <-.
  destruct (L next g Fr _ _ _ E1) as (G1 & R1 & N1). pose proof (gr_order _ _ _ _ G1) as Ho.
  assert (Fr1 : forall n, n1 <= n -> snd g1 n = []).
  { intros n Hn. rewrite (gr_parents _ _ _ _ G1) by lia. apply Fr. lia. }
  destruct (construct_grown next n1 g g1 k s rs G1 R1 Fr1) as [G R].
  split; [reflexivity|]. split; [exact Ho|]. split; [exact G|]. split; [exact R|].
  assert (Hh : forall n, fst (construct n1 k s rs g1) n = if n =? n1 then Node k s rs else fst g1 n) by reflexivity.
  split; [|rewrite Hh, Nat.eqb_refl; reflexivity].
  intros n x Hn Hk Ha. rewrite Hh in Hk, Ha. cbn [atomics_of]. destruct (Nat.eqb_spec n n1) as [->|N].
  - cbn in Hk, Ha. subst k. rewrite Ha. left. reflexivity.
  - apply in_app_iff. right. exact (N1 n x ltac:(lia) Hk Ha).
Qed.

(** ** The traversal *)
Lemma covers fuel : forall stack vis (h : heap) out h' out',
  traverse (fun e h out => (h, out ++ [e])) fuel stack vis h out = Some (h', out') ->
  forall (R : nat -> Prop),
  (forall n, R n -> In n vis \/ In (false, n) stack) ->
  (forall n, In n vis -> In n out \/ In (true, n) stack) ->
  exists vis', (forall n, R n -> In n vis') /\ (forall n, In n vis' -> In n out') /\ (forall n, In n vis -> In n vis') /\
    ((forall n c, In n vis -> In c (nchildren (h n)) -> In c vis \/ In (false, c) stack) -> forall n c, In n vis' -> In c (nchildren (h n)) -> In c vis').
Proof.
  induction fuel as [|fuel IH]; intros stack vis h out h' out' E R HR HV; [discriminate E|].
  destruct stack as [|[[|] e] s]; cbn [traverse] in E.
  - injection E as <- <-. exists vis. split; [intros n Hn; destruct (HR n Hn) as [|[]]; assumption|].
    split; [intros n Hn; destruct (HV n Hn) as [|[]]; assumption|]. split; [auto|].
    intros HC n c Hn Hc. destruct (HC n c Hn Hc) as [|[]]; assumption.
  - destruct (IH _ _ _ _ _ _ E R) as (v & A1 & A2 & A3 & A4).
    + intros n Hn. destruct (HR n Hn) as [|[X|]]; [auto|discriminate X|auto].
    + intros n Hn. destruct (HV n Hn) as [|[X|]]; [left; apply in_app_iff; auto| |auto].
      injection X as <-. left. apply in_app_iff. right. left. reflexivity.
    + exists v. repeat (split; [assumption|]). intros HC. apply A4. intros n c Hn Hc.
      destruct (HC n c Hn Hc) as [|[X|]]; [auto|discriminate X|auto].
  - destruct (existsb (Nat.eqb e) vis) eqn:Ev.
    + apply existsb_in in Ev. destruct (IH _ _ _ _ _ _ E R) as (v & A1 & A2 & A3 & A4).
      * intros n Hn. destruct (HR n Hn) as [|[X|]]; [auto| |auto]. injection X as <-. auto.
      * intros n Hn. destruct (HV n Hn) as [|[X|]]; [auto|discriminate X|auto].
      * exists v. repeat (split; [assumption|]). intros HC. apply A4. intros n c Hn Hc.
        destruct (HC n c Hn Hc) as [|[X|]]; [auto| |auto]. injection X as <-. auto.
    + destruct (IH _ _ _ _ _ _ E R) as (v & A1 & A2 & A3 & A4).
      * intros n Hn. destruct (HR n Hn) as [|[X|]]; [left; right; assumption| |right; apply in_app_iff; right; right; assumption].
        injection X as <-. left. left. reflexivity.
      * intros n [<-|Hn]; [right; apply in_app_iff; right; left; reflexivity|].
        destruct (HV n Hn) as [|[X|]]; [auto|discriminate X|right; apply in_app_iff; right; right; assumption].
      * exists v. split; [assumption|]. split; [assumption|]. split; [intros n Hn; apply A3; right; exact Hn|].
        intros HC. apply A4. intros n c [<-|Hn] Hc; [right; apply in_app_iff; left; apply in_map; exact Hc|].
        destruct (HC n c Hn Hc) as [|[X|]]; [left; right; assumption| |right; apply in_app_iff; right; right; assumption].
        injection X as <-. left. left. reflexivity.
Qed.
Lemma postorder_covers fuel h starts out n : postorder fuel h starts = Some out -> reachable h starts n -> In n out.
Proof.
  unfold postorder. intros E Hn. destruct (traverse _ fuel _ [] h []) as [[h' o]|] eqn:Et; [|discriminate E]. injection E as <-.
  destruct (covers _ _ _ _ _ _ _ Et (fun n => In n starts)) as (v & A1 & A2 & _ & A4).
  - intros m Hm. right. apply in_map. rewrite <- in_rev. exact Hm.
  - intros m [].
  - apply A2. specialize (A4 ltac:(intros ? ? [])). induction Hn as [m Hm|m c Hm IH Hc]; [apply A1; exact Hm|exact (A4 _ _ IH Hc)].
Qed.
Lemma rooted_reachable a b r g : rooted a b [r] g -> forall n, a <= n < b -> reachable (fst g) [r] n.
Proof.
  intros [R1 R2] n Hn. remember (b - n) as k eqn:Ek. revert n Hn Ek. induction k as [k IH] using lt_wf_ind; intros n Hn Ek.
  destruct (Nat.eq_dec n r) as [->|N]; [apply reach_start; left; reflexivity|].
  destruct (R1 n Hn) as (p & H1 & H2 & H3 & _); [intros [X|[]]; congruence|].
  apply reach_child with p; [|exact H3]. apply (IH (b - p)); lia.
Qed.

(** ** What the program keeps *)
(** [L] is closed but for the slot of [f], and its objects are recorded. *)
Record kept (L : nat -> Prop) (roots : list nat) (f old : nat) (g : graph) : Prop := {
  kp_users : forall p c, L p -> p <> f -> In c (nchildren (fst g p)) -> L c /\ In p (snd g c);
  kp_roots : forall n, In n roots -> L n;
  kp_slot : nchildren (fst g f) = [old];
  kp_old : In f (snd g old) }.

Lemma kept_finish L roots f old root g : kept L roots f old g -> ~ In old roots -> L root -> root <> old -> f <> old ->
  complete roots (replace old root g).
Proof.
  intros [U R Sl O] Hr Lr Nr Nf. assert (Ne : old <> root) by congruence.
  assert (K : forall p, reachable (fst (replace old root g)) roots p -> L p /\ p <> old).
  { intros p Hp. induction Hp as [n Hn|n c Hn IH Hc].
    - split; [apply R; exact Hn|intros ->; exact (Hr Hn)].
    - destruct IH as [IH1 IH2]. destruct (Nat.eq_dec n f) as [->|N].
      + rewrite (replace_slots _ _ g Ne) in Hc by (intros; exact O). rewrite Sl in Hc. cbn in Hc. rewrite swap_same in Hc.
        destruct Hc as [<-|[]]. auto.
      + rewrite (replace_slots _ _ g Ne) in Hc by (intros X; apply (U n old IH1 N X)).
        apply in_map_iff in Hc as (c0 & <- & Hc). unfold swap. destruct (Nat.eqb_spec c0 old); [auto|].
        split; [apply (U n c0 IH1 N Hc)|assumption]. }
  intros p c Hp Hc. destruct (K p Hp) as [Lp Np]. apply (replace_parents _ _ g Ne). destruct (Nat.eq_dec p f) as [->|N].
  - rewrite (replace_slots _ _ g Ne) in Hc by (intros; exact O). rewrite Sl in Hc. cbn in Hc. rewrite swap_same in Hc. destruct Hc as [<-|[]].
    split; [auto|intros [X _]; exact (Np X)].
  - rewrite (replace_slots _ _ g Ne) in Hc by (intros X; apply (U p old Lp N X)).
    apply in_map_iff in Hc as (c0 & <- & Hc). destruct (U p c0 Lp N Hc) as [_ Hin]. split; [|intros [X _]; exact (Np X)].
    unfold swap. destruct (Nat.eqb_spec c0 old) as [->|]; auto.
Qed.

Section Formula.
Variables (atomic : list ascii -> option nat) (roots : list nat) (f old : nat) (t : tree) (next0 : nat) (g0 : graph).
Hypotheses (C0 : complete roots g0) (Hf : reachable (fst g0) roots f) (Hs : nchildren (fst g0 f) = [old])
  (Ho : ~ In old (f :: roots)) (Hlive : forall n, reachable (fst g0) roots n -> n < next0)
  (Hfresh : forall n, next0 <= n -> snd g0 n = [])
  (Ha : forall x, In x (atomics_of atomic t) -> reachable (fst g0) roots x /\ x <> old)
  (Hu : forall x p, In x (atomics_of atomic t) -> reachable (rest f (fst g0)) (roots ++ atomics_of atomic t) p ->
    ~ In x (nchildren (rest f (fst g0) p))).
Let L0 (p : nat) : Prop := reachable (rest f (fst g0)) (roots ++ atomics_of atomic t) p.
Lemma rest_other n : n <> f -> rest f (fst g0) n = fst g0 n.
Proof using. intros N. unfold rest. destruct (Nat.eqb_spec n f); [contradiction|reflexivity]. Qed.
Lemma rest_self : nchildren (rest f (fst g0) f) = [].
Proof using. unfold rest. rewrite Nat.eqb_refl. reflexivity. Qed.
Lemma L0_live p : L0 p -> reachable (fst g0) roots p.
Proof using Ha.
  intros Hp. induction Hp as [n Hn|n c Hn IH Hc].
  - apply in_app_iff in Hn as [Hn|Hn]; [apply reach_start; exact Hn|apply Ha; exact Hn].
  - destruct (Nat.eq_dec n f) as [->|N]; [rewrite rest_self in Hc; destruct Hc|].
    rewrite rest_other in Hc by exact N. exact (reach_child _ _ _ _ IH Hc).
Qed.
Lemma L0_child p c : L0 p -> p <> f -> In c (nchildren (fst g0 p)) -> L0 c /\ In p (snd g0 c).
Proof using Ha C0.
  intros Hp N Hc. split; [|apply C0; [apply L0_live; exact Hp|exact Hc]].
  apply reach_child with p; [exact Hp|]. rewrite rest_other by exact N. exact Hc.
Qed.
Lemma L0_atomic x : In x (atomics_of atomic t) -> L0 x.
Proof using. intros Hx. apply reach_start, in_app_iff. right. exact Hx. Qed.
Lemma L0_unused x p : In x (atomics_of atomic t) -> L0 p -> p <> f -> ~ In x (nchildren (fst g0 p)).
Proof using Hu. intros Hx Hp N. rewrite <- (rest_other p N). exact (Hu x p Hx Hp). Qed.
Lemma old_live : old < next0.
Proof using Hf Hlive Hs. apply Hlive, reach_child with f; [exact Hf|rewrite Hs; left; reflexivity]. Qed.

(** *** Greedy extraction *)
Section Greedy.
Variables (next1 root : nat) (g1 : graph) (used : list nat).
Hypotheses (G1 : grown next0 next1 g0 g1) (R1 : rooted next0 next1 [root] g1)
  (N1 : named atomic next0 next1 (atomics_of atomic t) g1) (Hused : forall n, next0 <= n < next1 -> In n used).
Let fresh (n : nat) : Prop := next0 <= n < next1.
Record mid (Rm : nat -> Prop) (vis : list nat) (h : heap) (ps : parents) : Prop := {
  md_kept : kept (fun n => L0 n \/ (fresh n /\ ~ Rm n)) roots f old (h, ps);
  md_gone : forall e, Rm e -> In e vis /\ nkind (fst g1 e) = KLeaf;
  md_atomics : forall x p, In x (atomics_of atomic t) -> (L0 p \/ (fresh p /\ ~ Rm p)) -> p <> f -> In x (nchildren (h p)) -> fresh p;
  md_same : forall e, ~ (fresh e /\ In e vis) -> h e = fst g1 e;
  md_label : forall e, nkind (h e) = nkind (fst g1 e) /\ nsym (h e) = nsym (fst g1 e);
  md_parents : forall e p, fresh e -> In p (ps e) -> In p (snd g1 e) }.
Definition pending (vis : list nat) (stack : list (bool * nat)) : Prop :=
  forall b e, In (b, e) stack -> fresh e /\ (b = true -> In e vis) /\ (e = root \/ exists p, In p vis /\ In e (nchildren (fst g1 p)) /\ fresh p).

Lemma f_old : f <> root /\ f < next0 /\ old < next0 /\ f <> old.
Proof using Hf Hs Ho Hlive R1.
  pose proof old_live. pose proof (Hlive f Hf). destruct (proj2 R1 root ltac:(left; reflexivity)). cbn in Ho.
  repeat split; try lia; intros ->; tauto.
Qed.
Lemma L0_old p : L0 p -> ~ fresh p.
Proof using Ha Hlive. intros Hp Fp. pose proof (Hlive p (L0_live p Hp)). unfold fresh in Fp. lia. Qed.

Lemma mid_start : mid (fun _ => False) [] (fst g1) (snd g1).
Proof using All.
  destruct f_old as (F1 & F2 & F3 & F4). destruct G1 as [A1 A2 A3 A4].
  split; [split|..]; cbn [fst snd]; auto.
  - intros p c [Lp|[Fp _]] N Hc.
    + pose proof (L0_old p Lp) as Np. unfold fresh in Np. rewrite A2 in Hc by exact Np. destruct (L0_child p c Lp N Hc) as [Lc Hin].
      split; [left; exact Lc|]. rewrite A3; [exact Hin|]. exact (L0_old c Lc).
    + destruct (A4 p c Fp Hc) as [Rc Ec]. unfold fresh in *. split; [right; split; [lia|auto]|]. rewrite Ec. left. reflexivity.
  - intros n Hn. left. apply reach_start, in_app_iff. left. exact Hn.
  - rewrite A2 by lia. exact Hs.
  - rewrite A3 by lia. apply C0; [exact Hf|rewrite Hs; left; reflexivity].
  - intros e [].
  - intros x p Hx [Lp|[Fp _]] N Hc; [|exact Fp]. pose proof (L0_old p Lp) as Np. unfold fresh in Np.
    rewrite A2 in Hc by exact Np. destruct (L0_unused x p Hx Lp N Hc).
Qed.

(** One leaf. *)
Lemma mid_put Rm vis e h ps h' ps' : mid Rm vis h ps -> fresh e -> In e vis ->
  (e = root \/ exists p, In p vis /\ In e (nchildren (fst g1 p)) /\ fresh p) ->
  put_atomic atomic used e h ps = (h', ps') -> exists Rm', mid Rm' vis h' ps'.
Proof using All.
  intros [[U R Sl O] M2 M3 M4 M5 M6] Fe Ve Pe. unfold put_atomic.
  assert (Id : (h, ps) = (h', ps') -> exists Rm', mid Rm' vis h' ps').
  { intros X; injection X as <- <-; exists Rm; split; [split|..]; assumption. }
  destruct (nkind (h e)) eqn:Ek; [|exact Id..].
  destruct (atomic (nsym (h e))) as [x|] eqn:Ea; [|exact Id]. clear Id.
  destruct (M5 e) as [K1 K2]. assert (Hx : In x (atomics_of atomic t)).
  { apply (N1 e x Fe); [rewrite <- K1; exact Ek|rewrite <- K2; exact Ea]. }
  destruct f_old as (F1 & F2 & F3 & F4).
  pose proof (L0_atomic x Hx) as Lx. pose proof (L0_old x Lx) as Nx. destruct (Ha x Hx) as [_ Nxo].
  assert (Ne : e <> x) by (intros ->; contradiction).
  pose proof (replace_heap e x (h, ps) Ne) as RH. pose proof (fun c p => replace_parents e x (h, ps) Ne c p) as RP.
  cbn [fst snd] in RH, RP.
  intros X. cbn zeta in X. injection X as Eh Ep.
  assert (Eh' : forall n, h' n = if mem n (ps e) then Node (nkind (h n)) (nsym (h n)) (map (swap e x) (nchildren (h n))) else h n).
  { intros n. rewrite <- Eh. apply RH. }
  (* whoever uses the leaf is a new object, visited before it *)
  assert (Pf : forall p, In p (ps e) -> fresh p /\ In p vis).
  { intros p Hp. apply (M6 e p Fe) in Hp. destruct Pe as [->|(q & Vq & Hq & Fq)].
    - rewrite (proj2 (proj2 R1 root (or_introl eq_refl))) in Hp. destruct Hp.
    - destruct (gr_down _ _ _ _ G1 q e Fq Hq) as [_ E1]. rewrite E1 in Hp. destruct Hp as [<-|[]]. auto. }
  assert (Pin : forall p c, In p (ps' c) <-> (In p (ps c) \/ (c = x /\ In p (ps e))) /\ ~ (p = e /\ In c (nchildren (h' e))) /\ (c = x -> In p used)).
  { intros p c. rewrite <- Ep. specialize (RP c p). rewrite Eh in RP. destruct (Nat.eqb_spec c x) as [->|N].
    - rewrite filter_In, mem_in, RP. tauto.
    - rewrite RP. tauto. }
  assert (Hch : forall p, (L0 p \/ (fresh p /\ ~ Rm p)) -> p <> f -> nchildren (h' p) = map (swap e x) (nchildren (h p))).
  { intros p Lp N. rewrite Eh'. destruct (mem p (ps e)) eqn:Em; [reflexivity|]. symmetry. apply map_swap_id. intros Hin.
    destruct (U p e Lp N Hin) as [_ Hin']. cbn in Hin'. apply mem_in in Hin'. congruence. }
  exists (fun n => Rm n \/ n = e). split; [split|..]; cbn [fst snd].
  - intros p c Lp N Hc.
    assert (Lp' : L0 p \/ (fresh p /\ ~ Rm p)) by tauto.
    assert (Npe : p <> e) by (intros ->; destruct Lp as [Lp|[_ Lp]]; [exact (L0_old e Lp Fe)|tauto]).
    rewrite (Hch p Lp' N) in Hc. apply in_map_iff in Hc as (c0 & <- & Hc). destruct (U p c0 Lp' N Hc) as [Lc Pc]. cbn [fst snd] in Pc.
    unfold swap. destruct (Nat.eqb_spec c0 e) as [->|Nc].
    + split; [left; exact Lx|]. apply Pin. split; [right; auto|]. split; [tauto|]. intros _. apply Hused, Pf, Pc.
    + split; [destruct Lc as [|[]]; [auto|right; split; [assumption|intros [|]; contradiction]]|].
      apply Pin. split; [left; exact Pc|]. split; [tauto|]. intros ->. apply Hused. exact (M3 x p Hx Lp' N Hc).
  - intros n Hn. destruct (R n Hn) as [|[Fn _]]; [auto|]. left. apply reach_start, in_app_iff. left. exact Hn.
  - rewrite Eh'. destruct (mem f (ps e)) eqn:Em; [|exact Sl]. apply mem_in in Em. destruct (Pf f Em) as [Ff _]. unfold fresh in Ff. lia.
  - apply Pin. split; [left; exact O|]. split; [|intros ->; contradiction]. intros [-> _]. unfold fresh in Fe. lia.
  - intros n [Hn| ->]; [apply M2; exact Hn|]. split; [exact Ve|]. rewrite <- K1. exact Ek.
  - intros y p Hy Lp N Hc.
    assert (Lp' : L0 p \/ (fresh p /\ ~ Rm p)) by tauto.
    rewrite (Hch p Lp' N) in Hc. apply in_map_iff in Hc as (c0 & Ec & Hc). unfold swap in Ec. destruct (Nat.eqb_spec c0 e) as [Y|Nc].
    + rewrite Y in Hc. destruct (U p e Lp' N Hc) as [_ Pc]. apply Pf, Pc.
    + rewrite Ec in Hc. exact (M3 y p Hy Lp' N Hc).
  - intros n Hn. rewrite Eh'. destruct (mem n (ps e)) eqn:Em; [|apply M4; exact Hn]. apply mem_in in Em. destruct (Hn (Pf n Em)).
  - intros n. rewrite Eh'. destruct (mem n (ps e)); apply M5.
  - intros n p Fn Hp. apply Pin in Hp as ([Hp|[-> _]] & _); [apply (M6 n p Fn Hp)|contradiction].
Qed.

Lemma mid_traverse fuel : forall stack vis h ps h' ps' Rm, mid Rm vis h ps -> pending vis stack ->
  traverse (put_atomic atomic used) fuel stack vis h ps = Some (h', ps') -> exists Rm' vis', mid Rm' vis' h' ps'.
Proof using All.
  induction fuel as [|fuel IH]; intros stack vis h ps h' ps' Rm M Pn E; [discriminate E|].
  destruct stack as [|[[|] e] s]; cbn [traverse] in E.
  - injection E as <- <-. exists Rm, vis. exact M.
  - destruct (put_atomic atomic used e h ps) as [h1 ps1] eqn:Ep. destruct (Pn true e (or_introl eq_refl)) as (Fe & Ve & Pe).
    destruct (mid_put _ _ _ _ _ _ _ M Fe (Ve eq_refl) Pe Ep) as [Rm' M']. apply (IH _ _ _ _ _ _ _ M' (fun b x Hx => Pn b x (or_intror Hx)) E).
  - destruct (Pn false e (or_introl eq_refl)) as (Fe & _ & Pe). destruct (existsb (Nat.eqb e) vis) eqn:Ev.
    + apply (IH _ _ _ _ _ _ _ M (fun b x Hx => Pn b x (or_intror Hx)) E).
    + assert (Nv : ~ In e vis) by (rewrite <- existsb_in, Ev; discriminate).
      assert (Ee : h e = fst g1 e) by (apply (md_same _ _ _ _ M); tauto).
      apply (IH _ (e :: vis) _ _ _ _ Rm) in E; [exact E| |].
      * destruct M as [M1 M2 M3 M4 M5 M6]. split; auto.
        -- intros n Hn. destruct (M2 n Hn). split; [right|]; assumption.
        -- intros n Hn. apply M4. intros [F V]. apply Hn. split; [exact F|right; exact V].
      * intros b n Hn. apply in_app_iff in Hn as [Hn|[Hn|Hn]].
        -- apply in_map_iff in Hn as (c & Hc & Hin). injection Hc as <- <-. rewrite Ee in Hin.
           destruct (gr_down _ _ _ _ G1 e c Fe Hin) as [Rc _]. unfold fresh in *.
           split; [lia|]. split; [discriminate|]. right. exists e. split; [left; reflexivity|]. auto.
        -- injection Hn as <- <-. split; [exact Fe|]. split; [left; reflexivity|].
           destruct Pe as [|(p & H1 & H2 & H3)]; [auto|]. right. exists p. split; [right; exact H1|auto].
        -- destruct (Pn b n (or_intror Hn)) as (H1 & H2 & H3). split; [exact H1|]. split; [intros Hb; right; apply H2, Hb|].
           destruct H3 as [|(p & H4 & H5 & H6)]; [auto|]. right. exists p. split; [right; exact H4|auto].
Qed.
End Greedy.

Lemma greedy_complete fuel next' g' : (forall s args, t <> Tree KLeaf s args) ->
  eqsat_formula atomic false fuel f t next0 g0 = Some (next', g') -> complete roots g'.
Proof using All.
  intros Hk. unfold eqsat_formula. rewrite Hs. unfold read_back. destruct (build t next0 g0) as [[root next1] g1] eqn:Eb.
  destruct (build_grown atomic t next0 g0 Hfresh _ _ _ Eb) as (En & Hr & G1 & R1 & N1 & Kr).
  destruct (postorder fuel (fst g1) [root]) as [used|] eqn:Eu; [|discriminate].
  destruct (traverse (put_atomic atomic used) fuel [(false, root)] [] (fst g1) (snd g1)) as [[h ps]|] eqn:Et; [|discriminate].
  intros E. injection E as _ <-.
  assert (Hused : forall n, next0 <= n < next1 -> In n used).
  { intros n Hn. apply (postorder_covers _ _ _ _ _ Eu). exact (rooted_reachable _ _ _ _ R1 n Hn). }
  destruct (mid_traverse next1 root g1 used G1 R1 N1 Hused fuel [(false, root)] [] (fst g1) (snd g1) h ps (fun _ => False)) as (Rm & vis & M).
  - apply (mid_start next1 root g1 used); assumption.
  - intros b n [X|[]]. injection X as <- <-. split; [lia|]. split; [discriminate|]. left. reflexivity.
  - exact Et.
  - pose proof old_live. apply (kept_finish _ _ _ _ _ _ (md_kept _ _ _ _ _ _ M)).
    + cbn in Ho. tauto.
    + right. split; [lia|]. intros X. apply (md_gone _ _ _ _ _ _ M) in X as [_ X]. rewrite Kr in X.
      assert (Y : forall u, match u with Tree k _ _ => k end = KLeaf -> exists s args, u = Tree KLeaf s args).
      { intros [k s args] <-. exists s, args. reflexivity. }
      destruct (Y t X) as (s & args & Z). exact (Hk s args Z).
    + lia.
    + intros Y. apply Ho. left. exact Y.
Qed.

(** *** Extraction by integer programming *)
Lemma build_ilp_eq k s args next g : build_ilp atomic (Tree k s args) next g =
  match k, atomic s with
  | KLeaf, Some x => (x, next, (fst g, fun n => if n =? x then [] else snd g n))
  | _, _ => let '(rs, next, g) := operands (build_ilp atomic) args next g in (next, S next, construct next k s rs g)
  end.
Proof using. destruct k; reflexivity. Qed.

(** [D] lists the atomics no object of the program uses yet. *)
Record ilp_mid (next : nat) (D : nat -> Prop) (g : graph) : Prop := {
  im_kept : kept (fun n => L0 n \/ next0 <= n < next) roots f old g;
  im_order : next0 <= next;
  im_unused : forall x p, D x -> In x (atomics_of atomic t) -> (L0 p \/ next0 <= p < next) -> p <> f -> ~ In x (nchildren (fst g p)) }.
Definition ilp_ok (xs : list nat) (next next' : nat) (rs : list nat) (g' : graph) (D : nat -> Prop) : Prop :=
  next <= next' /\ ilp_mid next' (fun x => D x /\ ~ In x xs) g' /\
  forall r, In r rs -> (next0 <= r < next') \/ (In r xs /\ L0 r).

Lemma ilp_weaken next (D D' : nat -> Prop) g : ilp_mid next D g -> (forall x, D' x -> D x) -> ilp_mid next D' g.
Proof using. intros [A B C] H. split; [exact A|exact B|]. intros x p Hx. apply C, H, Hx. Qed.
Lemma build_ilp_mid s : forall next D g r next' g', ilp_mid next D g -> NoDup (atomics_of atomic s) ->
  (forall x, In x (atomics_of atomic s) -> D x /\ In x (atomics_of atomic t)) ->
  build_ilp atomic s next g = (r, next', g') -> ilp_ok (atomics_of atomic s) next next' [r] g' D.
Proof using C0 Hf Hs Ho Hlive Ha Hu.
  induction s as [k s args IH] using tree_ind'. intros next D g r next' g' M ND Hx E. rewrite build_ilp_eq in E.
  assert (Li : forall next D g rs next' g', ilp_mid next D g -> NoDup (flat_map (atomics_of atomic) args) ->
    (forall x, In x (flat_map (atomics_of atomic) args) -> D x /\ In x (atomics_of atomic t)) ->
    operands (build_ilp atomic) args next g = (rs, next', g') -> ilp_ok (flat_map (atomics_of atomic) args) next next' rs g' D).
  { clear r next' g' E next g M D ND Hx. induction args as [|a args IHa]; intros next D g rs next' g' M ND Hx E.
    - injection E as <- <- <-. split; [lia|]. split; [apply (ilp_weaken _ D); [exact M|tauto]|]. intros r [].
    - inversion IH as [|? ? IH1 IH2]; subst. cbn [operands] in E. cbn [flat_map] in *.
      destruct (build_ilp atomic a next g) as [[r n1] g1] eqn:E1. fold (operands (build_ilp atomic)) in E.
      destruct (operands (build_ilp atomic) args n1 g1) as [[rs0 n2] g2] eqn:E2. injection E as <- <- <-.
      assert (NDa : NoDup (atomics_of atomic a)) by (clear - ND; induction (atomics_of atomic a); [constructor|];
        inversion ND; subst; constructor; [intros X; apply H1, in_app_iff; auto|auto]).
      assert (NDr : NoDup (flat_map (atomics_of atomic) args)) by (clear - ND; induction (atomics_of atomic a); [exact ND|]; inversion ND; auto).
      assert (Dj : forall x, In x (atomics_of atomic a) -> ~ In x (flat_map (atomics_of atomic) args)).
      { clear - ND. induction (atomics_of atomic a) as [|y l IHl]; intros x; [intros []|]. cbn in ND. inversion ND; subst.
        intros [<-|Hl]; [intros X; apply H1, in_app_iff; auto|apply IHl; assumption]. }
      destruct (IH1 next D g _ _ _ M NDa ltac:(intros x X; apply Hx, in_app_iff; auto) E1) as (O1 & M1 & R1).
      destruct (IHa IH2 n1 _ g1 _ _ _ M1 NDr ltac:(intros x X; split; [split; [apply Hx, in_app_iff; auto|intros Y; exact (Dj x Y X)]|apply Hx, in_app_iff; auto]) E2) as (O2 & M2 & R2).
      split; [lia|]. split; [apply (ilp_weaken _ _ _ _ M2); intros x [A B]; rewrite in_app_iff in B; tauto|].
      intros x [<-|X].
      + destruct (R1 r ltac:(left; reflexivity)) as [|[A B]]; [left; lia|right; rewrite in_app_iff; auto].
      + destruct (R2 x X) as [|[A B]]; [left; lia|right; rewrite in_app_iff; auto]. }
  assert (Op : forall next D g, ilp_mid next D g -> NoDup (flat_map (atomics_of atomic) args) ->
    (forall x, In x (flat_map (atomics_of atomic) args) -> D x /\ In x (atomics_of atomic t)) ->
    (let '(rs, next, g) := operands (build_ilp atomic) args next g in (next, S next, construct next k s rs g)) = (r, next', g') ->
    ilp_ok (flat_map (atomics_of atomic) args) next next' [r] g' D).
  { clear next D g M ND Hx E IH. intros next D g M ND Hx E.
    destruct (operands (build_ilp atomic) args next g) as [[rs n1] g1] eqn:E1. injection E as <- <- <-.
    destruct (Li _ _ _ _ _ _ M ND Hx E1) as (O1 & [[U R Sl O] Or Un] & Hr). clear Li M.
    pose proof old_live as Lo. pose proof (Hlive f Hf) as Lf.
    assert (Lv : forall p, L0 p -> p < next0) by (intros p Hp; apply Hlive, L0_live, Hp).
    assert (Hh : forall n, fst (construct n1 k s rs g1) n = if n =? n1 then Node k s rs else fst g1 n) by reflexivity.
    assert (Hp : forall n, snd (construct n1 k s rs g1) n = if mem n rs then n1 :: snd g1 n else snd g1 n) by reflexivity.
    assert (Keep : forall p n, In p (snd g1 n) -> In p (snd (construct n1 k s rs g1) n)).
    { intros p n X. rewrite Hp. destruct (mem n rs); [right|]; exact X. }
    split; [lia|]. split; [|intros r [<-|[]]; left; lia].
    split; [split|lia|].
    - intros p c Lp N Hc. rewrite Hh in Hc. destruct (Nat.eqb_spec p n1) as [->|Np].
      + cbn in Hc. split; [|rewrite Hp, (proj2 (mem_in c rs) Hc); left; reflexivity].
        destruct (Hr c Hc) as [|[_ Lc]]; [right; lia|left; exact Lc].
      + destruct (U p c) as [Lc Pc]; [destruct Lp; [auto|right; lia]|exact N|exact Hc|]. split; [destruct Lc; [auto|right; lia]|].
        apply Keep, Pc.
    - intros n Hn. destruct (R n Hn); [auto|right; lia].
    - rewrite Hh. destruct (Nat.eqb_spec f n1); [lia|exact Sl].
    - apply Keep, O.
    - intros x p [Dx Nx] Hxt Lp N Hc. rewrite Hh in Hc. destruct (Nat.eqb_spec p n1) as [->|Np].
      + cbn in Hc. destruct (Hr x Hc) as [X|[X _]]; [|exact (Nx X)]. pose proof (Lv x (L0_atomic x Hxt)). lia.
      + apply (Un x p); auto. destruct Lp; [auto|right; lia]. }
  cbn [atomics_of] in *.
  destruct k; try exact (Op next D g M ND Hx E).
  destruct (atomic s) as [x|] eqn:Ea; [|exact (Op next D g M ND Hx E)]. clear Op Li.
  injection E as <- <- <-. destruct (Hx x ltac:(left; reflexivity)) as [Dx Hxt]. destruct M as [[U R Sl O] Or Un].
  split; [lia|]. split; [|intros r [<-|[]]; right; split; [left; reflexivity|apply L0_atomic; exact Hxt]].
  split; [split|exact Or|]; cbn [fst snd].
  - intros p c Lp N Hc. destruct (U p c Lp N Hc) as [Lc Pc]. split; [exact Lc|]. destruct (Nat.eqb_spec c x) as [->|]; [|exact Pc].
    destruct (Un x p Dx Hxt Lp N Hc).
  - exact R.
  - exact Sl.
  - destruct (Nat.eqb_spec old x) as [Y|]; [|exact O]. destruct (Ha x Hxt) as [_ Z]. congruence.
  - intros y p [Dy _]. exact (Un y p Dy).
Qed.

Lemma ilp_complete fuel next' g' : NoDup (atomics_of atomic t) ->
  eqsat_formula atomic true fuel f t next0 g0 = Some (next', g') -> complete roots g'.
Proof using C0 Hf Hs Ho Hlive Ha Hu.
  intros ND. unfold eqsat_formula. rewrite Hs. destruct (build_ilp atomic t next0 g0) as [[root next1] g1] eqn:Eb.
  intros E. injection E as _ <-. pose proof old_live as Lo.
  assert (Lv : forall p, L0 p -> p < next0) by (intros p Hp; apply Hlive, L0_live, Hp).
  assert (M0 : ilp_mid next0 (fun _ => True) g0).
  { split; [split|lia|].
    - intros p c [Lp|X] N Hc; [|lia]. destruct (L0_child p c Lp N Hc). auto.
    - intros n Hn. left. apply reach_start, in_app_iff. left. exact Hn.
    - exact Hs.
    - apply C0; [exact Hf|rewrite Hs; left; reflexivity].
    - intros x p _ Hx [Lp|X] N; [exact (L0_unused x p Hx Lp N)|lia]. }
  destruct (build_ilp_mid t _ _ _ _ _ _ M0 ND ltac:(auto) Eb) as (O1 & [K _ _] & Hr).
  destruct (Hr root ltac:(left; reflexivity)) as [Rr|[Rr Lr]].
  - apply (kept_finish _ _ _ _ _ _ K); [cbn in Ho; tauto|right; exact Rr|lia|intros Y; apply Ho; left; exact Y].
  - apply (kept_finish _ _ _ _ _ _ K); [cbn in Ho; tauto|left; exact Lr|apply Ha; exact Rr|intros Y; apply Ho; left; exact Y].
Qed.
End Formula.
