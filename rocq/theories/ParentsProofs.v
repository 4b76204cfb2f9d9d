(** * The recorded parents are complete *)
From Coq Require Import List Arith ZArith Bool Ascii Lia.
Require Import Verif.Graph Verif.GraphSpec Verif.GraphProofs Verif.CseProofs Verif.Assembly Verif.Parents Verif.ParentsSpec.
Import ListNotations.
Local Open Scope nat_scope.

Lemma mem_in n l : mem n l = true <-> In n l.
Proof. apply existsb_in. Qed.
Lemma without_in x n l : In x (without n l) <-> In x l /\ x <> n.
Proof.
  unfold without. rewrite filter_In. destruct (Nat.eqb_spec x n); cbn; intuition congruence.
Qed.
Lemma reachable_mono h l l' n : incl l l' -> reachable h l n -> reachable h l' n.
Proof. intros H. induction 1; [apply reach_start; auto|eapply reach_child; eauto]. Qed.

(** ** One object replaced by another *)
Definition swap (old new c : nat) : nat := if c =? old then new else c.
Lemma swap_other old new c : c <> old -> swap old new c = c.
Proof. intros H. unfold swap. apply Nat.eqb_neq in H. rewrite H. reflexivity. Qed.
Lemma swap_same old new : swap old new old = new.
Proof. unfold swap. rewrite Nat.eqb_refl. reflexivity. Qed.
Lemma map_swap_id old new l : ~ In old l -> map (swap old new) l = l.
Proof.
  intros H. rewrite <- (map_id l) at 2. apply map_ext_in. intros c Hc. apply swap_other. intros ->. exact (H Hc).
Qed.

Section Replace.
Variables (old new : nat) (g : graph).
Hypothesis Ne : old <> new.
Lemma replace_heap n : fst (replace old new g) n =
  if mem n (snd g old) then Node (nkind (fst g n)) (nsym (fst g n)) (map (swap old new) (nchildren (fst g n))) else fst g n.
Proof using Ne. unfold replace. rewrite (proj2 (Nat.eqb_neq old new) Ne). reflexivity. Qed.
(** What is recorded afterwards. *)
Lemma replace_parents c p : In p (snd (replace old new g) c) <->
  (In p (snd g c) \/ (c = new /\ In p (snd g old))) /\ ~ (p = old /\ In c (nchildren (fst (replace old new g) old))).
Proof using Ne.
  assert (E : snd (replace old new g) c =
    let ps := if c =? new then snd g old ++ snd g c else snd g c in
    if mem c (nchildren (fst (replace old new g) old)) then without old ps else ps).
  { unfold replace. rewrite (proj2 (Nat.eqb_neq old new) Ne). reflexivity. }
  rewrite E. cbn zeta. clear E.
  assert (B : In p (if c =? new then snd g old ++ snd g c else snd g c) <-> In p (snd g c) \/ (c = new /\ In p (snd g old))).
  { destruct (Nat.eqb_spec c new); [rewrite in_app_iff|]; intuition. }
  destruct (mem c (nchildren (fst (replace old new g) old))) eqn:M.
  - apply mem_in in M. rewrite without_in, B. intuition.
  - rewrite B. assert (~ In c (nchildren (fst (replace old new g) old))) by (rewrite <- mem_in; congruence). intuition.
Qed.
(** An object whose slots are all known. *)
Lemma replace_slots p : (In old (nchildren (fst g p)) -> In p (snd g old)) ->
  nchildren (fst (replace old new g) p) = map (swap old new) (nchildren (fst g p)).
Proof using Ne.
  intros H. rewrite replace_heap. destruct (mem p (snd g old)) eqn:M; [reflexivity|].
  symmetry. apply map_swap_id. intros I. apply H in I. apply mem_in in I. congruence.
Qed.
Lemma replace_kind p : nkind (fst (replace old new g) p) = nkind (fst g p).
Proof using Ne. rewrite replace_heap. destruct (mem p (snd g old)); reflexivity. Qed.
Lemma replace_sym p : nsym (fst (replace old new g) p) = nsym (fst g p).
Proof using Ne. rewrite replace_heap. destruct (mem p (snd g old)); reflexivity. Qed.
End Replace.

(** ** Any sequence of constructions and replacements *)
Lemma replace_complete roots g old new : complete roots g -> reachable (fst g) roots new ->
  complete (without old roots) (replace old new g).
Proof.
  intros C Hn. destruct (Nat.eq_dec old new) as [->|Ne].
  { unfold replace. rewrite Nat.eqb_refl. intros p c Hp. apply C. eapply reachable_mono; [|exact Hp].
    intros x Hx. apply without_in in Hx. tauto. }
  assert (L : forall p, reachable (fst (replace old new g)) (without old roots) p -> reachable (fst g) roots p /\ p <> old).
  { induction 1 as [p Hp|p c Hp [IH1 IH2] Hc].
    - apply without_in in Hp. split; [apply reach_start|]; tauto.
    - rewrite replace_slots in Hc by (exact Ne || (intros I; apply C; assumption)).
      apply in_map_iff in Hc as (c0 & <- & Hc0). unfold swap. destruct (Nat.eqb_spec c0 old) as [->|N].
      + auto.
      + split; [eapply reach_child; eassumption|exact N]. }
  intros p c Hp Hc. destruct (L p Hp) as [Lp Np].
  rewrite replace_slots in Hc by (exact Ne || (intros I; apply C; assumption)).
  apply in_map_iff in Hc as (c0 & <- & Hc0). apply replace_parents; [exact Ne|]. split; [|tauto].
  pose proof (C p c0 Lp Hc0) as Pc. unfold swap. destruct (Nat.eqb_spec c0 old) as [->|N]; auto.
Qed.
Lemma construct_complete roots g id k s cs : complete roots g ->
  ~ reachable (fst g) roots id -> Forall (reachable (fst g) roots) cs ->
  complete (id :: roots) (construct id k s cs g).
Proof.
  intros C Fr Hcs. rewrite Forall_forall in Hcs.
  assert (L : forall p, reachable (fst (construct id k s cs g)) (id :: roots) p -> p = id \/ reachable (fst g) roots p).
  { induction 1 as [p [<-|Hp]|p c Hp IH Hc]; [auto|right; apply reach_start; exact Hp|].
    right. cbn [construct fst] in Hc. destruct (Nat.eqb_spec p id) as [E|E]; [cbn in Hc; auto|].
    destruct IH as [IH|IH]; [contradiction|]. eapply reach_child; eassumption. }
  intros p c Hp Hc. cbn [construct fst snd] in *. destruct (L p Hp) as [->|Lp].
  - rewrite Nat.eqb_refl in Hc. cbn in Hc. apply mem_in in Hc. rewrite Hc. left. reflexivity.
  - destruct (Nat.eqb_spec p id) as [->|E]; [contradiction|].
    pose proof (C p c Lp Hc). destruct (mem c cs); [right|]; assumption.
Qed.
Lemma edited_complete roots g roots' g' : edited roots g roots' g' -> complete roots g -> complete roots' g'.
Proof.
  induction 1 as [|roots g id k s cs roots' g' Fr Hcs _ IH|roots g old new roots' g' Hn _ IH|roots g kept roots' g' Hk _ IH]; intros C.
  - exact C.
  - apply IH, construct_complete; assumption.
  - apply IH, replace_complete; assumption.
  - apply IH. intros p c Hp. apply C. eapply reachable_mono; eassumption.
Qed.

(** ** Common subexpressions *)
Lemma redirect_slots old new h n : nchildren (redirect old new h n) = map (swap old new) (nchildren (h n)).
Proof. reflexivity. Qed.

(** What stays in the program when [e] is redirected to [e'] with the same operands. *)
Lemma redirect_live h roots e e' : e <> e' -> nchildren (h e) = nchildren (h e') -> ~ In e roots ->
  reachable h roots e' -> forall n, reachable (redirect e e' h) roots n <-> reachable h roots n /\ n <> e.
Proof.
  intros Ne Ec Er Re. intros n. split.
  - induction 1 as [n Hn|n c Hn [IH1 IH2] Hc].
    + split; [apply reach_start; exact Hn|intros ->; contradiction].
    + rewrite redirect_slots in Hc. apply in_map_iff in Hc as (c0 & <- & Hc0). unfold swap.
      destruct (Nat.eqb_spec c0 e) as [->|N]; [auto|]. split; [eapply reach_child; eassumption|exact N].
  - intros [Hn N].
    assert (K : forall m, reachable h roots m -> reachable (redirect e e' h) roots (swap e e' m)).
    { induction 1 as [m Hm|m c Hm IH Hc].
      - rewrite swap_other by (intros ->; contradiction). apply reach_start. exact Hm.
      - eapply reach_child; [exact IH|]. rewrite redirect_slots. apply in_map.
        unfold swap. destruct (Nat.eqb_spec m e) as [->|_]; [rewrite <- Ec|]; exact Hc. }
    rewrite <- (swap_other e e' n N). apply K. exact Hn.
Qed.

(** How the graph with parents relates to the graph without: they agree on the
    program, and the parents are recorded ([X]: and nothing else). *)
Record same_program (X : Prop) (roots : list nat) (g : graph) (h : heap) : Prop := {
  sp_agree : forall n, reachable h roots n -> fst g n = h n;
  sp_complete : forall p c, reachable h roots p -> In c (nchildren (h p)) -> In p (snd g c);
  sp_only : X -> forall p c, reachable h roots c -> In p (snd g c) -> reachable h roots p /\ In c (nchildren (h p)) }.

Lemma same_redirect X T roots g h e e' : same_program X roots g h -> denotes h T -> T e = T e' ->
  e <> e' -> nchildren (h e) = nchildren (h e') -> ~ In e roots -> reachable h roots e -> reachable h roots e' ->
  same_program X roots (replace e e' g) (redirect e e' h).
Proof.
  intros [A C O] D TE Ne Ec Er Re Re'. pose proof (redirect_live h roots e e' Ne Ec Er Re') as L.
  assert (Own : ~ In e (nchildren (h e))) by (intros H; pose proof (child_smaller _ _ _ _ D H); lia).
  assert (Own' : ~ In e' (nchildren (h e))) by (intros H; pose proof (child_smaller _ _ _ _ D H); rewrite TE in *; lia).
  assert (Sl : forall p, reachable h roots p -> nchildren (fst (replace e e' g) p) = map (swap e e') (nchildren (h p))).
  { intros p Hp. rewrite replace_slots; [rewrite A by exact Hp; reflexivity|exact Ne|].
    rewrite A by exact Hp. apply C. exact Hp. }
  split.
  - intros n Hn. apply L in Hn as [Hn _]. pose proof (Sl n Hn) as S1. pose proof (replace_kind e e' g Ne n) as S2.
    pose proof (replace_sym e e' g Ne n) as S3. rewrite (A n Hn) in S2, S3.
    destruct (fst (replace e e' g) n) as [k s cs]. cbn in S1, S2, S3. subst. reflexivity.
  - intros p c Hp Hc. apply L in Hp as [Hp Np]. rewrite redirect_slots in Hc. apply in_map_iff in Hc as (c0 & <- & Hc0).
    apply replace_parents; [exact Ne|]. split; [|tauto]. pose proof (C p c0 Hp Hc0) as Pc.
    unfold swap. destruct (Nat.eqb_spec c0 e) as [->|N]; auto.
  - intros x p c Hc Hp. apply L in Hc as [Hc Nc]. apply replace_parents in Hp; [|exact Ne].
    rewrite Sl, (map_swap_id e e' (nchildren (h e)) Own) in Hp by exact Re. destruct Hp as [[Hp|[-> Hp]] Hx].
    + destruct (O x p c Hc Hp) as [H1 H2]. split.
      * apply L. split; [exact H1|]. intros ->. apply Hx. auto.
      * rewrite redirect_slots. rewrite <- (swap_other e e' c Nc). apply in_map. exact H2.
    + destruct (O x p e Re Hp) as [H1 H2]. split.
      * apply L. split; [exact H1|]. intros ->. contradiction.
      * rewrite redirect_slots. rewrite <- (swap_same e e') at 1. apply in_map. exact H2.
Qed.

Lemma prefix_agree fuel roots g h n : (forall n, reachable h roots n -> g n = h n) -> reachable h roots n ->
  prefix_run fuel g n = prefix_run fuel h n.
Proof.
  intros A. revert n. induction fuel as [|fuel IH]; intros n Hn; [reflexivity|]. cbn [prefix_run]. rewrite (A n Hn).
  assert (E : forall l, (forall c, In c l -> reachable h roots c) ->
    fold_right (fun c acc => match prefix_run fuel g c, acc with Some s, Some s' => Some (s ++ s') | _, _ => None end) (Some []) l =
    fold_right (fun c acc => match prefix_run fuel h c, acc with Some s, Some s' => Some (s ++ s') | _, _ => None end) (Some []) l).
  { induction l as [|c l IHl]; intros Hl; [reflexivity|]. cbn [fold_right]. rewrite IH by (apply Hl; left; reflexivity).
    rewrite IHl by (intros x Hx; apply Hl; right; exact Hx). reflexivity. }
  rewrite E; [reflexivity|]. intros c Hc. eapply reach_child; eassumption.
Qed.

(** The loop, in step with the loop of Graph.v. *)
Section Loop.
Variables (X : Prop) (T : nat -> tree) (K : nat -> kind) (depth : nat) (roots others : list nat) (s : nat).
Hypothesis Hroots : Forall (fun r => K r = KSet) roots.

Lemma same_operands h m out e e' : cse_P T K others h m out -> small T K depth e ->
  (forall c, In c (nchildren (h e)) -> In c (reps m)) -> find_str m (key T e) = Some e' ->
  T e = T e' /\ nchildren (h e) = nchildren (h e') /\ In e' (reps m).
Proof.
  intros (HI & HN & HC & _) [HeK Hef] Hch F. pose proof HI as (D & W & HK & HT & HS).
  pose proof (find_str_in _ _ _ F) as Fi. pose proof (HS _ _ Fi) as HeK'.
  assert (Hr : In e' (reps m)) by (unfold reps; apply in_map_iff; exists (key T e, e'); auto).
  assert (TE : T e = T e').
  { apply key_inj; [| |exact (HT _ _ Fi)]; apply (well_shaped_item h); auto; rewrite HK; assumption. }
  split; [exact TE|]. split; [|exact Hr]. apply (map_inj_on T (reps m)).
  - apply reps_inj; assumption.
  - exact Hch.
  - intros c Hc. apply (HC e'); assumption.
  - rewrite (D e), (D e') in TE. congruence.
Qed.

Lemma loop_same fuel : forall stack vis h m out g ps,
  inv T (small T K depth) reps (cse_P T K others) (fun h => nchildren (h s)) stack vis h m out ->
  same_program X roots (g, ps) h ->
  (forall e, In (true, e) stack -> reachable h roots e) -> (forall e, In (false, e) stack -> In e vis \/ reachable h roots e) ->
  (forall e, In e (reps m) -> reachable h roots e) ->
  match traverse (cse_node_recorded depth) fuel stack vis g (ps, m), traverse (cse_node depth) fuel stack vis h m with
  | Some (g', (ps', _)), Some (h', _) => same_program X roots (g', ps') h'
  | None, None => True
  | _, _ => False
  end.
Proof using Hroots.
  induction fuel as [|fuel IH]; intros stack vis h m out g ps I S St Sf Sr; [exact Logic.I|].
  cbn [traverse]. destruct stack as [|[[|] e] stack]; [exact S| |].
  - destruct (cse_node depth e h m) as [h1 m1] eqn:E1.
    pose proof (inv_yield _ _ _ _ _ e stack vis h m out _ _ _ (cse_act_ok T K depth others s) I E1) as I1.
    assert (Re : reachable h roots e) by (apply St; left; reflexivity).
    pose proof (inv_stack_R _ _ _ _ _ _ _ _ _ _ I true e (or_introl eq_refl)) as Sm.
    pose proof (inv_P _ _ _ _ _ _ _ _ _ _ I) as P. pose proof P as ((D & _) & _).
    assert (Hch : forall c, In c (nchildren (h e)) -> In c (reps m)).
    { intros c Hc. destruct (inv_open _ _ _ _ _ _ _ _ _ _ I [] e stack eq_refl c Hc) as [H|(b & [])]. exact H. }
    assert (Heo : ~ In e out) by (apply (inv_disj _ _ _ _ _ _ _ _ _ _ I); left; reflexivity).
    assert (Ev : In e vis) by (apply (inv_vis _ _ _ _ _ _ _ _ _ _ I); right; left; reflexivity).
    assert (Hlater : forall x, In (true, x) stack -> x <> e).
    { intros x Hx ->. apply (inv_disj _ _ _ _ _ _ _ _ _ _ I1 e Hx). left. reflexivity. }
    unfold cse_node_recorded. unfold prefix_str.
    rewrite (prefix_agree depth roots g h e (sp_agree _ _ _ _ S) Re).
    fold (prefix_str depth h e). unfold cse_node in E1. rewrite (cse_key depth h T e D (proj2 Sm)) in *. cbn [fst snd].
    destruct (find_str m (key T e)) as [e'|] eqn:F.
    + destruct (same_operands h m out e e' P Sm Hch F) as (TE & Ec & Hr).
      assert (Ne : e <> e') by (intros ->; apply Heo, (inv_G _ _ _ _ _ _ _ _ _ _ I), Hr).
      rewrite (proj2 (Nat.eqb_neq e e') Ne) in E1. injection E1 as <- <-.
      assert (Er : ~ In e roots).
      { intros H. rewrite Forall_forall in Hroots. apply (proj1 Sm), Hroots, H. }
      pose proof (redirect_live h roots e e' Ne Ec Er (Sr e' Hr)) as L.
      pose proof (same_redirect X T roots (g, ps) h e e' S D TE Ne Ec Er Re (Sr e' Hr)) as S1.
      destruct (replace e e' (g, ps)) as [g1 ps1] eqn:Eg. cbn [fst snd].
      eapply IH; [exact I1|exact S1| | |].
      * intros x Hx. apply L. split; [apply St; right; exact Hx|apply Hlater, Hx].
      * intros x Hx. destruct (Nat.eq_dec x e) as [->|N]; [left; exact Ev|].
        destruct (Sf x (or_intror Hx)) as [H|H]; [left; exact H|right; apply L; auto].
      * intros x Hx. apply L. split; [apply Sr, Hx|]. intros ->. apply Heo, (inv_G _ _ _ _ _ _ _ _ _ _ I), Hx.
    + injection E1 as <- <-. eapply IH; [exact I1|exact S| | |].
      * intros x Hx. apply St. right. exact Hx.
      * intros x Hx. apply Sf. right. exact Hx.
      * intros x [<-|Hx]; [exact Re|apply Sr, Hx].
  - destruct (existsb (Nat.eqb e) vis) eqn:Ev.
    + eapply IH; [eapply inv_skip; [exact I|apply existsb_in; exact Ev]|exact S| | |exact Sr].
      * intros x Hx. apply St. right. exact Hx.
      * intros x Hx. apply Sf. right. exact Hx.
    + assert (Hv : ~ In e vis) by (rewrite <- existsb_in, Ev; discriminate).
      assert (Re : reachable h roots e) by (destruct (Sf e (or_introl eq_refl)); [contradiction|assumption]).
      rewrite (sp_agree _ _ _ _ S e Re : g e = h e).
      eapply IH; [apply inv_push; [exact I|exact Hv]|exact S| | |exact Sr].
      * intros x Hx. apply in_app_iff in Hx as [Hx|[Hx|Hx]].
        -- apply in_map_iff in Hx as (y & Hy & _). discriminate Hy.
        -- injection Hx as <-. exact Re.
        -- apply St. right. exact Hx.
      * intros x Hx. apply in_app_iff in Hx as [Hx|[Hx|Hx]].
        -- apply in_map_iff in Hx as (y & Hy & Hin). injection Hy as <-. right. eapply reach_child; eassumption.
        -- discriminate Hx.
        -- destruct (Sf x (or_intror Hx)); [left; right; assumption|right; assumption].
Qed.
End Loop.

(** The invariant of Graph.v's loop holds at its start (as in cse_set_correct). *)
Lemma inv_start T K depth h others s :
  denotes h T -> well_shaped h -> (forall n, nkind (h n) = K n) ->
  (forall c, In c (nchildren (h s)) -> size (T c) <= depth) ->
  Forall (fun t => K t = KSet /\ maximal T h [t]) others ->
  inv T (small T K depth) reps (cse_P T K others) (fun h => nchildren (h s)) (map (pair false) (nchildren (h s))) [] h [] [].
Proof.
  intros D W HK Hsz HO.
  assert (NT : forall s1 c s2, map (pair false) (nchildren (h s)) = s1 ++ (true, c) :: s2 -> False).
  { intros s1 c s2 Es. assert (H : In (true, c) (map (pair false) (nchildren (h s)))).
    { rewrite Es. apply in_app_iff. right; left; reflexivity. }
    apply in_map_iff in H as (y & H & _). discriminate H. }
  split.
  - split; [|split; [constructor|split; [intros n []|exact HO]]].
    split; [exact D|]. split; [exact W|]. split; [exact HK|]. split; intros k x [].
  - exact D.
  - intros n c [Hn1 Hn2] Hc. split; [rewrite <- HK; eapply child_not_set; eassumption|].
    pose proof (child_smaller _ _ _ _ D Hc). lia.
  - intros b x Hx. apply in_map_iff in Hx as (y & [= <- <-] & Hy). split; [|apply Hsz, Hy].
    rewrite <- HK. eapply child_not_set; eassumption.
  - intros v. cbn [In]. split; [intros []|]. intros [[]|H].
    apply in_map_iff in H as (y & H & _). discriminate H.
  - intros s1 c s2 Es. exfalso. exact (NT _ _ _ Es).
  - intros v _ [].
  - intros s1 c s2 Es. exfalso. exact (NT _ _ _ Es).
  - intros x [].
  - intros n c _ [].
  - intros n c [].
  - intros c _ [].
  - intros c Hc. right. exists false. apply in_map. exact Hc.
Qed.

Lemma cse_set_same X T K depth fuel roots others s g h :
  denotes h T -> well_shaped h -> (forall n, nkind (h n) = K n) -> Forall (fun r => K r = KSet) roots -> In s roots ->
  (forall c, In c (nchildren (h s)) -> size (T c) <= depth) ->
  Forall (fun t => K t = KSet /\ maximal T h [t]) others ->
  same_program X roots g h ->
  match cse_set_recorded depth fuel g s, cse_set depth fuel h s with
  | Some g', Some h' => same_program X roots g' h'
  | None, None => True
  | _, _ => False
  end.
Proof.
  intros D W HK Hr Hs Hsz HO S. unfold cse_set_recorded, cse_set.
  assert (Rs : reachable h roots s) by (apply reach_start; exact Hs). rewrite (sp_agree _ _ _ _ S s Rs).
  pose proof (inv_start T K depth h others s D W HK Hsz HO) as I.
  pose proof (loop_same X T K depth roots others s Hr fuel _ _ _ _ _ (fst g) (snd g) I) as L.
  rewrite <- surjective_pairing in L. specialize (L S).
  destruct (traverse (cse_node_recorded depth) fuel (map (pair false) (nchildren (h s))) [] (fst g) (snd g, []))
    as [[g' [ps' m']]|], (traverse (cse_node depth) fuel (map (pair false) (nchildren (h s))) [] h []) as [[h' m]|];
    cbn [option_map fst snd]; apply L.
  1,4,7,10: intros e He; apply in_map_iff in He as (y & Hy & _); discriminate Hy.
  all: try (intros e []).
  all: intros e He; apply in_map_iff in He as (y & Hy & Hin); injection Hy as <-; right; eapply reach_child; eassumption.
Qed.

(** The two passes together: whatever the fuel. *)
Lemma optimize_cse_same X T depth fuel ft pt g :
  denotes (fst g) T -> well_shaped (fst g) -> nkind (fst g ft) = KSet -> nkind (fst g pt) = KSet ->
  size (T ft) + size (T pt) <= depth -> same_program X [ft; pt] g (fst g) ->
  match optimize_cse_recorded depth fuel g ft pt, optimize_cse depth fuel (fst g) ft pt with
  | Some g', Some h' => same_program X [ft; pt] g' h'
  | None, None => True
  | _, _ => False
  end.
Proof.
  intros D W Hft Hpt Hd S. set (K := fun n => nkind (fst g n)).
  assert (Hr : Forall (fun r => K r = KSet) [ft; pt]) by (repeat constructor; assumption).
  assert (Hs1 : forall c, In c (nchildren (fst g ft)) -> size (T c) <= depth).
  { intros c Hc. pose proof (child_smaller _ _ _ _ D Hc). lia. }
  pose proof (cse_set_same X T K depth fuel [ft; pt] [] ft g (fst g) D W (fun n => eq_refl) Hr (or_introl eq_refl) Hs1 (Forall_nil _) S) as L1.
  unfold optimize_cse_recorded, optimize_cse.
  destruct (cse_set_recorded depth fuel g ft) as [g1|], (cse_set depth fuel (fst g) ft) as [h1|] eqn:E1; try contradiction; [|exact I].
  destruct (cse_set_correct T K depth fuel (fst g) [] ft h1 D W (fun n => eq_refl) Hft Hs1 (Forall_nil _) E1) as (D1 & W1 & HK1 & HM1).
  apply (cse_set_same X T K depth fuel [ft; pt] [ft] pt g1 h1 D1 W1 HK1 Hr (or_intror (or_introl eq_refl))); [|exact HM1|exact L1].
  intros c Hc. pose proof (child_smaller _ _ _ _ D1 Hc). lia.
Qed.

Lemma agree_reachable (h h' : heap) roots : (forall n, reachable h roots n -> h' n = h n) ->
  forall n, reachable h' roots n <-> reachable h roots n.
Proof.
  intros A n. split.
  - induction 1 as [n Hn|n c Hn IH Hc]; [apply reach_start; exact Hn|]. rewrite (A n IH) in Hc. eapply reach_child; eassumption.
  - induction 1 as [n Hn|n c Hn IH Hc]; [apply reach_start; exact Hn|]. rewrite <- (A n Hn) in Hc. eapply reach_child; eassumption.
Qed.
Lemma same_complete X roots g h : same_program X roots g h -> complete roots g.
Proof.
  intros S p c Hp Hc. pose proof (agree_reachable h (fst g) roots (sp_agree _ _ _ _ S)) as R.
  apply R in Hp. rewrite (sp_agree _ _ _ _ S p Hp) in Hc. exact (sp_complete _ _ _ _ S p c Hp Hc).
Qed.
Lemma same_only (X : Prop) roots g h : X -> same_program X roots g h -> only_users roots g.
Proof.
  intros x S p c Hc Hp. pose proof (agree_reachable h (fst g) roots (sp_agree _ _ _ _ S)) as R.
  apply R in Hc. destruct (sp_only _ _ _ _ S x p c Hc Hp) as [H1 H2].
  split; [apply R; exact H1|]. rewrite (sp_agree _ _ _ _ S p H1). exact H2.
Qed.
Lemma same_start roots g : complete roots g -> same_program (only_users roots g) roots g (fst g).
Proof. intros C. split; [reflexivity|exact C|]. intros O. exact O. Qed.

(** ** Queue sizes *)
Local Open Scope Z_scope.
Lemma fold_max_ge l x : In x l -> x <= fold_right Z.max 0 l.
Proof. induction l as [|y l IH]; [intros []|]. intros [->|H]; cbn; [lia|]. specialize (IH H). lia. Qed.
Lemma fold_max_pos l : 0 <= fold_right Z.max 0 l.
Proof. induction l; cbn; lia. Qed.
Lemma fold_max_incl l l' : incl l l' -> fold_right Z.max 0 l <= fold_right Z.max 0 l'.
Proof.
  intros H. induction l as [|x l IH]; cbn; [apply fold_max_pos|].
  assert (x <= fold_right Z.max 0 l') by (apply fold_max_ge, H; left; reflexivity).
  specialize (IH (fun y Hy => H y (or_intror Hy))). lia.
Qed.
Lemma siblings_in h nodes n c : In c (siblings h nodes n) <->
  exists p, In p nodes /\ In n (nchildren (h p)) /\ In c (nchildren (h p)) /\ c <> n.
Proof.
  unfold siblings. rewrite in_flat_map. split.
  - intros (p & Hp & H). destruct (existsb (Nat.eqb n) (nchildren (h p))) eqn:E; [|destruct H].
    apply existsb_in in E. apply filter_In in H as [H1 H2]. exists p. apply negb_true_iff, Nat.eqb_neq in H2. auto.
  - intros (p & Hp & H1 & H2 & H3). exists p. split; [exact Hp|]. rewrite (proj2 (existsb_in _ _) H1).
    apply filter_In. split; [exact H2|]. apply negb_true_iff, Nat.eqb_neq. exact H3.
Qed.
Lemma get_siblings_in g n c : In c (get_siblings g n) <-> exists p, In p (snd g n) /\ In c (nchildren (fst g p)) /\ c <> n.
Proof.
  unfold get_siblings. rewrite in_flat_map. split.
  - intros (p & Hp & H). apply filter_In in H as [H1 H2]. apply negb_true_iff, Nat.eqb_neq in H2. eauto.
  - intros (p & Hp & H1 & H2). exists p. split; [exact Hp|]. apply filter_In. split; [exact H1|]. apply negb_true_iff, Nat.eqb_neq. exact H2.
Qed.
Lemma size_at_least roots g cls wpd bpd const nodes n : complete roots g ->
  (forall p, In p nodes -> reachable (fst g) roots p) ->
  scq_size (fst g) cls wpd bpd const nodes n <= recorded_size g cls wpd bpd const n.
Proof.
  intros C Hn.
  assert (H : incl (map wpd (siblings (fst g) nodes n)) (map wpd (get_siblings g n))).
  { intros x Hx. apply in_map_iff in Hx as (c & <- & Hc). apply in_map. apply siblings_in in Hc as (p & Hp & H1 & H2 & H3).
    apply get_siblings_in. exists p. split; [apply C; [apply Hn, Hp|exact H1]|auto]. }
  apply fold_max_incl in H. unfold scq_size, recorded_size. destruct (cls n); lia.
Qed.
Lemma size_equal roots g cls wpd bpd const nodes n : complete roots g -> only_users roots g ->
  (forall p, In p nodes <-> reachable (fst g) roots p) -> reachable (fst g) roots n ->
  recorded_size g cls wpd bpd const n = scq_size (fst g) cls wpd bpd const nodes n.
Proof.
  intros C O Hn R. pose proof (size_at_least roots g cls wpd bpd const nodes n C (fun p => proj1 (Hn p))) as L.
  assert (H : incl (map wpd (get_siblings g n)) (map wpd (siblings (fst g) nodes n))).
  { intros x Hx. apply in_map_iff in Hx as (c & <- & Hc). apply in_map. apply get_siblings_in in Hc as (p & Hp & H1 & H2).
    destruct (O p n R Hp) as [H3 H4]. apply siblings_in. exists p. split; [apply Hn, H3|auto]. }
  apply fold_max_incl in H. revert L. unfold scq_size, recorded_size. destruct (cls n); lia.
Qed.
Lemma tl_parents_equal roots g cls nodes n : complete roots g -> only_users roots g ->
  (forall p, In p nodes <-> reachable (fst g) roots p) -> reachable (fst g) roots n ->
  has_only_tl_parents g cls n = only_tl_parents (fst g) cls nodes n.
Proof.
  intros C O Hn R. apply eq_true_iff_eq. unfold has_only_tl_parents, only_tl_parents. rewrite !forallb_forall. split.
  - intros H p Hp. destruct (existsb (Nat.eqb n) (nchildren (fst g p))) eqn:E; [|reflexivity]. cbn.
    apply H, C; [apply Hn, Hp|apply existsb_in, E].
  - intros H p Hp. destruct (O p n R Hp) as [H1 H2]. apply Hn in H1. specialize (H p H1).
    rewrite (proj2 (existsb_in _ _) H2) in H. exact H.
Qed.
Local Close Scope Z_scope.

(** ** Assembling *)
Lemma postorder_agree (h h' : heap) roots starts fuel : (forall n, reachable h roots n -> h' n = h n) -> incl starts roots ->
  postorder fuel h' starts = postorder fuel h starts.
Proof.
  intros A Hs. unfold postorder.
  set (act := fun (e : nat) (h : heap) (out : list nat) => (h, out ++ [e])).
  enough (H : forall fuel stack vis out, (forall b e, In (b, e) stack -> reachable h roots e) ->
    option_map snd (traverse act fuel stack vis h' out) = option_map snd (traverse act fuel stack vis h out)).
  { apply (H fuel (map (pair false) (rev starts)) [] []).
    intros b e He. apply in_map_iff in He as (y & Hy & Hin). injection Hy as _ <-. apply in_rev in Hin. apply reach_start, Hs, Hin. }
  clear fuel. induction fuel as [|fuel IH]; intros stack vis out Hst; [reflexivity|]. cbn [traverse].
  destruct stack as [|[[|] e] stack]; [reflexivity| |].
  - unfold act at 1 3. apply IH. intros b x Hx. apply (Hst b). right. exact Hx.
  - assert (Re : reachable h roots e) by (apply (Hst false); left; reflexivity).
    destruct (existsb (Nat.eqb e) vis).
    + apply IH. intros b x Hx. apply (Hst b). right. exact Hx.
    + rewrite (A e Re). apply IH. intros b x Hx. apply in_app_iff in Hx as [Hx|[Hx|Hx]].
      * apply in_map_iff in Hx as (y & Hy & Hin). injection Hy as _ <-. eapply reach_child; eassumption.
      * injection Hx as _ <-. exact Re.
      * apply (Hst b). right. exact Hx.
Qed.

Lemma gen_nodes_agree h h' cls size size' nodes code offset : (forall n, In n nodes -> h' n = h n) -> (forall n, In n nodes -> size' n = size n) ->
  forall es st, incl es nodes -> gen_nodes h' cls size' nodes code offset es st = gen_nodes h cls size nodes code offset es st.
Proof.
  intros A B. induction es as [|e es IH]; intros st Hes; [reflexivity|]. cbn [gen_nodes].
  assert (He : In e nodes) by (apply Hes; left; reflexivity).
  assert (E : gen_node h' cls size' nodes code offset st e = gen_node h cls size nodes code offset st e).
  { assert (O : only_tl_parents h' cls nodes e = only_tl_parents h cls nodes e).
    { unfold only_tl_parents. clear - A. set (F := fun (k : heap) p => negb (existsb (Nat.eqb e) (nchildren (k p))) || match engine_of (cls p) with EngTl => true | _ => false end).
      assert (H : forall l, incl l nodes -> forallb (F h') l = forallb (F h) l).
      { induction l as [|p l IH]; intros Hl; [reflexivity|]. cbn [forallb]. rewrite IH by (intros x Hx; apply Hl; right; exact Hx).
        f_equal. unfold F. rewrite A by (apply Hl; left; reflexivity). reflexivity. }
      apply H, incl_refl. }
    unfold gen_node, gen_cg, gen_tl, gen_bz. rewrite O, (A e He), (B e He). reflexivity. }
  rewrite E. destruct (gen_node h cls size nodes code offset st e); [|reflexivity].
  apply IH. intros x Hx. apply Hes. right. exact Hx.
Qed.

Lemma gen_recorded_same T g h cls wpd bpd const ft pt : denotes h T -> same_program True [ft; pt] g h ->
  exists fuel0, forall fuel, fuel0 <= fuel ->
    gen_assembly_recorded fuel g cls wpd bpd const ft pt = gen_assembly fuel h cls wpd bpd const ft pt.
Proof.
  intros D S. destruct (postorder_correct h T [ft] D) as (f1 & fts & E1 & _ & R1 & _).
  destruct (postorder_correct h T [pt] D) as (f2 & pts & E2 & _ & R2 & _).
  exists (f1 + f2). intros fuel Hf. unfold gen_assembly_recorded, gen_assembly.
  pose proof (sp_agree _ _ _ _ S) as A. pose proof (agree_reachable h (fst g) [ft; pt] A) as RA.
  rewrite (postorder_agree h (fst g) [ft; pt] [ft] fuel A) by (intros x [<-|[]]; left; reflexivity).
  rewrite (postorder_agree h (fst g) [ft; pt] [pt] fuel A) by (intros x [<-|[]]; right; left; reflexivity).
  rewrite E1, E2 by lia.
  assert (Hn : forall p, In p (fts ++ pts) <-> reachable h [ft; pt] p).
  { intros p. rewrite in_app_iff, R1, R2. split.
    - intros [H|H]; (eapply reachable_mono; [|exact H]); intros x [<-|[]]; cbn; auto.
    - induction 1 as [p [<-|[<-|[]]]|p c Hp [IH|IH] Hc]; [left|right|left|right]; try (apply reach_start; left; reflexivity); eapply reach_child; eassumption. }
  assert (Hz : forall p, In p (fts ++ pts) -> recorded_size g cls wpd bpd const p = scq_size h cls wpd bpd const (fts ++ pts) p).
  { intros p Hp. apply Hn in Hp.
    rewrite (size_equal [ft; pt] g cls wpd bpd const (fts ++ pts) p (same_complete _ _ _ _ S) (same_only True _ _ _ I S)).
    - unfold scq_size. assert (Es : siblings (fst g) (fts ++ pts) p = siblings h (fts ++ pts) p); [|rewrite Es; reflexivity].
      unfold siblings. assert (Hl : forall l, incl l (fts ++ pts) ->
        flat_map (fun q => if existsb (Nat.eqb p) (nchildren (fst g q)) then filter (fun c => negb (c =? p)) (nchildren (fst g q)) else []) l =
        flat_map (fun q => if existsb (Nat.eqb p) (nchildren (h q)) then filter (fun c => negb (c =? p)) (nchildren (h q)) else []) l).
      { induction l as [|q l IH]; intros Hl; [reflexivity|]. cbn [flat_map]. rewrite IH by (intros x Hx; apply Hl; right; exact Hx).
        rewrite (A q) by (apply Hn, Hl; left; reflexivity). reflexivity. }
      apply Hl, incl_refl.
    - intros q. rewrite Hn. symmetry. apply RA.
    - apply RA. exact Hp. }
  assert (Ha : forall n, In n (fts ++ pts) -> fst g n = h n) by (intros n Hin; apply A, Hn, Hin).
  unfold gen_assembly_of.
  rewrite (gen_nodes_agree h (fst g) cls _ _ (fts ++ pts) ft_code 0%Z Ha Hz fts) by (apply incl_appl, incl_refl).
  destruct (gen_nodes h cls _ (fts ++ pts) ft_code 0 fts (Gen [] [] [] 0)) as [st|]; [|reflexivity].
  rewrite (gen_nodes_agree h (fst g) cls _ _ (fts ++ pts) pt_code _ Ha Hz pts) by (apply incl_appr, incl_refl). reflexivity.
Qed.

(** The whole back end by recorded parents. *)
Lemma traverse_stable {A} (act : nat -> heap -> A -> heap * A) fuel fuel' stack vis h a r : fuel <= fuel' ->
  traverse act fuel stack vis h a = Some r -> traverse act fuel' stack vis h a = Some r.
Proof. intros H E. replace fuel' with (fuel' - fuel + fuel) by lia. apply traverse_more. exact E. Qed.
Lemma cse_set_stable depth fuel fuel' g s g' : fuel <= fuel' ->
  cse_set_recorded depth fuel g s = Some g' -> cse_set_recorded depth fuel' g s = Some g'.
Proof.
  intros H E. unfold cse_set_recorded in *.
  match type of E with option_map _ ?t = _ => destruct t as [r|] eqn:E1; [|discriminate E] end.
  apply (traverse_stable _ _ _ _ _ _ _ _ H) in E1.
  match goal with |- option_map ?f _ = _ => exact (eq_trans (f_equal (option_map f) E1) E) end.
Qed.
Lemma cse_recorded_stable depth fuel fuel' g ft pt g' : fuel <= fuel' ->
  optimize_cse_recorded depth fuel g ft pt = Some g' -> optimize_cse_recorded depth fuel' g ft pt = Some g'.
Proof.
  intros H. unfold optimize_cse_recorded. destruct (cse_set_recorded depth fuel g ft) as [g1|] eqn:E1; [|discriminate].
  rewrite (cse_set_stable _ _ _ _ _ _ H E1). apply cse_set_stable. exact H.
Qed.
Lemma back_end_same T g cls wpd bpd const ft pt :
  denotes (fst g) T -> well_shaped (fst g) -> nkind (fst g ft) = KSet -> nkind (fst g pt) = KSet ->
  complete [ft; pt] g -> only_users [ft; pt] g ->
  exists depth0, forall depth, depth0 <= depth -> exists fuel0 g' h',
    forall fuel, fuel0 <= fuel ->
      optimize_cse_recorded depth fuel g ft pt = Some g' /\ optimize_cse depth fuel (fst g) ft pt = Some h' /\
      gen_assembly_recorded fuel g' cls wpd bpd const ft pt = gen_assembly fuel h' cls wpd bpd const ft pt.
Proof.
  intros D W K1 K2 C O. destruct (optimize_cse_correct T (fst g) ft pt D W K1 K2) as (d0 & HC).
  exists (d0 + (size (T ft) + size (T pt))). intros depth Hd. destruct (HC depth) as (f1 & h' & E1 & D' & _); [lia|].
  assert (L : forall fuel, match optimize_cse_recorded depth fuel g ft pt, optimize_cse depth fuel (fst g) ft pt with
                           | Some g', Some h' => same_program True [ft; pt] g' h' | None, None => True | _, _ => False end).
  { intros fuel. apply (optimize_cse_same True T); auto; [lia|]. split; [reflexivity|exact C|]. intros _. exact O. }
  pose proof (L f1) as L1. rewrite (E1 f1 (le_n _)) in L1.
  destruct (optimize_cse_recorded depth f1 g ft pt) as [g'|] eqn:Eg; [|contradiction].
  destruct (gen_recorded_same T g' h' cls wpd bpd const ft pt D' L1) as (f2 & E2).
  exists (f1 + f2), g', h'. intros fuel Hf. split; [eapply cse_recorded_stable; [|exact Eg]; lia|]. split; [apply E1; lia|apply E2; lia].
Qed.
(** CSE ends, keeps the record complete, and leaves the same program as with true
    users. *)
Lemma cse_complete T g ft pt :
  denotes (fst g) T -> well_shaped (fst g) -> nkind (fst g ft) = KSet -> nkind (fst g pt) = KSet -> complete [ft; pt] g ->
  exists depth0, forall depth, depth0 <= depth -> exists fuel0 g' h',
    (forall fuel, fuel0 <= fuel -> optimize_cse_recorded depth fuel g ft pt = Some g' /\ optimize_cse depth fuel (fst g) ft pt = Some h') /\
    (forall n, reachable h' [ft; pt] n -> fst g' n = h' n) /\
    complete [ft; pt] g' /\ (only_users [ft; pt] g -> only_users [ft; pt] g').
Proof.
  intros D W K1 K2 C. destruct (optimize_cse_correct T (fst g) ft pt D W K1 K2) as (d0 & HC).
  exists (d0 + (size (T ft) + size (T pt))). intros depth Hd. destruct (HC depth) as (f1 & h' & E1 & D' & _); [lia|].
  pose proof (optimize_cse_same (only_users [ft; pt] g) T depth f1 ft pt g D W K1 K2 ltac:(lia) (same_start _ _ C)) as L1.
  rewrite (E1 f1 (le_n _)) in L1. destruct (optimize_cse_recorded depth f1 g ft pt) as [g'|] eqn:Eg; [|contradiction].
  exists f1, g', h'. split; [intros fuel Hf; split; [eapply cse_recorded_stable; [|exact Eg]; lia|apply E1; lia]|].
  split; [apply (sp_agree _ _ _ _ L1)|]. split; [exact (same_complete _ _ _ _ L1)|]. intros O. exact (same_only _ _ _ _ O L1).
Qed.
