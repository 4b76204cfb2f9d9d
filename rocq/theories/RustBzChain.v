(** * From the program graph to the atomics of the Rust monitor (proofs) *)
From Coq Require Import List Arith ZArith Bool Lia.
Require Import Verif.Graph Verif.GraphSpec Verif.GraphProofs Verif.Binary Verif.BinarySpec Verif.BinaryProofs.
Require Import Verif.Layout Verif.Booleanizer Verif.Assembly Verif.AssemblySpec Verif.AssemblyProofs Verif.AssembleTotal Verif.LayoutSpec.
Require Import Verif.BooleanizerSpec Verif.BooleanizerOps Verif.BooleanizerGen Verif.BooleanizerProofs Verif.BooleanizerChain.
Require Import Verif.RustBooleanizer Verif.RustBzSpec Verif.RustBzOps Verif.RustBzArith Verif.RustBzProofs.
Import ListNotations.
Local Open Scope Z_scope.

Section Chain.
Variables (h : heap) (T : nat -> tree) (cls : nat -> nclass) (types : Z -> bool).
Variables (wpd_of bpd_of : nat -> Z) (const : Z) (ft pt : nat) (aux : list Z).
Hypothesis D : denotes h T.
Hypothesis Sh : tl_shaped h cls.
Hypothesis A1 : forall n, reachable h [ft] n -> assemblable h cls ft_code n.
Hypothesis A2 : forall n, reachable h [pt] n -> assemblable h cls pt_code n.
Hypothesis Ap : forall n, reachable h [ft] n -> reachable h [pt] n -> engine_of (cls n) <> EngBz.
Notation in_program := (in_program h ft pt).
Hypothesis Nm : numeric h cls types in_program.

Definition valued F le inp t : Prop := forall n e int, in_program n -> stands h cls types n e int -> exists v, saturated F le inp t e v.
Lemma rust_chain :
  exists fuel0 asm, (forall fuel, (fuel0 <= fuel)%nat -> gen_assembly fuel h cls wpd_of bpd_of const ft pt = Some asm) /\
  forall bytes, Forall fits asm -> Forall small aux -> assemble_binary asm aux = Some bytes ->
  exists acts, rust_load bytes = Some acts /\
    forall F le inp, typed types inp ->
      (forall t s, Z.of_nat t < 2 ^ 31 -> rust_run F le acts inp (S t) = Some s ->
         forall n aid x e v, in_program n -> cls n = CAtomic aid -> nchildren (h n) = [x] -> stands h cls types x e true ->
         saturated F le inp t e (VInt v) -> rust_atomics s aid = negb (v =? 0)) /\
      (forall t, Z.of_nat t <= 2 ^ 31 -> (forall t', (t' < t)%nat -> valued F le inp t') -> exists s, rust_run F le acts inp t = Some s) /\
      (forall t s, Z.of_nat t < 2 ^ 31 -> (forall t', (t' <= t)%nat -> valued F le inp t') ->
         rust_run F le acts inp (S t) = Some s -> rust_overflow s = true ->
         exists n e int, in_program n /\ stands h cls types n e int /\ overflows F le inp t e) /\
      (forall t s n code e int, Z.of_nat t < 2 ^ 31 -> valued F le inp t -> rust_run F le acts inp (S t) = Some s ->
         in_program n -> cls n = Assembly.CBz code -> arithmetic code -> stands h cls types n e int ->
         (forall m code', in_program m -> cls m = Assembly.CBz code' -> arithmetic code' -> m = n) ->
         (rust_overflow s = true <-> overflows F le inp t e)).
Proof.
  destruct Nm as [Nn Nu Np].
  destruct (postorder_correct h T [ft] D) as (f1 & fts & E1 & N1 & I1 & O1).
  destruct (postorder_correct h T [pt] D) as (f2 & pts & E2 & N2 & I2 & O2).
  assert (A1' : forall n, In n fts -> assemblable h cls ft_code n) by (intros n Hn; apply A1, I1, Hn).
  assert (A2' : forall n, In n pts -> assemblable h cls pt_code n) by (intros n Hn; apply A2, I2, Hn).
  set (size := scq_size h cls wpd_of bpd_of const (fts ++ pts)).
  destruct (gen_assembly_of_total h cls size fts pts Sh O1 O2 A1' A2') as [asm Ea].
  assert (Ip : forall n, In n (fts ++ pts) <-> in_program n) by (intros n; rewrite in_app_iff, I1, I2; reflexivity).
  assert (Ow : forall n, bz_owner h cls (fts ++ pts) n = true -> engine_of (cls n) = EngBz).
  { intros n. unfold bz_owner. destruct (engine_of (cls n)); congruence. }
  assert (Nd : NoDup (filter (bz_owner h cls (fts ++ pts)) (fts ++ pts))).
  { rewrite filter_app. apply NoDup_app_disjoint; [apply NoDup_filter, N1|apply NoDup_filter, N2|].
    intros n H1 H2. apply filter_In in H1 as [H1 O]. apply filter_In in H2 as [H2 _]. apply I1 in H1. apply I2 in H2.
    exact (Ap n H1 H2 (Ow n O)). }
  destruct (gen_assembly_bz h cls size fts pts asm Nd Ea) as (d & rest & [K En] & Easm & Hr).
  assert (Kin : forall n i, In (n, i) d -> in_program n).
  { intros n i H. apply Ip. apply (in_map fst) in H. cbn in H. rewrite K in H. apply filter_In in H. apply H. }
  exists (Nat.max f1 f2), asm. split.
  { intros fuel Hf. unfold gen_assembly. rewrite E1, E2 by lia. exact Ea. }
  intros bytes Hf Ha Eb. exists (map rust_result asm). split; [apply (rust_load_value asm aux bytes Hf Ha Eb)|].
  intros F le inp Ty.
  assert (Ld : rust_bz_load (map rust_result asm) = rust_bz_load (rust_loaded (prev_last d))).
  { rewrite Easm, map_app. unfold rust_bz_load. rewrite fold_left_app.
    transitivity (rust_from (rust_from ([], fun _ => RValue 0 0) (map rust_result (map IBz (values (prev_last d))))) (map rust_result rest)); [reflexivity|].
    rewrite rust_rest by exact Hr. unfold rust_from, rust_loaded, values. rewrite !map_map. reflexivity. }
  assert (Tb : fst (rust_bz_load (rust_loaded (prev_last d))) = code_of (prev_last d)) by apply (rust_table (prev_last d) []).
  set (s1 := RustState (snd (rust_bz_load (rust_loaded (prev_last d)))) (fun _ => RValue 0 0) (fun _ => false) false).
  assert (Rl : forall t, rust_run F le (map rust_result asm) inp t = rust_run_from F le (code_of (prev_last d)) s1 inp t).
  { intros t. unfold rust_run, s1. rewrite Ld. rewrite <- Tb. destruct (rust_bz_load (rust_loaded (prev_last d))) as [tb vb]. reflexivity. }
  assert (Fit : forall n i, In (n, i) d -> bz_fits i).
  { intros n i H. rewrite Forall_forall in Hf. apply (Hf (IBz i)). rewrite Easm. apply in_or_app. left.
    apply in_map. unfold values. apply in_map_iff. exists (n, i). split; [reflexivity|].
    unfold prev_last. rewrite in_app_iff, !filter_In. destruct (is_prev (n, i)); auto. }
  assert (Mn : forall n i, In (n, i) d -> bz_class (cls n) -> exists e int, stands h cls types n e int).
  { intros n i H. apply Nn, (Kin n i H). }
  assert (Pa : forall n i, In (n, i) d -> prev_apart h cls n).
  { intros n i H. apply Np, (Kin n i H). }
  assert (Ad : forall n i m j aid, In (n, i) d -> In (m, j) d -> cls n = CAtomic aid -> cls m = CAtomic aid -> n = m).
  { intros n i m j aid H1 H2. apply Nu; [exact (Kin n i H1)|exact (Kin m j H2)]. }
  assert (Kd : NoDup (map fst d)) by (rewrite K; exact Nd).
  assert (Sl : const_kept cls d (rust_values s1) /\ prev_kept h cls types F le inp d 0 (rust_values s1)).
  { eapply rust_slots; eassumption. }
  destruct Sl as [Cs Ps].
  assert (Va : forall t, valued F le inp t -> all_valued h cls types F le inp d t).
  { intros t V n i e int H. apply V, (Kin n i H). }
  assert (Hin : forall n, in_program n -> engine_of (cls n) = EngBz -> (forall b, cls n <> CBool b) -> bz_owner h cls (fts ++ pts) n = true -> exists i, In (n, i) d).
  { intros n Hn _ _ O. assert (Hk : In n (map fst d)).
    { rewrite K. apply filter_In. split; [apply Ip, Hn|exact O]. }
    apply in_map_iff in Hk as ([n' i] & E & Hi). cbn in E. subst. eauto. }
  split; [|split; [|split]].
  - intros t s Ht R n aid x e v Hn Cn Ch S Y. rewrite Rl in R.
    destruct (Hin n Hn) as [i Hi]; [rewrite Cn; reflexivity|rewrite Cn; discriminate|unfold bz_owner; rewrite Cn; reflexivity|].
    assert (An : rust_answers h cls types F le inp d t s) by (eapply rust_run_answers; eassumption).
    exact (An n i aid x e v Hi Cn Ch S Y).
  - intros t Ht Df. rewrite Rl. eapply rust_run_total; try eassumption. intros t' L. apply Va, Df, L.
  - intros t s Ht Df R O. rewrite Rl in R.
    assert (Q : exists n i e int, In (n, i) d /\ stands h cls types n e int /\ overflows F le inp t e).
    { eapply rust_run_cause; try eassumption; [reflexivity|]. intros t' L. apply Va, Df, L. }
    destruct Q as (n & i & e & int & Hi & R'). exists n, e, int. split; [exact (Kin n i Hi)|exact R'].
  - intros t s n code e int Ht V R Hn Cn Ar S Uq. rewrite Rl in R.
    assert (X : exists before, rust_run_from F le (code_of (prev_last d)) s1 inp t = Some before /\
      (all_valued h cls types F le inp d t -> flag_after h cls types F le inp t d (rust_overflow before) (rust_overflow s))).
    { eapply rust_run_answers; eassumption. }
    destruct X as (before & _ & Fl). destruct (Fl (Va t V)) as (_ & _ & C).
    destruct (Hin n Hn) as [i Hi]; [rewrite Cn; reflexivity|rewrite Cn; discriminate|unfold bz_owner; rewrite Cn; reflexivity|].
    assert (Op : forall k m j, nth_error d k = Some (m, j) -> forall code', cls m = Assembly.CBz code' -> bz_operator j = code').
    { intros k m j Hk code' Cm. destruct (En k m j Hk) as [_ E]. rewrite Cm in E.
      destruct (nchildren (h m)) as [|? [|? [|? ?]]]; [exact E|apply E|apply E|exact E]. }
    assert (Cl : forall m j, In (m, j) d -> arithmetic (bz_operator j) -> m = n).
    { intros m j Hm Aj. pose proof Hm as Hm'. apply In_nth_error in Hm' as [k Hk]. destruct (En k m j Hk) as [_ E].
      assert (B : bz_class (cls m)).
      { destruct (item_class h cls d En k m j Hk) as [B|[aid C']]; [exact B|]. exfalso. rewrite C' in E. destruct (nchildren (h m)); [contradiction|].
        destruct E as (Eo & _). rewrite Eo in Aj. revert Aj. not_arith. }
      destruct (Mn m j Hm B) as (em & intm & Sm).
      inversion Sm as [n' q Ec Hq|n' w Cv|n' Ec|n' o c x e0 int0 Ec Uc Ch Sx|n' o c x1 x2 e1 e2 int0 Ec Uc Ch S1 S2|n' x0 x w e0 Ec Ch Cv Sx]; subst.
      - exfalso. rewrite Ec in E. destruct E as [Eo _]. rewrite Eo in Aj. revert Aj. unfold load_code. destruct (types q); not_arith.
      - exfalso. destruct w; destruct Cv as [Cv _]; rewrite Cv in E; destruct E as [Eo _]; rewrite Eo in Aj; revert Aj; not_arith.
      - exfalso. rewrite Ec in E. rewrite E in Aj. revert Aj. not_arith.
      - apply (Uq m c); [exact (Kin m j Hm)|exact Ec|]. rewrite <- (Op k m j Hk c Ec). exact Aj.
      - apply (Uq m c); [exact (Kin m j Hm)|exact Ec|]. rewrite <- (Op k m j Hk c Ec). exact Aj.
      - exfalso. rewrite (Op k m j Hk _ Ec) in Aj. revert Aj. not_arith. }
    pose proof Hi as Hi'. apply In_nth_error in Hi' as [k Hk]. destruct (in_split _ _ Hi) as (l1 & l2 & Es).
    apply (C l1 n i l2 e int Es); [rewrite (Op k n i Hk code Cn); exact Ar|exact S|].
    apply Forall_forall. intros [m j] Hm Aj. cbn [snd] in Aj.
    assert (m = n) as -> by (apply (Cl m j); [rewrite Es; apply in_or_app; right; right; exact Hm|exact Aj]).
    rewrite Es, map_app in Kd. cbn in Kd. apply NoDup_remove_2 in Kd. apply Kd. apply in_or_app. right. apply (in_map fst) in Hm. exact Hm.
Qed.
End Chain.

Lemma rust_values_chain h T cls types wpd_of bpd_of const ft pt aux :
  denotes h T -> tl_shaped h cls ->
  (forall n, reachable h [ft] n -> assemblable h cls ft_code n) ->
  (forall n, reachable h [pt] n -> assemblable h cls pt_code n) ->
  (forall n, reachable h [ft] n -> reachable h [pt] n -> engine_of (cls n) <> EngBz) ->
  numeric h cls types (in_program h ft pt) ->
  exists fuel0 asm, (forall fuel, (fuel0 <= fuel)%nat -> gen_assembly fuel h cls wpd_of bpd_of const ft pt = Some asm) /\
  forall bytes, Forall fits asm -> Forall small aux -> assemble_binary asm aux = Some bytes ->
  exists acts, rust_load bytes = Some acts /\
    forall F le inp, typed types inp ->
      (forall t s, Z.of_nat t < 2 ^ 31 -> rust_run F le acts inp (S t) = Some s ->
         forall n aid x e v, in_program h ft pt n -> cls n = CAtomic aid -> nchildren (h n) = [x] -> stands h cls types x e true ->
         saturated F le inp t e (VInt v) -> rust_atomics s aid = negb (v =? 0)) /\
      (forall t, Z.of_nat t <= 2 ^ 31 ->
         (forall t' n e int, (t' < t)%nat -> in_program h ft pt n -> stands h cls types n e int -> exists v, saturated F le inp t' e v) ->
         exists s, rust_run F le acts inp t = Some s).
Proof.
  intros D Sh A1 A2 Ap Nm. destruct (rust_chain h T cls types wpd_of bpd_of const ft pt aux D Sh A1 A2 Ap Nm) as (f & asm & E & H).
  exists f, asm. split; [exact E|]. intros bytes Hf Ha Eb. destruct (H bytes Hf Ha Eb) as (acts & L & G).
  exists acts. split; [exact L|]. intros F le inp Ty. destruct (G F le inp Ty) as (R1 & R2 & _). split; [exact R1|].
  intros t Ht V. apply (R2 t Ht). intros t' Lt n e int. apply V, Lt.
Qed.
Lemma rust_overflow_chain h T cls types wpd_of bpd_of const ft pt aux :
  denotes h T -> tl_shaped h cls ->
  (forall n, reachable h [ft] n -> assemblable h cls ft_code n) ->
  (forall n, reachable h [pt] n -> assemblable h cls pt_code n) ->
  (forall n, reachable h [ft] n -> reachable h [pt] n -> engine_of (cls n) <> EngBz) ->
  numeric h cls types (in_program h ft pt) ->
  exists fuel0 asm, (forall fuel, (fuel0 <= fuel)%nat -> gen_assembly fuel h cls wpd_of bpd_of const ft pt = Some asm) /\
  forall bytes, Forall fits asm -> Forall small aux -> assemble_binary asm aux = Some bytes ->
  exists acts, rust_load bytes = Some acts /\
    forall F le inp, typed types inp ->
      (forall t s, Z.of_nat t < 2 ^ 31 ->
         (forall t' n e int, (t' <= t)%nat -> in_program h ft pt n -> stands h cls types n e int -> exists v, saturated F le inp t' e v) ->
         rust_run F le acts inp (S t) = Some s -> rust_overflow s = true ->
         exists n e int, in_program h ft pt n /\ stands h cls types n e int /\ overflows F le inp t e) /\
      (forall t s n code e int, Z.of_nat t < 2 ^ 31 ->
         (forall n e int, in_program h ft pt n -> stands h cls types n e int -> exists v, saturated F le inp t e v) ->
         rust_run F le acts inp (S t) = Some s ->
         in_program h ft pt n -> cls n = Assembly.CBz code -> arithmetic code -> stands h cls types n e int ->
         (forall m code', in_program h ft pt m -> cls m = Assembly.CBz code' -> arithmetic code' -> m = n) ->
         (rust_overflow s = true <-> overflows F le inp t e)).
Proof.
  intros D Sh A1 A2 Ap Nm. destruct (rust_chain h T cls types wpd_of bpd_of const ft pt aux D Sh A1 A2 Ap Nm) as (f & asm & E & H).
  exists f, asm. split; [exact E|]. intros bytes Hf Ha Eb. destruct (H bytes Hf Ha Eb) as (acts & L & G).
  exists acts. split; [exact L|]. intros F le inp Ty. destruct (G F le inp Ty) as (_ & _ & R3 & R4). split; [|exact R4].
  intros t s Ht V. apply (R3 t s Ht). intros t' Lt n e int. apply V, Lt.
Qed.

(** ** Where both monitors agree *)
Lemma exact_yields F le inp t e v : exact F le inp t e v -> yields F inp t e v.
Proof. induction 1; try (constructor; assumption); econstructor; eassumption. Qed.
Lemma wraps_int32 c z : wraps c z -> ~ ~ int32 z -> c = z.
Proof. unfold wraps, int32. intros (H & k & E) N. nia. Qed.
Lemma int32_dec z : ~ ~ int32 z -> int32 z.
Proof. unfold int32. lia. Qed.
Lemma exact_saturated F le inp t e v : exact F le inp t e v -> saturated F le inp t e v.
Proof.
  induction 1 as [| | |t o e a c H IH U N|t o e a c H IH U|t o e1 e2 a b c H1 IH1 H2 IH2 B N|t o e1 e2 a b v H1 IH1 H2 IH2 B S| |];
    try (constructor; assumption).
  - eapply s_unary_int; [exact IH|]. destruct o; cbn in *; try assumption; try (left; exact U);
      rewrite (wraps_int32 _ _ U N); apply nearest_same, int32_dec, N.
  - eapply s_unary_float; eassumption.
  - eapply s_binary_int; [exact IH1|exact IH2|]. destruct o; cbn in *; try assumption;
      try (rewrite (wraps_int32 _ _ B N); apply nearest_same, int32_dec, N).
    + destruct B as (I & r & E & Rr & S). left. split; [tauto|]. exists c, r. split; [exact E|]. split; [exact Rr|]. split; [exact S|]. apply nearest_same, I.
    + left. exact B.
    + destruct B as (I & [B|(Hb & [B|[B|[B _]]])]); (split; [exact I|]); [left; exact B|right; split; [exact Hb|left; exact B]|right; split; [exact Hb|right; exact B]|].
      exfalso. apply N. right. auto.
  - eapply s_binary_float; eassumption.
Qed.
Lemma exact_calm F le inp t e v : exact F le inp t e v -> ~ overflows F le inp t e.
Proof.
  intros H. inversion H as [| | |? o e' a c H' U N|? o e' a c H' U|? o e1 e2 a b c H1 H2 B N|? o e1 e2 a b w H1 H2 B S| |]; subst; cbn; try easy.
  - intros (a' & S' & O). apply exact_saturated in H'. pose proof (saturated_unique _ _ _ _ _ _ H' _ S') as Q. injection Q as <-. auto.
  - intros (a' & S' & O). apply exact_saturated in H'. pose proof (saturated_unique _ _ _ _ _ _ H' _ S') as Q. discriminate Q.
  - intros (a' & b' & S1 & S2 & O). apply exact_saturated in H1, H2.
    pose proof (saturated_unique _ _ _ _ _ _ H1 _ S1) as Q. injection Q as <-. pose proof (saturated_unique _ _ _ _ _ _ H2 _ S2) as Q. injection Q as <-. auto.
  - intros (a' & b' & S1 & S2 & O). apply exact_saturated in H1. pose proof (saturated_unique _ _ _ _ _ _ H1 _ S1) as Q. discriminate Q.
Qed.

Lemma booleanizers_agree h T cls types wpd_of bpd_of const ft pt aux :
  denotes h T -> tl_shaped h cls ->
  (forall n, reachable h [ft] n -> assemblable h cls ft_code n) ->
  (forall n, reachable h [pt] n -> assemblable h cls pt_code n) ->
  (forall n, reachable h [ft] n -> reachable h [pt] n -> engine_of (cls n) <> EngBz) ->
  numeric h cls types (in_program h ft pt) ->
  exists fuel0 asm, (forall fuel, (fuel0 <= fuel)%nat -> gen_assembly fuel h cls wpd_of bpd_of const ft pt = Some asm) /\
  forall bytes, Forall fits asm -> Forall small aux -> assemble_binary asm aux = Some bytes ->
  exists acts racts, load bytes = Some acts /\ rust_load bytes = Some racts /\
    forall F le inp t, typed types inp -> Z.of_nat t <= 2 ^ 31 ->
      (forall t' n e int, (t' < t)%nat -> in_program h ft pt n -> stands h cls types n e int -> exists v, exact F le inp t' e v) ->
      exists s r, bz_run F (fst (bz_load acts)) (snd (bz_load acts)) inp t = Some s /\ rust_run F le racts inp t = Some r /\
        rust_overflow r = false /\
        forall n aid x e, (0 < t)%nat -> in_program h ft pt n -> cls n = CAtomic aid -> nchildren (h n) = [x] -> stands h cls types x e true ->
          atomic_buffer s aid = rust_atomics r aid.
Proof.
  intros D Sh A1 A2 Ap Nm.
  destruct (chain h T cls types wpd_of bpd_of const ft pt aux D Sh A1 A2 Ap Nm) as (f1 & asm & E1 & HC).
  destruct (rust_chain h T cls types wpd_of bpd_of const ft pt aux D Sh A1 A2 Ap Nm) as (f2 & asm' & E2 & HR).
  assert (asm' = asm) as ->.
  { pose proof (E1 (Nat.max f1 f2) (Nat.le_max_l _ _)) as Q. rewrite (E2 (Nat.max f1 f2) (Nat.le_max_r _ _)) in Q. injection Q as Q. exact Q. }
  exists f1, asm. split; [exact E1|]. intros bytes Hf Ha Eb.
  destruct (HC bytes Hf Eb) as (acts & El & HC'). destruct (HR bytes Hf Ha Eb) as (racts & Er & HR').
  exists acts, racts. split; [exact El|]. split; [exact Er|]. intros F le inp t Ty Ht Ex.
  destruct (HC' F inp Ty) as [C1 C2]. destruct (HR' F le inp Ty) as (R1 & R2 & R3 & _).
  assert (V : forall t', (t' < t)%nat -> valued h cls types ft pt F le inp t').
  { intros t' L n e int Hn S. destruct (Ex t' n e int L Hn S) as [v X]. exists v. apply exact_saturated, X. }
  destruct (C2 t Ht) as [s Es].
  { intros t' n e int L Hn S. destruct (Ex t' n e int L Hn S) as [v X]. exists v. eapply exact_yields, X. }
  destruct (R2 t Ht V) as [r Rs]. exists s, r. split; [exact Es|]. split; [exact Rs|]. split.
  - destruct (rust_overflow r) eqn:O; [exfalso|reflexivity].
    destruct t as [|t]; [unfold rust_run in Rs; destruct (rust_bz_load racts); cbn in Rs; injection Rs as <-; discriminate|].
    destruct (R3 t r ltac:(lia) (fun t' L => V t' (proj2 (Nat.lt_succ_r t' t) L)) Rs O) as (n & e & int & Hn & S & Ov).
    destruct (Ex t n e int (Nat.lt_succ_diag_r t) Hn S) as [v X]. exact (exact_calm _ _ _ _ _ _ X Ov).
  - intros n aid x e Pt Hn Cn Ch S. destruct t as [|t]; [lia|]. clear Pt.
    destruct (C1 t s ltac:(lia) Es n aid x e Hn Cn Ch S) as (v & Y & A).
    assert (Hx : in_program h ft pt x).
    { destruct Hn as [Hn|Hn]; [left|right]; (eapply reach_child; [exact Hn|rewrite Ch; left; reflexivity]). }
    destruct (Ex t x e true (Nat.lt_succ_diag_r t) Hx S) as [w X].
    pose proof (yields_unique _ _ _ _ _ Y _ (exact_yields _ _ _ _ _ _ X)) as <-.
    rewrite A. symmetry. apply (R1 t r ltac:(lia) Rs n aid x e v Hn Cn Ch S), exact_saturated, X.
Qed.
