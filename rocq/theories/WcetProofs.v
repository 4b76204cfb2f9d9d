(** * Execution time (proofs) *)
From Coq Require Import List Arith ZArith Bool Lia Permutation.
Require Import Verif.Graph Verif.GraphSpec Verif.GraphProofs Verif.Binary Verif.Assembly Verif.AssemblySpec.
Require Import Verif.AssemblyProofs Verif.AssembleTotal Verif.BooleanizerGen Verif.BooleanizerProofs Verif.BooleanizerChain.
Require Import Verif.Wcet Verif.WcetSpec.
Import ListNotations.
Local Open Scope Z_scope.

Lemma sum_app a b : sum (a ++ b) = sum a + sum b.
Proof. unfold sum. induction a as [|x a IH]; cbn [app fold_right]; lia. Qed.
Lemma sum_perm a b : Permutation a b -> sum a = sum b.
Proof. unfold sum. induction 1; cbn [fold_right]; lia. Qed.
Lemma sum_nonneg l : Forall (fun x => 0 <= x) l -> 0 <= sum l.
Proof. unfold sum. induction 1; cbn [fold_right]; lia. Qed.

(** ** The loop *)
Lemma listing_perm : forall asm nft, Permutation (listing nft asm) (executed nft asm).
Proof.
  unfold executed. induction asm as [|[i|i|i] asm IH]; intros nft.
  - cbn. rewrite firstn_nil, skipn_nil. constructor.
  - cbn. constructor. apply IH.
  - change (temporal_part (ITl i :: asm)) with (i :: temporal_part asm).
    change (booleanizer_part (ITl i :: asm)) with (booleanizer_part asm).
    destruct nft as [|k]; cbn [listing firstn skipn map app].
    + rewrite <- Permutation_middle. constructor. specialize (IH O). cbn [firstn skipn map app] in IH. exact IH.
    + rewrite <- Permutation_middle. constructor. apply IH.
  - cbn [listing]. apply IH.
Qed.
Lemma loop_covered table lat clk : forall ops total, covers table lat ops ->
  wcet_loop table clk total ops = total + sum (map (fun o => Z.quot (lat o) clk) ops).
Proof.
  induction ops as [|o ops IH]; intros total C; cbn [wcet_loop map].
  - unfold sum; cbn; lia.
  - rewrite (C o (or_introl eq_refl)), IH by (intros o' H; apply C; right; exact H).
    change (sum (?x :: ?l)) with (x + sum l). lia.
Qed.
Lemma loop_cases table clk : forall ops total,
  (exists o, In o ops /\ table o = None /\ wcet_loop table clk total ops = 0) \/ (forall o, In o ops -> table o <> None).
Proof.
  induction ops as [|o ops IH]; intros total; [right; intros o []|].
  cbn [wcet_loop]. destruct (table o) as [l|] eqn:E.
  - destruct (IH (total + Z.quot l clk)) as [(x & H1 & H2 & H3)|H]; [left; exists x; repeat split; auto; right; exact H1|].
    right. intros x [<-|Hx]; [congruence|auto].
  - left. exists o. repeat split; auto. left; reflexivity.
Qed.

Lemma wcet_sum table lat clk nft asm : covers table lat (executed nft asm) ->
  cpu_wcet table clk nft asm = sum (map (fun o => Z.quot (lat o) clk) (executed nft asm)).
Proof.
  intros C. unfold cpu_wcet. rewrite (loop_covered table lat).
  - rewrite (sum_perm _ _ (Permutation_map _ (listing_perm asm nft))). lia.
  - intros o H. apply C. revert H. apply Permutation_in, listing_perm.
Qed.
Lemma wcet_missing table clk nft asm o : In o (executed nft asm) -> table o = None -> cpu_wcet table clk nft asm = 0.
Proof.
  intros H E. unfold cpu_wcet. destruct (loop_cases table clk (listing nft asm) 0) as [(x & _ & _ & R)|N]; [exact R|].
  destruct (N o); [|exact E]. revert H. apply Permutation_in, Permutation_sym, listing_perm.
Qed.
Lemma covers_exact table lat nft asm : covers table lat (executed nft asm) ->
  cpu_wcet table 1 nft asm = sum (map lat (executed nft asm)).
Proof. intros C. rewrite (wcet_sum _ lat) by exact C. f_equal. apply map_ext. intros o. apply Z.quot_1_r. Qed.

Lemma sum_bounds clk f : forall ops : list wop, 0 < clk -> (forall o, In o ops -> 0 <= f o) ->
  let w := sum (map (fun o => Z.quot (f o) clk) ops) in
  clk * w <= sum (map f ops) <= clk * w + Z.of_nat (length ops) * (clk - 1).
Proof.
  intros ops Hc. induction ops as [|o ops IH]; intros Hf; cbn [map length].
  - unfold sum; cbn; lia.
  - change (sum (?x :: ?l)) with (x + sum l). cbn zeta.
    assert (H1 : 0 <= f o) by (apply Hf; left; reflexivity).
    specialize (IH (fun o' H => Hf o' (or_intror H))). cbn zeta in IH.
    pose proof (Z.quot_rem' (f o) clk). pose proof (Z.rem_bound_pos (f o) clk H1 Hc).
    rewrite Nat2Z.inj_succ. nia.
Qed.
Lemma wcet_bounds table lat clk nft asm : 0 < clk -> covers table lat (executed nft asm) ->
  (forall o, In o (executed nft asm) -> 0 <= lat o) ->
  clk * cpu_wcet table clk nft asm <= sum (map lat (executed nft asm)) <=
  clk * cpu_wcet table clk nft asm + Z.of_nat (length (executed nft asm)) * (clk - 1).
Proof. intros Hc C Hl. rewrite (wcet_sum _ lat) by exact C. apply sum_bounds; assumption. Qed.

(** ** The operators of an assembled program *)
Definition bz_opcode (c : nclass) : Z :=
  match c with
  | CBzLoad code _ | CBzConst code _ | Assembly.CBz code => code
  | CTimestamp => op_ts
  | _ => op_store
  end.
Definition tl_opcode (code : opkind -> option Z) (c : nclass) : Z :=
  match c with
  | CSignal _ | CAtomic _ => op_load
  | CFormula _ => op_return
  | COp o | CTemporal o _ _ => match code o with Some z => z | None => 0 end
  | _ => 0
  end.
Lemma encodes_code h cls owners k n i : encodes h cls owners k n i -> bz_operator i = bz_opcode (cls n).
Proof.
  intros [_ H]. destruct (cls n); try contradiction; cbn [bz_opcode].
  - destruct (nchildren (h n)); [contradiction|]. apply H.
  - apply H.
  - apply H.
  - apply H.
  - destruct (nchildren (h n)) as [|a [|b [|]]]; try (exact H); apply H.
Qed.
Lemma computes_code h cls code owners k n i : computes h cls code owners k n i -> tl_operator i = tl_opcode code (cls n).
Proof.
  unfold computes. destruct (cls n); cbn [tl_opcode]; try contradiction; try (intros H; apply H).
  - intros [-> _]. reflexivity.
  - intros [-> _]. reflexivity.
Qed.

Lemma nth_map_ext {A B C} (f : A -> C) (g : B -> C) : forall (l : list A) (m : list B),
  length l = length m -> (forall k x y, nth_error l k = Some x -> nth_error m k = Some y -> f x = g y) ->
  map f l = map g m.
Proof.
  induction l as [|x l IH]; intros [|y m] E H; cbn in *; try discriminate; [reflexivity|].
  f_equal; [apply (H O); reflexivity|]. apply IH; [congruence|]. intros k a b Ha Hb. apply (H (S k)); assumption.
Qed.
Lemma nth_error_skip {A} : forall n k (l : list A), nth_error (skipn n l) k = nth_error l (n + k).
Proof. induction n as [|n IH]; intros k [|x l]; cbn; auto. destruct k; reflexivity. Qed.
Lemma nth_error_first {A} : forall n k (l : list A) x, nth_error (firstn n l) k = Some x -> (k < n)%nat /\ nth_error l k = Some x.
Proof.
  induction n as [|n IH]; intros [|k] [|y l] x H; cbn in *; try discriminate; [auto with arith|].
  apply IH in H as [H1 H2]. split; [lia|exact H2].
Qed.

Lemma booleanizer_part_app a b : booleanizer_part (a ++ b) = booleanizer_part a ++ booleanizer_part b.
Proof. apply flat_map_app. Qed.
Lemma booleanizer_map l : booleanizer_part (map IBz l) = l.
Proof. induction l as [|i l IH]; cbn; [reflexivity|]. f_equal. exact IH. Qed.
Lemma booleanizer_none l : (forall b, ~ In (IBz b) l) -> booleanizer_part l = [].
Proof.
  induction l as [|i l IH]; intros H; [reflexivity|]. destruct i as [b| |]; [destruct (H b); left; reflexivity| |];
    cbn; apply IH; intros b Hb; apply (H b); right; exact Hb.
Qed.

Section Program.
Variables (h : heap) (T : nat -> tree) (cls : nat -> nclass) (wpd bpd : nat -> Z) (const : Z) (ft pt : nat).
Hypothesis D : denotes h T.
Hypothesis Sh : tl_shaped h cls.
Hypothesis A1 : forall n, reachable h [ft] n -> assemblable h cls ft_code n.
Hypothesis A2 : forall n, reachable h [pt] n -> assemblable h cls pt_code n.
Hypothesis Ap : forall n, reachable h [ft] n -> reachable h [pt] n -> owns (cls n) = false /\ engine_of (cls n) <> EngBz.

(** The operators, each node once. *)
Lemma operators :
  exists fuel0 fts pts asm,
    (forall fuel, (fuel0 <= fuel)%nat -> gen_assembly fuel h cls wpd bpd const ft pt = Some asm) /\
    NoDup fts /\ NoDup pts /\ NoDup (filter (bz_owner h cls (fts ++ pts)) (fts ++ pts)) /\
    (forall n, In n fts <-> reachable h [ft] n) /\ (forall n, In n pts <-> reachable h [pt] n) /\
    let nft := length (filter (fun n => owns (cls n)) fts) in
    Permutation (executed nft asm)
      (map (fun n => BzOp (bz_opcode (cls n))) (filter (bz_owner h cls (fts ++ pts)) (fts ++ pts)) ++
       map (fun n => FtOp (tl_opcode ft_code (cls n))) (filter (fun n => owns (cls n)) fts) ++
       map (fun n => PtOp (tl_opcode pt_code (cls n))) (filter (fun n => owns (cls n)) pts)).
Proof.
  destruct (postorder_correct h T [ft] D) as (f1 & fts & E1 & N1 & I1 & O1).
  destruct (postorder_correct h T [pt] D) as (f2 & pts & E2 & N2 & I2 & O2).
  assert (A1' : forall n, In n fts -> assemblable h cls ft_code n) by (intros n Hn; apply A1, I1, Hn).
  assert (A2' : forall n, In n pts -> assemblable h cls pt_code n) by (intros n Hn; apply A2, I2, Hn).
  set (size := scq_size h cls wpd bpd const (fts ++ pts)).
  destruct (gen_assembly_of_total h cls size fts pts Sh O1 O2 A1' A2') as [asm Ea].
  assert (Ow : forall n, bz_owner h cls (fts ++ pts) n = true -> engine_of (cls n) = EngBz).
  { intros n. unfold bz_owner. destruct (engine_of (cls n)); congruence. }
  assert (Nd : NoDup (filter (bz_owner h cls (fts ++ pts)) (fts ++ pts))).
  { rewrite filter_app. apply NoDup_app_disjoint; [apply NoDup_filter, N1|apply NoDup_filter, N2|].
    intros n H1 H2. apply filter_In in H1 as [H1 O]. apply filter_In in H2 as [H2 _]. apply I1 in H1. apply I2 in H2.
    exact (proj2 (Ap n H1 H2) (Ow n O)). }
  destruct (gen_assembly_bz h cls size fts pts asm Nd Ea) as (d & rest & [K En] & Easm & Hr).
  assert (W : well_formed h cls size (length (filter (fun n => owns (cls n)) fts))
                (filter (fun n => owns (cls n)) fts ++ filter (fun n => owns (cls n)) pts) asm).
  { apply gen_assembly_well_formed; auto. intros n H1 H2. apply Ap; [apply I1|apply I2]; assumption. }
  exists (Nat.max f1 f2), fts, pts, asm. split; [|split; [exact N1|split; [exact N2|split; [exact Nd|split; [exact I1|split; [exact I2|]]]]]].
  { intros fuel Hf. unfold gen_assembly. rewrite E1, E2 by lia. exact Ea. }
  cbn zeta. unfold executed. apply Permutation_app; [|apply Permutation_app].
  - replace (booleanizer_part asm) with (values (prev_last d)).
    2: { rewrite Easm, booleanizer_part_app, booleanizer_map, (booleanizer_none rest Hr), app_nil_r. reflexivity. }
    transitivity (map (fun i => BzOp (bz_operator i)) (values d)).
    { apply Permutation_map. unfold values. apply Permutation_map. unfold prev_last.
      clear. induction d as [|p d IH]; [constructor|]. cbn [filter].
      match goal with |- context [if ?b then _ else _] => destruct b eqn:Eb end;
      match goal with |- context [if ?b then _ else _] => destruct b eqn:Eb2 end; cbn [app].
      all: try (rewrite Eb in Eb2; discriminate).
      all: try (constructor; exact IH).
      all: try (rewrite <- Permutation_middle; constructor; exact IH).
      all: destruct (is_prev p); discriminate. }
    rewrite <- K. unfold values. rewrite !map_map.
    apply Permutation_refl'. apply nth_map_ext; [reflexivity|].
    intros k [n i] [n' i'] H H'. rewrite H in H'. injection H' as <- <-. cbn [fst snd]. f_equal.
    eapply encodes_code, En, H.
  - apply Permutation_refl'. destruct W as (_ & L & C & _).
    set (o1 := filter (fun n => owns (cls n)) fts) in *. set (o2 := filter (fun n => owns (cls n)) pts) in *.
    apply nth_map_ext.
    { rewrite firstn_length, L, app_length. lia. }
    intros k i n Hi Hn. apply nth_error_first in Hi as [Hk Hi]. f_equal.
    destruct (C k n i) as [_ Q]; [rewrite nth_error_app1 by exact Hk; exact Hn|exact Hi|].
    apply Nat.ltb_lt in Hk. rewrite Hk in Q. eapply computes_code, Q.
  - apply Permutation_refl'. destruct W as (_ & L & C & _).
    set (o1 := filter (fun n => owns (cls n)) fts) in *. set (o2 := filter (fun n => owns (cls n)) pts) in *.
    apply nth_map_ext.
    { rewrite skipn_length, L, app_length. lia. }
    intros k i n Hi Hn. rewrite nth_error_skip in Hi. f_equal.
    destruct (C (length o1 + k)%nat n i) as [_ Q]; [rewrite nth_error_app2 by lia; rewrite Nat.add_comm, Nat.add_sub; exact Hn|exact Hi|].
    rewrite (proj2 (Nat.ltb_ge _ _)) in Q by lia. eapply computes_code, Q.
Qed.
End Program.

(** ** Monotonicity *)
Lemma sum_incl (w : nat -> Z) : forall l m, NoDup l -> incl l m -> (forall n, 0 <= w n) ->
  sum (map w l) <= sum (map w m).
Proof.
  induction l as [|x l IH]; intros m N I P.
  - cbn. apply sum_nonneg. apply Forall_forall. intros y Hy. apply in_map_iff in Hy as (n & <- & _). apply P.
  - inversion N as [|? ? N1 N2]; subst. destruct (in_split x m (I x (or_introl eq_refl))) as (m1 & m2 & ->).
    rewrite map_app. cbn [map]. rewrite sum_app. change (sum (?y :: ?z)) with (y + sum z).
    specialize (IH (m1 ++ m2) N2). rewrite map_app, sum_app in IH.
    enough (incl l (m1 ++ m2)) by (specialize (IH H P); lia).
    intros y Hy. specialize (I y (or_intror Hy)). apply in_app_iff in I as [I|[->|I]]; [|contradiction|];
      apply in_app_iff; auto.
Qed.

Lemma bz_owner_more h cls l m n : incl l m -> bz_owner h cls l n = true -> bz_owner h cls m n = true.
Proof.
  intros I. unfold bz_owner. destruct (engine_of (cls n)); try discriminate.
  destruct (is_constant (cls n)); [cbn|reflexivity]. rewrite !negb_true_iff. unfold only_tl_parents. intros H.
  apply not_true_iff_false. intros F. apply not_true_iff_false in H. apply H.
  apply forallb_forall. intros p Hp. rewrite forallb_forall in F. apply F, I, Hp.
Qed.
Lemma reachable_more h ft ft' : (forall c, In c (nchildren (h ft)) -> In c (nchildren (h ft'))) ->
  forall n, reachable h [ft] n -> n = ft \/ reachable h [ft'] n.
Proof.
  intros H n R. induction R as [n Hn|p c R IH Hc].
  - left. destruct Hn as [<-|[]]. reflexivity.
  - right. destruct IH as [->|IH]; [|eapply reach_child; eassumption].
    eapply reach_child; [apply reach_start; left; reflexivity|]. apply H, Hc.
Qed.

Lemma future_count_unique h cls ft l k : NoDup l -> (forall n, In n l <-> reachable h [ft] n /\ owns (cls n) = true) ->
  future_count h cls ft k -> k = length l.
Proof.
  intros N I (l' & N' & I' & <-). apply Permutation_length, NoDup_Permutation; auto. intros n. rewrite I, I'. reflexivity.
Qed.
Lemma wcet_monotone h T cls wpd bpd const ft pt ft' pt' table lat clk nft nft' :
  denotes h T -> tl_shaped h cls ->
  cls ft = CSet -> cls pt = CSet ->
  incl (nchildren (h ft)) (nchildren (h ft')) -> incl (nchildren (h pt)) (nchildren (h pt')) ->
  legal_program h cls ft pt -> legal_program h cls ft' pt' ->
  0 < clk -> (forall o, 0 <= lat o) -> future_count h cls ft nft -> future_count h cls ft' nft' ->
  exists fuel0 asm asm',
    (forall fuel, (fuel0 <= fuel)%nat -> gen_assembly fuel h cls wpd bpd const ft pt = Some asm) /\
    (forall fuel, (fuel0 <= fuel)%nat -> gen_assembly fuel h cls wpd bpd const ft' pt' = Some asm') /\
    (covers table lat (executed nft' asm') ->
     0 <= cpu_wcet table clk nft asm <= cpu_wcet table clk nft' asm').
Proof.
  intros D Sh Sf Sp If Ip (A1 & A2 & Ap) (B1 & B2 & Bp) Hc Hl Fc Fc'.
  destruct (operators h T cls wpd bpd const ft pt D Sh A1 A2 Ap) as (f & fts & pts & asm & E & N1 & N2 & N3 & I1 & I2 & P).
  destruct (operators h T cls wpd bpd const ft' pt' D Sh B1 B2 Bp) as (f' & fts' & pts' & asm' & E' & N1' & N2' & N3' & I1' & I2' & P').
  cbn zeta in P, P'.
  apply (future_count_unique h cls ft (filter (fun n => owns (cls n)) fts)) in Fc as ->;
    [|apply NoDup_filter, N1|intros n; rewrite filter_In, I1; reflexivity].
  apply (future_count_unique h cls ft' (filter (fun n => owns (cls n)) fts')) in Fc' as ->;
    [|apply NoDup_filter, N1'|intros n; rewrite filter_In, I1'; reflexivity].
  exists (Nat.max f f'), asm, asm'.
  split; [intros fuel H; apply E; lia|split; [intros fuel H; apply E'; lia|]].
  intros C.
  assert (Q : forall l (w : wop -> Z), (forall o, 0 <= w o) -> 0 <= sum (map w l)).
  { intros l w Hw. apply sum_nonneg, Forall_forall. intros y Hy. apply in_map_iff in Hy as (o & <- & _). apply Hw. }
  assert (Hq : forall o, 0 <= Z.quot (lat o) clk) by (intros o; apply Z.quot_pos; auto).
  assert (F1 : incl (filter (fun n => owns (cls n)) fts) (filter (fun n => owns (cls n)) fts')).
  { intros n Hn. apply filter_In in Hn as [Hn O]. apply filter_In; split; [|exact O]. apply I1'. apply I1 in Hn.
    destruct (reachable_more h ft ft' If n Hn) as [->|R]; [|exact R]. rewrite Sf in O. discriminate. }
  assert (F2 : incl (filter (fun n => owns (cls n)) pts) (filter (fun n => owns (cls n)) pts')).
  { intros n Hn. apply filter_In in Hn as [Hn O]. apply filter_In; split; [|exact O]. apply I2'. apply I2 in Hn.
    destruct (reachable_more h pt pt' Ip n Hn) as [->|R]; [|exact R]. rewrite Sp in O. discriminate. }
  assert (F3 : incl (filter (bz_owner h cls (fts ++ pts)) (fts ++ pts)) (filter (bz_owner h cls (fts' ++ pts')) (fts' ++ pts'))).
  { assert (G : forall n, In n (fts ++ pts) -> cls n = CSet \/ In n (fts' ++ pts')).
    { intros n Hn. rewrite in_app_iff, I1, I2 in Hn. rewrite in_app_iff, I1', I2'. destruct Hn as [Hn|Hn].
      - destruct (reachable_more h ft ft' If n Hn) as [->|R]; auto.
      - destruct (reachable_more h pt pt' Ip n Hn) as [->|R]; auto. }
    intros n Hn. apply filter_In in Hn as [Hn O]. apply filter_In.
    assert (En : engine_of (cls n) = EngBz) by (unfold bz_owner in O; destruct (engine_of (cls n)); congruence).
    split; [destruct (G n Hn) as [S1|]; [rewrite S1 in En; discriminate|assumption]|].
    unfold bz_owner in *. rewrite En in *. apply negb_true_iff in O. apply negb_true_iff.
    apply andb_false_iff in O. apply andb_false_iff. destruct O as [O|O]; [left; exact O|right].
    unfold only_tl_parents in *. apply not_true_iff_false in O. apply not_true_iff_false. intros F. apply O.
    apply forallb_forall. intros p Hp. destruct (G p Hp) as [S1|S1].
    - rewrite S1. cbn. apply orb_true_r.
    - rewrite forallb_forall in F. apply F, S1. }
  assert (Inc : incl (executed (length (filter (fun n => owns (cls n)) fts)) asm)
                     (executed (length (filter (fun n => owns (cls n)) fts')) asm')).
  { intros o Ho. apply (Permutation_in _ P) in Ho. apply (Permutation_in _ (Permutation_sym P')).
    rewrite !in_app_iff in *. destruct Ho as [Ho|[Ho|Ho]]; [left|right; left|right; right];
      revert Ho; apply incl_map; assumption. }
  assert (C' : covers table lat (executed (length (filter (fun n => owns (cls n)) fts)) asm)) by (intros o Ho; apply C, Inc, Ho).
  rewrite !(wcet_sum table lat) by assumption. split; [apply Q, Hq|].
  rewrite (sum_perm _ _ (Permutation_map _ P)), (sum_perm _ _ (Permutation_map _ P')).
  rewrite !map_app, !sum_app, !map_map.
  assert (S1 := sum_incl (fun n => Z.quot (lat (BzOp (bz_opcode (cls n)))) clk) _ _ N3 F3 (fun n => Hq _)).
  assert (S2 := sum_incl (fun n => Z.quot (lat (FtOp (tl_opcode ft_code (cls n)))) clk) _ _ (NoDup_filter _ N1) F1 (fun n => Hq _)).
  assert (S3 := sum_incl (fun n => Z.quot (lat (PtOp (tl_opcode pt_code (cls n)))) clk) _ _ (NoDup_filter _ N2) F2 (fun n => Hq _)).
  lia.
Qed.
