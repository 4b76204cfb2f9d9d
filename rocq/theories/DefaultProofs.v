(** * From formulas to reports with the compiler's own queue sizes (proofs) *)
From Coq Require Import List Arith ZArith Bool Lia Wf_nat.
Require Import Verif.Mltl Verif.MltlShape Verif.Transform Verif.TransformProofs Verif.Rewrite Verif.Pipeline Verif.PipelineProofs.
Require Import Verif.Graph Verif.GraphSpec Verif.GraphProofs Verif.CseProofs Verif.Binary Verif.BinarySpec Verif.BinaryProofs.
Require Import Verif.Assembly Verif.Layout Verif.AssemblySpec Verif.LayoutSpec Verif.AssembleTotal Verif.LayoutProofs Verif.BootProofs.
Require Import Verif.Scq Verif.Engine Verif.Monitoring Verif.MonitorProofs Verif.ReachProofs.
Require Import Verif.TightSize Verif.TightProofs Verif.SizeProofs.
Require Import Verif.EndToEnd Verif.EndToEndProofs Verif.EndToEndSections Verif.DefaultSpec.
Import ListNotations.
Local Open Scope Z_scope.

Lemma means_det h cls : forall x a, means h cls x a -> forall b, means h cls x b -> a = b.
Proof.
  induction 1; intros e' H'; inversion H'; subst; try congruence;
    repeat match goal with
           | A : cls ?n = _, B : cls ?n = _ |- _ => rewrite A in B; (discriminate B || (injection B; intros; subst; clear B))
           | A : nchildren (h ?n) = _, B : nchildren (h ?n) = _ |- _ => rewrite A in B; injection B; intros; subst; clear B
           end; try reflexivity;
    repeat match goal with IH : forall b, means h cls ?x b -> ?p = b, M : means h cls ?x _ |- _ => rewrite (IH _ M) in *; clear IH end;
    reflexivity.
Qed.
Lemma means_future e : monitorable e \/ (exists b, e = EConst b) -> all_nodes future_op e.
Proof. intros [H|[b ->]]; [apply monitorable_future, H|cbn; auto]. Qed.
Definition small_known (K : nat) (e : expr) : Prop := monitorable e /\ modest_formula e /\ (reach e < K)%nat.
Lemma small_kept h cls K : kept h cls (small_known K).
Proof.
  intros n e c Hm (He & Mo & Hr) Hc N1 N2.
  destruct (means_child_reach K h cls n e c Hm He Hr Hc N1 N2) as (p & Hp & Q & Hr'). exists p. split; [exact Hp|].
  destruct Q as [Q|Q]; [left|right; exact Q]. split; [exact Q|]. split; [|exact Hr'].
  inversion Hm; subst; try congruence; cbn [monitorable] in He; cbn [modest_formula] in Mo; try contradiction;
    match goal with E : nchildren (h n) = _ |- _ => rewrite E in Hc end; cbn [In] in Hc;
    repeat (destruct Hc as [<-|Hc]; [
      match goal with A : means h cls ?x p, B : means h cls ?x ?r |- _ => pose proof (means_det h cls x p A r B); subst p end|]);
    try contradiction; try tauto.
  all: destruct Mo as [[b ->] _]; contradiction.
Qed.

(** ** Queue sizes *)
Section Enough.
Variables (h : heap) (cls : nat -> nclass) (wpd_of bpd_of : nat -> Z) (const : Z) (K : nat) (nodes owners : list nat).
Let size := scq_size h cls wpd_of bpd_of const nodes.
Variables (prog : list instr) (confs : list qconf) (part : nat -> bool).
Hypothesis Hconst : 0 <= const.
Hypothesis prog_len : length prog = length owners.
Hypothesis confs_len : length confs = length owners.
Hypothesis prog_ok : forall k ins n, nth_error prog k = Some ins -> nth_error owners k = Some n -> instr_ok h cls owners k n ins.
Hypothesis confs_ok : forall k c n, nth_error confs k = Some c -> nth_error owners k = Some n -> conf_ok cls size n c.
Hypothesis Hst : forall k n, part k = true -> nth_error owners k = Some n -> stated h cls (small_known K) n.
Hypothesis Hin : forall n, In n owners -> In n nodes.
Hypothesis Hone : forall n, In n owners -> 1 <= size n.
Hypothesis Delays : forall n e, means h cls n e -> wpd e <= wpd_of n /\ bpd_of n <= Z.of_nat (soonest e).

Lemma at_node k : (k < length owners)%nat -> exists n ins c,
  nth_error owners k = Some n /\ nth_error prog k = Some ins /\ nth_error confs k = Some c /\
  instr_ok h cls owners k n ins /\ conf_ok cls size n c.
Proof using prog_len confs_len prog_ok confs_ok. exact (owner_at h cls size owners prog confs prog_len confs_len prog_ok confs_ok k). Qed.
Lemma node_is k n e : nth_error owners k = Some n -> means h cls n e -> node_expr prog confs k = e.
Proof using prog_len confs_len prog_ok confs_ok. exact (node_means h cls size owners prog confs prog_len confs_len prog_ok confs_ok k n e). Qed.

Lemma operand_cases k x o : operand_ok cls owners k x o ->
  (exists j, o = Sub j /\ (j < k)%nat /\ nth_error owners j = Some x /\ forall b, cls x <> CBool b) \/
  (exists b, cls x = CBool b /\ o = Direct b).
Proof using. clear. unfold operand_ok. destruct (cls x) eqn:E; intros H; try (right; eauto; fail); left; destruct H as (j & ? & ? & ?); exists j; repeat split; auto; discriminate. Qed.
Lemma operand_is_expr k x o p : operand_ok cls owners k x o -> means h cls x p -> operand_expr (exprs prog confs) o = p.
Proof using prog_len confs_len prog_ok confs_ok.
  intros Ho Hm. destruct (operand_cases k x o Ho) as [(j & -> & _ & Ej & _)|(b & Eb & ->)]; cbn [operand_expr].
  - exact (node_is j x p Ej Hm).
  - inversion Hm; congruence.
Qed.

Lemma node_tempo : forall k n e, nth_error owners k = Some n -> means h cls n e -> pace_of prog k = tempo e.
Proof using prog_len confs_len prog_ok confs_ok.
  induction k as [k IH] using (well_founded_induction lt_wf). intros n e En Hm.
  destruct (at_node k) as (n' & ins & c & En' & Ei & Ec & O & Q); [apply nth_error_Some; congruence|].
  replace n' with n in * by congruence. clear n' En'.
  destruct (instr_below _ _ _ _ _ _ O) as [B1 B2]. rewrite (pace_eq prog k ins Ei B1 B2).
  assert (Hop : forall x p o, means h cls x p -> operand_ok cls owners k x o -> operand_pace (paces prog) o = tempo p).
  { intros x p o Hx Ho. destruct (operand_cases k x o Ho) as [(j & -> & Hj & Ej & _)|(b & Eb & ->)]; cbn [operand_pace].
    - exact (IH j Hj x p Ej Hx).
    - inversion Hx; try congruence. subst. reflexivity. }
  unfold instr_ok in O. unfold conf_ok in Q.
  inversion Hm; subst;
    match goal with E : cls n = _ |- _ => rewrite E in O, Q end;
    try match goal with E : nchildren (h n) = _ |- _ => rewrite E in O end; cbn [nth_error slot_ok] in O.
  1,2: subst ins; reflexivity.
  1: contradiction.
  all: destruct O as (c' & o1 & o2 & Hc & S1 & S2 & ->); injection Hc as <-; unfold instr_pace; cbn [i_op i_op1 i_op2 tempo].
  1: eauto.
  1,2,3: erewrite (Hop x), (Hop y) by eassumption; reflexivity.
  1,2: erewrite (Hop y) by eassumption;
    destruct (operand_cases k x o1 S1) as [(j & -> & _ & _ & Nb)|(b & Eb & ->)];
    [destruct p; try reflexivity; exfalso; match goal with M : means h cls _ (EConst _) |- _ => inversion M end; eapply Nb; eassumption
    |match goal with M : means h cls ?z _, B : cls ?z = CBool _ |- _ => inversion M; subst; try congruence end; reflexivity].
  all: reflexivity.
Qed.

(** The queue of [x] is at least as long as its size asks for [y] beside it. *)
Lemma sibling_size n x y p q : In n nodes -> In x (nchildren (h n)) -> In y (nchildren (h n)) -> x <> y ->
  means h cls x p -> means h cls y q -> (forall b, cls x <> CBool b) ->
  all_nodes future_op p -> all_nodes future_op q ->
  (reach q - soonest p + 1 <= Z.to_nat (size x))%nat.
Proof using Hconst Delays.
  intros Hn Hx Hy Ne Mx My Nb Fp Fq.
  assert (I : In y (siblings h nodes x)).
  { unfold siblings. apply in_flat_map. exists n. split; [exact Hn|].
    assert (E : existsb (Nat.eqb x) (nchildren (h n)) = true) by (apply existsb_exists; exists x; split; [exact Hx|apply Nat.eqb_refl]).
    rewrite E. apply filter_In. split; [exact Hy|]. apply negb_true_iff, Nat.eqb_neq. congruence. }
  pose proof (proj1 (proj2 (zmax_fold (map wpd_of (siblings h nodes x)))) _ (in_map wpd_of _ _ I)) as L.
  destruct (Delays x p Mx) as [_ Ex]. destruct (Delays y q My) as [Ey _].
  rewrite (wpd_reach q Fq) in Ey. unfold size, scq_size.
  destruct (cls x) eqn:C; clear - C L Ex Ey Mx Nb Hconst; try lia.
  - exfalso. eapply Nb. reflexivity.
  - exfalso. exact (means_no_formula h cls x p _ Mx C).
Qed.

Lemma beside k n x y p q o o' c conf_c :
  nth_error owners k = Some n -> In x (nchildren (h n)) -> In y (nchildren (h n)) ->
  means h cls x p -> means h cls y q -> operand_ok cls owners k x o -> operand_ok cls owners k y o' ->
  all_nodes future_op p -> all_nodes future_op q -> keeps_up p q ->
  nth_error confs c = Some conf_c -> o = Sub c ->
  (match operand_pace (paces prog) o with Many => Nat.max (reach p) (reach q) | _ => reach (operand_expr (exprs prog confs) o') end
     - soonest (node_expr prog confs c) + 1 <= c_len conf_c)%nat.
Proof using Hconst prog_len confs_len prog_ok confs_ok Hin Hone Delays.
  intros En Ix Iy Mx My Ox Oy Fp Fq [K1 K2] Ec Eo.
  destruct (operand_cases k x o Ox) as [(j & E & Hj & Ej & Nb)|(b & Eb & E)]; [|congruence].
  assert (j = c) by congruence. subst j. subst o.
  rewrite (operand_is_expr k y o' q Oy My). rewrite (node_is c x p Ej Mx).
  assert (Ep : operand_pace (paces prog) (Sub c) = tempo p) by exact (node_tempo c x p Ej Mx). rewrite Ep.
  destruct (confs_ok c conf_c x Ec Ej) as [L _]. rewrite L.
  pose proof (Hone x (nth_error_In _ _ Ej)) as L1.
  destruct (Nat.eq_dec x y) as [<-|Ne].
  - rewrite <- (means_det h cls x p Mx q My) in *. specialize (K2 eq_refl). destruct (tempo p); lia.
  - pose proof (sibling_size n x y p q (Hin n (nth_error_In _ _ En)) Ix Iy Ne Mx My Nb Fp Fq) as Z.
    destruct (tempo p); try lia. specialize (K1 eq_refl). lia.
Qed.

Lemma default_enough : part_enough part prog confs.
Proof using Hconst prog_len confs_len prog_ok confs_ok Hst Hin Hone Delays.
  intros k ins conf c conf_c Pk Ek Eq Ec. cbv zeta.
  destruct (at_node k) as (n & ins' & c' & En & Ei & Ec' & O & Q); [rewrite <- prog_len; apply nth_error_Some; congruence|].
  replace ins' with ins in * by congruence. replace c' with conf in * by congruence. clear ins' c' Ei Ec'.
  destruct (at_node c) as (nc & insc & cc & Enc & _ & Ecc & _ & Qc); [rewrite <- confs_len; apply nth_error_Some; congruence|].
  replace cc with conf_c in * by congruence. clear cc Ecc.
  assert (L1 : forall z, (0 - z + 1 <= c_len conf_c)%nat).
  { intros z. destruct Qc as [-> _]. pose proof (Hone nc (nth_error_In _ _ Enc)). lia. }
  pose proof (nth_error_In _ _ En) as In_n.
  unfold instr_ok in O. destruct (Hst k n Pk En) as [(num & e & (Ef & Hn & x & Ex & Hm) & He & _)|(e & Hm & He & Mo & _)].
  - rewrite Ef, Ex in O. destruct O as (o & S1 & ->). unfold wait. cbn [i_op]. split; intros _; apply L1.
  - rewrite (node_is k n e En Hm).
    inversion Hm; subst; match goal with E : cls n = _ |- _ => rewrite E in O end;
      try match goal with E : nchildren (h n) = _ |- _ => rewrite E in O end; cbn [nth_error slot_ok] in O;
      cbn [monitorable] in He; cbn [modest_formula] in Mo; try contradiction.
    1,2: subst ins; unfold wait; cbn [i_op]; split; intros _; apply L1.
    all: destruct O as (c' & o1 & o2 & Hc & S1 & S2 & ->); injection Hc as <-; unfold wait; cbn [i_op i_op1 i_op2].
    1: split; intros _; apply L1.
    1,2,3: destruct Mo as (M1 & M2 & Kp & Kq);
      (assert (Fp : all_nodes future_op p) by (apply means_future; destruct He as [[? [?|?]]|[? ?]]; eauto));
      (assert (Fq : all_nodes future_op q) by (apply means_future; destruct He as [[? [?|?]]|[? ?]]; eauto));
      split; intros Eo;
      match goal with E : nchildren (h _) = _ |- _ =>
        (assert (Ix : In x (nchildren (h n))) by (rewrite E; cbn; auto));
        (assert (Iy : In y (nchildren (h n))) by (rewrite E; cbn; auto)) end; cbn [reach fold_right].
    all: try (destruct Mo as [[b ->] _];
      match goal with M : means h cls _ (EConst b) |- _ => rewrite (operand_direct h cls owners k _ o1 b S1 M) in * end;
      split; intros; apply L1).
    all: rewrite ?Nat.max_0_r.
    1,3,5: exact (beside k n x y p q o1 o2 c conf_c En Ix Iy ltac:(eassumption) ltac:(eassumption) S1 S2 Fp Fq Kp Ec Eo).
    all: rewrite (Nat.max_comm (reach p) (reach q));
      exact (beside k n y x q p o2 o1 c conf_c En Iy Ix ltac:(eassumption) ltac:(eassumption) S2 S1 Fq Fp Kq Ec Eo).
Qed.
End Enough.

(** ** Assembling and loading *)
Section Assembled.
Variables (h : heap) (T : nat -> tree) (cls : nat -> nclass) (wpd_of bpd_of : nat -> Z) (const : Z) (ft pt K : nat).
Variables (specs : list (Z * expr)) (aux : list Z).
Hypothesis D : denotes h T.
Hypothesis Sft : cls ft = CSet.
Hypothesis Spt : cls pt = CSet.
Hypothesis Npt : nchildren (h pt) = [].
Hypothesis Sh : tl_shaped h cls.
Hypothesis As : forall n, reachable h [ft] n -> assemblable h cls ft_code n.
Hypothesis Fs : Forall2 (spec_of compile_expr h cls) (nchildren (h ft)) specs.
Hypothesis Nd : NoDup (map fst specs).
Hypothesis Ss : Forall (fun s => small_known K (compile_expr (snd s))) specs.
Hypothesis Hconst : 0 <= const.
Hypothesis Delays : forall n e, means h cls n e -> wpd e <= wpd_of n /\ bpd_of n <= Z.of_nat (soonest e).

Lemma known_formulas f : In f (nchildren (h ft)) ->
  exists num e, formula_means h cls f num e /\ small_known K e.
Proof using Fs Ss.
  intros Hf. destruct (Forall2_in _ _ _ Fs f Hf) as (s & Hs & Hm). rewrite Forall_forall in Ss.
  exists (fst s), (compile_expr (snd s)). split; [exact Hm|exact (Ss s Hs)].
Qed.

Lemma default_runs :
  exists fuel0 asm, (forall fuel, (fuel0 <= fuel)%nat -> gen_assembly fuel h cls wpd_of bpd_of const ft pt = Some asm) /\
  forall bytes, Forall fits asm -> arena_slots asm < 2 ^ 32 -> assemble_binary asm aux = Some bytes ->
  exists prog confs, boot bytes = Some (prog, confs) /\
    ft_program prog confs /\ distinct_reports prog /\ queues_enough prog confs /\
    forall num e, In (num, e) specs -> exists k ins, nth_error prog k = Some ins /\ i_op ins = RETURN /\
      i_num ins = Z.to_nat num /\ node_expr prog confs k = compile_expr e.
Proof.
  assert (Po : forall n, reachable h [pt] n -> n = pt).
  { induction 1 as [n Hn|n c R IH Hc]; [destruct Hn as [<-|[]]; reflexivity|]. subst n. rewrite Npt in Hc. destruct Hc. }
  destruct (assembly_correct h T cls wpd_of bpd_of const ft pt D Sh As) as (fuel0 & nodes & nft & owners & asm & E & Hn & I1 & I2 & W).
  { intros n Hn. rewrite (Po n Hn). unfold assemblable. rewrite Spt. exact I. }
  { intros n _ Hn. rewrite (Po n Hn), Spt. reflexivity. }
  exists fuel0, asm. split; [exact E|]. intros bytes Hf Ha Eb.
  set (size := scq_size h cls wpd_of bpd_of const nodes) in *.
  assert (Hsk : skipn nft owners = []).
  { destruct (skipn nft owners) as [|n l] eqn:Es; [reflexivity|]. exfalso.
    destruct (proj1 (I2 n) (or_introl eq_refl)) as [R O]. rewrite (Po n R), Spt in O. discriminate. }
  assert (Hft : (length owners <= nft)%nat).
  { pose proof (f_equal (@length _) Hsk) as L. rewrite skipn_length in L. cbn in L. lia. }
  assert (Io : forall n, In n owners <-> reachable h [ft] n /\ owns (cls n) = true).
  { intros n. rewrite <- (I1 n). rewrite firstn_all2 by exact Hft. reflexivity. }
  assert (Hst : forall n, In n owners -> stated h cls (small_known K) n).
  { intros n Hin. apply Io in Hin as [R O].
    destruct (reachable_stated h cls ft_code ft (small_known K) (small_kept h cls K) known_formulas As n R) as [->|[H|[[b Hb]|Hb]]].
    - rewrite Sft in O. discriminate.
    - exact H.
    - rewrite Hb in O. discriminate.
    - unfold bz_class in Hb. destruct (cls n); try contradiction; discriminate. }
  assert (Hcov : forall n, In n owners -> covered h cls K n).
  { intros n Hin. destruct (Hst n Hin) as [(num & e & Hm & He & _ & Hr)|(e & Hm & He & _ & Hr)]; [left|right]; eauto. }
  assert (Hsizes : Forall (fun n => 1 <= size n) owners).
  { apply Forall_forall. intros n Hin. apply scq_size_pos; [exact Hconst|]. apply Io, Hin. }
  assert (Hsup : forall n, In n owners -> supported cls n).
  { intros n Hin. unfold supported. destruct (Hcov n Hin) as [(num & e & (C & _) & _)|(e & Hm & _)]; [rewrite C; exact I|].
    inversion Hm; subst; match goal with E : cls n = _ |- _ => rewrite E end; try exact I; discriminate. }
  destruct (decode_ok h cls size owners asm nft W Hsup) as (prog & Ep & Lp & Hp).
  set (confs := decode_confs (load_arena (map result asm)) 0 prog).
  assert (Lc : length confs = length owners) by (unfold confs; rewrite decode_confs_length; exact Lp).
  assert (Hq : forall k c n, nth_error confs k = Some c -> nth_error owners k = Some n -> conf_ok cls size n c).
  { intros k c n Ek En. assert (Hk : (k < length prog)%nat) by (rewrite Lp; apply nth_error_Some; congruence).
    destruct (nth_error prog k) as [ins|] eqn:Ei; [|apply nth_error_None in Ei; lia].
    unfold confs in Ek. rewrite (decode_confs_nth _ _ 0 k ins Ei) in Ek. injection Ek as <-.
    eapply conf_decode; [exact W|exact Hsizes|exact Ha|exact En|eapply Hp; eassumption|].
    destruct (Hcov n (nth_error_In _ _ En)) as [(num & e & (C & _) & _)|(e & Hm & _)]; [rewrite C; exact I|].
    inversion Hm; subst; match goal with E : cls n = _ |- _ => rewrite E end; exact I. }
  exists prog, confs.
  assert (Hfu : forall n m num, In n owners -> In m owners -> cls n = CFormula num -> cls m = CFormula num -> n = m).
  { intros n m num Hin Him Cn Cm. apply Io in Hin as [R1 _]. apply Io in Him as [R2 _].
    eapply specs_unique; [exact Fs|exact Nd| | |exact Cn|exact Cm];
      eapply (stated_formula h cls ft_code ft (small_known K) (small_kept h cls K) Sft known_formulas As); eassumption. }
  assert (Hpos : forall n num, In n owners -> cls n = CFormula num -> 0 <= num).
  { intros n num Hin Cn. destruct (Hcov n Hin) as [(num' & e & (C & Hz & _) & _)|(e & Hm & _)]; [congruence|].
    exfalso. eapply means_no_formula; eassumption. }
  assert (Hnd : NoDup owners) by apply W.
  assert (Hone : forall n, In n owners -> 1 <= size n) by (rewrite <- Forall_forall; exact Hsizes).
  split; [|split; [|split; [|split]]].
  - unfold boot. rewrite (load_value _ _ _ Hf Eb). rewrite table_result. rewrite Ep. reflexivity.
  - split; [lia|]. intros k ins c Ei Ec.
    destruct (nth_error owners k) as [n|] eqn:En; [|apply nth_error_None in En; assert (k < length prog)%nat by (apply nth_error_Some; congruence); lia].
    pose proof (Hq k c n Ec En) as Q. pose proof (nth_error_In _ _ En) as In_n.
    assert (L : (1 <= c_len c)%nat) by (destruct Q as [-> _]; specialize (Hone n In_n); lia).
    eapply ft_instruction; eauto.
  - eapply boot_distinct; eassumption.
  - assert (En : part_enough all prog confs); [|exact (fun k ins conf c conf_c => En k ins conf c conf_c eq_refl)].
    eapply (default_enough h cls wpd_of bpd_of const K nodes owners prog confs all); try eassumption.
    + intros k n _ En. apply Hst. eapply nth_error_In, En.
    + intros n Hin. apply Hn. left. apply Io, Hin.
  - intros num e Hin. destruct (Forall2_in_r _ _ _ Fs (num, e) Hin) as (f & Hfi & Hm). unfold spec_of in Hm. cbn [fst snd] in Hm.
    assert (Ho : In f owners).
    { apply Io. split; [eapply reach_child; [apply reach_start; left; reflexivity|exact Hfi]|]. destruct Hm as (-> & _). reflexivity. }
    apply In_nth_error in Ho as [k Ek].
    assert (G : node_expr prog confs k = compile_expr e /\
      exists ins, nth_error prog k = Some ins /\ i_op ins = RETURN /\ i_num ins = Z.to_nat num)
      by (eapply node_formula; eassumption).
    destruct G as (Hx & ins & Ei & Hr & Hnum).
    exists k, ins. auto.
Qed.
End Assembled.

(** Through the elimination of common subexpressions; the graph it leaves is told for
    RustDefault.v. *)
Lemma default_assembled h T cls wpd_of bpd_of const ft pt specs aux :
  denotes h T -> well_shaped h -> nkind (h ft) = KSet -> nkind (h pt) = KSet ->
  named_apart h cls -> cls ft = CSet -> cls pt = CSet -> nchildren (h pt) = [] ->
  tl_shaped h cls -> (forall n, reachable h [ft] n -> assemblable h cls ft_code n) ->
  (forall n e, means h cls n e -> wpd e <= wpd_of n /\ bpd_of n <= Z.of_nat (soonest e)) ->
  Forall2 (spec_of compile_expr h cls) (nchildren (h ft)) specs -> NoDup (map fst specs) ->
  Forall (fun s => monitorable (compile_expr (snd s)) /\ modest_formula (compile_expr (snd s))) specs ->
  0 <= const ->
  exists depth0, forall depth, (depth0 <= depth)%nat -> exists fuel0 h' asm,
    (forall fuel, (fuel0 <= fuel)%nat -> optimize_cse depth fuel h ft pt = Some h' /\
                                         gen_assembly fuel h' cls wpd_of bpd_of const ft pt = Some asm) /\
    (denotes h' T /\ nchildren (h' pt) = [] /\ tl_shaped h' cls /\ (forall n, reachable h' [ft] n -> assemblable h' cls ft_code n) /\
     Forall2 (spec_of compile_expr h' cls) (nchildren (h' ft)) specs) /\
    forall bytes, Forall fits asm -> arena_slots asm < 2 ^ 32 -> assemble_binary asm aux = Some bytes ->
    exists prog confs, boot bytes = Some (prog, confs) /\
      ft_program prog confs /\ distinct_reports prog /\ queues_enough prog confs /\
      forall num e, In (num, e) specs -> exists k ins, nth_error prog k = Some ins /\ i_op ins = RETURN /\
        i_num ins = Z.to_nat num /\ node_expr prog confs k = compile_expr e.
Proof.
  intros D Ws K1 K2 A Sft Spt Npt Sh As De Fs Nd Ss Hc.
  destruct (CseProofs.optimize_cse_correct T h ft pt D Ws K1 K2) as (depth0 & HC).
  exists depth0. intros depth Hd. destruct (HC depth Hd) as (f1 & h' & E1 & D' & _ & _).
  set (K := S (fold_right Nat.max O (map (fun s => reach (compile_expr (snd s))) specs))).
  assert (Ss' : Forall (fun s => small_known K (compile_expr (snd s))) specs).
  { rewrite Forall_forall in Ss |- *. intros s Hs. destruct (Ss s Hs) as (Hm & Ho). split; [exact Hm|]. split; [exact Ho|].
    unfold K. clear - Hs. induction specs as [|s0 l IH]; [destruct Hs|]. cbn [map fold_right].
    destruct Hs as [->|Hs]; [lia|]. specialize (IH Hs). lia. }
  assert (Npt' : nchildren (h' pt) = []).
  { pose proof (same_children h h' T D D' pt pt eq_refl) as L. rewrite Npt in L.
    destruct (nchildren (h' pt)); [reflexivity|discriminate]. }
  assert (As' : forall n, reachable h' [ft] n -> assemblable h' cls ft_code n).
  { intros n R. destruct (reachable_transfer h h' T D D' ft n R) as (n0 & R0 & E0).
    eapply assemblable_transfer; [exact D|exact D'|exact A|exact E0|apply As, R0]. }
  assert (Fs' : Forall2 (spec_of compile_expr h' cls) (nchildren (h' ft)) specs).
  { eapply specs_transfer; [exact D|exact D'|exact A|exact Fs|]. apply (same_children h h' T D D' ft ft eq_refl). }
  assert (A' : named_apart h' cls).
  { intros n m Ek Es. apply A; pose proof (D n) as Dn; pose proof (D m) as Dm; pose proof (D' n) as Dn'; pose proof (D' m) as Dm'; congruence. }
  assert (De' : forall n e, means h' cls n e -> wpd e <= wpd_of n /\ bpd_of n <= Z.of_nat (soonest e)).
  { intros n e Hm. apply De. exact (means_transfer h' h T cls D' D A' n e Hm n eq_refl). }
  pose proof (shaped_transfer h h' T cls D D' A Sh) as Sh'.
  destruct (default_runs h' T cls wpd_of bpd_of const ft pt K specs aux D' Sft Spt Npt'
              Sh' As' Fs' Nd Ss' Hc De') as (f2 & asm & E2 & HB).
  exists (Nat.max f1 f2), h', asm. split; [intros fuel Hf; split; [apply E1; lia|apply E2; lia]|].
  split; [tauto|exact HB].
Qed.

Local Existing Instance C_monitor.

Lemma default_end_to_end h T cls wpd_of bpd_of const ft pt specs aux :
  denotes h T -> well_shaped h -> nkind (h ft) = KSet -> nkind (h pt) = KSet ->
  named_apart h cls -> cls ft = CSet -> cls pt = CSet -> nchildren (h pt) = [] ->
  tl_shaped h cls -> (forall n, reachable h [ft] n -> assemblable h cls ft_code n) ->
  (forall n e, means h cls n e -> wpd e <= wpd_of n /\ bpd_of n <= Z.of_nat (soonest e)) ->
  Forall2 (spec_of compile_expr h cls) (nchildren (h ft)) specs -> NoDup (map fst specs) ->
  Forall (fun s => legal (snd s) /\ all_nodes rewrite_source_op (snd s) /\
                   monitorable (compile_expr (snd s)) /\ modest_formula (compile_expr (snd s))) specs ->
  0 <= const ->
  exists depth0, forall depth, (depth0 <= depth)%nat -> exists fuel0 h' asm,
    (forall fuel, (fuel0 <= fuel)%nat -> optimize_cse depth fuel h ft pt = Some h' /\
                                         gen_assembly fuel h' cls wpd_of bpd_of const ft pt = Some asm) /\
    forall bytes, Forall fits asm -> arena_slots asm < 2 ^ 32 -> assemble_binary asm aux = Some bytes ->
    exists prog confs passes0, boot bytes = Some (prog, confs) /\
      forall tr n passes, (passes0 <= passes)%nat ->
      exists m, run passes (rows tr n) prog (init prog confs) = Some m /\
        forall num e, In (num, e) specs ->
          increasing (reports (Z.to_nat num) m) /\
          (forall t b, reported (reports (Z.to_nat num) m) t b -> (b = true <-> sat tr e t) /\ (t < n)%nat) /\
          (forall t, Z.of_nat t + wpd (compile_expr e) < Z.of_nat n -> exists b, reported (reports (Z.to_nat num) m) t b).
Proof.
  intros D Ws K1 K2 A Sft Spt Npt Sh As De Fs Nd Ss Hc.
  destruct (default_assembled h T cls wpd_of bpd_of const ft pt specs aux D Ws K1 K2 A Sft Spt Npt Sh As De Fs Nd) as (depth0 & HD).
  { eapply Forall_impl; [|exact Ss]. intros s (_ & _ & H1 & H2). exact (conj H1 H2). }
  { exact Hc. }
  exists depth0. intros depth Hd. destruct (HD depth Hd) as (fuel0 & h' & asm & E & _ & HB).
  exists fuel0, h', asm. split; [exact E|].
  intros bytes Hfi Ha Eb. destruct (HB bytes Hfi Ha Eb) as (prog & confs & Ebt & P1 & P2 & P3 & HS).
  exists prog, confs, (max_passes prog confs). split; [exact Ebt|]. intros tr n passes Hp.
  destruct (tight_total prog confs tr P1 P2 P3 passes n Hp) as [m Em]. exists m. split; [exact Em|].
  intros num e Hin. destruct (HS num e Hin) as (k & ins & Ek & Ro & Hn & Hx). rewrite <- Hn.
  rewrite Forall_forall in Ss. destruct (Ss _ Hin) as (Hl & Hs & Hm & Hw). cbn [snd] in *.
  pose proof (compile_equivalent e Hl Hs) as Heq.
  split; [exact (tight_increasing prog confs tr P1 P2 P3 passes n m k ins Em Ek Ro)|]. split.
  - intros t b Hrep. destruct (tight_sound prog confs tr P1 P2 P3 passes n m k ins t b Em Ek Ro Hrep) as [S1 S2].
    split; [|exact S2]. rewrite S1, Hx. apply Heq.
  - intros t Ht. apply (tight_timely prog confs tr P1 P2 P3 passes n m k ins t Em Ek Ro).
    rewrite Hx. rewrite (wpd_reach _ (monitorable_future _ Hm)) in Ht. lia.
Qed.
