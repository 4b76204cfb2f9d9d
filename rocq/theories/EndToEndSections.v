(** * End to end with future-time and past-time sections (proofs) *)
From Coq Require Import List Arith ZArith Bool Ascii Lia.
Require Import Verif.Mltl Verif.MltlShape Verif.Transform Verif.TransformProofs Verif.Rewrite Verif.Pipeline Verif.PipelineProofs.
Require Import Verif.Graph Verif.GraphSpec Verif.CseProofs Verif.Binary Verif.BinarySpec Verif.BinaryProofs.
Require Import Verif.Assembly Verif.Layout Verif.AssemblySpec Verif.LayoutSpec Verif.AssembleTotal Verif.BootProofs.
Require Import Verif.Scq Verif.Engine Verif.Monitoring Verif.MonitorProofs Verif.ReachProofs.
Require Import Verif.PastMonitor Verif.PastProofs Verif.MixedProofs Verif.EndToEnd Verif.EndToEndProofs Verif.SectionSpec.
Import ListNotations.
Local Existing Instance C_monitor.
Local Open Scope Z_scope.

(** ** Common subexpression elimination keeps the sections apart *)
Definition closed_under (X : nat -> Prop) (h : heap) : Prop := forall n c, X n -> In c (nchildren (h n)) -> X c.
Section Apart.
Variables (depth : nat) (X Y : nat -> Prop).
Hypothesis apart : forall n, X n -> Y n -> False.
Lemma cse_node_apart e h m h' m' : X e -> (forall k x, In (k, x) m -> X x) -> closed_under X h -> closed_under Y h ->
  cse_node depth e h m = (h', m') -> (forall k x, In (k, x) m' -> X x) /\ closed_under X h' /\ closed_under Y h'.
Proof.
  intros He Hm CX CY E. unfold cse_node in E. destruct (prefix_str depth h e) as [k|]; [|injection E as <- <-; auto].
  destruct (find_str m k) as [e'|] eqn:F.
  - injection E as <- <-. apply find_str_in in F. pose proof (Hm _ _ F) as He'.
    destruct (e =? e')%nat; [auto|]. split; [exact Hm|]. split.
    + intros n c Hn Hc. cbn in Hc. apply in_map_iff in Hc as (c0 & <- & Hc0). destruct (c0 =? e)%nat; [exact He'|]. eapply CX; eassumption.
    + intros n c Hn Hc. cbn in Hc. apply in_map_iff in Hc as (c0 & <- & Hc0). pose proof (CY n c0 Hn Hc0) as H0.
      destruct (Nat.eqb_spec c0 e) as [->|]; [destruct (apart _ He H0)|exact H0].
  - injection E as <- <-. split; [|auto]. intros k' x [Q|Q]; [injection Q as <- <-; exact He|eapply Hm; exact Q].
Qed.
Lemma traverse_apart : forall fuel stack visited h m h' m',
  (forall b e, In (b, e) stack -> X e) -> (forall k x, In (k, x) m -> X x) -> closed_under X h -> closed_under Y h ->
  traverse (cse_node depth) fuel stack visited h m = Some (h', m') -> closed_under X h' /\ closed_under Y h'.
Proof.
  induction fuel as [|fuel IH]; intros stack visited h m h' m' Hs Hm CX CY E; cbn [traverse] in E; [discriminate|].
  destruct stack as [|[b e] stack]; [injection E as <- <-; auto|]. destruct b.
  - destruct (cse_node depth e h m) as [h1 m1] eqn:En.
    destruct (cse_node_apart e h m h1 m1) as (Hm1 & CX1 & CY1); auto; [eapply Hs; left; reflexivity|].
    eapply IH; [|exact Hm1|exact CX1|exact CY1|exact E]. intros b x Hx. eapply Hs. right. exact Hx.
  - destruct (existsb (Nat.eqb e) visited).
    + eapply IH; [|exact Hm|exact CX|exact CY|exact E]. intros b x Hx. eapply Hs. right. exact Hx.
    + eapply IH; [|exact Hm|exact CX|exact CY|exact E].
      intros b x Hx. apply in_app_iff in Hx as [Hx|[Hx|Hx]].
      * apply in_map_iff in Hx as (c & Q & Hc). injection Q as _ <-. eapply CX; [|exact Hc]. eapply Hs. left. reflexivity.
      * injection Hx as _ <-. eapply Hs. left. reflexivity.
      * eapply Hs. right. exact Hx.
Qed.
Lemma cse_set_apart fuel h s h' : X s -> closed_under X h -> closed_under Y h -> cse_set depth fuel h s = Some h' ->
  closed_under X h' /\ closed_under Y h'.
Proof.
  intros Hs CX CY E. unfold cse_set in E.
  destruct (traverse _ _ _ _ _ _) as [[h1 m1]|] eqn:Et; [|discriminate]. injection E as <-.
  eapply traverse_apart; [| |exact CX|exact CY|exact Et]; [|intros k x []].
  intros b e He. apply in_map_iff in He as (c & Q & Hc). injection Q as _ <-. eapply CX; eassumption.
Qed.
End Apart.
Lemma closed_reachable X h r : closed_under X h -> X r -> forall n, reachable h [r] n -> X n.
Proof. intros C Hr n R. induction R as [n Hn|n c R IH Hc]; [destruct Hn as [<-|[]]; exact Hr|eapply C; eassumption]. Qed.
Lemma optimize_cse_apart depth fuel h ft pt h' :
  (forall n, reachable h [ft] n -> ~ reachable h [pt] n) -> optimize_cse depth fuel h ft pt = Some h' ->
  forall n, reachable h' [ft] n -> ~ reachable h' [pt] n.
Proof.
  intros A E. unfold optimize_cse in E. destruct (cse_set depth fuel h ft) as [h1|] eqn:E1; [|discriminate].
  assert (R : forall r, reachable h [r] r) by (intros r; apply reach_start; left; reflexivity).
  assert (C : forall r, closed_under (reachable h [r]) h) by (intros r n c Hn Hc; eapply reach_child; eassumption).
  destruct (cse_set_apart depth (reachable h [ft]) (reachable h [pt]) (fun n H1 H2 => A n H1 H2) fuel h ft h1 (R ft) (C ft) (C pt) E1) as [C1 C2].
  destruct (cse_set_apart depth (reachable h [pt]) (reachable h [ft]) (fun n H1 H2 => A n H2 H1) fuel h1 pt h' (R pt) C2 C1 E) as [C3 C4].
  intros n H1 H2. apply (A n); [exact (closed_reachable _ h' ft C4 (R ft) n H1)|exact (closed_reachable _ h' pt C3 (R pt) n H2)].
Qed.

(** ** Nodes reached from a set *)
Section Stated.
Variables (h : heap) (cls : nat -> nclass) (code : opkind -> option Z) (root : nat) (M : expr -> Prop).
Definition kept : Prop := forall n e c, means h cls n e -> M e -> In c (nchildren (h n)) ->
  (forall a, cls n <> CSignal a) -> (forall a, cls n <> CAtomic a) ->
  exists p, means h cls c p /\ (M p \/ exists b, p = EConst b).
Definition stated (n : nat) : Prop :=
  (exists num e, formula_means h cls n num e /\ M e) \/ (exists e, means h cls n e /\ M e).
Hypothesis K : kept.
Hypothesis Sroot : cls root = CSet.
Hypothesis Fs : forall f, In f (nchildren (h root)) -> exists num e, formula_means h cls f num e /\ M e.
Hypothesis As : forall n, reachable h [root] n -> assemblable h cls code n.

Lemma reachable_stated : forall n, reachable h [root] n ->
  n = root \/ stated n \/ (exists b, cls n = CBool b) \/ bz_class (cls n).
Proof.
  intros n R. induction R as [n Hn|n c R IH Hc].
  - destruct Hn as [<-|[]]. auto.
  - right. destruct (Nat.eq_dec n root) as [->|Nf].
    { left. left. apply Fs, Hc. }
    destruct IH as [E|[[(num & e & (C & _ & x & Ex & Hm) & He)|(e & Hm & He)]|[[b Eb]|Hb]]].
    + contradiction.
    + rewrite Ex in Hc. destruct Hc as [<-|[]]. left. right. eauto.
    + pose proof (As n R) as An. unfold assemblable in An.
      destruct (cls n) eqn:En; try (rewrite An in Hc; destruct Hc);
        try (inversion Hm; congruence).
      * destruct (K n e c Hm He Hc ltac:(congruence) ltac:(congruence)) as (p & Hp & [Hq|[b ->]]).
        -- left. right. eauto.
        -- right. left. inversion Hp. eauto.
      * destruct (K n e c Hm He Hc ltac:(congruence) ltac:(congruence)) as (p & Hp & [Hq|[b ->]]).
        -- left. right. eauto.
        -- right. left. inversion Hp. eauto.
      * destruct An as (x & Ex & Hx). rewrite Ex in Hc. destruct Hc as [<-|[]]. right. right. exact Hx.
    + pose proof (As n R) as An. unfold assemblable in An. rewrite Eb in An. rewrite An in Hc. destruct Hc.
    + pose proof (As n R) as An. unfold assemblable in An. unfold bz_class in Hb.
      destruct (cls n); try contradiction; try (rewrite An in Hc; destruct Hc).
      right. right. rewrite Forall_forall in An. apply An, Hc.
Qed.
Lemma stated_formula : forall n num, reachable h [root] n -> cls n = CFormula num -> In n (nchildren (h root)).
Proof.
  intros n num R En. destruct R as [n Hn|n c R Hc].
  - destruct Hn as [<-|[]]. congruence.
  - destruct (Nat.eq_dec n root) as [->|Nf]; [exact Hc|exfalso].
    pose proof (As n R) as An. unfold assemblable in An.
    destruct (reachable_stated n R) as [E|[[(num' & e & (C & _ & x & Ex & Hm) & He)|(e & Hm & He)]|[[b Eb]|Hb]]].
    + contradiction.
    + rewrite Ex in Hc. destruct Hc as [<-|[]]. eapply means_no_formula; eassumption.
    + destruct (cls n) eqn:Ec; try (rewrite An in Hc; destruct Hc); try (inversion Hm; congruence).
      * destruct (K n e c Hm He Hc ltac:(congruence) ltac:(congruence)) as (p & Hp & _).
        eapply means_no_formula; eassumption.
      * destruct (K n e c Hm He Hc ltac:(congruence) ltac:(congruence)) as (p & Hp & _).
        eapply means_no_formula; eassumption.
      * destruct An as (x & Ex & Hx). rewrite Ex in Hc. destruct Hc as [<-|[]]. rewrite En in Hx. exact Hx.
    + rewrite Eb in An. rewrite An in Hc. destruct Hc.
    + unfold bz_class in Hb. destruct (cls n); try contradiction; try (rewrite An in Hc; destruct Hc).
      rewrite Forall_forall in An. specialize (An c Hc). rewrite En in An. exact An.
Qed.
End Stated.

Definition ft_known (const : nat) (e : expr) : Prop := monitorable e /\ (reach e < const)%nat.
Definition pt_known (const : nat) (e : expr) : Prop := pt_monitorable e /\ (lead e < const)%nat.
Lemma ft_kept h cls const : kept h cls (ft_known const).
Proof.
  intros n e c Hm [He Hr] Hc N1 N2.
  destruct (means_child_reach const h cls n e c Hm He Hr Hc N1 N2) as (p & Hp & [Q|Q] & Hr'); exists p; (split; [exact Hp|]); [left; split; assumption|right; exact Q].
Qed.
Lemma pt_kept h cls const : kept h cls (pt_known const).
Proof.
  intros n e c Hm [He Hr] Hc N1 N2. unfold pt_known.
  inversion Hm; subst; try congruence; cbn [pt_monitorable lead fold_right] in He, Hr;
    try contradiction;
    match goal with E : nchildren (h n) = _ |- _ => rewrite E in Hc end; cbn [In] in Hc.
  - destruct Hc as [<-|[]]. eauto.
  - destruct He as [He1 He2]. destruct Hc as [<-|[<-|[]]]; eexists; (split; [eassumption|]); left; (split; [assumption|lia]).
  - destruct He as [He1 He2]. destruct Hc as [<-|[<-|[]]]; eexists; (split; [eassumption|]); left; (split; [assumption|lia]).
  - destruct He as [He1 He2]. destruct Hc as [<-|[<-|[]]]; eexists; (split; [eassumption|]); left; (split; [assumption|lia]).
  - destruct He as [-> He2]. destruct Hc as [<-|[<-|[]]]; eexists; (split; [eassumption|]); [right; eauto|left; split; [assumption|lia]].
  - destruct He as [-> He2]. destruct Hc as [<-|[<-|[]]]; eexists; (split; [eassumption|]); [right; eauto|left; split; [assumption|lia]].
Qed.
Lemma pt_monitorable_not_const e b : pt_monitorable e -> e <> EConst b.
Proof. intros H ->. exact H. Qed.

(** ** The loaded program *)
Section Parts.
Variables (h : heap) (cls : nat -> nclass) (size : nat -> Z) (owners : list nat) (nft ft pt : nat).
Variables (prog : list instr) (confs : list qconf) (const : nat).
Hypothesis prog_len : length prog = length owners.
Hypothesis confs_len : length confs = length owners.
Hypothesis prog_ok : forall k ins n, nth_error prog k = Some ins -> nth_error owners k = Some n -> instr_ok h cls owners k n ins.
Hypothesis confs_ok : forall k c n, nth_error confs k = Some c -> nth_error owners k = Some n -> conf_ok cls size n c.
Hypothesis Hone : forall n, In n owners -> 1 <= size n.
Hypothesis Hsize : forall n, In n owners -> (const + 1 <= Z.to_nat (size n))%nat.
Hypothesis I1 : forall n, In n (firstn nft owners) <-> reachable h [ft] n /\ owns (cls n) = true.
Hypothesis I2 : forall n, In n (skipn nft owners) <-> reachable h [pt] n /\ owns (cls n) = true.
Hypothesis apart : forall n, reachable h [ft] n -> reachable h [pt] n -> owns (cls n) = false.
Hypothesis Hft : forall n, In n (firstn nft owners) -> stated h cls (ft_known const) n.
Hypothesis Hpt : forall n, In n (skipn nft owners) -> stated h cls (pt_known const) n.

Definition in_ft (k : nat) : bool := (k <? nft)%nat.
Definition in_pt (k : nat) : bool := negb (in_ft k).

Lemma nth_ft k n : nth_error owners k = Some n -> in_ft k = true -> In n (firstn nft owners).
Proof using.
  clear prog_len confs_len prog_ok confs_ok. intros E H. apply Nat.ltb_lt in H. apply (nth_error_In _ k).
  rewrite <- (firstn_skipn nft owners) in E.
  rewrite nth_error_app1 in E; [exact E|].
  rewrite firstn_length. assert (nth_error owners k <> None) as L by (rewrite <- (firstn_skipn nft owners); congruence).
  apply nth_error_Some in L. lia.
Qed.
Lemma nth_pt k n : nth_error owners k = Some n -> in_pt k = true -> In n (skipn nft owners).
Proof using.
  clear prog_len confs_len prog_ok confs_ok. intros E H. unfold in_pt, in_ft in H. apply negb_true_iff, Nat.ltb_ge in H. apply (nth_error_In _ (k - nft)).
  rewrite <- (firstn_skipn nft owners) in E.
  rewrite nth_error_app2 in E; [|rewrite firstn_length; lia].
  rewrite firstn_length in E. replace (Nat.min nft (length owners)) with nft in E; [exact E|].
  assert (L : nth_error (skipn nft owners) (k - Nat.min nft (length owners)) <> None) by congruence.
  apply nth_error_Some in L. rewrite skipn_length in L. lia.
Qed.
Lemma at_k k : (k < length owners)%nat -> exists n ins c,
  nth_error owners k = Some n /\ nth_error prog k = Some ins /\ nth_error confs k = Some c /\
  instr_ok h cls owners k n ins /\ conf_ok cls size n c.
Proof using prog_len confs_len prog_ok confs_ok. exact (owner_at h cls size owners prog confs prog_len confs_len prog_ok confs_ok k). Qed.

Lemma slot_reads n k i o j : In i [0; 1]%nat -> slot_ok cls owners k (nth_error (nchildren (h n)) i) o -> o = Sub j ->
  exists c, In c (nchildren (h n)) /\ nth_error owners j = Some c.
Proof using.
  intros _ S E. unfold slot_ok in S. destruct (nth_error (nchildren (h n)) i) as [c|] eqn:Ec; [|congruence].
  exists c. split; [eapply nth_error_In; exact Ec|]. unfold operand_ok in S.
  destruct (cls c); try (destruct S as (j' & E' & _ & H); congruence). congruence.
Qed.
Lemma reads_child k n ins j : instr_ok h cls owners k n ins -> reads ins j ->
  exists c, In c (nchildren (h n)) /\ nth_error owners j = Some c.
Proof using.
  intros O R. unfold instr_ok in O. unfold reads in R. destruct (cls n); try contradiction.
  - subst ins. cbn in R. destruct R; discriminate.
  - destruct O as (c' & o1 & o2 & _ & S1 & S2 & ->). cbn in R. destruct R as [R|R].
    + eapply (slot_reads n k 0); [left; reflexivity|exact S1|exact R].
    + eapply (slot_reads n k 1); [right; left; reflexivity|exact S2|exact R].
  - destruct O as (c' & o1 & o2 & _ & S1 & S2 & ->). cbn in R. destruct R as [R|R].
    + eapply (slot_reads n k 0); [left; reflexivity|exact S1|exact R].
    + eapply (slot_reads n k 1); [right; left; reflexivity|exact S2|exact R].
  - destruct O as (o & S1 & ->). cbn in R. destruct R as [R|R]; [|discriminate].
    eapply (slot_reads n k 0); [left; reflexivity|exact S1|exact R].
  - subst ins. cbn in R. destruct R; discriminate.
Qed.

Lemma ft_closed : closed prog in_ft.
Proof using prog_len confs_len prog_ok confs_ok.
  intros k ins j Hk Ei R.
  destruct (at_k k) as (n & ins' & c & En & Ei' & Ec & O & Q); [rewrite <- prog_len; apply nth_error_Some; congruence|].
  replace ins' with ins in * by congruence.
  destruct (instr_below h cls owners k n ins O) as [B1 B2]. unfold in_ft in *. apply Nat.ltb_lt in Hk. apply Nat.ltb_lt.
  assert (j < k)%nat by (destruct R as [R|R]; [exact (B1 j R)|exact (B2 j R)]). lia.
Qed.
Lemma pt_closed : closed prog in_pt.
Proof using prog_len confs_len prog_ok confs_ok I1 I2 apart.
  intros k ins j Hk Ei R.
  destruct (at_k k) as (n & ins' & c & En & Ei' & Ec & O & Q); [rewrite <- prog_len; apply nth_error_Some; congruence|].
  replace ins' with ins in * by congruence.
  destruct (reads_child k n ins j O R) as (x & Hx & Ej).
  pose proof (proj1 (I2 n) (nth_pt k n En Hk)) as [Rn _].
  assert (Rx : reachable h [pt] x) by (eapply reach_child; eassumption).
  unfold in_pt. destruct (in_ft j) eqn:Fj; [|reflexivity]. exfalso.
  pose proof (proj1 (I1 x) (nth_ft j x Ej Fj)) as [Rf Ox]. rewrite (apart x Rf Rx) in Ox. discriminate.
Qed.

Lemma ft_boot : ft_part in_ft prog confs.
Proof using prog_len confs_len prog_ok confs_ok Hone Hft.
  split; [lia|]. split; [exact ft_closed|]. intros k ins c Hk Ei Ec.
  destruct (at_k k) as (n & ins' & c' & En & Ei' & Ec' & O & Q); [rewrite <- prog_len; apply nth_error_Some; congruence|].
  replace ins' with ins in * by congruence. replace c' with c in * by congruence.
  eapply (ft_instruction h cls size owners prog confs prog_len confs_len prog_ok confs_ok const k n ins c En O Q).
  - destruct (Hft n (nth_ft k n En Hk)) as [(num & e & Hf & H1 & H2)|(e & Hm & H1 & H2)]; [left|right]; eauto 6.
  - destruct Q as [-> _]. specialize (Hone n (nth_error_In _ _ En)). lia.
Qed.
Lemma pt_boot : pt_part in_pt prog confs.
Proof using prog_len confs_len prog_ok confs_ok I1 I2 apart Hone Hpt.
  split; [lia|]. split; [exact pt_closed|]. intros k ins c Hk Ei Ec.
  destruct (at_k k) as (n & ins' & c' & En & Ei' & Ec' & O & Q); [rewrite <- prog_len; apply nth_error_Some; congruence|].
  replace ins' with ins in * by congruence. replace c' with c in * by congruence. clear ins' c' Ei' Ec'.
  assert (Hea : forall x o p, operand_ok cls owners k x o -> means h cls x p -> pt_monitorable p -> earlier prog k o).
  { intros x o p Ho Hm Hp. eapply (operand_earlier_any h cls size owners prog confs prog_len confs_len prog_ok confs_ok); [exact Ho|exact Hm|].
    intros b. apply pt_monitorable_not_const, Hp. }
  assert (Hdi : forall x o b, operand_ok cls owners k x o -> means h cls x (EConst b) -> o = Direct b).
  { intros x o b. apply operand_direct. }
  split; [destruct Q as [-> _]; specialize (Hone n (nth_error_In _ _ En)); lia|].
  unfold instr_ok in O. unfold conf_ok in Q.
  destruct (Hpt n (nth_pt k n En Hk)) as [(num & e & (Ef & Hn & x & Ex & Hm) & He & _)|(e & Hm & He & _)].
  - rewrite Ef, Ex in O. destruct O as (o & S1 & ->). cbn [nth_error slot_ok] in S1. cbn [i_op i_op1 i_op2]. split; [|reflexivity].
    eapply Hea; eassumption.
  - inversion Hm; subst; match goal with E : cls n = _ |- _ => rewrite E in O, Q end;
      try match goal with E : nchildren (h n) = _ |- _ => rewrite E in O end; cbn [nth_error slot_ok] in O;
      cbn [pt_monitorable] in He; try contradiction.
    + subst ins. cbn. split; [eauto|reflexivity].
    + subst ins. cbn. split; [eauto|reflexivity].
    + destruct O as (c' & o1 & o2 & Hc & S1 & S2 & ->). injection Hc as <-. cbn [i_op i_op1 i_op2].
      split; [eapply Hea; eassumption|exact S2].
    + destruct O as (c' & o1 & o2 & Hc & S1 & S2 & ->). injection Hc as <-. cbn [i_op i_op1 i_op2].
      destruct He. split; eapply Hea; eassumption.
    + destruct O as (c' & o1 & o2 & Hc & S1 & S2 & ->). injection Hc as <-. cbn [i_op i_op1 i_op2].
      destruct He. split; eapply Hea; eassumption.
    + destruct O as (c' & o1 & o2 & Hc & S1 & S2 & ->). injection Hc as <-. cbn [i_op i_op1 i_op2].
      destruct He. split; eapply Hea; eassumption.
    + destruct O as (c' & o1 & o2 & Hc & S1 & S2 & ->). injection Hc as <-. cbn [i_op i_op1 i_op2].
      destruct Q as (_ & -> & ->). destruct He as [-> He]. split; [eapply Hdi; eassumption|]. split; [eapply Hea; eassumption|lia].
    + destruct O as (c' & o1 & o2 & Hc & S1 & S2 & ->). injection Hc as <-. cbn [i_op i_op1 i_op2].
      destruct Q as (_ & -> & ->). destruct He as [-> He]. split; [eapply Hdi; eassumption|]. split; [eapply Hea; eassumption|lia].
Qed.

Lemma node_stated M k n : nth_error owners k = Some n -> stated h cls M n -> M (node_expr prog confs k).
Proof using prog_len confs_len prog_ok confs_ok.
  intros En [(num & e & Hf & Hm)|(e & Hf & Hm)].
  - destruct (node_formula h cls size owners prog confs prog_len confs_len prog_ok confs_ok k n num e En Hf) as [-> _]. exact Hm.
  - rewrite (node_means h cls size owners prog confs prog_len confs_len prog_ok confs_ok k n e En Hf). exact Hm.
Qed.
Lemma ft_boot_ample : part_ample in_ft prog confs.
Proof using prog_len confs_len prog_ok confs_ok Hsize Hft.
  intros k ins c conf Hk Ei Hr Ec.
  destruct (at_k k) as (n & ins' & c' & En & _); [rewrite <- prog_len; apply nth_error_Some; congruence|].
  destruct (node_stated _ k n En (Hft n (nth_ft k n En Hk))) as [_ R].
  destruct (at_k c) as (nc & insc & cc & Enc & _ & Ecc & _ & Qc); [rewrite <- confs_len; apply nth_error_Some; congruence|].
  replace cc with conf in * by congruence. destruct Qc as [-> _].
  specialize (Hsize nc (nth_error_In _ _ Enc)). lia.
Qed.
Lemma pt_boot_ample : pt_part_ample in_pt prog confs.
Proof using prog_len confs_len prog_ok confs_ok I1 I2 apart Hsize Hpt.
  intros k ins c conf Hk Ei Hr Ec.
  pose proof (pt_closed k ins c Hk Ei Hr) as Hc.
  destruct (at_k c) as (nc & insc & cc & Enc & _ & Ecc & _ & Qc); [rewrite <- confs_len; apply nth_error_Some; congruence|].
  destruct (node_stated _ c nc Enc (Hpt nc (nth_pt c nc Enc Hc))) as [_ R].
  replace cc with conf in * by congruence. destruct Qc as [-> _].
  specialize (Hsize nc (nth_error_In _ _ Enc)). lia.
Qed.
End Parts.

(** ** Assembled, loaded and run *)
Section Monitored.
Variables (h : heap) (T : nat -> tree) (cls : nat -> nclass) (wpd_of bpd_of : nat -> Z) (const : Z) (K ft pt : nat).
Variables (fspecs pspecs : list (Z * expr)) (aux : list Z).
Hypothesis D : denotes h T.
Hypothesis Sft : cls ft = CSet.
Hypothesis Spt : cls pt = CSet.
Hypothesis Sh : tl_shaped h cls.
Hypothesis A1 : forall n, reachable h [ft] n -> assemblable h cls ft_code n.
Hypothesis A2 : forall n, reachable h [pt] n -> assemblable h cls pt_code n.
Hypothesis Ap : forall n, reachable h [ft] n -> reachable h [pt] n -> owns (cls n) = false.
Hypothesis Ff : Forall2 (spec_of compile_expr h cls) (nchildren (h ft)) fspecs.
Hypothesis Fp : Forall2 (spec_of compile_expr h cls) (nchildren (h pt)) pspecs.
Hypothesis Nd : NoDup (map fst (fspecs ++ pspecs)).
Hypothesis Sf : Forall (fun s => ft_known (K) (compile_expr (snd s))) fspecs.
Hypothesis Sp : Forall (fun s => pt_known (K) (compile_expr (snd s))) pspecs.
Hypothesis Hconst : 0 <= const.

(** The owners of instructions, the nodes they are among and the instructions themselves. *)
Record loaded (nft : nat) (nodes owners : list nat) (prog : list instr) (confs : list qconf) : Prop := {
  ld_prog : length prog = length owners;
  ld_confs : length confs = length owners;
  ld_instr : forall k ins n, nth_error prog k = Some ins -> nth_error owners k = Some n -> instr_ok h cls owners k n ins;
  ld_conf : forall k c n, nth_error confs k = Some c -> nth_error owners k = Some n ->
            conf_ok cls (scq_size h cls wpd_of bpd_of const nodes) n c;
  ld_in : forall n, In n owners -> In n nodes /\ owns (cls n) = true;
  ld_ft : forall n, In n (firstn nft owners) <-> reachable h [ft] n /\ owns (cls n) = true;
  ld_pt : forall n, In n (skipn nft owners) <-> reachable h [pt] n /\ owns (cls n) = true }.
Lemma section_formulas M code root specs : cls root = CSet -> kept h cls M ->
  Forall2 (spec_of compile_expr h cls) (nchildren (h root)) specs ->
  Forall (fun s => M (compile_expr (snd s))) specs ->
  (forall n, reachable h [root] n -> assemblable h cls code n) ->
  forall n, reachable h [root] n -> owns (cls n) = true -> stated h cls M n.
Proof using.
  clear D Sft Spt Sh A1 A2 Ap Ff Fp Nd Sf Sp Hconst.
  intros Sr K0 F S A n R O.
  assert (G : forall f, In f (nchildren (h root)) -> exists num e, formula_means h cls f num e /\ M e).
  { intros f Hf. destruct (Forall2_in _ _ _ F f Hf) as (s & Hs & Hm). rewrite Forall_forall in S. exists (fst s), (compile_expr (snd s)). auto. }
  destruct (reachable_stated h cls code root M K0 G A n R) as [->|[H|[[b Hb]|Hb]]].
  - rewrite Sr in O. discriminate.
  - exact H.
  - rewrite Hb in O. discriminate.
  - unfold bz_class in Hb. destruct (cls n); try contradiction; discriminate.
Qed.
Lemma loaded_sections :
  exists fuel0 asm, (forall fuel, (fuel0 <= fuel)%nat -> gen_assembly fuel h cls wpd_of bpd_of const ft pt = Some asm) /\
  forall bytes, Forall fits asm -> arena_slots asm < 2 ^ 32 -> assemble_binary asm aux = Some bytes ->
  exists prog confs nft nodes owners, boot bytes = Some (prog, confs) /\
    loaded nft nodes owners prog confs /\
    ft_part (in_ft nft) prog confs /\ pt_part (in_pt nft) prog confs /\ distinct_reports prog /\
    (forall num e, In (num, e) fspecs -> exists k ins, nth_error prog k = Some ins /\ in_ft nft k = true /\ i_op ins = RETURN /\
      i_num ins = Z.to_nat num /\ node_expr prog confs k = compile_expr e) /\
    (forall num e, In (num, e) pspecs -> exists k ins, nth_error prog k = Some ins /\ in_pt nft k = true /\ i_op ins = RETURN /\
      i_num ins = Z.to_nat num /\ node_expr prog confs k = compile_expr e).
Proof.
  assert (Gf : forall f, In f (nchildren (h ft)) -> exists num e, formula_means h cls f num e /\ ft_known (K) e).
  { intros f Hf. destruct (Forall2_in _ _ _ Ff f Hf) as (s & Hs & Hm). rewrite Forall_forall in Sf. exists (fst s), (compile_expr (snd s)). auto. }
  assert (Gp : forall f, In f (nchildren (h pt)) -> exists num e, formula_means h cls f num e /\ pt_known (K) e).
  { intros f Hf. destruct (Forall2_in _ _ _ Fp f Hf) as (s & Hs & Hm). rewrite Forall_forall in Sp. exists (fst s), (compile_expr (snd s)). auto. }
  destruct (assembly_correct h T cls wpd_of bpd_of const ft pt D Sh A1 A2 Ap) as (fuel0 & nodes & nft & owners & asm & E & Hn & I1 & I2 & W).
  exists fuel0, asm. split; [exact E|]. intros bytes Hf Ha Eb.
  set (size := scq_size h cls wpd_of bpd_of const nodes) in *.
  assert (Io : forall n, In n owners -> owns (cls n) = true).
  { intros n Hin. rewrite <- (firstn_skipn nft owners) in Hin. apply in_app_iff in Hin as [Q|Q]; [apply I1, Q|apply I2, Q]. }
  assert (Cf : forall n, In n (firstn nft owners) -> stated h cls (ft_known K) n).
  { intros n Hin. apply I1 in Hin as [R O]. exact (section_formulas _ _ ft _ Sft (ft_kept h cls K) Ff Sf A1 n R O). }
  assert (Cp : forall n, In n (skipn nft owners) -> stated h cls (pt_known K) n).
  { intros n Hin. apply I2 in Hin as [R O]. exact (section_formulas _ _ pt _ Spt (pt_kept h cls K) Fp Sp A2 n R O). }
  assert (Hcov : forall n, In n owners -> (exists num e, formula_means h cls n num e) \/ (exists e, means h cls n e)).
  { intros n Hin. rewrite <- (firstn_skipn nft owners) in Hin. apply in_app_iff in Hin as [Q|Q].
    - destruct (Cf n Q) as [(num & e & H & _)|(e & H & _)]; eauto.
    - destruct (Cp n Q) as [(num & e & H & _)|(e & H & _)]; eauto. }
  assert (Hsizes : Forall (fun n => 1 <= size n) owners).
  { apply Forall_forall. intros n Hin. apply scq_size_pos; [exact Hconst|]. apply Io, Hin. }
  assert (Hsup : forall n, In n owners -> supported cls n).
  { intros n Hin. unfold supported. destruct (Hcov n Hin) as [(num & e & (C & _))|(e & Hm)]; [rewrite C; exact I|].
    inversion Hm; subst; match goal with E : cls n = _ |- _ => rewrite E end; try exact I; discriminate. }
  destruct (decode_ok h cls size owners asm nft W Hsup) as (prog & Ep & Lp & Hp).
  set (confs := decode_confs (load_arena (map result asm)) 0 prog).
  assert (Lc : length confs = length owners) by (unfold confs; rewrite decode_confs_length; exact Lp).
  assert (Hq : forall k c n, nth_error confs k = Some c -> nth_error owners k = Some n -> conf_ok cls size n c).
  { intros k c n Ek En. assert (Hk : (k < length prog)%nat) by (rewrite Lp; apply nth_error_Some; congruence).
    destruct (nth_error prog k) as [ins|] eqn:Ei; [|apply nth_error_None in Ei; lia].
    unfold confs in Ek. rewrite (decode_confs_nth _ _ 0 k ins Ei) in Ek. injection Ek as <-.
    eapply conf_decode; [exact W|exact Hsizes|exact Ha|exact En|eapply Hp; eassumption|].
    destruct (Hcov n (nth_error_In _ _ En)) as [(num & e & (C & _))|(e & Hm)]; [rewrite C; exact I|].
    inversion Hm; subst; match goal with E : cls n = _ |- _ => rewrite E end; exact I. }
  exists prog, confs, nft, nodes, owners.
  assert (Hone : forall n, In n owners -> 1 <= size n) by (rewrite <- Forall_forall; exact Hsizes).
  assert (Hfc : forall n num, In n owners -> cls n = CFormula num -> In n (nchildren (h ft) ++ nchildren (h pt))).
  { intros n num Hin Cn. rewrite <- (firstn_skipn nft owners) in Hin. apply in_app_iff. apply in_app_iff in Hin as [Q|Q]; [left|right].
    - apply I1 in Q as [R _]. eapply stated_formula; [apply ft_kept|exact Sft|exact Gf|exact A1|exact R|exact Cn].
    - apply I2 in Q as [R _]. eapply stated_formula; [apply pt_kept|exact Spt|exact Gp|exact A2|exact R|exact Cn]. }
  assert (Hfu : forall n m num, In n owners -> In m owners -> cls n = CFormula num -> cls m = CFormula num -> n = m).
  { intros n m num Hin Him Cn Cm.
    eapply (specs_unique h cls (nchildren (h ft) ++ nchildren (h pt)) (fspecs ++ pspecs)); [apply Forall2_app; assumption|exact Nd| | |exact Cn|exact Cm]; eapply Hfc; eassumption. }
  assert (Hpos : forall n num, In n owners -> cls n = CFormula num -> 0 <= num).
  { intros n num Hin Cn. destruct (Hcov n Hin) as [(num' & e & (C & Hz & _))|(e & Hm)]; [congruence|].
    exfalso. eapply means_no_formula; eassumption. }
  assert (Hnd : NoDup owners) by apply W.
  assert (Hspec : forall fs specs, Forall2 (spec_of compile_expr h cls) fs specs -> forall num e, In (num, e) specs ->
            exists f, In f fs /\ owns (cls f) = true /\ forall k, nth_error owners k = Some f ->
              exists ins, nth_error prog k = Some ins /\ i_op ins = RETURN /\ i_num ins = Z.to_nat num /\ node_expr prog confs k = compile_expr e).
  { intros fs specs FS num e Hin. destruct (Forall2_in_r _ _ _ FS (num, e) Hin) as (f & Hfi & Hm). unfold spec_of in Hm. cbn [fst snd] in Hm.
    exists f. split; [exact Hfi|]. split; [destruct Hm as (-> & _); reflexivity|]. intros k Ek.
    destruct (node_formula h cls size owners prog confs Lp Lc Hp Hq k f num _ Ek Hm) as (Hx & ins & Ei & Hr & Hnum). eauto 6. }
  assert (Hidx : forall l f, In f l -> forall pre, owners = pre ++ l -> exists k, nth_error owners (length pre + k) = Some f /\ (k < length l)%nat).
  { intros l f Hfl pre Eo. apply In_nth_error in Hfl as [k Ek]. exists k. split; [|apply nth_error_Some; congruence].
    rewrite Eo, nth_error_app2 by lia. replace (length pre + k - length pre)%nat with k by lia. exact Ek. }
  split; [unfold boot; rewrite (load_value _ _ _ Hf Eb), table_result, Ep; reflexivity|].
  split.
  { constructor; auto. intros n Hin. split; [|exact (Io n Hin)]. apply Hn.
    rewrite <- (firstn_skipn nft owners) in Hin. apply in_app_iff in Hin as [Q|Q]; [left; apply I1, Q|right; apply I2, Q]. }
  split; [exact (ft_boot h cls size owners nft prog confs K Lp Lc Hp Hq Hone Cf)|].
  split; [exact (pt_boot h cls size owners nft ft pt prog confs K Lp Lc Hp Hq Hone I1 I2 Ap Cp)|].
  split; [eapply boot_distinct; eassumption|].
  split.
  - intros num e Hin. destruct (Hspec _ _ Ff num e Hin) as (f & Hfi & Of & Hk).
    assert (Ho : In f (firstn nft owners)).
    { apply I1. split; [eapply reach_child; [apply reach_start; left; reflexivity|exact Hfi]|exact Of]. }
    apply In_nth_error in Ho as [k Ek]. assert (Lk : (k < length (firstn nft owners))%nat) by (apply nth_error_Some; congruence).
    rewrite firstn_length in Lk.
    assert (Ek' : nth_error owners k = Some f) by (rewrite <- (firstn_skipn nft owners), nth_error_app1; [exact Ek|rewrite firstn_length; lia]).
    destruct (Hk k Ek') as (ins & H1 & H2 & H3 & H4). exists k, ins. split; [exact H1|]. split; [apply Nat.ltb_lt; lia|]. auto.
  - intros num e Hin. destruct (Hspec _ _ Fp num e Hin) as (f & Hfi & Of & Hk).
    assert (Ho : In f (skipn nft owners)).
    { apply I2. split; [eapply reach_child; [apply reach_start; left; reflexivity|exact Hfi]|exact Of]. }
    destruct (Hidx _ f Ho (firstn nft owners) (eq_sym (firstn_skipn nft owners))) as (k & Ek & Lk).
    rewrite skipn_length in Lk. rewrite firstn_length in Ek. replace (Nat.min nft (length owners)) with nft in Ek by lia.
    destruct (Hk _ Ek) as (ins & H1 & H2 & H3 & H4). exists (nft + k)%nat, ins. split; [exact H1|].
    split; [unfold in_pt, in_ft; apply negb_true_iff, Nat.ltb_ge; lia|]. auto.
Qed.
End Monitored.

(** A constant beyond what the formulas reach makes the queues ample. *)
Lemma assembled_sections h T cls wpd_of bpd_of const ft pt (fspecs pspecs : list (Z * expr)) aux :
  denotes h T -> cls ft = CSet -> cls pt = CSet -> tl_shaped h cls ->
  (forall n, reachable h [ft] n -> assemblable h cls ft_code n) ->
  (forall n, reachable h [pt] n -> assemblable h cls pt_code n) ->
  (forall n, reachable h [ft] n -> reachable h [pt] n -> owns (cls n) = false) ->
  Forall2 (spec_of compile_expr h cls) (nchildren (h ft)) fspecs ->
  Forall2 (spec_of compile_expr h cls) (nchildren (h pt)) pspecs -> NoDup (map fst (fspecs ++ pspecs)) ->
  Forall (fun s => ft_known (Z.to_nat const) (compile_expr (snd s))) fspecs ->
  Forall (fun s => pt_known (Z.to_nat const) (compile_expr (snd s))) pspecs ->
  0 <= const ->
  exists fuel0 asm, (forall fuel, (fuel0 <= fuel)%nat -> gen_assembly fuel h cls wpd_of bpd_of const ft pt = Some asm) /\
  forall bytes, Forall fits asm -> arena_slots asm < 2 ^ 32 -> assemble_binary asm aux = Some bytes ->
  exists prog confs nft, boot bytes = Some (prog, confs) /\
    ft_part (in_ft nft) prog confs /\ pt_part (in_pt nft) prog confs /\ distinct_reports prog /\
    part_ample (in_ft nft) prog confs /\ pt_part_ample (in_pt nft) prog confs /\
    (forall num e, In (num, e) fspecs -> exists k ins, nth_error prog k = Some ins /\ in_ft nft k = true /\ i_op ins = RETURN /\
      i_num ins = Z.to_nat num /\ node_expr prog confs k = compile_expr e) /\
    (forall num e, In (num, e) pspecs -> exists k ins, nth_error prog k = Some ins /\ in_pt nft k = true /\ i_op ins = RETURN /\
      i_num ins = Z.to_nat num /\ node_expr prog confs k = compile_expr e).
Proof.
  intros D Sft Spt Sh A1 A2 Ap Ff Fp Nd Sf Sp Hc.
  destruct (loaded_sections h T cls wpd_of bpd_of const (Z.to_nat const) ft pt fspecs pspecs aux D Sft Spt Sh A1 A2 Ap Ff Fp Nd Sf Sp Hc)
    as (fuel0 & asm & E & HB).
  exists fuel0, asm. split; [exact E|]. intros bytes Hfi Ha Eb.
  destruct (HB bytes Hfi Ha Eb) as (prog & confs & nft & nodes & owners & Ebt & [Lp Lc Hp Hq Hi I1 I2] & P1 & P2 & P3 & HF & HP).
  exists prog, confs, nft.
  assert (Cf : forall n, In n (firstn nft owners) -> stated h cls (ft_known (Z.to_nat const)) n).
  { intros n Hin. apply I1 in Hin as [R O]. exact (section_formulas h cls _ _ ft _ Sft (ft_kept h cls _) Ff Sf A1 n R O). }
  assert (Cp : forall n, In n (skipn nft owners) -> stated h cls (pt_known (Z.to_nat const)) n).
  { intros n Hin. apply I2 in Hin as [R O]. exact (section_formulas h cls _ _ pt _ Spt (pt_kept h cls _) Fp Sp A2 n R O). }
  assert (Hsize : forall n, In n owners -> (Z.to_nat const + 1 <= Z.to_nat (scq_size h cls wpd_of bpd_of const nodes n))%nat).
  { intros n Hin. apply Hi in Hin as [_ O]. unfold scq_size. destruct (cls n); try discriminate; lia. }
  split; [exact Ebt|]. split; [exact P1|]. split; [exact P2|]. split; [exact P3|].
  split; [exact (ft_boot_ample h cls _ owners nft prog confs (Z.to_nat const) Lp Lc Hp Hq Hsize Cf)|].
  split; [exact (pt_boot_ample h cls _ owners nft ft pt prog confs (Z.to_nat const) Lp Lc Hp Hq Hsize I1 I2 Ap Cp)|].
  split; [exact HF|exact HP].
Qed.

(** The two sections cover the program. *)
Lemma sections_cover nft (prog : list instr) k : (k < length prog)%nat -> in_ft nft k = true \/ in_pt nft k = true.
Proof. intros _. unfold in_pt. destruct (in_ft nft k); auto. Qed.

(** What the reports of a run say about the specifications. *)
Lemma section_reports {I : impl} const prog confs nft tr fspecs pspecs passes n m :
  ft_part (in_ft nft) prog confs -> pt_part (in_pt nft) prog confs -> distinct_reports prog ->
  part_ample (in_ft nft) prog confs -> pt_part_ample (in_pt nft) prog confs ->
  (forall num e, In (num, e) fspecs -> exists k ins, nth_error prog k = Some ins /\ in_ft nft k = true /\ i_op ins = RETURN /\
      i_num ins = Z.to_nat num /\ node_expr prog confs k = compile_expr e) ->
  (forall num e, In (num, e) pspecs -> exists k ins, nth_error prog k = Some ins /\ in_pt nft k = true /\ i_op ins = RETURN /\
      i_num ins = Z.to_nat num /\ node_expr prog confs k = compile_expr e) ->
  ft_ready const fspecs -> pt_ready const pspecs ->
  run passes (rows tr n) prog (init prog confs) = Some m ->
  ft_answers tr n fspecs m /\ pt_answers tr n pspecs m.
Proof.
  intros P1 P2 P3 P4 P5 HF HP Sf Sp Em. unfold ft_ready, pt_ready in *. split; intros num e Hin.
  - destruct (HF num e Hin) as (k & ins & Ek & Pk & Ro & Hn & Hx). rewrite <- Hn.
    rewrite Forall_forall in Sf. destruct (Sf _ Hin) as (Hl & Hs & Hm & _). cbn [snd] in *.
    pose proof (compile_equivalent e Hl Hs) as Heq.
    split; [exact (part_increasing prog confs tr _ P1 P3 P4 passes n m k ins Em Ek Pk Ro)|]. split.
    + intros t b Hrep. destruct (part_sound prog confs tr _ P1 P3 P4 passes n m k ins t b Em Ek Pk Ro Hrep) as [S1 S2].
      split; [|exact S2]. rewrite S1, Hx. apply Heq.
    + intros t Ht. apply (part_timely prog confs tr _ P1 P3 P4 passes n m k ins t Em Ek Pk Ro).
      rewrite Hx. rewrite (wpd_reach _ (monitorable_future _ Hm)) in Ht. lia.
  - destruct (HP num e Hin) as (k & ins & Ek & Pk & Ro & Hn & Hx). rewrite <- Hn.
    rewrite Forall_forall in Sp. destruct (Sp _ Hin) as (Hl & Hs & _). cbn [snd] in *.
    pose proof (compile_equivalent e Hl Hs) as Heq.
    split; [exact (ppart_increasing prog confs tr _ P2 P3 P5 passes n m k ins Em Ek Pk Ro)|]. split.
    + intros t b Hrep. destruct (ppart_sound prog confs tr _ P2 P3 P5 passes n m k ins t b Em Ek Pk Ro Hrep) as [S1 S2].
      rewrite Hx in S1, S2. split; [|exact S2]. rewrite S1. apply Heq.
    + intros t Ht. exact (ppart_timely prog confs tr _ P2 P3 P5 passes n m k ins t Em Ek Pk Ro Ht).
Qed.

(** The graph after common subexpression elimination meets the same hypotheses. *)
Section Shared.
Variables (h : heap) (T : nat -> tree) (cls : nat -> nclass) (ft pt : nat) (fspecs pspecs : list (Z * expr)).
Hypothesis D : denotes h T.
Hypothesis Ws : well_shaped h.
Hypothesis K1 : nkind (h ft) = KSet.
Hypothesis K2 : nkind (h pt) = KSet.
Hypothesis A : named_apart h cls.
Hypothesis Ap : forall n, reachable h [ft] n -> ~ reachable h [pt] n.
Hypothesis Sh : tl_shaped h cls.
Hypothesis A1 : forall n, reachable h [ft] n -> assemblable h cls ft_code n.
Hypothesis A2 : forall n, reachable h [pt] n -> assemblable h cls pt_code n.
Hypothesis Ff : Forall2 (spec_of compile_expr h cls) (nchildren (h ft)) fspecs.
Hypothesis Fp : Forall2 (spec_of compile_expr h cls) (nchildren (h pt)) pspecs.
Lemma sections_shared : exists depth0, forall depth, (depth0 <= depth)%nat -> exists fuel0 h',
  (forall fuel, (fuel0 <= fuel)%nat -> optimize_cse depth fuel h ft pt = Some h') /\
  denotes h' T /\ (forall n, reachable h' [ft] n -> ~ reachable h' [pt] n) /\ tl_shaped h' cls /\
  (forall n, reachable h' [ft] n -> assemblable h' cls ft_code n) /\
  (forall n, reachable h' [pt] n -> assemblable h' cls pt_code n) /\
  Forall2 (spec_of compile_expr h' cls) (nchildren (h' ft)) fspecs /\
  Forall2 (spec_of compile_expr h' cls) (nchildren (h' pt)) pspecs.
Proof.
  destruct (CseProofs.optimize_cse_correct T h ft pt D Ws K1 K2) as (depth0 & HC).
  exists depth0. intros depth Hd. destruct (HC depth Hd) as (f1 & h' & E1 & D' & _ & _).
  exists f1, h'. split; [exact E1|]. split; [exact D'|].
  split; [exact (optimize_cse_apart depth f1 h ft pt h' Ap (E1 f1 (le_n _)))|].
  split; [exact (shaped_transfer h h' T cls D D' A Sh)|]. split; [|split; [|split]].
  - intros n R. destruct (reachable_transfer h h' T D D' ft n R) as (n0 & R0 & E0).
    eapply assemblable_transfer; [exact D|exact D'|exact A|exact E0|apply A1, R0].
  - intros n R. destruct (reachable_transfer h h' T D D' pt n R) as (n0 & R0 & E0).
    eapply assemblable_transfer; [exact D|exact D'|exact A|exact E0|apply A2, R0].
  - eapply specs_transfer; [exact D|exact D'|exact A|exact Ff|]. apply (same_children h h' T D D' ft ft eq_refl).
  - eapply specs_transfer; [exact D|exact D'|exact A|exact Fp|]. apply (same_children h h' T D D' pt pt eq_refl).
Qed.
End Shared.

Lemma sections_known const (fspecs pspecs : list (Z * expr)) :
  ft_ready const fspecs -> pt_ready const pspecs ->
  Forall (fun s => ft_known (Z.to_nat const) (compile_expr (snd s))) fspecs /\
  Forall (fun s => pt_known (Z.to_nat const) (compile_expr (snd s))) pspecs.
Proof.
  intros Sf Sp. split.
  - eapply Forall_impl; [|exact Sf]. intros s (_ & _ & Hm & Hw). split; [exact Hm|].
    rewrite (wpd_reach _ (monitorable_future _ Hm)) in Hw. lia.
  - eapply Forall_impl; [|exact Sp]. intros s (_ & _ & Hm & Hw). split; [exact Hm|]. lia.
Qed.

Lemma sections_end_to_end h T cls wpd_of bpd_of const ft pt fspecs pspecs aux :
  denotes h T -> well_shaped h -> nkind (h ft) = KSet -> nkind (h pt) = KSet ->
  named_apart h cls -> cls ft = CSet -> cls pt = CSet ->
  (forall n, reachable h [ft] n -> ~ reachable h [pt] n) -> tl_shaped h cls ->
  (forall n, reachable h [ft] n -> assemblable h cls ft_code n) ->
  (forall n, reachable h [pt] n -> assemblable h cls pt_code n) ->
  Forall2 (spec_of compile_expr h cls) (nchildren (h ft)) fspecs ->
  Forall2 (spec_of compile_expr h cls) (nchildren (h pt)) pspecs -> NoDup (map fst (fspecs ++ pspecs)) ->
  ft_ready const fspecs -> pt_ready const pspecs ->
  0 <= const ->
  exists depth0, forall depth, (depth0 <= depth)%nat -> exists fuel0 h' asm,
    (forall fuel, (fuel0 <= fuel)%nat -> optimize_cse depth fuel h ft pt = Some h' /\
                                         gen_assembly fuel h' cls wpd_of bpd_of const ft pt = Some asm) /\
    forall bytes, Forall fits asm -> arena_slots asm < 2 ^ 32 -> assemble_binary asm aux = Some bytes ->
    exists prog confs passes0, boot bytes = Some (prog, confs) /\
      forall tr n passes, (passes0 <= passes)%nat ->
      exists m, run passes (rows tr n) prog (init prog confs) = Some m /\
        ft_answers tr n fspecs m /\ pt_answers tr n pspecs m.
Proof.
  intros D Ws K1 K2 A Sft Spt Ap Sh A1 A2 Ff Fp Nd Sf Sp Hc.
  destruct (sections_known const fspecs pspecs Sf Sp) as [Sf' Sp'].
  destruct (sections_shared h T cls ft pt fspecs pspecs D Ws K1 K2 A Ap Sh A1 A2 Ff Fp) as (depth0 & HC).
  exists depth0. intros depth Hd. destruct (HC depth Hd) as (f1 & h' & E1 & D' & Ap' & Sh' & A1' & A2' & Ff' & Fp').
  destruct (assembled_sections h' T cls wpd_of bpd_of const ft pt fspecs pspecs aux D' Sft Spt Sh' A1' A2') as (f2 & asm & E2 & HB); auto.
  { intros n R1 R2. destruct (Ap' n R1 R2). }
  exists (Nat.max f1 f2), h', asm. split; [intros fuel Hf; split; [apply E1; lia|apply E2; lia]|].
  intros bytes Hfi Ha Eb. destruct (HB bytes Hfi Ha Eb) as (prog & confs & nft & Ebt & P1 & P2 & P3 & P4 & P5 & HF & HP).
  exists prog, confs, (mixed_passes prog confs). split; [exact Ebt|]. intros tr n passes Hp.
  destruct (mixed_total prog confs tr (in_ft nft) (in_pt nft) P1 P2 (sections_cover nft prog) P3 P4 P5 passes n Hp) as [m Em].
  exists m. split; [exact Em|].
  eapply section_reports; eassumption.
Qed.

(** ** Formulas over once and historically without constants are monitorable *)
Lemma pt_simple_and es : all_nodes pt_simple_op (EAnd es) -> exists p q, es = [p; q] /\ all_nodes pt_simple_op p /\ all_nodes pt_simple_op q.
Proof. intros [L H]. cbn in L. destruct es as [|p [|q [|? ?]]]; try discriminate. cbn in H. exists p, q. tauto. Qed.
Lemma pt_simple_or es : all_nodes pt_simple_op (EOr es) -> exists p q, es = [p; q] /\ all_nodes pt_simple_op p /\ all_nodes pt_simple_op q.
Proof. intros [L H]. cbn in L. destruct es as [|p [|q [|? ?]]]; try discriminate. cbn in H. exists p, q. tauto. Qed.
Lemma rw_node_pt_simple e : all_nodes pt_simple_op e -> all_nodes pt_simple_op (rw_node e).
Proof.
  intros H. unfold rw_node.
  destruct e as [| |p|es|es| | | |p q|lb ub p|lb ub p| | | | | |]; try exact H; try (cbn in H; tauto).
  - destruct p as [[]| |r| | | | | | |lb ub r|lb ub r| | | | | |]; cbn [rw_not]; try exact H; try (cbn in H; tauto).
  - destruct (pt_simple_and _ H) as (l & r & -> & Hl & Hr). cbn [rw_and].
    destruct l; try exact H; destruct r; try exact H; cbn in Hl, Hr; tauto.
  - destruct (pt_simple_or _ H) as (l & r & -> & Hl & Hr). cbn [rw_or].
    destruct l; try exact H; destruct r; try exact H; cbn in Hl, Hr; tauto.
Qed.
Lemma rewrites_pt_simple e : all_nodes pt_simple_op e -> all_nodes pt_simple_op (optimize_rewrites e).
Proof.
  unfold optimize_rewrites. induction e using expr_ind'; intros He; cbn [expr_map]; apply rw_node_pt_simple;
    try exact He; try (cbn [all_nodes pt_simple_op] in *; tauto).
  - destruct (pt_simple_and _ He) as (p & q & -> & Hp & Hq).
    inversion H as [|? ? IHp Hl]; subst. inversion Hl as [|? ? IHq _]; subst. cbn. auto.
  - destruct (pt_simple_or _ He) as (p & q & -> & Hp & Hq).
    inversion H as [|? ? IHp Hl]; subst. inversion Hl as [|? ? IHq _]; subst. cbn. auto.
Qed.
Lemma pt_simple_binary e : all_nodes pt_simple_op e -> all_nodes binary_op e.
Proof.
  induction e using expr_ind'; intros He; try (cbn [all_nodes binary_op pt_simple_op] in *; tauto).
  - destruct (pt_simple_and _ He) as (p & q & -> & Hp & Hq).
    inversion H as [|? ? IHp Hl]; subst. inversion Hl as [|? ? IHq _]; subst. cbn. auto.
  - destruct (pt_simple_or _ He) as (p & q & -> & Hp & Hq).
    inversion H as [|? ? IHp Hl]; subst. inversion Hl as [|? ? IHq _]; subst. cbn. auto.
Qed.
Lemma pt_core_monitorable e : all_nodes pt_simple_op e -> pt_monitorable (expr_map core_node e).
Proof.
  induction e using expr_ind'; intros He; cbn [expr_map core_node]; cbn [all_nodes pt_simple_op] in He;
    try (cbn [pt_monitorable]; tauto).
  - destruct (pt_simple_and _ He) as (p & q & -> & Hp & Hq).
    inversion H as [|? ? IHp Hl]; subst. inversion Hl as [|? ? IHq _]; subst. cbn. auto.
  - destruct (pt_simple_or _ He) as (p & q & -> & Hp & Hq).
    inversion H as [|? ? IHp Hl]; subst. inversion Hl as [|? ? IHq _]; subst. cbn. auto.
Qed.
Lemma pt_compiled_monitorable e : all_nodes pt_simple_op e -> pt_monitorable (compile_expr e).
Proof.
  intros H. rewrite compile_expr_id. unfold remove_extended. apply rewrites_pt_simple in H.
  rewrite (to_binary_id _ (pt_simple_binary _ H)). apply pt_core_monitorable, H.
Qed.
