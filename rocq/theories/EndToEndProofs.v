(** * End to end (proofs) *)
From Coq Require Import List Arith ZArith Bool Lia.
Require Import Verif.Mltl Verif.MltlShape Verif.Transform Verif.TransformProofs Verif.Rewrite Verif.Pipeline Verif.PipelineProofs.
Require Import Verif.Graph Verif.GraphSpec Verif.CseProofs Verif.Binary Verif.BinarySpec Verif.BinaryProofs.
Require Import Verif.Assembly Verif.Layout Verif.AssemblySpec Verif.LayoutSpec Verif.AssembleTotal Verif.BootProofs.
Require Import Verif.Scq Verif.Engine Verif.Monitoring Verif.MonitorProofs Verif.ReachProofs Verif.EndToEnd.
Import ListNotations.
Local Existing Instance C_monitor.
Local Open Scope Z_scope.

Lemma decode_table_ok (P : nat -> instr -> Prop) : forall t s,
  (forall k c, nth_error t k = Some c -> exists ins, decode_instr (s + k) c = Some ins /\ P (s + k)%nat ins) ->
  exists prog, decode_table s t = Some prog /\ length prog = length t /\
    forall k ins, nth_error prog k = Some ins -> P (s + k)%nat ins.
Proof.
  induction t as [|c t IH]; intros s H.
  - exists []. split; [reflexivity|]. split; [reflexivity|]. intros [|k] ins E; discriminate.
  - destruct (H 0%nat c eq_refl) as (ins & E & Hp). rewrite Nat.add_0_r in E, Hp.
    destruct (IH (S s)) as (prog & E' & El & Hq).
    { intros k c' Ek. specialize (H (S k) c' Ek). rewrite <- plus_n_Sm in H. exact H. }
    exists (ins :: prog). cbn [decode_table]. rewrite E, E'. split; [reflexivity|]. split; [cbn; lia|].
    intros [|k] ins' Ek; cbn in Ek.
    + injection Ek as <-. rewrite Nat.add_0_r. exact Hp.
    + specialize (Hq k ins' Ek). rewrite <- plus_n_Sm. exact Hq.
Qed.
Lemma decode_confs_nth a : forall p s k ins, nth_error p k = Some ins ->
  nth_error (decode_confs a s p) k = Some (decode_conf a (s + k) ins).
Proof.
  induction p as [|i p IH]; intros s [|k] ins E; cbn in E; try discriminate; cbn [decode_confs nth_error].
  - injection E as <-. rewrite Nat.add_0_r. reflexivity.
  - rewrite (IH (S s) k ins E). rewrite <- plus_n_Sm. reflexivity.
Qed.
Lemma decode_confs_length a : forall p s, length (decode_confs a s p) = length p.
Proof. induction p; intros s; cbn; auto. Qed.

Section Boot.
Variable h : heap.
Variable cls : nat -> nclass.
Variable size : nat -> Z.
Variable owners : list nat.
Variable asm : list instruction.
Variable nft : nat.
Hypothesis W : well_formed h cls size nft owners asm.
Hypothesis sizes : Forall (fun n => 1 <= size n) owners.
Hypothesis slots : arena_slots asm < 2 ^ 32.

Definition operand_ok (k c : nat) (o : operand) : Prop :=
  match cls c with
  | CBool b => o = Direct b
  | _ => exists j, o = Sub j /\ (j < k)%nat /\ nth_error owners j = Some c
  end.
Definition slot_ok (k : nat) (child : option nat) (o : operand) : Prop :=
  match child with None => o = NotSet | Some c => operand_ok k c o end.
Definition engine_op (o : opkind) : option opcode :=
  match o with
  | OpUntil => Some UNTIL | OpRelease => Some RELEASE | OpNot => Some NOT | OpAnd => Some AND
  | OpOr => Some OR | OpEquiv => Some EQUIV | OpSince => Some SINCE | OpTrigger => Some TRIGGER | _ => None
  end.
Definition instr_ok (k n : nat) (ins : instr) : Prop :=
  match cls n with
  | CSignal a | CAtomic a => ins = Instr LOAD (Atomic (Z.to_nat a)) NotSet 0
  | CFormula num =>
      exists o, slot_ok k (nth_error (nchildren (h n)) 0) o /\ ins = Instr RETURN o NotSet (Z.to_nat num)
  | COp o | CTemporal o _ _ =>
      exists c o1 o2, engine_op o = Some c /\ slot_ok k (nth_error (nchildren (h n)) 0) o1 /\
        slot_ok k (nth_error (nchildren (h n)) 1) o2 /\ ins = Instr c o1 o2 0
  | _ => False
  end.

Lemma slot_decode k c t v : slot_holds cls owners k c t v ->
  exists o, decode_operand t v = Some o /\ slot_ok k c o.
Proof.
  unfold slot_holds, slot_ok, operand_ok. destruct c as [c|].
  - destruct (cls c);
      try (intros (-> & j & -> & Hj & Ho); exists (Sub j); split; [cbn; rewrite Nat2Z.id; reflexivity|eauto]).
    intros [-> ->]. exists (Direct b). split; [destruct b; reflexivity|reflexivity].
  - intros ->. exists NotSet. split; reflexivity.
Qed.
(** Operators the engine model covers. *)
Definition supported (n : nat) : Prop :=
  match cls n with COp o | CTemporal o _ _ => engine_op o <> None | _ => True end.

Lemma decode_ok : (forall n, In n owners -> supported n) ->
  exists prog, decode_table 0 (map c_of (temporal_part asm)) = Some prog /\ length prog = length owners /\
    forall k ins n, nth_error prog k = Some ins -> nth_error owners k = Some n -> instr_ok k n ins.
Proof.
  intros Hs. destruct W as (_ & El & Hc & _).
  destruct (decode_table_ok (fun k ins => forall n, nth_error owners k = Some n -> instr_ok k n ins)
              (map c_of (temporal_part asm)) 0) as (prog & E & L & H).
  - intros k c Ek. cbn [Nat.add]. rewrite nth_error_map in Ek.
    destruct (nth_error (temporal_part asm) k) as [i|] eqn:Ei; [|discriminate]. cbn in Ek. injection Ek as <-.
    assert (Hk : (k < length owners)%nat) by (rewrite <- El; apply nth_error_Some; congruence).
    destruct (nth_error owners k) as [n|] eqn:En; [|apply nth_error_None in En; lia].
    destruct (Hc k n i En Ei) as [Hid C].
    assert (Sn : supported n) by (apply Hs; eapply nth_error_In; eassumption).
    unfold decode_instr. change (c_memref (c_of i)) with (tl_id i). rewrite Hid, Z.eqb_refl.
    change (c_opcode (c_of i)) with (tl_operator i). change (c_op1_type (c_of i)) with (tl_type1 i).
    change (c_op1_value (c_of i)) with (tl_value1 i). change (c_op2_type (c_of i)) with (tl_type2 i).
    change (c_op2_value (c_of i)) with (tl_value2 i).
    assert (Q : exists ins, match decode_opcode (tl_operator i), decode_operand (tl_type1 i) (tl_value1 i),
                 decode_operand (tl_type2 i) (tl_value2 i) with
               | Some RETURN, Some o1, Some _ => Some (Instr RETURN o1 NotSet (Z.to_nat (tl_value2 i)))
               | Some o, Some o1, Some o2 => Some (Instr o o1 o2 0)
               | _, _, _ => None
               end = Some ins /\ instr_ok k n ins).
    { unfold computes in C. unfold instr_ok. unfold supported in Sn.
      destruct (cls n) as [a|b|o|o lb ub|num| |a| | | |]; try contradiction.
      - destruct C as (-> & -> & -> & ->). eexists. split; reflexivity.
      - destruct C as (Hco & _ & S1 & S2).
        destruct (slot_decode _ _ _ _ S1) as (o1 & -> & O1). destruct (slot_decode _ _ _ _ S2) as (o2 & -> & O2).
        destruct (k <? nft)%nat; destruct o; cbn in Sn, Hco; try congruence; injection Hco as <-; eexists; (split; [reflexivity|]); eexists _, o1, o2; (split; [reflexivity|]); (split; [exact O1|]); (split; [exact O2|reflexivity]).
      - destruct C as (Hco & _ & S1 & S2).
        destruct (slot_decode _ _ _ _ S1) as (o1 & -> & O1). destruct (slot_decode _ _ _ _ S2) as (o2 & -> & O2).
        destruct (k <? nft)%nat; destruct o; cbn in Sn, Hco; try congruence; injection Hco as <-; eexists; (split; [reflexivity|]); eexists _, o1, o2; (split; [reflexivity|]); (split; [exact O1|]); (split; [exact O2|reflexivity]).
      - destruct C as (-> & S1 & -> & ->). destruct (slot_decode _ _ _ _ S1) as (o1 & -> & O1).
        eexists. split; [reflexivity|]. eexists. split; [exact O1|reflexivity].
      - destruct C as (-> & -> & -> & ->). eexists. split; reflexivity. }
    destruct Q as (ins & E & O). exists ins. split; [exact E|]. intros n' En'. congruence.
  - exists prog. split; [exact E|]. split; [rewrite L, map_length; exact El|].
    intros k ins n Ek En. exact (H k ins Ek n En).
Qed.

(** Queue configurations. *)
Definition conf_ok (n : nat) (c : qconf) : Prop :=
  c_len c = Z.to_nat (size n) /\
  match cls n with
  | CTemporal _ lb ub => c_lb c = Z.to_nat lb /\ c_ub c = Z.to_nat ub
  | _ => True
  end.
Lemma conf_decode k n ins : nth_error owners k = Some n -> instr_ok k n ins ->
  (match cls n with CTemporal (OpUntil | OpRelease | OpSince | OpTrigger) _ _ => True | CTemporal _ _ _ => False | _ => True end) ->
  conf_ok n (decode_conf (load_arena (map result asm)) k ins).
Proof.
  intros En O Ht. pose proof (loaded_queues h cls size nft owners asm W sizes slots k n En) as Q.
  unfold queue_at in Q. unfold decode_conf, conf_ok.
  set (b := a_blocks (load_arena (map result asm)) (Z.of_nat k)) in *.
  destruct Q as (Q1 & _ & _ & _ & _ & _ & Q2). rewrite Q1.
  unfold instr_ok in O. destruct (cls n) as [a|b'|o|o lb ub|num| |a| | | |] eqn:Ec; try contradiction;
    try (destruct (temporal_opcode (i_op ins)); split; (reflexivity || exact I)).
  destruct O as (c & o1 & o2 & Hc & _ & _ & ->). destruct Q2 as (_ & _ & -> & ->).
  destruct o; try contradiction; cbn in Hc; injection Hc as <-; cbn [i_op temporal_opcode]; repeat split.
Qed.

(** ** The formula of each instruction *)
Variables (prog : list instr) (confs : list qconf).
Hypothesis prog_len : length prog = length owners.
Hypothesis confs_len : length confs = length owners.
Hypothesis prog_ok : forall k ins n, nth_error prog k = Some ins -> nth_error owners k = Some n -> instr_ok k n ins.
Hypothesis confs_ok : forall k c n, nth_error confs k = Some c -> nth_error owners k = Some n -> conf_ok n c.

Lemma owner_at k : (k < length owners)%nat -> exists n ins c,
  nth_error owners k = Some n /\ nth_error prog k = Some ins /\ nth_error confs k = Some c /\ instr_ok k n ins /\ conf_ok n c.
Proof.
  intros Hk.
  destruct (nth_error owners k) as [n|] eqn:En; [|apply nth_error_None in En; lia].
  destruct (nth_error prog k) as [ins|] eqn:Ei; [|apply nth_error_None in Ei; lia].
  destruct (nth_error confs k) as [c|] eqn:Ec; [|apply nth_error_None in Ec; lia].
  exists n, ins, c. repeat split; eauto; eapply confs_ok; eauto.
Qed.

Lemma operand_below k c o : operand_ok k c o -> below k o.
Proof.
  unfold operand_ok, below. destruct (cls c); try (intros (j & -> & Hj & _) c' E; injection E as <-; exact Hj).
  intros -> c' E. discriminate.
Qed.
Lemma slot_below k c o : slot_ok k c o -> below k o.
Proof. destruct c as [c|]; cbn; [apply operand_below|]. intros -> c' E. discriminate. Qed.
Lemma instr_below k n ins : instr_ok k n ins -> below k (i_op1 ins) /\ below k (i_op2 ins).
Proof.
  unfold instr_ok. destruct (cls n); try contradiction.
  - intros ->. split; intros c E; discriminate.
  - intros (c & o1 & o2 & _ & S1 & S2 & ->). split; eapply slot_below; eassumption.
  - intros (c & o1 & o2 & _ & S1 & S2 & ->). split; eapply slot_below; eassumption.
  - intros (o & S1 & ->). split; [eapply slot_below; eassumption|intros c E; discriminate].
  - intros ->. split; intros c E; discriminate.
Qed.

Lemma node_means : forall k n e, nth_error owners k = Some n -> means h cls n e ->
  node_expr prog confs k = e.
Proof.
  induction k as [k IH] using (well_founded_induction lt_wf). intros n e En Hm.
  destruct (owner_at k) as (n' & ins & c & En' & Ei & Ec & O & Q); [apply nth_error_Some; congruence|].
  replace n' with n in * by congruence. clear n' En'.
  destruct (instr_below _ _ _ O) as [B1 B2].
  rewrite (node_expr_eq prog confs (fun _ => true) k ins c (conj Ei (conj Ec eq_refl)) B1 B2).
  assert (Hop : forall x p o, means h cls x p -> operand_ok k x o -> operand_expr (exprs prog confs) o = p).
  { intros x p o Hx Ho. unfold operand_ok in Ho.
    assert (G : (exists j, o = Sub j /\ (j < k)%nat /\ nth_error owners j = Some x) \/ (exists b, cls x = CBool b /\ o = Direct b))
      by (destruct (cls x); eauto).
    destruct G as [(j & -> & Hj & Ej)|(b & Eb & ->)].
    - cbn [operand_expr]. exact (IH j Hj x p Ej Hx).
    - cbn [operand_expr]. inversion Hx; congruence. }
  unfold instr_ok in O. unfold conf_ok in Q.
  inversion Hm; subst;
    match goal with E : cls n = _ |- _ => rewrite E in O, Q end;
    try match goal with E : nchildren (h n) = _ |- _ => rewrite E in O end; cbn [nth_error slot_ok] in O.
  - subst ins. reflexivity.
  - subst ins. reflexivity.
  - contradiction.
  - destruct O as (c' & o1 & o2 & Hc & S1 & S2 & ->). injection Hc as <-. unfold instr_expr. cbn [i_op i_op1 i_op2].
    f_equal. eauto.
  - destruct O as (c' & o1 & o2 & Hc & S1 & S2 & ->). injection Hc as <-. unfold instr_expr. cbn [i_op i_op1 i_op2].
    f_equal. f_equal; [eauto|]. f_equal. eauto.
  - destruct O as (c' & o1 & o2 & Hc & S1 & S2 & ->). injection Hc as <-. unfold instr_expr. cbn [i_op i_op1 i_op2].
    f_equal. f_equal; [eauto|]. f_equal. eauto.
  - destruct O as (c' & o1 & o2 & Hc & S1 & S2 & ->). injection Hc as <-. unfold instr_expr. cbn [i_op i_op1 i_op2].
    f_equal; eauto.
  - destruct O as (c' & o1 & o2 & Hc & S1 & S2 & ->). injection Hc as <-. destruct Q as (_ & Q1 & Q2).
    unfold instr_expr. cbn [i_op i_op1 i_op2]. rewrite Q1, Q2. f_equal; eauto.
  - destruct O as (c' & o1 & o2 & Hc & S1 & S2 & ->). injection Hc as <-. destruct Q as (_ & Q1 & Q2).
    unfold instr_expr. cbn [i_op i_op1 i_op2]. rewrite Q1, Q2. f_equal; eauto.
  - destruct O as (c' & o1 & o2 & Hc & S1 & S2 & ->). injection Hc as <-. destruct Q as (_ & Q1 & Q2).
    unfold instr_expr. cbn [i_op i_op1 i_op2]. rewrite Q1, Q2. f_equal; eauto.
  - destruct O as (c' & o1 & o2 & Hc & S1 & S2 & ->). injection Hc as <-. destruct Q as (_ & Q1 & Q2).
    unfold instr_expr. cbn [i_op i_op1 i_op2]. rewrite Q1, Q2. f_equal; eauto.
Qed.
Lemma node_formula k f num e : nth_error owners k = Some f -> formula_means h cls f num e ->
  node_expr prog confs k = e /\ exists ins, nth_error prog k = Some ins /\ i_op ins = RETURN /\ i_num ins = Z.to_nat num.
Proof.
  intros En (Ef & Hn & x & Ex & Hm).
  destruct (owner_at k) as (n' & ins & c & En' & Ei & Ec & O & Q); [apply nth_error_Some; congruence|].
  replace n' with f in * by congruence. clear n' En'.
  destruct (instr_below _ _ _ O) as [B1 B2].
  rewrite (node_expr_eq prog confs (fun _ => true) k ins c (conj Ei (conj Ec eq_refl)) B1 B2).
  unfold instr_ok in O. rewrite Ef, Ex in O. destruct O as (o & S1 & ->). split.
  - unfold instr_expr. cbn [i_op i_op1]. cbn in S1. unfold operand_ok in S1.
    assert (G : (exists j, o = Sub j /\ (j < k)%nat /\ nth_error owners j = Some x) \/ (exists b, cls x = CBool b /\ o = Direct b))
      by (destruct (cls x); eauto).
    destruct G as [(j & -> & Hj & Ej)|(b & Eb & ->)]; cbn [operand_expr].
    + exact (node_means j x e Ej Hm).
    + inversion Hm; congruence.
  - exists (Instr RETURN o NotSet (Z.to_nat num)). auto.
Qed.

(** ** Meeting the hypotheses of the monitor theorems *)
Definition covered (const : nat) (n : nat) : Prop :=
  (exists num e, formula_means h cls n num e /\ monitorable e /\ (reach e < const)%nat) \/
  (exists e, means h cls n e /\ monitorable e /\ (reach e < const)%nat).
Variable const : nat.
Hypothesis Hcov : forall n, In n owners -> covered const n.
Hypothesis Hsize : forall n, In n owners -> (const + 1 <= Z.to_nat (size n))%nat.
Hypothesis Hnum : forall n m num, In n owners -> In m owners -> cls n = CFormula num -> cls m = CFormula num -> n = m.
Hypothesis Hneg : forall n num, In n owners -> cls n = CFormula num -> 0 <= num.

Lemma monitorable_not_const e b : monitorable e -> e <> EConst b.
Proof. intros H ->. exact H. Qed.
Lemma means_not_bool x p : means h cls x p -> (forall b, p <> EConst b) -> forall b, cls x <> CBool b.
Proof. intros H Hn b E. inversion H; subst; congruence. Qed.
Lemma operand_earlier_any k x o p : operand_ok k x o -> means h cls x p -> (forall b, p <> EConst b) -> earlier prog k o.
Proof.
  intros Ho Hm Hp. unfold operand_ok in Ho.
  pose proof (means_not_bool x p Hm Hp) as Hb.
  assert (G : exists j, o = Sub j /\ (j < k)%nat /\ nth_error owners j = Some x).
  { destruct (cls x) eqn:Ex; try exact Ho. exfalso. eapply Hb. reflexivity. }
  destruct G as (j & -> & Hj & Ej). exists j. split; [reflexivity|]. split; [exact Hj|].
  destruct (owner_at j) as (n' & ins & c & En' & Ei & Ec & O & Q); [apply nth_error_Some; congruence|].
  replace n' with x in * by congruence. exists ins. split; [exact Ei|].
  unfold instr_ok in O. inversion Hm; subst; match goal with E : cls x = _ |- _ => rewrite E in O end;
    try contradiction; try (subst ins; discriminate);
    destruct O as (c' & o1 & o2 & Hc & _ & _ & ->); injection Hc as <-; discriminate.
Qed.
Lemma operand_earlier k x o p : (k < length owners)%nat -> operand_ok k x o -> means h cls x p -> monitorable p -> earlier prog k o.
Proof. intros _ Ho Hm Hp. eapply operand_earlier_any; [exact Ho|exact Hm|]. intros b. apply monitorable_not_const, Hp. Qed.
Lemma operand_direct k x o b : operand_ok k x o -> means h cls x (EConst b) -> o = Direct b.
Proof. intros Ho Hm. inversion Hm; subst. unfold operand_ok in Ho. match goal with E : cls x = _ |- _ => rewrite E in Ho end. exact Ho. Qed.

Lemma ft_instruction k n ins c : nth_error owners k = Some n -> instr_ok k n ins -> conf_ok n c -> covered const n ->
  (1 <= c_len c)%nat -> ft_instr prog k ins c.
Proof.
  intros En O Q Cn Hlen.
  assert (Hk : (k < length owners)%nat) by (apply nth_error_Some; congruence).
  split; [exact Hlen|].
 unfold instr_ok in O. unfold conf_ok in Q.
  destruct Cn as [(num & e & (Ef & Hn & x & Ex & Hm) & He & _)|(e & Hm & He & _)].
  - rewrite Ef, Ex in O. destruct O as (o & S1 & ->). cbn [nth_error slot_ok] in S1. cbn [i_op i_op1 i_op2]. split; [|reflexivity].
    eapply operand_earlier; eassumption.
  - inversion Hm; subst; match goal with E : cls n = _ |- _ => rewrite E in O, Q end;
      try match goal with E : nchildren (h n) = _ |- _ => rewrite E in O end; cbn [nth_error slot_ok] in O;
      cbn [monitorable] in He; try contradiction.
    + subst ins. cbn. split; [eauto|reflexivity].
    + subst ins. cbn. split; [eauto|reflexivity].
    + destruct O as (c' & o1 & o2 & Hc & S1 & S2 & ->). injection Hc as <-. cbn [i_op i_op1 i_op2].
      split; [eapply operand_earlier; eassumption|exact S2].
    + destruct O as (c' & o1 & o2 & Hc & S1 & S2 & ->). injection Hc as <-. cbn [i_op i_op1 i_op2].
      destruct He as [[Hp [Hq|Hq]]|[Hp Hq]].
      * left. split; [|left]; eapply operand_earlier; eassumption.
      * left. subst q. split; [eapply operand_earlier; eassumption|]. right. eapply operand_direct; eassumption.
      * right. subst p. split; [eapply operand_direct; eassumption|eapply operand_earlier; eassumption].
    + destruct O as (c' & o1 & o2 & Hc & S1 & S2 & ->). injection Hc as <-. cbn [i_op i_op1 i_op2].
      destruct He as [[Hp [Hq|Hq]]|[Hp Hq]].
      * left. split; [|left]; eapply operand_earlier; eassumption.
      * left. subst q. split; [eapply operand_earlier; eassumption|]. right. eapply operand_direct; eassumption.
      * right. subst p. split; [eapply operand_direct; eassumption|eapply operand_earlier; eassumption].
    + destruct O as (c' & o1 & o2 & Hc & S1 & S2 & ->). injection Hc as <-. cbn [i_op i_op1 i_op2].
      destruct He as [[Hp [Hq|[b Hq]]]|[[b Hp] Hq]].
      * left. split; [|left]; eapply operand_earlier; eassumption.
      * left. subst q. split; [eapply operand_earlier; eassumption|]. right. exists b. eapply operand_direct; eassumption.
      * right. subst p. split; [exists b; eapply operand_direct; eassumption|eapply operand_earlier; eassumption].
    + destruct O as (c' & o1 & o2 & Hc & S1 & S2 & ->). injection Hc as <-. cbn [i_op i_op1 i_op2].
      destruct Q as (_ & -> & ->). destruct He as [Hp Hq].
      split; [|split; [eapply operand_earlier; eassumption|lia]].
      destruct Hp as [Hp|[b ->]]; [left; eapply operand_earlier; eassumption|right; exists b; eapply operand_direct; eassumption].
    + destruct O as (c' & o1 & o2 & Hc & S1 & S2 & ->). injection Hc as <-. cbn [i_op i_op1 i_op2].
      destruct Q as (_ & -> & ->). destruct He as [Hp Hq].
      split; [|split; [eapply operand_earlier; eassumption|lia]].
      destruct Hp as [Hp|[b ->]]; [left; eapply operand_earlier; eassumption|right; exists b; eapply operand_direct; eassumption].
Qed.

Lemma boot_ft : ft_program prog confs.
Proof.
  split; [lia|]. intros k ins c Ei Ec.
  destruct (owner_at k) as (n & ins' & c' & En & Ei' & Ec' & O & Q); [rewrite <- prog_len; apply nth_error_Some; congruence|].
  replace ins' with ins in * by congruence. replace c' with c in * by congruence. clear ins' c' Ei' Ec'.
  assert (Hin : In n owners) by (eapply nth_error_In; eassumption).
  eapply ft_instruction; [exact En|exact O|exact Q|exact (Hcov n Hin)|].
  destruct Q as [-> _]; specialize (Hsize n Hin); lia.
Qed.

Lemma return_formula k n ins : instr_ok k n ins -> i_op ins = RETURN ->
  exists num, cls n = CFormula num /\ i_num ins = Z.to_nat num.
Proof.
  unfold instr_ok. destruct (cls n) as [a|b|o|o lb ub|num| |a| | | |]; try contradiction.
  - intros -> E. discriminate.
  - intros (c & o1 & o2 & Hc & _ & _ & ->) E. cbn in E. destruct o; cbn in Hc; congruence.
  - intros (c & o1 & o2 & Hc & _ & _ & ->) E. cbn in E. destruct o; cbn in Hc; congruence.
  - intros (o & _ & ->) _. eauto.
  - intros -> E. discriminate.
Qed.
Lemma boot_distinct : NoDup owners -> distinct_reports prog.
Proof.
  intros Hnd k1 k2 i1 i2 E1 E2 R1 R2 En.
  destruct (owner_at k1) as (n1 & i1' & c1 & N1 & I1 & _ & O1 & _); [rewrite <- prog_len; apply nth_error_Some; congruence|].
  destruct (owner_at k2) as (n2 & i2' & c2 & N2 & I2 & _ & O2 & _); [rewrite <- prog_len; apply nth_error_Some; congruence|].
  replace i1' with i1 in * by congruence. replace i2' with i2 in * by congruence.
  destruct (return_formula _ _ _ O1 R1) as (m1 & F1 & Q1). destruct (return_formula _ _ _ O2 R2) as (m2 & F2 & Q2).
  pose proof (nth_error_In _ _ N1) as P1. pose proof (nth_error_In _ _ N2) as P2.
  pose proof (Hneg n1 m1 P1 F1). pose proof (Hneg n2 m2 P2 F2). assert (m1 = m2) by lia. subst m2.
  assert (n1 = n2) by eauto. subst n2.
  eapply NoDup_nth_error; [exact Hnd|apply nth_error_Some; congruence|congruence].
Qed.
Lemma boot_ample : queues_ample prog confs.
Proof.
  intros k ins c conf Ei Hr Ec.
  destruct (owner_at k) as (n & ins' & c' & En & Ei' & Ec' & O & Q); [rewrite <- prog_len; apply nth_error_Some; congruence|].
  assert (Hin : In n owners) by (eapply nth_error_In; eassumption).
  assert (R : (reach (node_expr prog confs k) < const)%nat).
  { destruct (Hcov n Hin) as [(num & e & Hf & _ & Hr')|(e & Hm & _ & Hr')].
    - destruct (node_formula k n num e En Hf) as [-> _]. exact Hr'.
    - rewrite (node_means k n e En Hm). exact Hr'. }
  destruct (owner_at c) as (nc & insc & cc & Enc & _ & Ecc & _ & Qc); [rewrite <- confs_len; apply nth_error_Some; congruence|].
  replace cc with conf in * by congruence. destruct Qc as [-> _].
  specialize (Hsize nc (nth_error_In _ _ Enc)). lia.
Qed.
End Boot.

(** ** Common subexpression elimination keeps the meaning of the graph *)
Section Transfer.
Variables (h h' : heap) (T : nat -> tree) (cls : nat -> nclass).
Hypothesis D : denotes h T.
Hypothesis D' : denotes h' T.
Hypothesis A : named_apart h cls.

Lemma same_class n m : T n = T m -> cls n = cls m.
Proof. intros E. rewrite (D n), (D m) in E. injection E as E1 E2 _. apply A; assumption. Qed.
Lemma same_children n m : T n = T m -> map T (nchildren (h n)) = map T (nchildren (h' m)).
Proof. intros E. rewrite (D n), (D' m) in E. injection E as _ _ E. exact E. Qed.
Lemma class_children : forall l l', map T l = map T l' -> map cls l = map cls l'.
Proof.
  induction l as [|x l IH]; intros [|y l'] E; cbn in *; try discriminate; [reflexivity|].
  injection E as E1 E2. f_equal; [apply same_class; exact E1|apply IH; exact E2].
Qed.
Lemma children_length n m : T n = T m -> length (nchildren (h n)) = length (nchildren (h' m)).
Proof. intros E. pose proof (f_equal (@length _) (same_children n m E)) as L. rewrite !map_length in L. exact L. Qed.
Lemma one_child n m x : T n = T m -> nchildren (h n) = [x] -> exists y, nchildren (h' m) = [y] /\ T x = T y.
Proof.
  intros E Ex. pose proof (same_children n m E) as L. rewrite Ex in L.
  destruct (nchildren (h' m)) as [|y [|? ?]]; try discriminate. injection L as L. eauto.
Qed.
Lemma two_children n m x1 x2 : T n = T m -> nchildren (h n) = [x1; x2] ->
  exists y1 y2, nchildren (h' m) = [y1; y2] /\ T x1 = T y1 /\ T x2 = T y2.
Proof.
  intros E Ex. pose proof (same_children n m E) as L. rewrite Ex in L.
  destruct (nchildren (h' m)) as [|y [|y2 [|? ?]]]; try discriminate. injection L as L1 L2. eauto.
Qed.
Lemma means_transfer : forall n e, means h cls n e -> forall m, T n = T m -> means h' cls m e.
Proof.
  induction 1 as [n a C Ha|n a C Ha|n b C|n x p C Ex Hx IHx|n x y p q C Ex Hx IHx Hy IHy|n x y p q C Ex Hx IHx Hy IHy
                 |n x y p q C Ex Hx IHx Hy IHy|n x y lb ub p q C Hb Ex Hx IHx Hy IHy|n x y lb ub p q C Hb Ex Hx IHx Hy IHy
                 |n x y lb ub p q C Hb Ex Hx IHx Hy IHy|n x y lb ub p q C Hb Ex Hx IHx Hy IHy];
    intros m E; rewrite (same_class n m E) in C.
  - apply means_signal; assumption.
  - apply means_atomic; assumption.
  - apply means_const; assumption.
  - destruct (one_child n m x E Ex) as (x' & Ex' & Tx). eapply means_not; eauto.
  - destruct (two_children n m x y E Ex) as (x' & y' & Ex' & Tx & Ty). eapply means_and; eauto.
  - destruct (two_children n m x y E Ex) as (x' & y' & Ex' & Tx & Ty). eapply means_or; eauto.
  - destruct (two_children n m x y E Ex) as (x' & y' & Ex' & Tx & Ty). eapply means_equiv; eauto.
  - destruct (two_children n m x y E Ex) as (x' & y' & Ex' & Tx & Ty). eapply means_until; eauto.
  - destruct (two_children n m x y E Ex) as (x' & y' & Ex' & Tx & Ty). eapply means_release; eauto.
  - destruct (two_children n m x y E Ex) as (x' & y' & Ex' & Tx & Ty). eapply means_since; eauto.
  - destruct (two_children n m x y E Ex) as (x' & y' & Ex' & Tx & Ty). eapply means_trigger; eauto.
Qed.
Lemma formula_transfer f f' num e : T f = T f' -> formula_means h cls f num e -> formula_means h' cls f' num e.
Proof.
  intros E (C & Hn & c & Ec & Hm). split; [rewrite <- (same_class f f' E); exact C|]. split; [exact Hn|].
  destruct (one_child f f' c E Ec) as (c' & Ec' & Tc). exists c'. split; [exact Ec'|]. eapply means_transfer; eassumption.
Qed.
Lemma Forall_class (P : nclass -> Prop) l l' : map cls l = map cls l' ->
  Forall (fun c => P (cls c)) l -> Forall (fun c => P (cls c)) l'.
Proof. intros E H. rewrite <- Forall_map in *. rewrite <- E. exact H. Qed.
Lemma shaped_transfer : tl_shaped h cls -> tl_shaped h' cls.
Proof.
  intros H n. specialize (H n). pose proof (class_children _ _ (same_children n n eq_refl)) as L.
  destruct (cls n); try exact I; try (eapply Forall_class; eassumption).
  destruct H as (c & Ec & Hc). rewrite Ec in L. destruct (nchildren (h' n)) as [|c' [|? ?]]; try discriminate.
  injection L as L. exists c'. split; [reflexivity|congruence].
Qed.
Lemma assemblable_transfer code n m : T n = T m -> assemblable h cls code n -> assemblable h' cls code m.
Proof.
  intros E H. unfold assemblable in *. rewrite <- (same_class n m E).
  pose proof (class_children _ _ (same_children n m E)) as L. pose proof (children_length n m E) as Ln.
  destruct (cls n); try exact I; try (rewrite <- Ln; exact H);
    try (rewrite H in Ln; destruct (nchildren (h' m)); [reflexivity|discriminate]);
    try (eapply Forall_class; eassumption).
  - destruct H as (c & Ec & Hc). rewrite Ec in L. destruct (nchildren (h' m)) as [|c' [|? ?]]; try discriminate.
    injection L as L. exists c'. split; [reflexivity|]. intros b. rewrite <- L. apply Hc.
  - destruct H as (c & Ec & Hc). rewrite Ec in L. destruct (nchildren (h' m)) as [|c' [|? ?]]; try discriminate.
    injection L as L. exists c'. split; [reflexivity|congruence].
Qed.
Lemma reachable_transfer r : forall m, reachable h' [r] m -> exists n, reachable h [r] n /\ T n = T m.
Proof.
  induction 1 as [m Hm|m c Hm (n & Rn & Tn) Hc].
  - destruct Hm as [<-|[]]. exists r. split; [apply reach_start; left; reflexivity|reflexivity].
  - apply (in_map T) in Hc. rewrite <- (same_children n m Tn) in Hc. apply in_map_iff in Hc as (c0 & Ec & Hc).
    exists c0. split; [eapply reach_child; eassumption|exact Ec].
Qed.
End Transfer.

(** ** Nodes reached from the set *)
Lemma means_child_reach const h cls n e c : means h cls n e -> monitorable e -> (reach e < const)%nat -> In c (nchildren (h n)) ->
  (forall a, cls n <> CSignal a) -> (forall a, cls n <> CAtomic a) ->
  exists p, means h cls c p /\ (monitorable p \/ exists b, p = EConst b) /\ (reach p < const)%nat.
Proof.
  intros Hm He Hr Hc N1 N2. inversion Hm; subst; try congruence; cbn [monitorable reach fold_right] in He, Hr;
    try contradiction;
    match goal with E : nchildren (h n) = _ |- _ => rewrite E in Hc end; cbn [In] in Hc.
  - destruct Hc as [<-|[]]. eauto.
  - destruct Hc as [<-|[<-|[]]]; eexists; (split; [eassumption|]); (split; [|lia]); destruct He as [[? [?| ->]]|[-> ?]]; eauto.
  - destruct Hc as [<-|[<-|[]]]; eexists; (split; [eassumption|]); (split; [|lia]); destruct He as [[? [?| ->]]|[-> ?]]; eauto.
  - destruct Hc as [<-|[<-|[]]]; eexists; (split; [eassumption|]); (split; [|lia]); destruct He as [[? [?|?]]|[? ?]]; eauto.
  - destruct Hc as [<-|[<-|[]]]; eexists; (split; [eassumption|]); (split; [|lia]); destruct He as [? ?]; eauto.
  - destruct Hc as [<-|[<-|[]]]; eexists; (split; [eassumption|]); (split; [|lia]); destruct He as [? ?]; eauto.
Qed.

Lemma reachable_covered h cls const ft :
  cls ft = CSet ->
  (forall f, In f (nchildren (h ft)) -> exists num e, formula_means h cls f num e /\ monitorable e /\ (reach e < const)%nat) ->
  (forall n, reachable h [ft] n -> assemblable h cls ft_code n) ->
  forall n, reachable h [ft] n ->
    n = ft \/ covered h cls const n \/ (exists b, cls n = CBool b) \/ bz_class (cls n).
Proof.
  intros Hft Hf Ha n R. induction R as [n Hn|n c R IH Hc].
  - destruct Hn as [<-|[]]. auto.
  - right. destruct (Nat.eq_dec n ft) as [->|Nf].
    { left. left. apply Hf, Hc. }
    destruct IH as [E|[[(num & e & (C & _ & x & Ex & Hm) & He & Hr)|(e & Hm & He & Hr)]|[[b Eb]|Hb]]].
    + contradiction.
    + rewrite Ex in Hc. destruct Hc as [<-|[]]. left. right. eauto.
    + pose proof (Ha n R) as An. unfold assemblable in An.
      destruct (cls n) eqn:En; try (rewrite An in Hc; destruct Hc);
        try (inversion Hm; congruence).
      * destruct (means_child_reach const h cls n e c Hm He Hr Hc ltac:(congruence) ltac:(congruence)) as (p & Hp & [Hq|[b ->]] & Hr').
        -- left. right. eauto.
        -- right. left. inversion Hp. eauto.
      * destruct (means_child_reach const h cls n e c Hm He Hr Hc ltac:(congruence) ltac:(congruence)) as (p & Hp & [Hq|[b ->]] & Hr').
        -- left. right. eauto.
        -- right. left. inversion Hp. eauto.
      * destruct An as (x & Ex & Hx). rewrite Ex in Hc. destruct Hc as [<-|[]]. right. right. exact Hx.
    + pose proof (Ha n R) as An. unfold assemblable in An. rewrite Eb in An. rewrite An in Hc. destruct Hc.
    + pose proof (Ha n R) as An. unfold assemblable in An. unfold bz_class in Hb.
      destruct (cls n); try contradiction; try (rewrite An in Hc; destruct Hc).
      right. right. rewrite Forall_forall in An. apply An, Hc.
Qed.

Lemma means_no_formula h cls n e num : means h cls n e -> cls n <> CFormula num.
Proof. intros H E. inversion H; congruence. Qed.
Lemma formula_child h cls const ft :
  cls ft = CSet ->
  (forall f, In f (nchildren (h ft)) -> exists num e, formula_means h cls f num e /\ monitorable e /\ (reach e < const)%nat) ->
  (forall n, reachable h [ft] n -> assemblable h cls ft_code n) ->
  forall n num, reachable h [ft] n -> cls n = CFormula num -> In n (nchildren (h ft)).
Proof.
  intros Hft Hf Ha n num R En. destruct R as [n Hn|n c R Hc].
  - destruct Hn as [<-|[]]. congruence.
  - destruct (Nat.eq_dec n ft) as [->|Nf]; [exact Hc|exfalso].
    pose proof (Ha n R) as An. unfold assemblable in An.
    destruct (reachable_covered h cls const ft Hft Hf Ha n R) as
      [E|[[(num' & e & (C & _ & x & Ex & Hm) & He & Hr)|(e & Hm & He & Hr)]|[[b Eb]|Hb]]].
    + contradiction.
    + rewrite Ex in Hc. destruct Hc as [<-|[]]. eapply means_no_formula; eassumption.
    + destruct (cls n) eqn:Ec; try (rewrite An in Hc; destruct Hc); try (inversion Hm; congruence).
      * destruct (means_child_reach const h cls n e c Hm He Hr Hc ltac:(congruence) ltac:(congruence)) as (p & Hp & _).
        eapply means_no_formula; eassumption.
      * destruct (means_child_reach const h cls n e c Hm He Hr Hc ltac:(congruence) ltac:(congruence)) as (p & Hp & _).
        eapply means_no_formula; eassumption.
      * destruct An as (x & Ex & Hx). rewrite Ex in Hc. destruct Hc as [<-|[]]. rewrite En in Hx. exact Hx.
    + rewrite Eb in An. rewrite An in Hc. destruct Hc.
    + unfold bz_class in Hb. destruct (cls n); try contradiction; try (rewrite An in Hc; destruct Hc).
      rewrite Forall_forall in An. specialize (An c Hc). rewrite En in An. exact An.
Qed.

(** ** The theorem *)

Lemma Forall2_in {X Y} (R : X -> Y -> Prop) l l' : Forall2 R l l' -> forall x, In x l -> exists y, In y l' /\ R x y.
Proof. induction 1 as [|x0 y0 l l' H0 H IH]; intros x []; [subst; cbn; eauto|]. destruct (IH x H1) as (y & ? & ?). cbn. eauto. Qed.
Lemma Forall2_in_r {X Y} (R : X -> Y -> Prop) l l' : Forall2 R l l' -> forall y, In y l' -> exists x, In x l /\ R x y.
Proof. induction 1 as [|x0 y0 l l' H0 H IH]; intros x []; [subst; cbn; eauto|]. destruct (IH x H1) as (y & ? & ?). cbn. eauto. Qed.
Lemma specs_unique h cls : forall fs specs, Forall2 (spec_of compile_expr h cls) fs specs -> NoDup (map fst specs) ->
  forall n m num, In n fs -> In m fs -> cls n = CFormula num -> cls m = CFormula num -> n = m.
Proof.
  assert (G : forall fs specs, Forall2 (spec_of compile_expr h cls) fs specs -> forall n num, In n fs -> cls n = CFormula num -> In num (map fst specs)).
  { intros fs specs H n num Hn Hc. destruct (Forall2_in _ _ _ H n Hn) as (s & Hs & (E & _)).
    replace num with (fst s) by congruence. apply in_map, Hs. }
  induction 1 as [|f s fs specs Hs H IH]; intros Hd n m num Hn Hm Cn Cm; [destruct Hn|].
  inversion Hd as [|? ? Hni Hd']; subst. destruct Hs as (Ef & _). destruct Hn as [<-|Hn], Hm as [<-|Hm].
  - reflexivity.
  - exfalso. apply Hni. replace (fst s) with num by congruence. eapply G; eassumption.
  - exfalso. apply Hni. replace (fst s) with num by congruence. eapply G; eassumption.
  - eapply IH; eassumption.
Qed.
Lemma specs_transfer h h' T cls : denotes h T -> denotes h' T -> named_apart h cls ->
  forall fs specs, Forall2 (spec_of compile_expr h cls) fs specs -> forall fs', map T fs = map T fs' -> Forall2 (spec_of compile_expr h' cls) fs' specs.
Proof.
  intros D D' A fs specs H. induction H as [|f s fs specs Hs H IH]; intros [|f' fs'] E; cbn in E; try discriminate; constructor.
  - injection E as E1 E2. unfold spec_of in *. exact (formula_transfer h h' T cls D D' A f f' _ _ E1 Hs).
  - injection E as E1 E2. apply IH, E2.
Qed.

Section Monitored.
Variables (h : heap) (T : nat -> tree) (cls : nat -> nclass) (wpd_of bpd_of : nat -> Z) (const : Z) (ft pt : nat).
Variables (specs : list (Z * expr)) (aux : list Z).
Hypothesis D : denotes h T.
Hypothesis Sft : cls ft = CSet.
Hypothesis Spt : cls pt = CSet.
Hypothesis Npt : nchildren (h pt) = [].
Hypothesis Sh : tl_shaped h cls.
Hypothesis As : forall n, reachable h [ft] n -> assemblable h cls ft_code n.
Hypothesis Fs : Forall2 (spec_of compile_expr h cls) (nchildren (h ft)) specs.
Hypothesis Nd : NoDup (map fst specs).
Hypothesis Ss : Forall (fun s => monitorable (compile_expr (snd s)) /\
                                 (reach (compile_expr (snd s)) < Z.to_nat const)%nat) specs.
Hypothesis Hconst : 0 <= const.

Lemma set_formulas f : In f (nchildren (h ft)) ->
  exists num e, formula_means h cls f num e /\ monitorable e /\ (reach e < Z.to_nat const)%nat.
Proof.
  intros Hf. destruct (Forall2_in _ _ _ Fs f Hf) as (s & Hs & Hm). rewrite Forall_forall in Ss.
  destruct (Ss s Hs) as [H1 H2]. exists (fst s), (compile_expr (snd s)). auto.
Qed.
Lemma pt_only n : reachable h [pt] n -> n = pt.
Proof.
  induction 1 as [n Hn|n c R IH Hc]; [destruct Hn as [<-|[]]; reflexivity|].
  subst n. rewrite Npt in Hc. destruct Hc.
Qed.

Lemma assembled_runs :
  exists fuel0 asm, (forall fuel, (fuel0 <= fuel)%nat -> gen_assembly fuel h cls wpd_of bpd_of const ft pt = Some asm) /\
  forall bytes, Forall fits asm -> arena_slots asm < 2 ^ 32 -> assemble_binary asm aux = Some bytes ->
  exists prog confs, boot bytes = Some (prog, confs) /\
    ft_program prog confs /\ distinct_reports prog /\ queues_ample prog confs /\
    forall num e, In (num, e) specs -> exists k ins, nth_error prog k = Some ins /\ i_op ins = RETURN /\
      i_num ins = Z.to_nat num /\ node_expr prog confs k = compile_expr e.
Proof.
  destruct (assembly_correct h T cls wpd_of bpd_of const ft pt D Sh As) as (fuel0 & nodes & nft & owners & asm & E & Hn & I1 & I2 & W).
  { intros n Hn. rewrite (pt_only n Hn). unfold assemblable. rewrite Spt. exact I. }
  { intros n _ Hn. rewrite (pt_only n Hn), Spt. reflexivity. }
  exists fuel0, asm. split; [exact E|]. intros bytes Hf Ha Eb.
  set (size := scq_size h cls wpd_of bpd_of const nodes) in *.
  assert (Hsk : skipn nft owners = []).
  { destruct (skipn nft owners) as [|n l] eqn:Es; [reflexivity|]. exfalso.
    destruct (proj1 (I2 n) (or_introl eq_refl)) as [R O]. rewrite (pt_only n R), Spt in O. discriminate. }
  assert (Hft : (length owners <= nft)%nat).
  { pose proof (f_equal (@length _) Hsk) as L. rewrite skipn_length in L. cbn in L. lia. }
  assert (Io : forall n, In n owners <-> reachable h [ft] n /\ owns (cls n) = true).
  { intros n. rewrite <- (I1 n). rewrite firstn_all2 by exact Hft. reflexivity. }
  assert (Hcov : forall n, In n owners -> covered h cls (Z.to_nat const) n).
  { intros n Hin. apply Io in Hin as [R O].
    destruct (reachable_covered h cls (Z.to_nat const) ft Sft set_formulas As n R) as [->|[H|[[b Hb]|Hb]]].
    - rewrite Sft in O. discriminate.
    - exact H.
    - rewrite Hb in O. discriminate.
    - unfold bz_class in Hb. destruct (cls n); try contradiction; discriminate. }
  assert (Hsize : forall n, In n owners -> (Z.to_nat const + 1 <= Z.to_nat (size n))%nat).
  { intros n Hin. apply Io in Hin as [_ O]. unfold size, scq_size. destruct (cls n); try discriminate; lia. }
  assert (Hsizes : Forall (fun n => 1 <= size n) owners).
  { apply Forall_forall. intros n Hin. apply scq_size_pos; [exact Hconst|]. apply Io, Hin. }
  assert (Hsup : forall n, In n owners -> supported cls n).
  { intros n Hin. unfold supported. destruct (Hcov n Hin) as [(num & e & (C & _) & _)|(e & Hm & _)]; [rewrite C; exact I|].
    inversion Hm; subst; match goal with E : cls n = _ |- _ => rewrite E end; try exact I; discriminate. }
  destruct (decode_ok h cls size owners asm nft W Hsup) as (prog & Ep & Lp & Hp).
  set (confs := decode_confs (load_arena (map result asm)) 0 prog).
  assert (Lc : length confs = length owners) by (unfold confs; rewrite decode_confs_length; exact Lp).
  assert (Hq : forall k c n, nth_error confs k = Some c -> nth_error owners k = Some n -> conf_ok cls size n c).
  { intros k c n Ek En. assert (Hk : (k < length prog)%nat) by (rewrite Lp; apply nth_error_Some; congruence).
    destruct (nth_error prog k) as [ins|] eqn:Ei; [|apply nth_error_None in Ei; lia].
    unfold confs in Ek. rewrite (decode_confs_nth _ _ 0 k ins Ei) in Ek. injection Ek as <-.
    eapply conf_decode; [exact W|exact Hsizes|exact Ha|exact En|eapply Hp; eassumption|].
    destruct (Hcov n (nth_error_In _ _ En)) as [(num & e & (C & _) & _)|(e & Hm & _)]; [rewrite C; exact I|].
    inversion Hm; subst; match goal with E : cls n = _ |- _ => rewrite E end; exact I. }
  exists prog, confs.
  assert (Hfu : forall n m num, In n owners -> In m owners -> cls n = CFormula num -> cls m = CFormula num -> n = m).
  { intros n m num Hin Him Cn Cm. apply Io in Hin as [R1 _]. apply Io in Him as [R2 _].
    eapply specs_unique; [exact Fs|exact Nd| | |exact Cn|exact Cm].
    - eapply formula_child; [exact Sft|exact set_formulas|exact As|exact R1|exact Cn].
    - eapply formula_child; [exact Sft|exact set_formulas|exact As|exact R2|exact Cm]. }
  assert (Hpos : forall n num, In n owners -> cls n = CFormula num -> 0 <= num).
  { intros n num Hin Cn. destruct (Hcov n Hin) as [(num' & e & (C & Hz & _) & _)|(e & Hm & _)]; [congruence|].
    exfalso. eapply means_no_formula; eassumption. }
  assert (Hnd : NoDup owners) by apply W.
  split; [|split; [|split; [|split]]].
  - unfold boot. rewrite (load_value _ _ _ Hf Eb). rewrite table_result. rewrite Ep. reflexivity.
  - eapply boot_ft; eassumption.
  - eapply boot_distinct; eassumption.
  - eapply boot_ample; eassumption.
  - intros num e Hin. destruct (Forall2_in_r _ _ _ Fs (num, e) Hin) as (f & Hfi & Hm). unfold spec_of in Hm. cbn [fst snd] in Hm.
    assert (Ho : In f owners).
    { apply Io. split; [eapply reach_child; [apply reach_start; left; reflexivity|exact Hfi]|]. destruct Hm as (-> & _). reflexivity. }
    apply In_nth_error in Ho as [k Ek].
    assert (G : node_expr prog confs k = compile_expr e /\
      exists ins, nth_error prog k = Some ins /\ i_op ins = RETURN /\ i_num ins = Z.to_nat num)
      by (eapply node_formula; eassumption).
    destruct G as (Hx & ins & Ei & Hr & Hnum).
    exists k, ins. auto.
Qed.
End Monitored.

Lemma monitorable_future e : monitorable e -> all_nodes future_op e.
Proof.
  induction e using expr_ind'; intros He; try contradiction.
  all: try (cbn; tauto).
  all: cbn [monitorable] in He.
  - destruct es as [|p [|q [|? ?]]]; try contradiction. inversion H as [|? ? Hp Hl]; subst. inversion Hl as [|? ? Hq _]; subst.
    cbn. destruct He as [[? [?| ->]]|[-> ?]]; cbn; tauto.
  - destruct es as [|p [|q [|? ?]]]; try contradiction. inversion H as [|? ? Hp Hl]; subst. inversion Hl as [|? ? Hq _]; subst.
    cbn. destruct He as [[? [?| ->]]|[-> ?]]; cbn; tauto.
  - cbn. destruct He as [[? [?|[b ->]]]|[[b ->] ?]]; cbn; tauto.
  - cbn. destruct He as [[?|[b ->]] ?]; cbn; tauto.
  - cbn. destruct He as [[?|[b ->]] ?]; cbn; tauto.
Qed.

(** Common subexpression elimination, assembly, packing, loading and running. *)
Lemma end_to_end h T cls wpd_of bpd_of const ft pt specs aux :
  denotes h T -> well_shaped h -> nkind (h ft) = KSet -> nkind (h pt) = KSet ->
  named_apart h cls -> cls ft = CSet -> cls pt = CSet -> nchildren (h pt) = [] ->
  tl_shaped h cls -> (forall n, reachable h [ft] n -> assemblable h cls ft_code n) ->
  Forall2 (spec_of compile_expr h cls) (nchildren (h ft)) specs -> NoDup (map fst specs) ->
  Forall (fun s => legal (snd s) /\ all_nodes rewrite_source_op (snd s) /\
                   monitorable (compile_expr (snd s)) /\ wpd (compile_expr (snd s)) < const) specs ->
  0 <= const ->
  exists depth0, forall depth, (depth0 <= depth)%nat -> exists fuel0 h' asm,
    (forall fuel, (fuel0 <= fuel)%nat -> optimize_cse depth fuel h ft pt = Some h' /\
                                         gen_assembly fuel h' cls wpd_of bpd_of const ft pt = Some asm) /\
    forall bytes, Forall fits asm -> arena_slots asm < 2 ^ 32 -> assemble_binary asm aux = Some bytes ->
    exists prog confs passes0, boot bytes = Some (prog, confs) /\
      forall tr n passes, (passes0 <= passes)%nat ->
      exists m, run passes (rows tr n) prog (init prog confs) = Some m /\
        forall num e, In (num, e) specs ->
          increasing (reports (Z.to_nat num) m) /\
          (forall t b, reported (reports (Z.to_nat num) m) t b -> (b = true <-> sat tr e t) /\ (t < n)%nat) /\
          (forall t, Z.of_nat t + wpd (compile_expr e) < Z.of_nat n -> exists b, reported (reports (Z.to_nat num) m) t b).
Proof.
  intros D Ws K1 K2 A Sft Spt Npt Sh As Fs Nd Ss Hc.
  destruct (CseProofs.optimize_cse_correct T h ft pt D Ws K1 K2) as (depth0 & HC).
  exists depth0. intros depth Hd. destruct (HC depth Hd) as (f1 & h' & E1 & D' & _ & _).
  assert (Hr : forall e, monitorable e -> wpd e = Z.of_nat (reach e)).
  { intros e He. apply wpd_reach, monitorable_future, He. }
  assert (Ss' : Forall (fun s => monitorable (compile_expr (snd s)) /\
                                 (reach (compile_expr (snd s)) < Z.to_nat const)%nat) specs).
  { eapply Forall_impl; [|exact Ss]. intros s (_ & _ & Hm & Hw). split; [exact Hm|]. rewrite (Hr _ Hm) in Hw. lia. }
  assert (Npt' : nchildren (h' pt) = []).
  { pose proof (same_children h h' T D D' pt pt eq_refl) as L. rewrite Npt in L.
    destruct (nchildren (h' pt)); [reflexivity|discriminate]. }
  assert (As' : forall n, reachable h' [ft] n -> assemblable h' cls ft_code n).
  { intros n R. destruct (reachable_transfer h h' T D D' ft n R) as (n0 & R0 & E0).
    eapply assemblable_transfer; [exact D|exact D'|exact A|exact E0|apply As, R0]. }
  assert (Fs' : Forall2 (spec_of compile_expr h' cls) (nchildren (h' ft)) specs).
  { eapply specs_transfer; [exact D|exact D'|exact A|exact Fs|]. apply (same_children h h' T D D' ft ft eq_refl). }
  destruct (assembled_runs h' T cls wpd_of bpd_of const ft pt specs aux D' Sft Spt Npt'
              (shaped_transfer h h' T cls D D' A Sh) As' Fs' Nd Ss' Hc) as (f2 & asm & E2 & HB).
  exists (Nat.max f1 f2), h', asm. split; [intros fuel Hf; split; [apply E1; lia|apply E2; lia]|].
  intros bytes Hfi Ha Eb. destruct (HB bytes Hfi Ha Eb) as (prog & confs & Ebt & P1 & P2 & P3 & HS).
  exists prog, confs, (max_passes prog confs). split; [exact Ebt|]. intros tr n passes Hp.
  destruct (run_total prog confs tr P1 P2 P3 passes n Hp) as [m Em]. exists m. split; [exact Em|].
  intros num e Hin. destruct (HS num e Hin) as (k & ins & Ek & Ro & Hn & Hx). rewrite <- Hn.
  rewrite Forall_forall in Ss. destruct (Ss _ Hin) as (Hl & Hs & Hm & Hw). cbn [snd] in *.
  pose proof (compile_equivalent e Hl Hs) as Heq.
  split; [eapply run_increasing; eassumption|]. split.
  - intros t b Hrep. destruct (run_sound prog confs tr P1 P2 P3 passes n m k ins t b Em Ek Ro Hrep) as [S1 S2].
    split; [|exact S2]. rewrite S1, Hx. apply Heq.
  - intros t Ht. eapply run_timely; [exact P1|exact P2|exact P3|exact Em|exact Ek|exact Ro|].
    rewrite Hx. rewrite (Hr _ Hm) in Ht. lia.
Qed.

(** ** Formulas without constants are monitorable *)
Lemma simple_children_and es : all_nodes simple_op (EAnd es) -> exists p q, es = [p; q] /\ all_nodes simple_op p /\ all_nodes simple_op q.
Proof. intros [L H]. cbn in L. destruct es as [|p [|q [|? ?]]]; try discriminate. cbn in H. exists p, q. tauto. Qed.
Lemma simple_children_or es : all_nodes simple_op (EOr es) -> exists p q, es = [p; q] /\ all_nodes simple_op p /\ all_nodes simple_op q.
Proof. intros [L H]. cbn in L. destruct es as [|p [|q [|? ?]]]; try discriminate. cbn in H. exists p, q. tauto. Qed.
Lemma rw_node_simple e : all_nodes simple_op e -> all_nodes simple_op (rw_node e).
Proof.
  intros H. unfold rw_node.
  destruct e as [| |p|es|es| | | |p q|lb ub p|lb ub p| | | | | |]; try exact H.
  - destruct p as [[]| |r| | | | | | |lb ub r|lb ub r| | | | | |]; cbn [rw_not]; try exact H; try (cbn in H; tauto).
    + destruct r; try exact H; cbn in *; tauto.
    + destruct r; try exact H; cbn in *; tauto.
  - destruct (simple_children_and _ H) as (l & r & -> & Hl & Hr). cbn [rw_and].
    destruct l; try exact H; destruct r; try exact H; cbn [all_nodes] in Hl, Hr.
    + destruct (expr_eqb _ _); [|exact H]. repeat (destruct (_ && _); [cbn [all_nodes]; tauto|]). exact H.
    + destruct (expr_eqb _ _).
      * unfold rw_merge. repeat (destruct (_ && _); [cbn [all_nodes]; tauto|]). exact H.
      * cbn. tauto.
    + destruct (_ && _); [|exact H]. cbn. tauto.
  - destruct (simple_children_or _ H) as (l & r & -> & Hl & Hr). cbn [rw_or].
    destruct l; try exact H; destruct r; try exact H; cbn [all_nodes] in Hl, Hr.
    + destruct (expr_eqb _ _).
      * unfold rw_merge. repeat (destruct (_ && _); [cbn [all_nodes]; tauto|]). exact H.
      * cbn. tauto.
    + destruct (expr_eqb _ _); [|exact H]. repeat (destruct (_ && _); [cbn [all_nodes]; tauto|]). exact H.
  - cbn in H. tauto.
  - unfold rw_future. destruct p; try (destruct (_ && _); [cbn in *; tauto|exact H]); try (cbn in *; tauto).
    destruct (Nat.eqb lb ub); [cbn in *; tauto|]. destruct (Nat.eqb _ _); [cbn in *; tauto|].
    destruct (_ && _); [cbn in *; tauto|exact H].
  - unfold rw_global. destruct p; try (destruct (_ && _); [cbn in *; tauto|exact H]); try (cbn in *; tauto).
    destruct (Nat.eqb lb ub); [cbn in *; tauto|]. destruct (Nat.eqb _ _); [cbn in *; tauto|].
    destruct (_ && _); [cbn in *; tauto|exact H].
Qed.
Lemma rewrites_simple e : all_nodes simple_op e -> all_nodes simple_op (optimize_rewrites e).
Proof.
  unfold optimize_rewrites. induction e using expr_ind'; intros He; cbn [expr_map]; apply rw_node_simple;
    try exact He; try (cbn [all_nodes simple_op] in *; tauto).
  - destruct (simple_children_and _ He) as (p & q & -> & Hp & Hq).
    inversion H as [|? ? IHp Hl]; subst. inversion Hl as [|? ? IHq _]; subst. cbn. auto.
  - destruct (simple_children_or _ He) as (p & q & -> & Hp & Hq).
    inversion H as [|? ? IHp Hl]; subst. inversion Hl as [|? ? IHq _]; subst. cbn. auto.
Qed.
Lemma simple_binary e : all_nodes simple_op e -> all_nodes binary_op e.
Proof.
  induction e using expr_ind'; intros He; try (cbn [all_nodes binary_op simple_op] in *; tauto).
  - destruct (simple_children_and _ He) as (p & q & -> & Hp & Hq).
    inversion H as [|? ? IHp Hl]; subst. inversion Hl as [|? ? IHq _]; subst. cbn. auto.
  - destruct (simple_children_or _ He) as (p & q & -> & Hp & Hq).
    inversion H as [|? ? IHp Hl]; subst. inversion Hl as [|? ? IHq _]; subst. cbn. auto.
Qed.
Lemma core_monitorable e : all_nodes simple_op e -> monitorable (expr_map core_node e).
Proof.
  induction e using expr_ind'; intros He; cbn [expr_map core_node]; cbn [all_nodes simple_op] in He;
    try (cbn [monitorable]; tauto).
  - destruct (simple_children_and _ He) as (p & q & -> & Hp & Hq).
    inversion H as [|? ? IHp Hl]; subst. inversion Hl as [|? ? IHq _]; subst. cbn. auto.
  - destruct (simple_children_or _ He) as (p & q & -> & Hp & Hq).
    inversion H as [|? ? IHp Hl]; subst. inversion Hl as [|? ? IHq _]; subst. cbn. auto.
  - cbn [monitorable]. split; [right; eauto|tauto].
  - cbn [monitorable]. split; [right; eauto|tauto].
Qed.
Lemma compiled_monitorable e : all_nodes simple_op e -> monitorable (compile_expr e).
Proof.
  intros H. rewrite compile_expr_id. unfold remove_extended. apply rewrites_simple in H.
  rewrite (to_binary_id _ (simple_binary _ H)). apply core_monitorable, H.
Qed.
