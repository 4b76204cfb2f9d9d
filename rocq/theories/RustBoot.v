(** * The Rust monitor from binary to reports (proofs) *)
From Coq Require Import List Arith ZArith Bool Lia.
Require Import Verif.Mltl Verif.MltlShape Verif.Transform Verif.TransformProofs Verif.Rewrite Verif.Pipeline Verif.PipelineProofs.
Require Import Verif.Graph Verif.GraphSpec Verif.GraphProofs Verif.CseProofs Verif.Binary Verif.BinarySpec Verif.BinaryProofs.
Require Import Verif.Assembly Verif.Layout Verif.AssemblySpec Verif.LayoutSpec Verif.AssembleTotal Verif.LayoutProofs Verif.BootProofs.
Require Import Verif.Scq Verif.Engine Verif.Monitoring Verif.MonitorProofs Verif.ReachProofs Verif.EndToEnd Verif.EndToEndProofs.
Require Import Verif.Booleanizer Verif.BooleanizerSpec Verif.BooleanizerProofs Verif.BooleanizerChain.
Require Import Verif.TightSize Verif.TightProofs Verif.RustEngine Verif.RustProofs Verif.RustTight.
Require Import Verif.RustBooleanizer Verif.RustBzSpec Verif.RustBzOps Verif.RustBzProofs Verif.RustBzChain.
Require Import Verif.RustLayout Verif.RustLayoutSpec Verif.RustLayoutProofs.
Import ListNotations.
Local Open Scope Z_scope.

Lemma decode_table_nth : forall t s prog, decode_table s t = Some prog -> forall k ins, nth_error prog k = Some ins ->
  exists c, nth_error t k = Some c /\ decode_instr (s + k) c = Some ins.
Proof.
  induction t as [|c t IH]; intros s prog E k ins Ek; cbn [decode_table] in E.
  - injection E as <-. destruct k; discriminate.
  - destruct (decode_instr s c) as [i|] eqn:Ei; [|discriminate]. destruct (decode_table (S s) t) as [l|] eqn:El; [|discriminate].
    injection E as <-. destruct k as [|k]; cbn in Ek.
    + injection Ek as <-. exists c. rewrite Nat.add_0_r. auto.
    + destruct (IH _ _ El k ins Ek) as (c' & E1 & E2). exists c'. rewrite <- plus_n_Sm. auto.
Qed.
Lemma decode_temporal k c ins : decode_instr k c = Some ins -> temporal_opcode (i_op ins) = true ->
  c_opcode c = 25 \/ c_opcode c = 24 \/ c_opcode c = 9 \/ c_opcode c = 8.
Proof.
  unfold decode_instr. destruct (c_memref c =? Z.of_nat k); [|discriminate].
  unfold decode_opcode.
  repeat (match goal with |- context [c_opcode c =? ?x] => destruct (Z.eqb_spec (c_opcode c) x) as [?E|?E] end);
    try (intros _ _; lia);
    destruct (decode_operand (c_op1_type c) (c_op1_value c)), (decode_operand (c_op2_type c) (c_op2_value c)); try discriminate;
    intros Q; injection Q as <-; discriminate.
Qed.
Lemma confs_same a b : forall p s, (forall k ins, nth_error p k = Some ins -> decode_conf a (s + k) ins = rust_decode_conf b (s + k) ins) ->
  rust_decode_confs b s p = decode_confs a s p.
Proof.
  induction p as [|i p IH]; intros s H; [reflexivity|]. cbn [rust_decode_confs decode_confs].
  pose proof (H 0%nat i eq_refl) as H0. rewrite Nat.add_0_r in H0. rewrite H0. f_equal. apply IH.
  intros k ins E. specialize (H (S k) ins E). rewrite <- plus_n_Sm in H. exact H.
Qed.

Section Same.
Variables (h : heap) (cls : nat -> nclass) (size : nat -> Z) (nft : nat) (owners : list nat) (asm : list instruction) (aux : list Z).
Hypothesis W : well_formed h cls size nft owners asm.
Hypothesis Hs : Forall (fun n => 1 <= size n) owners.
Hypothesis Hb : Forall (engine_node cls) owners.
Hypothesis Ha : arena_slots asm < 2 ^ 32.

Lemma temporal_nonneg : 0 <= max_temporal asm.
Proof using. unfold max_temporal. lia. Qed.
Lemma queue_slots_below : max_queue_slots asm < 2 ^ 32.
Proof using Ha. unfold arena_slots, metadata_size in Ha. pose proof temporal_nonneg. lia. Qed.

Lemma rust_boot_same bytes : Forall fits asm -> Forall small aux -> assemble_binary asm aux = Some bytes -> rust_boot bytes = boot bytes.
Proof using W Hs Hb Ha.
  intros Hf Hx Eb. unfold rust_boot, boot.
  rewrite (rust_load_value _ _ _ Hf Hx Eb), (load_value _ _ _ Hf Eb).
  assert (Er : map rust_result asm = map repaired (map BinaryProofs.result asm)) by (rewrite map_map; reflexivity).
  rewrite Er. destruct (repaired_parts (map BinaryProofs.result asm)) as [Ec Et]. unfold rust_blocks. rewrite Ec, Et. fold (rust_blocks (map BinaryProofs.result asm)).
  destruct (rust_loaded_queues h cls size nft owners asm W Hs queue_slots_below) as (b & -> & Hq).
  destruct (decode_table 0 (table (map BinaryProofs.result asm))) as [prog|] eqn:Ep; [|reflexivity].
  f_equal. f_equal. apply confs_same. intros k ins Ek. cbn [Nat.add].
  destruct (decode_table_nth _ _ _ Ep k ins Ek) as (c & Ek' & Di). cbn [Nat.add] in Di.
  rewrite table_result, nth_error_map in Ek'. destruct (nth_error (temporal_part asm) k) as [i|] eqn:Ei; [|discriminate].
  cbn in Ek'. injection Ek' as <-. destruct W as (_ & El & Hc & _).
  assert (Hk : (k < length owners)%nat) by (rewrite <- El; apply nth_error_Some; congruence).
  destruct (nth_error owners k) as [n|] eqn:En; [|apply nth_error_None in En; lia].
  pose proof (Hq k n En) as (Q1 & _ & _ & _ & Q2).
  pose proof (loaded_queues h cls size nft owners asm W Hs Ha k n En) as (R1 & _ & _ & _ & _ & _ & R2).
  unfold decode_conf, rust_decode_conf. rewrite Q1, R1.
  destruct (temporal_opcode (i_op ins)) eqn:Eo; [|reflexivity].
  pose proof (decode_temporal _ _ _ Di Eo) as Oc. change (c_opcode (c_of i)) with (tl_operator i) in Oc.
  destruct (Hc k n i En Ei) as [_ C]. unfold computes in C.
  assert (Bn : engine_node cls n) by (rewrite Forall_forall in Hb; apply Hb; eapply nth_error_In; eassumption).
  unfold engine_node in Bn. destruct (cls n) as [a|b'|o|o lb ub|num| |a| | | |]; try contradiction.
  - exfalso. destruct C as (C & _). rewrite C in Oc. unfold op_load in Oc. lia.
  - exfalso. destruct C as (Co & _). destruct (k <? nft)%nat; destruct o; cbn in Co, Bn; try discriminate; try contradiction; injection Co as Co; lia.
  - destruct R2 as (_ & _ & -> & ->). destruct Q2 as [-> ->]. reflexivity.
  - exfalso. destruct C as (C & _). rewrite C in Oc. unfold op_return in Oc. lia.
  - exfalso. destruct C as (C & _). rewrite C in Oc. unfold op_load in Oc. lia.
Qed.
End Same.

(** For program graphs, future-time and past-time. *)
Lemma rust_graph_queues h T cls wpd bpd const ft pt aux :
  denotes h T -> tl_shaped h cls ->
  (forall n, reachable h [ft] n -> assemblable h cls ft_code n) ->
  (forall n, reachable h [pt] n -> assemblable h cls pt_code n) ->
  (forall n, reachable h [ft] n -> reachable h [pt] n -> owns (cls n) = false) ->
  0 <= const ->
  exists fuel0 nodes owners asm,
    (forall fuel, (fuel0 <= fuel)%nat -> gen_assembly fuel h cls wpd bpd const ft pt = Some asm) /\
    (forall n, In n owners <-> (reachable h [ft] n \/ reachable h [pt] n) /\ owns (cls n) = true) /\
    (forall bytes, Forall fits asm -> Forall small aux -> max_queue_slots asm < 2 ^ 32 -> assemble_binary asm aux = Some bytes ->
     exists acts b, rust_load bytes = Some acts /\ rust_blocks acts = Some b /\
       forall k n, nth_error owners k = Some n ->
         rust_queue_at cls (scq_size h cls wpd bpd const nodes) (max_queue_slots asm) owners b k n).
Proof.
  intros D Sh A1 A2 Ap Hc.
  destruct (assembly_correct h T cls wpd bpd const ft pt D Sh A1 A2 Ap) as (fuel0 & nodes & nft & owners & asm & E & _ & I1 & I2 & W).
  assert (Io : forall n, In n owners <-> (reachable h [ft] n \/ reachable h [pt] n) /\ owns (cls n) = true).
  { intros n. rewrite <- (firstn_skipn nft owners), in_app_iff, I1, I2. tauto. }
  exists fuel0, nodes, owners, asm. split; [exact E|]. split; [exact Io|].
  assert (Hs : Forall (fun n => 1 <= scq_size h cls wpd bpd const nodes n) owners).
  { apply Forall_forall. intros n Hin. apply scq_size_pos; [assumption|]. apply Io, Hin. }
  intros bytes Hf Hx Ha Eb. destruct (rust_loaded_queues _ _ _ _ _ _ W Hs Ha) as (b & Eb' & Q).
  exists (map rust_result asm), b. split; [eapply rust_load_value; eassumption|]. split; [|exact Q].
  assert (Er : map rust_result asm = map repaired (map BinaryProofs.result asm)) by (rewrite map_map; reflexivity).
  unfold rust_blocks in *. rewrite Er, (proj1 (repaired_parts _)). exact Eb'.
Qed.
Lemma decode_total h cls size nft owners asm : well_formed h cls size nft owners asm -> Forall (engine_node cls) owners ->
  exists prog, decode_table 0 (map c_of (temporal_part asm)) = Some prog.
Proof.
  intros (_ & El & Hc & _) Hb.
  destruct (decode_table_ok (fun _ _ => True) (map c_of (temporal_part asm)) 0) as (prog & E & _); [|eauto].
  intros k c Ek. cbn [Nat.add]. rewrite nth_error_map in Ek.
  destruct (nth_error (temporal_part asm) k) as [i|] eqn:Ei; [|discriminate]. cbn in Ek. injection Ek as <-.
  assert (Hk : (k < length owners)%nat) by (rewrite <- El; apply nth_error_Some; congruence).
  destruct (nth_error owners k) as [n|] eqn:En; [|apply nth_error_None in En; lia].
  destruct (Hc k n i En Ei) as [Hid C].
  unfold decode_instr. change (c_memref (c_of i)) with (tl_id i). rewrite Hid, Z.eqb_refl.
  change (c_opcode (c_of i)) with (tl_operator i). change (c_op1_type (c_of i)) with (tl_type1 i).
  change (c_op1_value (c_of i)) with (tl_value1 i). change (c_op2_type (c_of i)) with (tl_type2 i).
  change (c_op2_value (c_of i)) with (tl_value2 i).
  assert (Sl : forall x t v, slot_holds cls owners k x t v -> exists o, decode_operand t v = Some o).
  { intros x t v H. destruct (slot_decode cls owners k x t v H) as (o & H' & _). eauto. }
  assert (Bn : engine_node cls n) by (rewrite Forall_forall in Hb; apply Hb; eapply nth_error_In; eassumption).
  unfold computes in C. unfold engine_node in Bn. destruct (cls n) as [a|b|o|o lb ub|num| |a| | | |]; try contradiction.
  - destruct C as (-> & -> & -> & ->). eexists. split; [reflexivity|exact I].
  - destruct C as (Co & _ & S1 & S2). destruct (Sl _ _ _ S1) as [o1 ->]. destruct (Sl _ _ _ S2) as [o2 ->].
    destruct (k <? nft)%nat; destruct o; try contradiction Bn; try discriminate Co; injection Co as <-; eexists; (split; [reflexivity|exact I]).
  - destruct C as (Co & _ & S1 & S2). destruct (Sl _ _ _ S1) as [o1 ->]. destruct (Sl _ _ _ S2) as [o2 ->].
    destruct (k <? nft)%nat; destruct o; try contradiction Bn; try discriminate Co; injection Co as <-; eexists; (split; [reflexivity|exact I]).
  - destruct C as (-> & S1 & -> & ->). destruct (Sl _ _ _ S1) as [o1 ->]. eexists. split; [reflexivity|exact I].
  - destruct C as (-> & -> & -> & ->). eexists. split; [reflexivity|exact I].
Qed.
Lemma graph_same h T cls wpd bpd const ft pt aux :
  denotes h T -> tl_shaped h cls ->
  (forall n, reachable h [ft] n -> assemblable h cls ft_code n) ->
  (forall n, reachable h [pt] n -> assemblable h cls pt_code n) ->
  (forall n, reachable h [ft] n -> reachable h [pt] n -> owns (cls n) = false) ->
  (forall n, reachable h [ft] n \/ reachable h [pt] n -> engine_node cls n) ->
  0 <= const ->
  exists fuel0 asm, (forall fuel, (fuel0 <= fuel)%nat -> gen_assembly fuel h cls wpd bpd const ft pt = Some asm) /\
    forall bytes, Forall fits asm -> Forall small aux -> arena_slots asm < 2 ^ 32 -> assemble_binary asm aux = Some bytes ->
      rust_boot bytes = boot bytes /\ exists prog confs, boot bytes = Some (prog, confs).
Proof.
  intros D Sh A1 A2 Ap Bn Hc.
  destruct (assembly_correct h T cls wpd bpd const ft pt D Sh A1 A2 Ap) as (fuel0 & nodes & nft & owners & asm & E & _ & I1 & I2 & W).
  assert (Io : forall n, In n owners <-> (reachable h [ft] n \/ reachable h [pt] n) /\ owns (cls n) = true).
  { intros n. rewrite <- (firstn_skipn nft owners), in_app_iff, I1, I2. tauto. }
  exists fuel0, asm. split; [exact E|].
  assert (Hs : Forall (fun n => 1 <= scq_size h cls wpd bpd const nodes n) owners).
  { apply Forall_forall. intros n Hin. apply scq_size_pos; [assumption|]. apply Io, Hin. }
  assert (Hb : Forall (engine_node cls) owners) by (apply Forall_forall; intros n Hin; apply Bn, Io, Hin).
  intros bytes Hf Hx Ha Eb. split; [eapply rust_boot_same; eassumption|].
  destruct (decode_total _ _ _ _ _ _ W Hb) as [prog Ep]. unfold boot.
  rewrite (load_value _ _ _ Hf Eb), table_result, Ep. eauto.
Qed.

(** ** Reports *)
Section Monitored.
Variables (h : heap) (T : nat -> tree) (cls : nat -> nclass) (wpd_of bpd_of : nat -> Z) (const : Z) (ft pt : nat).
Variables (specs : list (Z * expr)) (aux : list Z).
Hypothesis D : denotes h T.
Hypothesis Sft : cls ft = CSet.
Hypothesis Spt : cls pt = CSet.
Hypothesis Npt : nchildren (h pt) = [].
Hypothesis Sh : tl_shaped h cls.
Hypothesis As : forall n, reachable h [ft] n -> assemblable h cls ft_code n.
Hypothesis Fs : Forall2 (spec_of compile_expr h cls) (nchildren (h ft)) specs.
Hypothesis Nd : NoDup (map fst specs).
Hypothesis Ss : Forall (fun s => monitorable (compile_expr (snd s)) /\
                                 (reach (compile_expr (snd s)) < Z.to_nat const)%nat) specs.
Hypothesis Hconst : 0 <= const.

Lemma rust_assembled_runs :
  exists fuel0 asm, (forall fuel, (fuel0 <= fuel)%nat -> gen_assembly fuel h cls wpd_of bpd_of const ft pt = Some asm) /\
  forall bytes, Forall fits asm -> Forall small aux -> arena_slots asm < 2 ^ 32 -> assemble_binary asm aux = Some bytes ->
  exists prog confs, rust_boot bytes = Some (prog, confs) /\
    ft_program prog confs /\ distinct_reports prog /\ queues_ample prog confs /\
    forall num e, In (num, e) specs -> exists k ins, nth_error prog k = Some ins /\ i_op ins = RETURN /\
      i_num ins = Z.to_nat num /\ node_expr prog confs k = compile_expr e.
Proof.
  destruct (assembled_runs h T cls wpd_of bpd_of const ft pt specs aux D Sft Spt Npt Sh As Fs Nd Ss Hconst) as (f1 & asm & E1 & HB).
  assert (Po : forall n, reachable h [pt] n -> n = pt) by (intros n; apply pt_only; exact Npt).
  destruct (graph_same h T cls wpd_of bpd_of const ft pt aux D Sh As) as (f2 & asm' & E2 & HR).
  { intros n H. rewrite (Po n H). unfold assemblable. rewrite Spt. exact I. }
  { intros n _ H. rewrite (Po n H), Spt. reflexivity. }
  { intros n [R|R]; unfold engine_node; [|rewrite (Po n R), Spt; exact I].
    destruct (reachable_covered h cls (Z.to_nat const) ft Sft (set_formulas h cls const ft specs Fs Ss) As n R) as [->|[[(num & e & (C & _) & _)|(e & Hm & _)]|[[b Hb]|Hb]]].
    - rewrite Sft. exact I.
    - rewrite C. exact I.
    - inversion Hm; subst; match goal with E : cls n = _ |- _ => rewrite E end; exact I.
    - rewrite Hb. exact I.
    - unfold bz_class in Hb. destruct (cls n); try contradiction; exact I. }
  { exact Hconst. }
  assert (asm' = asm) as ->.
  { pose proof (E1 (Nat.max f1 f2) (Nat.le_max_l _ _)) as Q. rewrite (E2 (Nat.max f1 f2) (Nat.le_max_r _ _)) in Q. injection Q as Q. exact Q. }
  exists f1, asm. split; [exact E1|]. intros bytes Hf Hx Ha Eb. destruct (HR bytes Hf Hx Ha Eb) as [Q _]. rewrite Q.
  exact (HB bytes Hf Ha Eb).
Qed.
End Monitored.

(** What a finished run reports. *)
Lemma finished_reports prog confs tr n passes m specs :
  ft_program prog confs -> distinct_reports prog -> queues_enough prog confs ->
  RustEngine.rust_run passes (rows tr n) prog (rust_init prog confs) = Finished m ->
  Forall (fun s => legal (snd s) /\ all_nodes rewrite_source_op (snd s) /\ monitorable (compile_expr (snd s))) specs ->
  (forall num e, In (num, e) specs -> exists k ins, nth_error prog k = Some ins /\ i_op ins = RETURN /\
      i_num ins = Z.to_nat num /\ node_expr prog confs k = compile_expr e) ->
  forall num e, In (num, e) specs ->
    increasing (reports (Z.to_nat num) m) /\
    (forall t b, reported (reports (Z.to_nat num) m) t b -> (b = true <-> sat tr e t) /\ (t < n)%nat) /\
    (forall t, Z.of_nat t + wpd (compile_expr e) < Z.of_nat n -> exists b, reported (reports (Z.to_nat num) m) t b).
Proof.
  intros P1 P2 P3 Em Ss HS num e Hin. apply (tight_finished prog confs tr P1 P2 P3) in Em.
  destruct (HS num e Hin) as (k & ins & Ek & Ro & Hn & Hx). rewrite <- Hn.
  rewrite Forall_forall in Ss. destruct (Ss _ Hin) as (Hl & Hs & Hm). cbn [snd] in *.
  pose proof (compile_equivalent e Hl Hs) as Heq.
  split; [exact (tight_increasing prog confs tr P1 P2 P3 passes n m k ins Em Ek Ro)|]. split.
  - intros t b Hrep. destruct (tight_sound prog confs tr P1 P2 P3 passes n m k ins t b Em Ek Ro Hrep) as [S1 S2].
    split; [|exact S2]. rewrite S1, Hx. apply Heq.
  - intros t Ht. eapply tight_timely; [exact P1|exact P2|exact P3|exact Em|exact Ek|exact Ro|].
    rewrite Hx. rewrite (wpd_reach _ (monitorable_future _ Hm)) in Ht. lia.
Qed.
Lemma finishes prog confs tr n passes : ft_program prog confs -> distinct_reports prog -> queues_enough prog confs ->
  (max_passes prog confs <= passes)%nat -> exists m, RustEngine.rust_run passes (rows tr n) prog (rust_init prog confs) = Finished m.
Proof.
  intros P1 P2 P3 Hp. destruct (@tight_total Rust_monitor prog confs tr P1 P2 P3 passes n Hp) as [m Em]. exists m.
  apply (tight_finished prog confs tr P1 P2 P3). exact Em.
Qed.

Lemma rust_end_to_end h T cls wpd_of bpd_of const ft pt specs aux :
  denotes h T -> well_shaped h -> nkind (h ft) = KSet -> nkind (h pt) = KSet ->
  named_apart h cls -> cls ft = CSet -> cls pt = CSet -> nchildren (h pt) = [] ->
  tl_shaped h cls -> (forall n, reachable h [ft] n -> assemblable h cls ft_code n) ->
  Forall2 (spec_of compile_expr h cls) (nchildren (h ft)) specs -> NoDup (map fst specs) ->
  Forall (fun s => legal (snd s) /\ all_nodes rewrite_source_op (snd s) /\
                   monitorable (compile_expr (snd s)) /\ wpd (compile_expr (snd s)) < const) specs ->
  0 <= const ->
  exists depth0, forall depth, (depth0 <= depth)%nat -> exists fuel0 h' asm,
    (forall fuel, (fuel0 <= fuel)%nat -> optimize_cse depth fuel h ft pt = Some h' /\
                                         gen_assembly fuel h' cls wpd_of bpd_of const ft pt = Some asm) /\
    forall bytes, Forall fits asm -> Forall small aux -> arena_slots asm < 2 ^ 32 -> assemble_binary asm aux = Some bytes ->
    exists prog confs passes0, rust_boot bytes = Some (prog, confs) /\
      forall tr n passes, (passes0 <= passes)%nat ->
      exists m, RustEngine.rust_run passes (rows tr n) prog (rust_init prog confs) = Finished m /\
        forall num e, In (num, e) specs ->
          increasing (reports (Z.to_nat num) m) /\
          (forall t b, reported (reports (Z.to_nat num) m) t b -> (b = true <-> sat tr e t) /\ (t < n)%nat) /\
          (forall t, Z.of_nat t + wpd (compile_expr e) < Z.of_nat n -> exists b, reported (reports (Z.to_nat num) m) t b).
Proof.
  intros D Ws K1 K2 A Sft Spt Npt Sh As Fs Nd Ss Hc.
  destruct (CseProofs.optimize_cse_correct T h ft pt D Ws K1 K2) as (depth0 & HC).
  exists depth0. intros depth Hd. destruct (HC depth Hd) as (f1 & h' & E1 & D' & _ & _).
  assert (Hr : forall e, monitorable e -> wpd e = Z.of_nat (reach e)).
  { intros e He. apply wpd_reach, monitorable_future, He. }
  assert (Ss' : Forall (fun s => monitorable (compile_expr (snd s)) /\
                                 (reach (compile_expr (snd s)) < Z.to_nat const)%nat) specs).
  { eapply Forall_impl; [|exact Ss]. intros s (_ & _ & Hm & Hw). split; [exact Hm|]. rewrite (Hr _ Hm) in Hw. lia. }
  assert (Npt' : nchildren (h' pt) = []).
  { pose proof (same_children h h' T D D' pt pt eq_refl) as L. rewrite Npt in L.
    destruct (nchildren (h' pt)); [reflexivity|discriminate]. }
  assert (As' : forall n, reachable h' [ft] n -> assemblable h' cls ft_code n).
  { intros n R. destruct (reachable_transfer h h' T D D' ft n R) as (n0 & R0 & E0).
    eapply assemblable_transfer; [exact D|exact D'|exact A|exact E0|apply As, R0]. }
  assert (Fs' : Forall2 (spec_of compile_expr h' cls) (nchildren (h' ft)) specs).
  { eapply specs_transfer; [exact D|exact D'|exact A|exact Fs|]. apply (same_children h h' T D D' ft ft eq_refl). }
  destruct (rust_assembled_runs h' T cls wpd_of bpd_of const ft pt specs aux D' Sft Spt Npt'
              (shaped_transfer h h' T cls D D' A Sh) As' Fs' Nd Ss' Hc) as (f2 & asm & E2 & HB).
  exists (Nat.max f1 f2), h', asm. split; [intros fuel Hf; split; [apply E1; lia|apply E2; lia]|].
  intros bytes Hfi Hx Ha Eb. destruct (HB bytes Hfi Hx Ha Eb) as (prog & confs & Ebt & P1 & P2 & P3 & HS).
  exists prog, confs, (max_passes prog confs). split; [exact Ebt|]. intros tr n passes Hp.
  pose proof (ample_enough prog confs P1 P3) as P3'. destruct (finishes prog confs tr n passes P1 P2 P3' Hp) as [m Em]. exists m. split; [exact Em|].
  eapply finished_reports; try eassumption. eapply Forall_impl; [|exact Ss]. intros s (B1 & B2 & B3 & _). exact (conj B1 (conj B2 B3)).
Qed.

Lemma saturated_int h cls types F le inp : typed types inp -> forall t e v, saturated F le inp t e v ->
  forall n int, stands h cls types n e int -> is_int v = int.
Proof.
  intros Ty t e v Y. induction Y as [t k|t v|t|t o e a c Y IH U|t o e a c Y IH U|t o e1 e2 a b c Y1 IH1 Y2 IH2 B|t o e1 e2 a b v Y1 IH1 Y2 IH2 B|i e|t i e v Y IH];
    intros n int St; inversion St; subst; try reflexivity.
  - apply Ty.
  - exact (IH _ _ ltac:(eassumption)).
  - exact (IH _ _ ltac:(eassumption)).
  - match goal with H : stands _ _ _ _ e1 ?i |- _ => pose proof (IH1 _ _ H) as Q; cbn in Q; subst i end. destruct (relational o); reflexivity.
  - match goal with H : stands _ _ _ _ e1 ?i |- _ => pose proof (IH1 _ _ H) as Q; cbn in Q; subst i end.
    destruct o; cbn in B |- *; try discriminate; injection B as <-; reflexivity.
  - match goal with H : stands _ _ _ _ e ?i |- _ => exact (IH _ _ H) end.
Qed.
(** The rows the temporal engine sees. *)
Definition rust_trace F le acts inp : trace := fun t =>
  match RustBooleanizer.rust_run F le acts inp (S t) with Some s => fun a => rust_atomics s (Z.of_nat a) | None => fun _ => false end.
Lemma rust_rows_trace F le acts inp : forall n rs, rust_bz_rows F le acts inp n = Some rs -> rs = rows (rust_trace F le acts inp) n.
Proof.
  induction n as [|n IH]; intros rs E; cbn [rust_bz_rows] in E; [injection E as <-; reflexivity|].
  destruct (rust_bz_rows F le acts inp n) as [rs1|] eqn:E1; [|discriminate].
  destruct (RustBooleanizer.rust_run F le acts inp (S n)) as [s|] eqn:E2; [|discriminate]. injection E as <-.
  unfold rows. rewrite seq_S, map_app. rewrite (IH rs1 eq_refl). unfold rows. f_equal. cbn [map].
  unfold rust_trace. change (0 + n)%nat with n. rewrite E2. reflexivity.
Qed.
Lemma rust_rows_total F le acts inp : forall n, (forall t, (t <= n)%nat -> exists s, RustBooleanizer.rust_run F le acts inp t = Some s) ->
  exists rs, rust_bz_rows F le acts inp n = Some rs.
Proof.
  induction n as [|n IH]; intros H; [eexists; reflexivity|]. destruct IH as [rs E]; [intros t L; apply H; lia|].
  destruct (H (S n) (le_n _)) as [s Es]. cbn [rust_bz_rows]. rewrite E, Es. eauto.
Qed.

Section Reports.
Variables (h : heap) (T : nat -> tree) (cls : nat -> nclass) (types : Z -> bool).
Variables (wpd_of bpd_of : nat -> Z) (const : Z) (ft pt : nat).
Variables (specs : list (Z * expr)) (aux : list Z).
Hypothesis D : denotes h T.
Hypothesis Sft : cls ft = CSet.
Hypothesis Spt : cls pt = CSet.
Hypothesis Npt : nchildren (h pt) = [].
Hypothesis Sh : tl_shaped h cls.
Hypothesis As : forall n, reachable h [ft] n -> assemblable h cls ft_code n.
Hypothesis Fs : Forall2 (spec_of compile_expr h cls) (nchildren (h ft)) specs.
Hypothesis Nd : NoDup (map fst specs).
Hypothesis Ss : Forall (fun s => legal (snd s) /\ all_nodes rewrite_source_op (snd s) /\
                   monitorable (compile_expr (snd s)) /\ wpd (compile_expr (snd s)) < const) specs.
Hypothesis Hc : 0 <= const.
Hypothesis Nm : numeric h cls types (reachable h [ft]).

Lemma rust_signals_to_reports :
  exists fuel0 asm, (forall fuel, (fuel0 <= fuel)%nat -> gen_assembly fuel h cls wpd_of bpd_of const ft pt = Some asm) /\
  forall bytes, Forall fits asm -> Forall small aux -> arena_slots asm < 2 ^ 32 -> assemble_binary asm aux = Some bytes ->
  exists acts prog confs passes0, rust_load bytes = Some acts /\ rust_boot bytes = Some (prog, confs) /\
    forall F le inp n passes, typed types inp -> Z.of_nat n <= 2 ^ 31 -> (passes0 <= passes)%nat ->
    (forall t x e int, (t < n)%nat -> reachable h [ft] x -> stands h cls types x e int -> exists v, saturated F le inp t e v) ->
    exists rs tr m, rust_bz_rows F le acts inp n = Some rs /\
      RustEngine.rust_run passes rs prog (rust_init prog confs) = Finished m /\
      (forall t a k x e, (t < n)%nat -> reachable h [ft] k -> cls k = CAtomic a -> nchildren (h k) = [x] ->
         stands h cls types x e true -> 0 <= a ->
         exists v, saturated F le inp t e (VInt v) /\ tr t (Z.to_nat a) = negb (v =? 0)) /\
      forall num e, In (num, e) specs ->
        increasing (reports (Z.to_nat num) m) /\
        (forall t b, reported (reports (Z.to_nat num) m) t b -> (b = true <-> sat tr e t) /\ (t < n)%nat) /\
        (forall t, Z.of_nat t + wpd (compile_expr e) < Z.of_nat n -> exists b, reported (reports (Z.to_nat num) m) t b).
Proof.
  assert (Hr : forall e, monitorable e -> wpd e = Z.of_nat (reach e)).
  { intros e He. apply wpd_reach, monitorable_future, He. }
  assert (Ss' : Forall (fun s => monitorable (compile_expr (snd s)) /\
                                 (reach (compile_expr (snd s)) < Z.to_nat const)%nat) specs).
  { eapply Forall_impl; [|exact Ss]. intros s (_ & _ & Hm & Hw). split; [exact Hm|]. rewrite (Hr _ Hm) in Hw. lia. }
  assert (Po : forall n, reachable h [pt] n -> n = pt) by (intros n; apply pt_only; exact Npt).
  assert (A2 : forall n, reachable h [pt] n -> assemblable h cls pt_code n).
  { intros n H. rewrite (Po n H). unfold assemblable. rewrite Spt. exact I. }
  assert (Ap : forall n, reachable h [ft] n -> reachable h [pt] n -> engine_of (cls n) <> EngBz).
  { intros n _ H. rewrite (Po n H), Spt. discriminate. }
  assert (Nm' : numeric h cls types (in_program h ft pt)).
  { destruct Nm as [N1 N2 N3].
    assert (P0 : forall n, in_program h ft pt n -> reachable h [ft] n \/ cls n = CSet).
    { intros n [H|H]; [auto|right; rewrite (Po n H); exact Spt]. }
    split.
    - intros n H B. destruct (P0 n H) as [R|C]; [apply N1; assumption|rewrite C in B; contradiction].
    - intros n m aid H1 H2 C1 C2. destruct (P0 n H1) as [R1|C]; [|congruence]. destruct (P0 m H2) as [R2|C]; [|congruence].
      exact (N2 n m aid R1 R2 C1 C2).
    - intros n H. destruct (P0 n H) as [R|C]; [apply N3, R|]. intros x0 x C'. congruence. }
  destruct (rust_assembled_runs h T cls wpd_of bpd_of const ft pt specs aux D Sft Spt Npt Sh As Fs Nd Ss' Hc) as (f1 & asm & E1 & HB).
  destruct (rust_values_chain h T cls types wpd_of bpd_of const ft pt aux D Sh As A2 Ap Nm') as (f2 & asm' & E2 & HZ).
  assert (asm' = asm) as ->.
  { pose proof (E1 (Nat.max f1 f2) (Nat.le_max_l _ _)) as Q. rewrite (E2 (Nat.max f1 f2) (Nat.le_max_r _ _)) in Q. injection Q as Q. exact Q. }
  exists f1, asm. split; [exact E1|]. intros bytes Hfi Hx Ha Eb.
  destruct (HB bytes Hfi Hx Ha Eb) as (prog & confs & Ebt & P1 & P2 & P3 & HS).
  destruct (HZ bytes Hfi Hx Eb) as (acts & El & HR).
  exists acts, prog, confs, (max_passes prog confs). split; [exact El|]. split; [exact Ebt|].
  intros F le inp n passes Ty Hn Hp Df. destruct (HR F le inp Ty) as [Hs Ht].
  assert (Hruns : forall t, (t <= n)%nat -> exists s, RustBooleanizer.rust_run F le acts inp t = Some s).
  { intros t L. apply Ht; [lia|]. intros t' x e int L' [R|R] S; [eapply Df; [lia|exact R|exact S]|].
    exfalso. rewrite (Po x R) in S. inversion S; subst; try congruence.
    match goal with C : const_node _ ?v |- _ => rewrite Spt in C; destruct v; destruct C; discriminate end. }
  destruct (rust_rows_total F le acts inp n Hruns) as [rs Ers].
  set (tr := rust_trace F le acts inp).
  pose proof (ample_enough prog confs P1 P3) as P3'. destruct (finishes prog confs tr n passes P1 P2 P3' Hp) as [m Em].
  exists rs, tr, m. split; [exact Ers|]. split; [rewrite (rust_rows_trace _ _ _ _ _ _ Ers); exact Em|]. split.
  - intros t a k x e L R Ck Ch St Ha0. destruct (Hruns (S t) L) as [s Es].
    assert (Rx : reachable h [ft] x) by (eapply reach_child; [exact R|rewrite Ch; left; reflexivity]).
    destruct (Df t x e true L Rx St) as [w Y]. pose proof (saturated_int h cls types F le inp Ty t e w Y x true St) as Iw. destruct w as [v|bits]; [|discriminate].
    exists v. split; [exact Y|].
    unfold tr, rust_trace. rewrite Es, Z2Nat.id by exact Ha0. exact (Hs t s ltac:(lia) Es k a x e v (or_introl R) Ck Ch St Y).
  - eapply finished_reports; try eassumption. eapply Forall_impl; [|exact Ss]. intros s (B1 & B2 & B3 & _). exact (conj B1 (conj B2 B3)).
Qed.
End Reports.
