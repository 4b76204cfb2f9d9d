(** * From the program graph to the atomics of the monitor (proofs) *)
From Coq Require Import List Arith ZArith Bool Lia.
Require Import Verif.Mltl Verif.MltlShape Verif.Transform Verif.TransformProofs Verif.Rewrite Verif.Pipeline Verif.PipelineProofs Verif.Graph Verif.GraphSpec Verif.GraphProofs Verif.Binary Verif.BinarySpec Verif.BinaryProofs.
Require Import Verif.Layout Verif.Booleanizer Verif.Assembly Verif.AssemblySpec Verif.AssemblyProofs Verif.AssembleTotal.
Require Import Verif.Scq Verif.Engine Verif.Monitoring Verif.MonitorProofs Verif.ReachProofs Verif.LayoutSpec Verif.EndToEnd Verif.EndToEndProofs.
Require Import Verif.BooleanizerSpec Verif.BooleanizerOps Verif.BooleanizerGen Verif.BooleanizerProofs.
Import ListNotations.
Local Existing Instance C_monitor.
Local Open Scope Z_scope.

Lemma NoDup_app_disjoint {A} (a b : list A) : NoDup a -> NoDup b -> (forall x, In x a -> In x b -> False) -> NoDup (a ++ b).
Proof.
  induction a as [|x a IH]; intros Na Nb Dj; [exact Nb|]. inversion Na; subst. cbn. constructor.
  - rewrite in_app_iff. intros [H|H]; [contradiction|]. apply (Dj x); [left; reflexivity|exact H].
  - apply IH; [assumption|assumption|]. intros y Hy. apply Dj. right. exact Hy.
Qed.

Section Chain.
Variables (h : heap) (T : nat -> tree) (cls : nat -> nclass) (types : Z -> bool).
Variables (wpd_of bpd_of : nat -> Z) (const : Z) (ft pt : nat) (aux : list Z).
Hypothesis D : denotes h T.
Hypothesis Sh : tl_shaped h cls.
Hypothesis A1 : forall n, reachable h [ft] n -> assemblable h cls ft_code n.
Hypothesis A2 : forall n, reachable h [pt] n -> assemblable h cls pt_code n.
Hypothesis Ap : forall n, reachable h [ft] n -> reachable h [pt] n -> engine_of (cls n) <> EngBz.
Definition in_program (n : nat) : Prop := reachable h [ft] n \/ reachable h [pt] n.
Hypothesis Nm : numeric h cls types in_program.

Lemma chain_from :
  exists fuel0 asm, (forall fuel, (fuel0 <= fuel)%nat -> gen_assembly fuel h cls wpd_of bpd_of const ft pt = Some asm) /\
  forall bytes, Forall fits asm -> assemble_binary asm aux = Some bytes ->
  exists acts, load bytes = Some acts /\
    forall F inp s0, typed types inp ->
      (forall t s, Z.of_nat t < 2 ^ 31 -> bz_run_from F (fst (bz_reload acts s0)) (snd (bz_reload acts s0)) inp (S t) = Some s ->
         forall n aid x e, in_program n -> cls n = CAtomic aid -> nchildren (h n) = [x] -> stands h cls types x e true ->
         exists v, yields F inp t e (VInt v) /\ atomic_buffer s aid = negb (v =? 0)) /\
      (forall t, Z.of_nat t <= 2 ^ 31 ->
         (forall t' n e int, (t' < t)%nat -> in_program n -> stands h cls types n e int -> exists v, yields F inp t' e v) ->
         exists s, bz_run_from F (fst (bz_reload acts s0)) (snd (bz_reload acts s0)) inp t = Some s).
Proof.
  destruct Nm as [Nn Nu Np].
  destruct (postorder_correct h T [ft] D) as (f1 & fts & E1 & N1 & I1 & O1).
  destruct (postorder_correct h T [pt] D) as (f2 & pts & E2 & N2 & I2 & O2).
  assert (A1' : forall n, In n fts -> assemblable h cls ft_code n) by (intros n Hn; apply A1, I1, Hn).
  assert (A2' : forall n, In n pts -> assemblable h cls pt_code n) by (intros n Hn; apply A2, I2, Hn).
  set (size := scq_size h cls wpd_of bpd_of const (fts ++ pts)).
  destruct (gen_assembly_of_total h cls size fts pts Sh O1 O2 A1' A2') as [asm Ea].
  assert (Ip : forall n, In n (fts ++ pts) <-> in_program n) by (intros n; rewrite in_app_iff, I1, I2; reflexivity).
  assert (Ow : forall n, bz_owner h cls (fts ++ pts) n = true -> engine_of (cls n) = EngBz).
  { intros n. unfold bz_owner. destruct (engine_of (cls n)); congruence. }
  assert (Nd : NoDup (filter (bz_owner h cls (fts ++ pts)) (fts ++ pts))).
  { rewrite filter_app. apply NoDup_app_disjoint; [apply NoDup_filter, N1|apply NoDup_filter, N2|].
    intros n H1 H2. apply filter_In in H1 as [H1 O]. apply filter_In in H2 as [H2 _]. apply I1 in H1. apply I2 in H2.
    exact (Ap n H1 H2 (Ow n O)). }
  destruct (gen_assembly_bz h cls size fts pts asm Nd Ea) as (d & rest & [K En] & Easm & Hr).
  assert (Kin : forall n i, In (n, i) d -> in_program n).
  { intros n i H. apply Ip. apply (in_map fst) in H. cbn in H. rewrite K in H. apply filter_In in H. apply H. }
  exists (Nat.max f1 f2), asm. split.
  { intros fuel Hf. unfold gen_assembly. rewrite E1, E2 by lia. exact Ea. }
  intros bytes Hf Eb. exists (map result asm). split; [apply (load_value asm aux bytes Hf Eb)|].
  intros F inp s0 Ty.
  assert (Ld : bz_load_into (value_buffer s0) (map result asm) = bz_load_into (value_buffer s0) (loaded (prev_last d))).
  { rewrite Easm, map_app. unfold bz_load_into. rewrite fold_left_app.
    transitivity (load_from (load_from ([], value_buffer s0) (map result (map IBz (values (prev_last d))))) (map result rest)); [reflexivity|].
    rewrite load_rest by exact Hr. unfold load_from, loaded, values. rewrite !map_map. reflexivity. }
  assert (Tb : fst (bz_load_into (value_buffer s0) (loaded (prev_last d))) = code_of (prev_last d)) by apply (load_table (prev_last d) []).
  assert (Rl : bz_reload (map result asm) s0 =
    (code_of (prev_last d), BzState (snd (bz_load_into (value_buffer s0) (loaded (prev_last d)))) (signal_vector s0) (atomic_buffer s0))).
  { unfold bz_reload. rewrite Ld. rewrite <- Tb. destruct (bz_load_into (value_buffer s0) (loaded (prev_last d))) as [tb vb]. reflexivity. }
  rewrite Rl. cbn [fst snd].
  assert (Fit : forall n i, In (n, i) d -> bz_fits i).
  { intros n i H. rewrite Forall_forall in Hf. apply (Hf (IBz i)). rewrite Easm. apply in_or_app. left.
    apply in_map. unfold values. apply in_map_iff. exists (n, i). split; [reflexivity|].
    unfold prev_last. rewrite in_app_iff, !filter_In. destruct (is_prev (n, i)); auto. }
  assert (Mn : forall n i, In (n, i) d -> bz_class (cls n) -> exists e int, stands h cls types n e int).
  { intros n i H. apply Nn, (Kin n i H). }
  assert (Pa : forall n i, In (n, i) d -> prev_apart h cls n).
  { intros n i H. apply Np, (Kin n i H). }
  assert (Ad : forall n i m j aid, In (n, i) d -> In (m, j) d -> cls n = CAtomic aid -> cls m = CAtomic aid -> n = m).
  { intros n i m j aid H1 H2. apply Nu; [exact (Kin n i H1)|exact (Kin m j H2)]. }
  assert (Kd : NoDup (map fst d)) by (rewrite K; exact Nd).
  assert (Sl : const_slots cls d (snd (bz_load_into (value_buffer s0) (loaded (prev_last d)))) /\
               prev_slots h cls types F inp d 0 (snd (bz_load_into (value_buffer s0) (loaded (prev_last d))))).
  { eapply loaded_slots; eassumption. }
  destruct Sl as [Cs Ps].
  set (s1 := BzState (snd (bz_load_into (value_buffer s0) (loaded (prev_last d)))) (signal_vector s0) (atomic_buffer s0)).
  change (snd (bz_load_into (value_buffer s0) (loaded (prev_last d)))) with (value_buffer s1) in Cs, Ps. split.
  - intros t s Ht R n aid x e Hn Cn Ch S.
    assert (Hin : exists i, In (n, i) d).
    { assert (Hk : In n (map fst d)).
      { rewrite K. apply filter_In. split; [apply Ip, Hn|]. unfold bz_owner. rewrite Cn. reflexivity. }
      apply in_map_iff in Hk as ([n' i] & E & Hi). cbn in E. subst. eauto. }
    destruct Hin as [i Hin].
    assert (An : answers h cls types F inp d t s) by (eapply run_answers; eassumption).
    exact (An n i aid x e Hin Cn Ch S).
  - intros t Ht Df. eapply run_total; try eassumption.
    intros t' n i e int L H. apply Df; [exact L|exact (Kin n i H)].
Qed.

Lemma reload_new acts : bz_reload acts (BzState (fun _ => 0) (fun _ => 0) (fun _ => false)) =
  (fst (bz_load acts), BzState (snd (bz_load acts)) (fun _ => 0) (fun _ => false)).
Proof. unfold bz_reload, bz_load. cbn [value_buffer signal_vector atomic_buffer]. destruct (bz_load_into (fun _ => 0) acts) as [tb vb]. reflexivity. Qed.
Lemma chain :
  exists fuel0 asm, (forall fuel, (fuel0 <= fuel)%nat -> gen_assembly fuel h cls wpd_of bpd_of const ft pt = Some asm) /\
  forall bytes, Forall fits asm -> assemble_binary asm aux = Some bytes ->
  exists acts, load bytes = Some acts /\
    forall F inp, typed types inp ->
      (forall t s, Z.of_nat t < 2 ^ 31 -> bz_run F (fst (bz_load acts)) (snd (bz_load acts)) inp (S t) = Some s ->
         forall n aid x e, in_program n -> cls n = CAtomic aid -> nchildren (h n) = [x] -> stands h cls types x e true ->
         exists v, yields F inp t e (VInt v) /\ atomic_buffer s aid = negb (v =? 0)) /\
      (forall t, Z.of_nat t <= 2 ^ 31 ->
         (forall t' n e int, (t' < t)%nat -> in_program n -> stands h cls types n e int -> exists v, yields F inp t' e v) ->
         exists s, bz_run F (fst (bz_load acts)) (snd (bz_load acts)) inp t = Some s).
Proof.
  destruct chain_from as (fuel0 & asm & E & H). exists fuel0, asm. split; [exact E|]. intros bytes Hf Eb.
  destruct (H bytes Hf Eb) as (acts & El & HR). exists acts. split; [exact El|]. intros F inp Ty.
  specialize (HR F inp (BzState (fun _ => 0) (fun _ => 0) (fun _ => false)) Ty). rewrite reload_new in HR. exact HR.
Qed.
(** Two monitors with different histories hold the same atomics. *)
Lemma reload_same :
  exists fuel0 asm, (forall fuel, (fuel0 <= fuel)%nat -> gen_assembly fuel h cls wpd_of bpd_of const ft pt = Some asm) /\
  forall bytes, Forall fits asm -> assemble_binary asm aux = Some bytes ->
  exists acts, load bytes = Some acts /\
    forall F inp old, typed types inp ->
    let run s := bz_run_from F (fst (bz_reload acts s)) (snd (bz_reload acts s)) inp in
    let new := BzState (fun _ => 0) (fun _ => 0) (fun _ => false) in
    (forall t s s' n aid x e, Z.of_nat t < 2 ^ 31 -> run old (S t) = Some s -> run new (S t) = Some s' ->
       in_program n -> cls n = CAtomic aid -> nchildren (h n) = [x] -> stands h cls types x e true ->
       atomic_buffer s aid = atomic_buffer s' aid) /\
    (forall t, Z.of_nat t <= 2 ^ 31 ->
       (forall t' n e int, (t' < t)%nat -> in_program n -> stands h cls types n e int -> exists v, yields F inp t' e v) ->
       (exists s, run old t = Some s) /\ exists s, run new t = Some s).
Proof.
  destruct chain_from as (fuel0 & asm & E & H). exists fuel0, asm. split; [exact E|]. intros bytes Hf Eb.
  destruct (H bytes Hf Eb) as (acts & El & HR). exists acts. split; [exact El|]. intros F inp old Ty run new.
  destruct (HR F inp old Ty) as [O1 O2]. destruct (HR F inp new Ty) as [N1 N2]. split.
  - intros t s s' n aid x e Ht E1 E2 Hn Cn Ch St.
    destruct (O1 t s Ht E1 n aid x e Hn Cn Ch St) as (v & Y & A).
    destruct (N1 t s' Ht E2 n aid x e Hn Cn Ch St) as (v' & Y' & A').
    pose proof (yields_unique _ _ _ _ _ Y _ Y') as Q. injection Q as ->. congruence.
  - intros t Ht Df. split; [apply O2|apply N2]; assumption.
Qed.
End Chain.

(** The trace the temporal engine sees. *)
Definition bz_trace F table vb inp : trace := fun t =>
  match bz_run F table vb inp (S t) with Some s => fun a => atomic_buffer s (Z.of_nat a) | None => fun _ => false end.
Lemma bz_rows_trace F table vb inp : forall n rs, bz_rows F table vb inp n = Some rs -> rs = rows (bz_trace F table vb inp) n.
Proof.
  induction n as [|n IH]; intros rs E; cbn [bz_rows] in E; [injection E as <-; reflexivity|].
  destruct (bz_rows F table vb inp n) as [rs1|] eqn:E1; [|discriminate].
  destruct (bz_run F table vb inp (S n)) as [s|] eqn:E2; [|discriminate]. injection E as <-.
  unfold rows. rewrite seq_S, map_app. rewrite (IH rs1 eq_refl). unfold rows. f_equal. cbn [map].
  unfold bz_trace. change (0 + n)%nat with n. rewrite E2. reflexivity.
Qed.
Lemma bz_rows_total F table vb inp : forall n, (forall t, (t <= n)%nat -> exists s, bz_run F table vb inp t = Some s) ->
  exists rs, bz_rows F table vb inp n = Some rs.
Proof.
  induction n as [|n IH]; intros H; [eexists; reflexivity|]. destruct IH as [rs E]; [intros t L; apply H; lia|].
  destruct (H (S n) (le_n _)) as [s Es]. cbn [bz_rows] in *. rewrite E, Es. eauto.
Qed.

Section Reports.
Variables (h : heap) (T : nat -> tree) (cls : nat -> nclass) (types : Z -> bool).
Variables (wpd_of bpd_of : nat -> Z) (const : Z) (ft pt : nat).
Variables (specs : list (Z * expr)) (aux : list Z).
Hypothesis D : denotes h T.
Hypothesis Sft : cls ft = CSet.
Hypothesis Spt : cls pt = CSet.
Hypothesis Npt : nchildren (h pt) = [].
Hypothesis Sh : tl_shaped h cls.
Hypothesis As : forall n, reachable h [ft] n -> assemblable h cls ft_code n.
Hypothesis Fs : Forall2 (spec_of compile_expr h cls) (nchildren (h ft)) specs.
Hypothesis Nd : NoDup (map fst specs).
Hypothesis Ss : Forall (fun s => legal (snd s) /\ all_nodes rewrite_source_op (snd s) /\
                   monitorable (compile_expr (snd s)) /\ wpd (compile_expr (snd s)) < const) specs.
Hypothesis Hc : 0 <= const.
Hypothesis Nm : numeric h cls types (reachable h [ft]).

Lemma signals_to_reports :
  exists fuel0 asm, (forall fuel, (fuel0 <= fuel)%nat -> gen_assembly fuel h cls wpd_of bpd_of const ft pt = Some asm) /\
  forall bytes, Forall fits asm -> arena_slots asm < 2 ^ 32 -> assemble_binary asm aux = Some bytes ->
  exists acts prog confs passes0, load bytes = Some acts /\ boot bytes = Some (prog, confs) /\
    forall F inp n passes, typed types inp -> Z.of_nat n <= 2 ^ 31 -> (passes0 <= passes)%nat ->
    (forall t x e int, (t < n)%nat -> reachable h [ft] x -> stands h cls types x e int -> exists v, yields F inp t e v) ->
    exists rs tr m, bz_rows F (fst (bz_load acts)) (snd (bz_load acts)) inp n = Some rs /\
      run passes rs prog (init prog confs) = Some m /\
      (forall t a k x e, (t < n)%nat -> reachable h [ft] k -> cls k = CAtomic a -> nchildren (h k) = [x] ->
         stands h cls types x e true -> 0 <= a ->
         exists v, yields F inp t e (VInt v) /\ tr t (Z.to_nat a) = negb (v =? 0)) /\
      forall num e, In (num, e) specs ->
        increasing (reports (Z.to_nat num) m) /\
        (forall t b, reported (reports (Z.to_nat num) m) t b -> (b = true <-> sat tr e t) /\ (t < n)%nat) /\
        (forall t, Z.of_nat t + wpd (compile_expr e) < Z.of_nat n -> exists b, reported (reports (Z.to_nat num) m) t b).
Proof.
  assert (Hr : forall e, monitorable e -> wpd e = Z.of_nat (reach e)).
  { intros e He. apply wpd_reach, monitorable_future, He. }
  assert (Ss' : Forall (fun s => monitorable (compile_expr (snd s)) /\
                                 (reach (compile_expr (snd s)) < Z.to_nat const)%nat) specs).
  { eapply Forall_impl; [|exact Ss]. intros s (_ & _ & Hm & Hw). split; [exact Hm|]. rewrite (Hr _ Hm) in Hw. lia. }
  assert (Po : forall n, reachable h [pt] n -> n = pt) by (intros n; apply pt_only; exact Npt).
  assert (A2 : forall n, reachable h [pt] n -> assemblable h cls pt_code n).
  { intros n H. rewrite (Po n H). unfold assemblable. rewrite Spt. exact I. }
  assert (Ap : forall n, reachable h [ft] n -> reachable h [pt] n -> engine_of (cls n) <> EngBz).
  { intros n _ H. rewrite (Po n H), Spt. discriminate. }
  assert (Nm' : numeric h cls types (in_program h ft pt)).
  { destruct Nm as [N1 N2 N3].
    assert (P0 : forall n, in_program h ft pt n -> reachable h [ft] n \/ cls n = CSet).
    { intros n [H|H]; [auto|right; rewrite (Po n H); exact Spt]. }
    split.
    - intros n H B. destruct (P0 n H) as [R|C]; [apply N1; assumption|rewrite C in B; contradiction].
    - intros n m aid H1 H2 C1 C2. destruct (P0 n H1) as [R1|C]; [|congruence]. destruct (P0 m H2) as [R2|C]; [|congruence].
      exact (N2 n m aid R1 R2 C1 C2).
    - intros n H. destruct (P0 n H) as [R|C]; [apply N3, R|]. intros x0 x C'. congruence. }
  destruct (assembled_runs h T cls wpd_of bpd_of const ft pt specs aux D Sft Spt Npt Sh As Fs Nd Ss' Hc) as (f1 & asm & E1 & HB).
  destruct (chain h T cls types wpd_of bpd_of const ft pt aux D Sh As A2 Ap Nm') as (f2 & asm' & E2 & HZ).
  assert (asm' = asm) as ->.
  { pose proof (E1 (Nat.max f1 f2) (Nat.le_max_l _ _)) as Q. rewrite (E2 (Nat.max f1 f2) (Nat.le_max_r _ _)) in Q. injection Q as Q. exact Q. }
  exists f1, asm. split; [exact E1|]. intros bytes Hfi Ha Eb.
  destruct (HB bytes Hfi Ha Eb) as (prog & confs & Ebt & P1 & P2 & P3 & HS).
  destruct (HZ bytes Hfi Eb) as (acts & El & HR).
  exists acts, prog, confs, (max_passes prog confs). split; [exact El|]. split; [exact Ebt|].
  intros F inp n passes Ty Hn Hp Df. destruct (HR F inp Ty) as [Hs Ht].
  set (table := fst (bz_load acts)) in *. set (vb := snd (bz_load acts)) in *.
  assert (Hruns : forall t, (t <= n)%nat -> exists s, bz_run F table vb inp t = Some s).
  { intros t L. apply Ht; [lia|]. intros t' x e int L' [R|R] S; [eapply Df; [lia|exact R|exact S]|].
    exfalso. rewrite (Po x R) in S. inversion S; subst; try congruence.
    match goal with C : const_node _ ?v |- _ => rewrite Spt in C; destruct v; destruct C; discriminate end. }
  destruct (bz_rows_total F table vb inp n Hruns) as [rs Ers].
  set (tr := bz_trace F table vb inp).
  destruct (MonitorProofs.run_total prog confs tr P1 P2 P3 passes n Hp) as [m Em].
  exists rs, tr, m. split; [exact Ers|]. split; [rewrite (bz_rows_trace _ _ _ _ _ _ Ers); exact Em|]. split.
  - intros t a k x e L R Ck Ch St Ha0. destruct (Hruns (S t) L) as [s Es].
    destruct (Hs t s ltac:(lia) Es k a x e (or_introl R) Ck Ch St) as (v & Y & A). exists v. split; [exact Y|].
    unfold tr, bz_trace. rewrite Es, Z2Nat.id by exact Ha0. exact A.
  - intros num e Hin. destruct (HS num e Hin) as (k & ins & Ek & Ro & Hnum & Hx). rewrite <- Hnum.
    rewrite Forall_forall in Ss. destruct (Ss _ Hin) as (Hl & Hso & Hm & Hw). cbn [snd] in *.
    pose proof (compile_equivalent e Hl Hso) as Heq.
    split; [eapply run_increasing; eassumption|]. split.
    + intros t b Hrep. destruct (run_sound prog confs tr P1 P2 P3 passes n m k ins t b Em Ek Ro Hrep) as [S1 S2].
      split; [|exact S2]. rewrite S1, Hx. apply Heq.
    + intros t Htt. eapply run_timely; [exact P1|exact P2|exact P3|exact Em|exact Ek|exact Ro|].
      rewrite Hx. rewrite (Hr _ Hm) in Htt. lia.
Qed.
End Reports.
