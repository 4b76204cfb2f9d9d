(** * From specification and trace files to reports (proofs) *)
From Coq Require Import List Arith NArith ZArith Bool Ascii String Lia Permutation.
Require Import Verif.MapFile Verif.MapProofs Verif.Mltl Verif.MltlShape Verif.Transform Verif.Rewrite Verif.Pipeline.
Require Import Verif.Graph Verif.GraphSpec Verif.Binary Verif.BinarySpec Verif.Assembly Verif.Layout Verif.AssemblySpec Verif.LayoutSpec.
Require Import Verif.Scq Verif.Engine Verif.Monitoring Verif.PastMonitor Verif.EndToEnd Verif.EndToEndProofs Verif.SectionSpec Verif.EndToEndSections.
Require Import Verif.RustEngine Verif.RustLayout Verif.RustLayoutSpec Verif.RustBoot Verif.SectionReports.
Require Import Verif.CsvTrace Verif.CsvSpec Verif.CsvProofs Verif.CsvHeader Verif.CsvAgree Verif.DefinitionsProofs.
Require Import Verif.C2poText Verif.C2poSpec Verif.C2poFiles Verif.C2poLex Verif.C2poRoundTrip Verif.C2poChecks.
Require Import Verif.Elaborate Verif.ElaborateSpec Verif.ElaborateProofs Verif.ElaborateGraph Verif.TextSpec.
Import ListNotations.
Local Open Scope list_scope.
Local Open Scope nat_scope.

(** ** Names in files *)
Ltac spelled H := repeat (rewrite ?Forall_app, ?Forall_cons_iff in H; cbn [app] in H); cbn [well_spelled] in H.
Lemma file_names mission py sigs n ts p : file mission py sigs n ts p -> Forall well_spelled ts ->
  Forall usable_name (inputs_of p) /\ Forall (fun x => usable_name x \/ exists n, x = fresh_label n) (labels_in p).
Proof.
  induction 1 as [sigs n|sigs n ts s l rest p I F IH|sigs n ts s l rest p I F IH|sigs n ts s l rest p I F IH|sigs n ts s l rest p I F IH
                 |sigs n future ts s l m rest p I F IH]; intros Sp; [split; constructor|..]; spelled Sp; destruct (IH ltac:(tauto)) as [A B];
    unfold inputs_of, labels_in in *.
  - split; assumption.
  - split; assumption.
  - split; [|exact B]. change (Forall usable_name (flat_map fst (s :: l) ++ inputs_of p)). apply Forall_app. split; [|exact A].
    assert (N : Forall named_decl (s :: l)) by (eapply items_Forall; [exact (declaration_named py)|exact I|tauto]).
    clear - N. induction N as [|d ds (_ & U & _) _ IH]; [constructor|]. cbn [flat_map]. apply Forall_app. auto.
  - split; assumption.
  - split; [exact A|].
    change (Forall (fun x => usable_name x \/ exists n, x = fresh_label n) (map label_of (s :: l) ++ labels_in p)).
    apply Forall_app. split; [|exact B]. assert (St : Forall well_spelled ts) by tauto. clear - I St. revert I St.
    generalize (s :: l). clear s l. intros l I. induction I as [n|n ts s m rest l k Sp _ IH]; intros St; [constructor|].
    spelled St. cbn [map]. constructor; [|apply IH; tauto]. destruct Sp; cbn [label_of]; [right; eauto|left..]; spelled St; tauto.
Qed.
Lemma usable_plain s : usable_name s -> GraphSpec.plain s.
Proof.
  intros ((Id & _) & _). destruct s as [|c r]; [destruct Id|]. destruct Id as [Hc Hr]. apply plain_chars; [discriminate|].
  apply word_chars. cbn. rewrite Hr, andb_true_r. destruct (head_word c Hc) as [W _]. exact W.
Qed.
Lemma usable_const s (b : bool) : usable_name s -> s <> quoted (if b then "true" else "false")%string.
Proof.
  intros ((_ & N) & _) ->. apply N. unfold documented_words. apply in_map. destruct b; cbn; tauto.
Qed.
Lemma fresh_plain n : GraphSpec.plain (fresh_label n).
Proof.
  apply plain_chars; [discriminate|]. unfold fresh_label. apply plain_app_chars; [reflexivity|]. apply plain_app_chars; [apply digit_chars|reflexivity].
Qed.

(** ** Names of columns *)
Lemma named_column_spec m p a : input_column m p a ->
  In (named_column m (used p) a) (used p) /\ column_of m (named_column m (used p) a) = Some a.
Proof.
  intros (s & Hs & Hc). unfold named_column.
  destruct (find _ (used p)) as [x|] eqn:E.
  - apply find_some in E as [Hx E]. split; [exact Hx|]. destruct (column_of m x) as [c|]; [|discriminate]. apply Nat.eqb_eq in E. congruence.
  - exfalso. pose proof (find_none _ _ E s Hs) as K. cbv beta in K. rewrite Hc, Nat.eqb_refl in K. discriminate.
Qed.

(** ** Numbers *)
Lemma titles_numbers side I : forall p mode ds ls, boolean_sections side I mode ds ls p -> map snd (titles p) = numbers p.
Proof.
  assert (L : forall l kind ds ls, boolean_specs side I kind ds ls l -> map snd (map (fun s => match s with Formula x n _ | Contract x n _ _ => (x, n) end) l) = flat_map spec_numbers l).
  { induction l as [|[x n e|x n e f] l IH]; intros kind ds ls B; [reflexivity| |destruct B]. destruct B as (_ & _ & B). cbn [map flat_map spec_numbers app snd]. f_equal. eapply IH, B. }
  induction p as [|[l|l|l|l|kind l] p IH]; intros mode ds ls B; try contradiction; [reflexivity|..]; cbn [boolean_sections] in B; destruct B as [B1 B2].
  - apply (IH _ _ _ B2).
  - apply (IH _ _ _ B2).
  - change (map snd (map (fun s => match s with Formula x n _ | Contract x n _ _ => (x, n) end) l ++ titles p) = flat_map spec_numbers l ++ numbers p).
    rewrite map_app. f_equal; [eapply L, B1|apply (IH _ _ _ B2)].
Qed.
Lemma labels_distinct p : NoDup (declarations p) -> NoDup (labels_in p).
Proof.
  unfold declarations, labels_in. induction p as [|s p IH]; [auto|]. cbn [flat_map]. intros H. apply NoDup_app_parts in H as (A & B & C).
  specialize (IH B). destruct s; cbn [app]; try exact IH.
  assert (G : forall q, incl (flat_map (fun s => match s with SSpec _ l => map label_of l | _ => [] end) q)
     (flat_map (fun s => match s with SInput l => flat_map fst l | SDefine l => map fst l | SSpec _ l => map label_of l | _ => [] end) q)).
  { intros q x Hx. apply in_flat_map in Hx as (s & Hs & Hx). apply in_flat_map. exists s. split; [exact Hs|]. destruct s; try destruct Hx; exact Hx. }
  revert A C. generalize (map label_of l). intros l' A C.
  induction l' as [|x l' IHl]; [exact IH|]. inversion A; subst. cbn [app]. constructor.
  - rewrite in_app_iff. intros [K|K]; [contradiction|]. apply (C x); [left; reflexivity|apply G, K].
  - apply IHl; [assumption|]. intros y Hy. apply C. right. exact Hy.
Qed.

(** ** Main lemma *)
Lemma Forall2_nth {A B} (P : A -> B -> Prop) l l' : Forall2 P l l' -> forall k a, nth_error l k = Some a -> exists b, nth_error l' k = Some b /\ P a b.
Proof. induction 1 as [|a b l l' H _ IH]; intros [|k] x E; try discriminate; cbn in *; [injection E as <-; eauto|auto]. Qed.

(** The specifications of the two kinds are the specifications. *)
Lemma parts_permutation specs : Permutation (part true specs ++ part false specs) (map snd specs).
Proof.
  unfold part. induction specs as [|[[] s] specs IH]; cbn [filter fst snd map Bool.eqb app]; [constructor|constructor; exact IH|].
  eapply Permutation_trans; [symmetry; apply Permutation_middle|]. constructor. exact IH.
Qed.
Lemma part_Forall (P : bool -> item -> Prop) k specs : Forall (fun s => P (fst s) (snd s)) specs -> Forall (P k) (part k specs).
Proof.
  unfold part. induction 1 as [|[j s] specs H _ IH]; [constructor|]. cbn [filter fst snd map] in *.
  destruct (Bool.eqb j k) eqn:E; [|exact IH]. apply Bool.eqb_prop in E. subst. constructor; auto.
Qed.
Lemma in_part s specs : In s specs -> In (snd s) (part (fst s) specs).
Proof. intros H. unfold part. apply in_map. apply filter_In. split; [exact H|apply Bool.eqb_reflx]. Qed.

(** What the end-to-end theorems ask of a graph. *)
Definition ready (h : heap) (cls : nat -> nclass) (ft pt : nat) (fspecs pspecs : list (Z * expr)) (const : Z) : Prop :=
  (exists T, denotes h T) /\ well_shaped h /\ nkind (h ft) = KSet /\ nkind (h pt) = KSet /\
  named_apart h cls /\ cls ft = CSet /\ cls pt = CSet /\ (forall n, reachable h [ft] n -> ~ reachable h [pt] n) /\
  tl_shaped h cls /\ (forall n, reachable h [ft] n -> assemblable h cls ft_code n) /\
  (forall n, reachable h [pt] n -> assemblable h cls pt_code n) /\
  Forall2 (spec_of compile_expr h cls) (nchildren (h ft)) fspecs /\
  Forall2 (spec_of compile_expr h cls) (nchildren (h pt)) pspecs /\
  NoDup (map fst (fspecs ++ pspecs)) /\ ft_ready const fspecs /\ pt_ready const pspecs.
Definition numbered (specs : list item) : list (Z * expr) := map (fun s => (Z.of_nat (snd (fst s)), snd s)) specs.
Lemma compiled_spec_of h cls : forall specs fs,
  Forall2 (fun f s => formula_means h cls f (Z.of_nat (snd (fst s))) (snd s)) fs (compiled specs) ->
  Forall2 (spec_of compile_expr h cls) fs (numbered specs).
Proof.
  unfold compiled, numbered. induction specs as [|s specs IH]; intros fs K; inversion K; subst; constructor; [assumption|]. apply IH. assumption.
Qed.
Lemma compiled_ok C k specs : Forall (fun s => all_nodes (node_ok k C) (snd s)) specs ->
  Forall (fun s => built C k (snd s) /\ ~ is_const (snd s)) (compiled specs).
Proof.
  intros H. unfold compiled. apply Forall_map. eapply Forall_impl; [|exact H]. cbn [snd fst]. intros s K. split; [apply compiled_built, K|].
  pose proof (node_ok_shape _ _ _ K) as Sh. destruct k.
  - pose proof (compiled_monitorable _ Sh) as M. destruct (compile_expr (snd s)); cbn in *; tauto.
  - pose proof (pt_compiled_monitorable _ Sh) as M. destruct (compile_expr (snd s)); cbn in *; tauto.
Qed.

Lemma text_ready mission py const size names cells table content trace p :
  parse_c2po mission py content = Some p -> boolean_file names p ->
  trace_text size (Some cells) table trace -> Forall2 header_cell names cells -> NoDup names ->
  Forall plain_row table ->
  exists m specs, parse_trace (used p) trace = Mapped m (List.length table) /\ elaborate m p = Some specs /\ map fst specs = kinds p /\
  (Forall (fun s => (need s < const)%Z) specs ->
   let os := build m p specs in
   let ft := future_set (named_column m (used p)) (compiled (part true specs)) (compiled (part false specs)) in
   ready (heap_of os) (class_of os) ft (S ft) (numbered (part true specs)) (numbered (part false specs)) const) /\
  forall tr v, (forall s j i, nth_error names j = Some s -> (tr i j = true <-> v s i)) ->
    Forall2 (fun s P => snd (fst (snd s)) = fst P /\ forall i, sat tr (snd (snd s)) i <-> snd P i) specs (meanings v p).
Proof.
  intros Hp Bf Tt Hc Nn Pr. pose proof Bf as [Nd (side & Bs)].
  assert (Hi : incl (used p) (inputs_of p) /\ incl (used p) names).
  { split; intros s Hs; apply (sections_used side _ s p false [] [] Bs Hs). }
  destruct Hi as [Hi1 Hi2].
  destruct (header_columns size names cells table trace (used p) Tt Hc Nn Hi2 Pr) as (m & Em & Hm).
  destruct (elaborate_spec m names p Bf Hm) as (specs & Ee & Ek & Et & Ok & Se).
  exists m, specs. split; [exact Em|]. split; [exact Ee|]. split; [exact Ek|]. split; [|exact Se]. intros Hw. cbv zeta. unfold build.
  assert (Fl : file mission py [] 0 (lex content 0) p) by (unfold parse_c2po in Hp; apply file_iff in Hp; exact Hp).
  destruct (file_names _ _ _ _ _ _ Fl (lex_spelled content 0)) as [Ui Ul]. rewrite Forall_forall in Ui, Ul.
  destruct (titles_labels side _ p false [] [] Bs) as [Tl _].
  pose proof (titles_numbers side _ p false [] [] Bs) as Tn. rewrite (ids_in_order _ _ _ _ Hp) in Tn.
  pose proof (labels_distinct p Nd) as Ld.
  set (name := named_column m (used p)). set (C := input_column m p) in *.
  pose proof (part_Forall (fun k s => all_nodes (node_ok k C) (snd s)) true specs Ok) as OkF.
  pose proof (part_Forall (fun k s => all_nodes (node_ok k C) (snd s)) false specs Ok) as OkP.
  pose proof (part_Forall (fun k s => (need (k, s) < const)%Z) true specs) as WF.
  pose proof (part_Forall (fun k s => (need (k, s) < const)%Z) false specs) as WP.
  assert (Hw' : Forall (fun s => (need (fst s, snd s) < const)%Z) specs) by (eapply Forall_impl; [|exact Hw]; intros [a b] K; exact K).
  specialize (WF Hw'). specialize (WP Hw'). unfold need in WF, WP. cbn [fst snd] in WF, WP.
  pose proof (parts_permutation specs) as Pm.
  set (fs := part true specs) in *. set (ps := part false specs) in *. clearbody fs ps.
  assert (El : map fst (compiled fs ++ compiled ps) = map fst (fs ++ ps)) by (unfold compiled; rewrite !map_app, !map_map; reflexivity).
  assert (Pt : Permutation (map fst (compiled fs ++ compiled ps)) (titles p)).
  { rewrite El, <- Et. apply Permutation_map, Pm. }
  destruct (program_graph C name (compiled fs) (compiled ps)) as (G1 & G2 & G3 & G4 & G5 & G6 & G7 & G8 & G9 & G10 & G11 & G12 & G13).
  - intros a Ha. destruct (named_column_spec m p a Ha) as [A _]. apply usable_plain, Ui, Hi1, A.
  - intros a b Ha Hb E. destruct (named_column_spec m p a Ha) as [_ A]. destruct (named_column_spec m p b Hb) as [_ B].
    fold name in A, B. rewrite E in A. congruence.
  - intros a b Ha. destruct (named_column_spec m p a Ha) as [A _]. apply usable_const, Ui, Hi1, A.
  - intros s Hs. assert (K : In (fst (fst s)) (labels_in p)).
    { rewrite <- Tl. apply in_map. eapply Permutation_in; [exact Pt|]. apply in_map, Hs. }
    destruct (Ul _ K) as [U|(n & ->)]; [apply usable_plain, U|apply fresh_plain].
  - rewrite <- (map_map fst fst). eapply Permutation_NoDup; [symmetry; apply Permutation_map, Pt|]. rewrite Tl. exact Ld.
  - apply compiled_ok, OkF.
  - apply compiled_ok, OkP.
  - assert (Nz : NoDup (map fst (numbered fs ++ numbered ps))).
    { unfold numbered. rewrite <- map_app, map_map. cbn [fst]. rewrite <- (map_map (fun s : item => snd (fst s)) Z.of_nat).
      apply FinFun.Injective_map_NoDup; [intros a b; apply Nat2Z.inj|]. rewrite <- (map_map fst snd), <- El.
      eapply Permutation_NoDup; [symmetry; apply Permutation_map, Pt|]. rewrite Tn. apply seq_NoDup. }
    split; [eexists; exact G1|]. do 10 (split; [assumption|]).
    split; [apply compiled_spec_of, G12|]. split; [apply compiled_spec_of, G13|]. split; [exact Nz|]. unfold ft_ready, pt_ready, numbered. split; apply Forall_map; cbn [snd].
    + rewrite Forall_forall in *. intros s Hs. pose proof (OkF s Hs) as K. pose proof (node_ok_shape _ _ _ K) as Sh.
      split; [exact (node_ok_legal _ _ _ K)|]. split; [exact (shape_rewritable C true _ Sh)|]. split; [apply compiled_monitorable, Sh|apply WF, Hs].
    + rewrite Forall_forall in *. intros s Hs. pose proof (OkP s Hs) as K. pose proof (node_ok_shape _ _ _ K) as Sh.
      split; [exact (node_ok_legal _ _ _ K)|]. split; [exact (shape_rewritable C false _ Sh)|]. split; [apply pt_compiled_monitorable, Sh|apply WP, Hs].
Qed.

(** Rows of atomics, and any continuation of them. *)
Definition extended (atoms : list (nat -> bool)) (names : list str) (v : str -> nat -> bool) (t : nat) : nat -> bool :=
  if Nat.ltb t (List.length atoms) then nth t atoms (fun _ => false)
  else fun j => match nth_error names j with Some s => v s t | None => false end.
Lemma extended_rows atoms names v : rows (extended atoms names v) (List.length atoms) = atoms.
Proof.
  transitivity (rows (fun t => nth t atoms (fun _ => false)) (List.length atoms)).
  - unfold rows. apply map_ext_in. intros t Ht. apply in_seq in Ht. unfold extended.
    destruct (Nat.ltb_spec t (List.length atoms)); [reflexivity|lia].
  - unfold rows. induction atoms as [|x atoms IH]; [reflexivity|]. cbn [List.length seq map nth]. f_equal. rewrite <- seq_shift, map_map. exact IH.
Qed.
Lemma extended_agrees atoms names table v :
  List.length atoms = List.length table -> Forall (fun row => List.length row = List.length names) table -> agrees names table v ->
  (forall t row j cell g, nth_error table t = Some row -> nth_error row j = Some cell -> (nth t atoms g j = true <-> cell <> ["0"%char])) ->
  forall s j i, nth_error names j = Some s -> (extended atoms names v i j = true <-> v s i = true).
Proof.
  intros La Ft Av Ca s j i Hj. unfold extended. rewrite La. destruct (Nat.ltb_spec i (List.length table)) as [K|K]; [|rewrite Hj; tauto].
  destruct (nth_error table i) as [row|] eqn:Hr; [|apply nth_error_None in Hr; lia].
  rewrite Forall_forall in Ft. pose proof (Ft row (nth_error_In _ _ Hr)) as Lr.
  destruct (nth_error row j) as [cell|] eqn:Hcell.
  - rewrite (Ca i row j cell _ Hr Hcell), (Av i row j cell s Hr Hcell Hj). tauto.
  - apply nth_error_None in Hcell. assert (j < List.length names) by (apply nth_error_Some; congruence). lia.
Qed.
Lemma reports_meanings tr n specs mon (Ps : list (nat * (nat -> Prop))) :
  ft_answers tr n (numbered (part true specs)) mon -> pt_answers tr n (numbered (part false specs)) mon ->
  Forall2 (fun s P => snd (fst (snd s)) = fst P /\ forall i, sat tr (snd (snd s)) i <-> snd P i) specs Ps ->
  Forall2 (answers (fun k => reports k mon) n) specs Ps.
Proof.
  unfold numbered. intros Sf Sp F.
  assert (G : forall l Qs, incl l specs -> Forall2 (fun s P => snd (fst (snd s)) = fst P /\ forall i, sat tr (snd (snd s)) i <-> snd P i) l Qs ->
              Forall2 (answers (fun k => reports k mon) n) l Qs).
  2: exact (G specs Ps (incl_refl _) F).
  clear F. intros l Qs Il F. induction F as [|s P ss Qs' [K1 K2] _ IH]; constructor; [|apply IH; intros x Hx; apply Il; right; exact Hx].
  pose proof (in_part s specs (Il s (or_introl eq_refl))) as Hin. destruct s as [k s]. cbn [fst snd] in *.
  pose proof (in_map (fun s => (Z.of_nat (snd (fst s)), snd s)) _ _ Hin) as Hn. unfold answers. cbn [fst snd]. split; [exact K1|]. destruct k.
  - destruct (Sf _ _ Hn) as (S1 & S2 & S3). rewrite Nat2Z.id, K1 in S1, S2, S3.
    split; [exact S1|]. split; [|exact S3]. intros t b Hr. destruct (S2 t b Hr) as [S4 S5]. rewrite <- (K2 t), Nat.add_0_r. auto.
  - destruct (Sp _ _ Hn) as (S1 & S2 & S3). rewrite Nat2Z.id, K1 in S1, S2, S3.
    split; [exact S1|]. split; [|exact S3]. intros t b Hr. destruct (S2 t b Hr) as [S4 S5]. rewrite <- (K2 t). auto.
Qed.

Section C.
Local Existing Instance C_monitor.
Lemma text_to_reports mission py wpd_of bpd_of const size names cells table content trace p aux :
  parse_c2po mission py content = Some p -> boolean_file names p ->
  trace_text size (Some cells) table trace -> Forall2 header_cell names cells -> NoDup names ->
  Forall (fun row => plain_row row /\ List.length row = List.length names) table ->
  (0 <= const)%Z ->
  exists m specs, parse_trace (used p) trace = Mapped m (List.length table) /\ elaborate m p = Some specs /\ map fst specs = kinds p /\
  (Forall (fun s => (need s < const)%Z) specs ->
   exists depth0, forall depth, depth0 <= depth -> exists fuel0 asm,
    (forall fuel, fuel0 <= fuel -> compile_files mission py wpd_of bpd_of const depth fuel content trace = Some asm) /\
    forall bytes, Forall fits asm -> (arena_slots asm < 2 ^ 32)%Z -> assemble_binary asm aux = Some bytes ->
    exists prog confs passes0, boot bytes = Some (prog, confs) /\
      forall passes, passes0 <= passes ->
      exists atoms mon, c_atoms size trace = Some atoms /\ run passes atoms prog (init prog confs) = Some mon /\
        forall v, agrees names table v ->
        Forall2 (answers (fun k => reports k mon) (List.length table)) specs (meanings (fun s t => v s t = true) p)).
Proof.
  intros Hp Bf Tt Hc Nn Ft Cn.
  assert (Pr : Forall plain_row table) by (eapply Forall_impl; [|exact Ft]; intros r [K _]; exact K).
  assert (Wd : Forall (fun row => List.length row = List.length names) table) by (eapply Forall_impl; [|exact Ft]; intros r [_ K]; exact K).
  destruct (text_ready mission py const size names cells table content trace p Hp Bf Tt Hc Nn Pr) as (m & specs & Em & Ee & Ek & Rd & Se).
  exists m, specs. split; [exact Em|]. split; [exact Ee|]. split; [exact Ek|]. intros Hw. specialize (Rd Hw). cbv zeta in Rd.
  destruct Rd as ((T & G1) & G2 & G3 & G4 & G5 & G6 & G7 & G8 & G9 & G10 & G11 & G12 & G13 & G14 & G15 & G16).
  destruct (sections_end_to_end _ _ _ wpd_of bpd_of const _ _ _ _ aux G1 G2 G3 G4 G5 G6 G7 G8 G9 G10 G11 G12 G13 G14 G15 G16 Cn) as (d0 & E).
  exists d0. intros depth Hd. destruct (E depth Hd) as (fuel0 & h' & asm & A & B). exists fuel0, asm. split.
  { intros fuel Hf. destruct (A fuel Hf) as [A1 A2]. unfold compile_files. rewrite Hp, Em, Ee. rewrite A1. exact A2. }
  intros bytes F1 F2 F3. destruct (B bytes F1 F2 F3) as (prog & confs & passes0 & Bt & R). exists prog, confs, passes0.
  split; [exact Bt|]. intros passes Ps. clear A B E.
  assert (Ho : header_ok (Some cells)) by (apply (strip_cells names cells Hc)).
  destruct (atoms_table size (Some cells) table trace Tt Ho Pr) as (atoms & Ea & La & Ca).
  destruct (R (extended atoms names (fun _ _ => false)) (List.length atoms) passes Ps) as (mon & Rm & _). rewrite extended_rows in Rm.
  exists atoms, mon. split; [exact Ea|]. split; [exact Rm|]. intros v Av.
  destruct (R (extended atoms names v) (List.length atoms) passes Ps) as (mon' & Rm' & Sf & Sp). rewrite extended_rows, Rm in Rm'. injection Rm' as <-.
  rewrite La in Sf, Sp. apply (reports_meanings (extended atoms names v)); [exact Sf|exact Sp|].
  apply Se. exact (extended_agrees atoms names table v La Wd Av Ca).
Qed.
End C.

(** ** The Rust monitor *)
Lemma integer_rows rows values : Forall2 (Forall2 integer) rows values -> Forall (fun r : list str => r <> []) rows -> Forall plain_row rows.
Proof.
  induction 1 as [|r v rs vs V _ IH]; intros N; inversion N as [|? ? N1 N2]; subst; constructor; auto. clear IH N N2. split.
  - clear N1. induction V as [|c z cs zs Hz _ IH]; constructor; auto. apply (integer_facts c z Hz).
  - destruct V as [|c z cs zs Hz _]; [congruence|]. destruct (integer_facts c z Hz) as (Pc & N1' & N2 & _). destruct c as [|x c]; [destruct Pc; congruence|].
    exists x, c, cs. cbn in N1', N2. repeat split; congruence.
Qed.
Lemma zero_cell c z : integer c z -> (z <> 0%Z <-> c <> ["0"%char]).
Proof. intros H. destruct (integer_facts c z H) as (_ & _ & _ & _ & _ & _ & _ & E). rewrite E. tauto. Qed.
Lemma rust_table size names cells table values trace :
  trace_text size (Some cells) table trace -> Forall2 header_cell names cells ->
  Forall (fun row => List.length row = List.length names) table ->
  Forall2 (Forall2 integer) table values -> Forall (Forall (fun z => (- 2 ^ 31 <= z < 2 ^ 31)%Z)) values ->
  Forall plain_row table /\
  exists atoms, rust_atoms trace = Some atoms /\ List.length (rust_rows atoms) = List.length table /\
    forall t row j cell g, nth_error table t = Some row -> nth_error row j = Some cell ->
      (nth t (rust_rows atoms) g j = true <-> cell <> ["0"%char]).
Proof.
  intros Tt Hc Wd V Bv.
  assert (Ne : exists w, List.length names = S w).
  { destruct Tt as (lines & _ & _ & hd & Hl & _). inversion Hc as [|n c ns cs]; subst; [inversion Hl|]. cbn. eauto. }
  destruct Ne as (w & Nw).
  assert (Pr : Forall plain_row table).
  { apply (integer_rows _ _ V). eapply Forall_impl; [|exact Wd]. intros r K ->. rewrite Nw in K. discriminate. }
  split; [exact Pr|].
  assert (Ho : header_ok (Some cells)) by (apply (strip_cells names cells Hc)).
  assert (Wd' : Forall (fun row => List.length row = S w) table) by (rewrite Nw in Wd; exact Wd).
  destruct (readers_agree size (Some cells) table values trace w Tt Ho V Bv Wd') as (catoms & Ec & _ & Er & _).
  exists (map (map nonzero) values). split; [exact Er|]. split.
  { unfold rust_rows. rewrite !map_length. clear - V. induction V; cbn; congruence. }
  intros t row j cell g Hr Hj. destruct (Forall2_nth _ _ _ V t row Hr) as (vs & Hv & V1).
  destruct (Forall2_nth _ _ _ V1 j cell Hj) as (z & Hz & Iz).
  assert (N : nth_error (rust_rows (map (map nonzero) values)) t = Some (fun j => nth j (map nonzero vs) false)).
  { unfold rust_rows. rewrite map_map. exact (map_nth_error (fun x j => nth j (map nonzero x) false) t values Hv). }
  rewrite (nth_error_nth _ _ g N). rewrite (nth_error_nth _ _ false (map_nth_error nonzero j vs Hz)).
  unfold nonzero. rewrite negb_true_iff, Z.eqb_neq. apply zero_cell, Iz.
Qed.
Lemma rust_text_to_reports mission py wpd_of bpd_of const size names cells table values content trace p aux :
  parse_c2po mission py content = Some p -> boolean_file names p ->
  trace_text size (Some cells) table trace -> Forall2 header_cell names cells -> NoDup names ->
  Forall (fun row => List.length row = List.length names) table ->
  Forall2 (Forall2 integer) table values -> Forall (Forall (fun z => (- 2 ^ 31 <= z < 2 ^ 31)%Z)) values ->
  (0 <= const)%Z ->
  exists m specs, parse_trace (used p) trace = Mapped m (List.length table) /\ elaborate m p = Some specs /\ map fst specs = kinds p /\
  (Forall (fun s => (need s < const)%Z) specs ->
   exists depth0, forall depth, depth0 <= depth -> exists fuel0 asm,
    (forall fuel, fuel0 <= fuel -> compile_files mission py wpd_of bpd_of const depth fuel content trace = Some asm) /\
    forall bytes, Forall fits asm -> Forall small aux -> (arena_slots asm < 2 ^ 32)%Z -> assemble_binary asm aux = Some bytes ->
    exists prog confs passes0, rust_boot bytes = Some (prog, confs) /\
      forall passes, passes0 <= passes ->
      exists atoms mon, rust_atoms trace = Some atoms /\ RustEngine.rust_run passes (rust_rows atoms) prog (rust_init prog confs) = Finished mon /\
        forall v, agrees names table v ->
        Forall2 (answers (fun k => reports k mon) (List.length table)) specs (meanings (fun s t => v s t = true) p)).
Proof.
  intros Hp Bf Tt Hc Nn Wd V Bv Cn.
  destruct (rust_table size names cells table values trace Tt Hc Wd V Bv) as (Pr & atoms & Er & La & Ca).
  destruct (text_ready mission py const size names cells table content trace p Hp Bf Tt Hc Nn Pr) as (m & specs & Em & Ee & Ek & Rd & Se).
  exists m, specs. split; [exact Em|]. split; [exact Ee|]. split; [exact Ek|]. intros Hw. specialize (Rd Hw). cbv zeta in Rd.
  destruct Rd as ((T & G1) & G2 & G3 & G4 & G5 & G6 & G7 & G8 & G9 & G10 & G11 & G12 & G13 & G14 & G15 & G16).
  destruct (rust_sections_end_to_end _ _ _ wpd_of bpd_of const _ _ _ _ aux G1 G2 G3 G4 G5 G6 G7 G8 G9 G10 G11 G12 G13 G14 G15 G16 Cn) as (d0 & E).
  exists d0. intros depth Hd. destruct (E depth Hd) as (fuel0 & h' & asm & A & B). exists fuel0, asm. split.
  { intros fuel Hf. destruct (A fuel Hf) as [A1 A2]. unfold compile_files. rewrite Hp, Em, Ee. rewrite A1. exact A2. }
  intros bytes F1 F0 F2 F3. destruct (B bytes F1 F0 F2 F3) as (prog & confs & passes0 & Bt & R). exists prog, confs, passes0.
  split; [exact Bt|]. intros passes Ps. clear A B E.
  destruct (R (extended (rust_rows atoms) names (fun _ _ => false)) (List.length (rust_rows atoms)) passes Ps) as (mon & Rm & _). rewrite extended_rows in Rm.
  exists atoms, mon. split; [exact Er|]. split; [exact Rm|]. intros v Av.
  destruct (R (extended (rust_rows atoms) names v) (List.length (rust_rows atoms)) passes Ps) as (mon' & Rm' & Sf & Sp). rewrite extended_rows, Rm in Rm'. injection Rm' as <-.
  rewrite La in Sf, Sp. apply (reports_meanings (extended (rust_rows atoms) names v)); [exact Sf|exact Sp|].
  apply Se. exact (extended_agrees (rust_rows atoms) names table v La Wd Av Ca).
Qed.
