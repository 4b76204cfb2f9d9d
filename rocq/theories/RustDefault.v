(** * The compiler's own queue sizes in the Rust monitor (proofs) *)
From Coq Require Import List Arith ZArith Bool Lia.
Require Import Verif.Mltl Verif.MltlShape Verif.Transform Verif.Rewrite Verif.Pipeline.
Require Import Verif.Graph Verif.GraphSpec Verif.Binary Verif.BinarySpec Verif.Assembly Verif.Layout Verif.AssemblySpec Verif.LayoutSpec Verif.BootProofs.
Require Import Verif.Scq Verif.Engine Verif.Monitoring Verif.TightSize Verif.EndToEnd Verif.EndToEndProofs Verif.EndToEndSections.
Require Import Verif.DefaultSpec Verif.DefaultProofs.
Require Import Verif.RustEngine Verif.RustLayout Verif.RustLayoutSpec Verif.RustLayoutProofs Verif.RustBoot.
Import ListNotations.
Local Open Scope Z_scope.

Lemma rust_default_end_to_end h T cls wpd_of bpd_of const ft pt specs aux :
  denotes h T -> well_shaped h -> nkind (h ft) = KSet -> nkind (h pt) = KSet ->
  named_apart h cls -> cls ft = CSet -> cls pt = CSet -> nchildren (h pt) = [] ->
  tl_shaped h cls -> (forall n, reachable h [ft] n -> assemblable h cls ft_code n) ->
  (forall n e, means h cls n e -> wpd e <= wpd_of n /\ bpd_of n <= Z.of_nat (soonest e)) ->
  Forall2 (spec_of compile_expr h cls) (nchildren (h ft)) specs -> NoDup (map fst specs) ->
  Forall (fun s => legal (snd s) /\ all_nodes rewrite_source_op (snd s) /\
                   monitorable (compile_expr (snd s)) /\ modest_formula (compile_expr (snd s))) specs ->
  0 <= const ->
  exists depth0, forall depth, (depth0 <= depth)%nat -> exists fuel0 h' asm,
    (forall fuel, (fuel0 <= fuel)%nat -> optimize_cse depth fuel h ft pt = Some h' /\
                                         gen_assembly fuel h' cls wpd_of bpd_of const ft pt = Some asm) /\
    forall bytes, Forall fits asm -> Forall small aux -> arena_slots asm < 2 ^ 32 -> assemble_binary asm aux = Some bytes ->
    exists prog confs passes0, rust_boot bytes = Some (prog, confs) /\
      forall tr n passes, (passes0 <= passes)%nat ->
      exists m, RustEngine.rust_run passes (rows tr n) prog (rust_init prog confs) = Finished m /\
        forall num e, In (num, e) specs ->
          increasing (reports (Z.to_nat num) m) /\
          (forall t b, reported (reports (Z.to_nat num) m) t b -> (b = true <-> sat tr e t) /\ (t < n)%nat) /\
          (forall t, Z.of_nat t + wpd (compile_expr e) < Z.of_nat n -> exists b, reported (reports (Z.to_nat num) m) t b).
Proof.
  intros D Ws K1 K2 A Sft Spt Npt Sh As De Fs Nd Ss Hc.
  destruct (default_assembled h T cls wpd_of bpd_of const ft pt specs aux D Ws K1 K2 A Sft Spt Npt Sh As De Fs Nd) as (depth0 & HD).
  { eapply Forall_impl; [|exact Ss]. intros s (_ & _ & H1 & H2). exact (conj H1 H2). }
  { exact Hc. }
  exists depth0. intros depth Hd. destruct (HD depth Hd) as (f1 & h' & asm & E1 & (D' & Np & Sh' & As' & Fs') & HB).
  assert (Po : forall n, reachable h' [pt] n -> n = pt) by (intros n; apply pt_only; exact Np).
  assert (Kf : forall f, In f (nchildren (h' ft)) -> exists num e, formula_means h' cls f num e /\ monitorable e /\
            (reach e < S (fold_right Nat.max O (map (fun s => reach (compile_expr (snd s))) specs)))%nat).
  { intros f Hf. destruct (Forall2_in _ _ _ Fs' f Hf) as (s & Hs & Hm). exists (fst s), (compile_expr (snd s)).
    rewrite Forall_forall in Ss. destruct (Ss s Hs) as (_ & _ & Mo & _). split; [exact Hm|]. split; [exact Mo|].
    clear - Hs. induction specs as [|s0 l IH]; [destruct Hs|]. cbn [map fold_right]. destruct Hs as [->|Hs]; [lia|]. specialize (IH Hs). lia. }
  destruct (graph_same h' T cls wpd_of bpd_of const ft pt aux D' Sh' As') as (f2 & asm' & E2 & HR).
  { intros n H. rewrite (Po n H). unfold assemblable. rewrite Spt. exact I. }
  { intros n _ H. rewrite (Po n H), Spt. reflexivity. }
  { intros n [R|R]; unfold engine_node; [|rewrite (Po n R), Spt; exact I].
    destruct (reachable_covered h' cls _ ft Sft Kf As' n R) as [->|[[(num & e & (C & _) & _)|(e & Hm & _)]|[[b Hb]|Hb]]].
    - rewrite Sft. exact I.
    - rewrite C. exact I.
    - inversion Hm; subst; match goal with E : cls n = _ |- _ => rewrite E end; exact I.
    - rewrite Hb. exact I.
    - unfold bz_class in Hb. destruct (cls n); try contradiction; exact I. }
  { exact Hc. }
  assert (asm' = asm) as ->.
  { destruct (E1 (Nat.max f1 f2) (Nat.le_max_l _ _)) as [_ Q]. rewrite (E2 (Nat.max f1 f2) (Nat.le_max_r _ _)) in Q. injection Q as Q. exact Q. }
  exists f1, h', asm. split; [exact E1|]. intros bytes Hf Hx Ha Eb. destruct (HR bytes Hf Hx Ha Eb) as [Q _].
  destruct (HB bytes Hf Ha Eb) as (prog & confs & Ebt & P1 & P2 & P3 & HS).
  exists prog, confs, (max_passes prog confs). split; [rewrite Q; exact Ebt|]. intros tr n passes Hp.
  destruct (finishes prog confs tr n passes P1 P2 P3 Hp) as [m Em]. exists m. split; [exact Em|].
  eapply finished_reports; try eassumption. eapply Forall_impl; [|exact Ss]. intros s (B1 & B2 & B3 & _). exact (conj B1 (conj B2 B3)).
Qed.
