(** * From formulas to reports through the recorded parents *)
From Coq Require Import List Arith ZArith Bool Ascii Lia.
Require Import Verif.Mltl Verif.MltlShape Verif.MltlEval Verif.Transform Verif.Pipeline Verif.Graph Verif.GraphSpec.
Require Import Verif.Binary Verif.BinarySpec Verif.Assembly Verif.Layout Verif.AssemblySpec Verif.LayoutSpec.
Require Import Verif.Scq Verif.Engine Verif.Monitoring Verif.TightSize Verif.EndToEnd Verif.DefaultSpec Verif.DefaultProofs.
Require Import Verif.Parents Verif.ParentsSpec Verif.ParentsProofs.
Import ListNotations.
Local Existing Instance C_monitor.
Local Open Scope Z_scope.

Lemma recorded_end_to_end g T cls wpd_of bpd_of const ft pt specs aux :
  denotes (fst g) T -> well_shaped (fst g) -> nkind (fst g ft) = KSet -> nkind (fst g pt) = KSet ->
  complete [ft; pt] g -> only_users [ft; pt] g ->
  named_apart (fst g) cls -> cls ft = CSet -> cls pt = CSet -> nchildren (fst g pt) = [] ->
  tl_shaped (fst g) cls -> (forall n, reachable (fst g) [ft] n -> assemblable (fst g) cls ft_code n) ->
  (forall n e, means (fst g) cls n e -> wpd e <= wpd_of n /\ bpd_of n <= Z.of_nat (soonest e)) ->
  Forall2 (spec_of compile_expr (fst g) cls) (nchildren (fst g ft)) specs -> NoDup (map fst specs) ->
  Forall (fun s => legal (snd s) /\ all_nodes rewrite_source_op (snd s) /\
                   monitorable (compile_expr (snd s)) /\ modest_formula (compile_expr (snd s))) specs ->
  0 <= const ->
  exists depth0, forall depth, (depth0 <= depth)%nat -> exists fuel0 g' asm,
    (forall fuel, (fuel0 <= fuel)%nat -> optimize_cse_recorded depth fuel g ft pt = Some g' /\
                                         gen_assembly_recorded fuel g' cls wpd_of bpd_of const ft pt = Some asm) /\
    forall bytes, Forall fits asm -> arena_slots asm < 2 ^ 32 -> assemble_binary asm aux = Some bytes ->
    exists prog confs passes0, boot bytes = Some (prog, confs) /\
      forall tr n passes, (passes0 <= passes)%nat ->
      exists m, run passes (rows tr n) prog (init prog confs) = Some m /\
        forall num e, In (num, e) specs ->
          increasing (reports (Z.to_nat num) m) /\
          (forall t b, reported (reports (Z.to_nat num) m) t b -> (b = true <-> sat tr e t) /\ (t < n)%nat) /\
          (forall t, Z.of_nat t + wpd (compile_expr e) < Z.of_nat n -> exists b, reported (reports (Z.to_nat num) m) t b).
Proof.
  intros D W K1 K2 C O A1 A2 A3 A4 A5 A6 A7 A8 A9 A10 A11.
  destruct (default_end_to_end (fst g) T cls wpd_of bpd_of const ft pt specs aux D W K1 K2 A1 A2 A3 A4 A5 A6 A7 A8 A9 A10 A11) as (d1 & H1).
  destruct (back_end_same T g cls wpd_of bpd_of const ft pt D W K1 K2 C O) as (d2 & H2).
  exists (d1 + d2)%nat. intros depth Hd. destruct (H1 depth ltac:(lia)) as (f1 & h1 & asm & E1 & R). destruct (H2 depth ltac:(lia)) as (f2 & g' & h2 & E2).
  exists (f1 + f2)%nat, g', asm. split; [|exact R]. intros fuel Hf. destruct (E1 fuel ltac:(lia)) as [X1 X2].
  destruct (E2 fuel ltac:(lia)) as (Y1 & Y2 & Y3). split; [exact Y1|]. rewrite X1 in Y2. injection Y2 as <-. rewrite Y3. exact X2.
Qed.

(** What a node means depends on the slots alone. *)
Lemma means_ext h h' cls n e : (forall n, h n = h' n) -> means h cls n e -> means h' cls n e.
Proof.
  intros E M. induction M; match goal with H : nchildren _ = _ |- _ => rewrite E in H | _ => idtac end; econstructor; eassumption.
Qed.
