(** * What a comparison of a previous value holds (proofs) *)
From Coq Require Import List Arith ZArith Bool Lia.
Require Import Verif.Graph Verif.GraphSpec Verif.Binary Verif.BinarySpec Verif.Assembly Verif.AssemblySpec Verif.Layout.
Require Import Verif.Booleanizer Verif.BooleanizerSpec Verif.BooleanizerOps Verif.BooleanizerChain.
Import ListNotations.
Local Open Scope Z_scope.

Lemma compare_start F inp o init e c v : yields F inp 0 (NBinary o (NPrev init e) (NValue c)) v ->
  yields F inp 0 (NBinary o (NValue init) (NValue c)) v.
Proof.
  intros H. inversion H; subst; repeat match goal with Y : yields _ _ 0 (NPrev _ _) _ |- _ => inversion Y; subst; clear Y end.
  - eapply y_binary_int; [constructor| |eassumption]. match goal with Y : yields _ _ 0 (NValue c) _ |- _ => inversion Y; subst; constructor end.
  - eapply y_binary_float; [constructor| |eassumption]. match goal with Y : yields _ _ 0 (NValue c) _ |- _ => inversion Y; subst; constructor end.
Qed.
Lemma compare_later F inp o init e c t v : yields F inp (S t) (NBinary o (NPrev init e) (NValue c)) v ->
  yields F inp t (NBinary o e (NValue c)) v.
Proof.
  intros H. inversion H; subst; repeat match goal with Y : yields _ _ (S t) (NPrev _ _) _ |- _ => inversion Y; subst; clear Y end.
  - eapply y_binary_int; [eassumption| |eassumption]. match goal with Y : yields _ _ (S t) (NValue c) _ |- _ => inversion Y; subst; constructor end.
  - eapply y_binary_float; [eassumption| |eassumption]. match goal with Y : yields _ _ (S t) (NValue c) _ |- _ => inversion Y; subst; constructor end.
Qed.

Lemma prev_shifts h T cls types wpd_of bpd_of const ft pt aux :
  denotes h T -> tl_shaped h cls ->
  (forall n, reachable h [ft] n -> assemblable h cls ft_code n) ->
  (forall n, reachable h [pt] n -> assemblable h cls pt_code n) ->
  (forall n, reachable h [ft] n -> reachable h [pt] n -> engine_of (cls n) <> EngBz) ->
  numeric h cls types (in_program h ft pt) ->
  exists fuel0 asm, (forall fuel, (fuel0 <= fuel)%nat -> gen_assembly fuel h cls wpd_of bpd_of const ft pt = Some asm) /\
  forall bytes, Forall fits asm -> assemble_binary asm aux = Some bytes ->
  exists acts, load bytes = Some acts /\
    forall F inp o init e c n p x aid n' x' aid', typed types inp ->
      in_program h ft pt n -> cls n = CAtomic aid -> nchildren (h n) = [x] ->
      stands h cls types x (NBinary o (NPrev init e) (NValue c)) true ->
      in_program h ft pt n' -> cls n' = CAtomic aid' -> nchildren (h n') = [x'] ->
      stands h cls types x' (NBinary o e (NValue c)) true ->
      bz_run F (fst (bz_load acts)) (snd (bz_load acts)) inp 1 = Some p ->
      (exists v, yields F inp 0 (NBinary o (NValue init) (NValue c)) (VInt v) /\ atomic_buffer p aid = negb (v =? 0)) /\
      forall t s s', Z.of_nat t + 1 < 2 ^ 31 ->
        bz_run F (fst (bz_load acts)) (snd (bz_load acts)) inp (S t) = Some s ->
        bz_run F (fst (bz_load acts)) (snd (bz_load acts)) inp (S (S t)) = Some s' ->
        atomic_buffer s' aid = atomic_buffer s aid'.
Proof.
  intros D Sh A1 A2 Ap Nm. destruct (chain h T cls types wpd_of bpd_of const ft pt aux D Sh A1 A2 Ap Nm) as (f & asm & E & H).
  exists f, asm. split; [exact E|]. intros bytes Hf Eb. destruct (H bytes Hf Eb) as (acts & El & HR). exists acts. split; [exact El|].
  intros F inp o init e c n p x aid n' x' aid' Ty Pn Cn Chn Sn Pn' Cn' Chn' Sn' Ep. destruct (HR F inp Ty) as [Hs _]. split.
  - destruct (Hs 0%nat p ltac:(lia) Ep n aid x _ Pn Cn Chn Sn) as (v & Y & A). exists v. split; [exact (compare_start _ _ _ _ _ _ _ Y)|exact A].
  - intros t s s' Ht Es Es'.
    destruct (Hs t s ltac:(lia) Es n' aid' x' _ Pn' Cn' Chn' Sn') as (v & Y & A).
    destruct (Hs (S t) s' ltac:(lia) Es' n aid x _ Pn Cn Chn Sn) as (v' & Y' & A').
    apply compare_later in Y'. pose proof (yields_unique _ _ _ _ _ Y _ Y') as Q. injection Q as ->. congruence.
Qed.
