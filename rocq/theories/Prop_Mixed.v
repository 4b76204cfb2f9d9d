(** * Sections of a specification: C23, C24, C25, C26 and C27

    A specification may hold a future-time and a past-time section whose
    formulas share instructions.  [part] picks the instructions a section needs
    (closed under operands); the rest of the program may be anything, including
    the since and trigger instructions that Prop_Monitor.v refutes.  The
    theorems hold for the C and the Rust monitor ([I]). *)
From Coq Require Import List Arith Bool Lia.
Require Import Verif.Mltl Verif.MltlEval Verif.Scq Verif.Engine Verif.Monitoring Verif.ScqSize.
Require Import Verif.MonitorProofs Verif.MonitorCheck Verif.PastMonitor Verif.PastProofs Verif.PastCheck Verif.MixedProofs.
Require Import Verif.TightSize Verif.PastSize Verif.SectionSize Verif.SizeProofs Verif.PastSizeProofs Verif.SectionTight.
Import ListNotations.

(** C23: what is reported for a future-time formula is true, whatever else the
    monitor runs. *)
Theorem C23_section_sound (I : impl) part prog confs tr fuel n m k ins t b :
  ft_part part prog confs -> distinct_reports prog -> part_ample part prog confs ->
  run fuel (rows tr n) prog (init prog confs) = Some m ->
  nth_error prog k = Some ins -> part k = true -> i_op ins = RETURN ->
  reported (reports (i_num ins) m) t b ->
  (b = true <-> sat tr (node_expr prog confs k) t) /\ t < n.
Proof. intros H1 H2 H3. exact (part_sound prog confs tr part H1 H2 H3 fuel n m k ins t b). Qed.
Theorem C23_section_in_order (I : impl) part prog confs tr fuel n m k ins :
  ft_part part prog confs -> distinct_reports prog -> part_ample part prog confs ->
  run fuel (rows tr n) prog (init prog confs) = Some m ->
  nth_error prog k = Some ins -> part k = true -> i_op ins = RETURN -> increasing (reports (i_num ins) m).
Proof. intros H1 H2 H3. exact (part_increasing prog confs tr part H1 H2 H3 fuel n m k ins). Qed.
(** C24: and no later than its reach. *)
Theorem C24_section_timely (I : impl) part prog confs tr fuel n m k ins t :
  ft_part part prog confs -> distinct_reports prog -> part_ample part prog confs ->
  run fuel (rows tr n) prog (init prog confs) = Some m ->
  nth_error prog k = Some ins -> part k = true -> i_op ins = RETURN ->
  t + reach (node_expr prog confs k) < n -> exists b, reported (reports (i_num ins) m) t b.
Proof. intros H1 H2 H3. exact (part_timely prog confs tr part H1 H2 H3 fuel n m k ins t). Qed.

(** C27: the same for a section of once and historically formulas. *)
Theorem C27_section_sound (I : impl) part prog confs tr fuel n m k ins t b :
  pt_part part prog confs -> distinct_reports prog -> pt_part_ample part prog confs ->
  run fuel (rows tr n) prog (init prog confs) = Some m ->
  nth_error prog k = Some ins -> part k = true -> i_op ins = RETURN ->
  reported (reports (i_num ins) m) t b ->
  (b = true <-> sat tr (node_expr prog confs k) t) /\ t < n + lead (node_expr prog confs k).
Proof. intros H1 H2 H3. exact (ppart_sound prog confs tr part H1 H2 H3 fuel n m k ins t b). Qed.
Theorem C27_section_timely (I : impl) part prog confs tr fuel n m k ins t :
  pt_part part prog confs -> distinct_reports prog -> pt_part_ample part prog confs ->
  run fuel (rows tr n) prog (init prog confs) = Some m ->
  nth_error prog k = Some ins -> part k = true -> i_op ins = RETURN ->
  t < n -> exists b, reported (reports (i_num ins) m) t b.
Proof. intros H1 H2 H3. exact (ppart_timely prog confs tr part H1 H2 H3 fuel n m k ins t). Qed.

(** C25: a program made of two such sections finishes every step. *)
Theorem C25_sections_end (I : impl) ft pt prog confs tr fuel n :
  ft_part ft prog confs -> pt_part pt prog confs ->
  (forall k, k < length prog -> ft k = true \/ pt k = true) -> distinct_reports prog ->
  part_ample ft prog confs -> pt_part_ample pt prog confs ->
  max_passes prog confs + pt_max_passes prog confs <= fuel ->
  exists m, run fuel (rows tr n) prog (init prog confs) = Some m.
Proof. intros H1 H2 H3 H4 H5 H6. exact (mixed_total prog confs tr ft pt H1 H2 H3 H4 H5 H6 fuel n). Qed.

(** C26: with the compiler's sizes and a constant above every delay and lead,
    every report of both sections is right, and in time. *)
Theorem C26_sections_constant_sufficient (I : impl) const prog confs tr ft pt n :
  length prog = length confs ->
  (forall k ins, nth_error prog k = Some ins ->
     reach (node_expr prog confs k) < const /\ lead (node_expr prog confs k) < const) ->
  ft_part ft prog (sized const prog confs) -> pt_part pt prog (sized const prog confs) ->
  (forall k, k < length prog -> ft k = true \/ pt k = true) -> distinct_reports prog ->
  exists m, run (max_passes prog confs + pt_max_passes prog confs) (rows tr n) prog (init prog (sized const prog confs)) = Some m /\
    forall k ins t, nth_error prog k = Some ins -> i_op ins = RETURN ->
      (forall b, reported (reports (i_num ins) m) t b -> (b = true <-> sat tr (node_expr prog confs k) t)) /\
      (t + (if ft k then reach (node_expr prog confs k) else 0) < n -> exists b, reported (reports (i_num ins) m) t b).
Proof. exact (mixed_sized_correct const prog confs tr ft pt n). Qed.

(** C26: queues that hold what their readers wait for in the future-time section,
    and one slot more than the steps run ahead in a past-time section without
    nesting, are enough. *)
Theorem C26_sections_enough_sizes_sufficient (I : impl) prog confs tr ft pt n :
  ft_part ft prog confs -> pt_part pt prog confs ->
  (forall k, k < length prog -> ft k = true \/ pt k = true) -> distinct_reports prog ->
  part_enough ft prog confs -> pt_part_enough pt prog confs -> pt_flat prog confs ->
  both_monitored ft prog confs confs tr n.
Proof. intros H1 H2 H3 H4 H5 H6 H7. exact (menough_monitored prog confs tr ft pt H1 H2 H3 H4 H5 H6 H7 n). Qed.

(** C26: the computed sizes are, with no constant added, when the future-time
    section is modest (TightSize.v) and no past-time operator is inside
    another. *)
Theorem C26_sections_default_sizes_sufficient (I : impl) const prog confs tr ft pt n :
  length prog = length confs ->
  ft_part ft prog (sized const prog confs) -> pt_part pt prog (sized const prog confs) ->
  (forall k, k < length prog -> ft k = true \/ pt k = true) -> distinct_reports prog ->
  part_modest ft prog confs -> pt_flat prog confs ->
  both_monitored ft prog confs (sized const prog confs) tr n.
Proof. exact (sized_both_monitored const prog confs tr ft pt n). Qed.

(** ** A program of two sections: G[0,3] (!a0 || a1) and H[1,2] (!a0 || a1),
    which share three instructions *)
Definition two_prog : list instr :=
  [ Instr LOAD (Atomic 0) NotSet 0; Instr LOAD (Atomic 1) NotSet 0; Instr NOT (Sub 0) NotSet 0;
    Instr OR (Sub 2) (Sub 1) 0; Instr RELEASE (Direct false) (Sub 3) 0; Instr RETURN (Sub 4) NotSet 0;
    Instr TRIGGER (Direct false) (Sub 3) 0; Instr RETURN (Sub 6) NotSet 1 ].
Definition two_confs : list qconf :=
  [ QConf 2 0 0; QConf 2 0 0; QConf 2 0 0; QConf 5 0 0; QConf 5 0 3; QConf 1 0 0; QConf 4 1 2; QConf 1 0 0 ].
Definition future_part (k : nat) : bool := k <? 6.
Definition past_part (k : nat) : bool := (k <? 4) || (6 <=? k).
Definition two_trace : trace := fun i a => match a with 0 => negb (i =? 2) | _ => negb (i =? 6) end.
Example two_formulas :
  map (node_expr two_prog two_confs) [5; 7] =
  [ ER 0 3 (EConst false) (EOr [ENot (EAtom 0); EAtom 1]); ET 1 2 (EConst false) (EOr [ENot (EAtom 0); EAtom 1]) ].
Proof. reflexivity. Qed.
Example two_hypotheses :
  ft_part future_part two_prog two_confs /\ pt_part past_part two_prog two_confs /\
  (forall k, k < length two_prog -> future_part k = true \/ past_part k = true) /\ distinct_reports two_prog /\
  part_ample future_part two_prog two_confs /\ pt_part_ample past_part two_prog two_confs.
Proof.
  split; [apply ft_partb_spec; vm_compute; reflexivity|]. split; [apply pt_partb_spec; vm_compute; reflexivity|].
  split.
  { intros k Hk. do 8 (destruct k as [|k]; [vm_compute; auto|]). cbn in Hk. lia. }
  split; [apply distinctb_spec; vm_compute; reflexivity|].
  split; [apply part_ampleb_spec; vm_compute; reflexivity|apply pt_part_ampleb_spec; vm_compute; reflexivity].
Qed.
Example two_run (I : impl) :
  option_map (fun m => (reports 0 m, reports 1 m)) (run 60 (rows two_trace 10) two_prog (init two_prog two_confs)) =
  Some ([(true, 0); (true, 1); (true, 2); (false, 6)],
        [(true, 0); (true, 1); (true, 2); (true, 3); (true, 4); (true, 5); (true, 6); (false, 7); (false, 8); (true, 9); (true, 10)]).
Proof. destruct I; vm_compute; reflexivity. Qed.

(** With the sizes the compiler computes. *)
Definition two_bounds : list qconf :=
  [ QConf 0 0 0; QConf 0 0 0; QConf 0 0 0; QConf 0 0 0; QConf 0 0 3; QConf 0 0 0; QConf 0 1 2; QConf 0 0 0 ].
Example two_sizes : map c_len (sized 0 two_prog two_bounds) = [1; 1; 1; 1; 1; 1; 2; 1].
Proof. reflexivity. Qed.
Example two_sized_hypotheses :
  ft_part future_part two_prog (sized 0 two_prog two_bounds) /\ pt_part past_part two_prog (sized 0 two_prog two_bounds) /\
  part_modest future_part two_prog two_bounds /\ pt_flat two_prog two_bounds.
Proof.
  split; [apply ft_partb_spec; vm_compute; reflexivity|]. split; [apply pt_partb_spec; vm_compute; reflexivity|].
  split; [|apply flatb_spec; reflexivity]. intros k ins _. apply modestb_spec. vm_compute. reflexivity.
Qed.
Example two_monitored (I : impl) tr n : both_monitored future_part two_prog two_bounds (sized 0 two_prog two_bounds) tr n.
Proof.
  destruct two_sized_hypotheses as (H1 & H2 & H3 & H4). destruct two_hypotheses as (_ & _ & H5 & H6 & _).
  exact (C26_sections_default_sizes_sufficient I 0 two_prog two_bounds tr _ _ n eq_refl H1 H2 H5 H6 H3 H4).
Qed.
Example two_sized_run (I : impl) :
  option_map (fun m => (reports 0 m, reports 1 m)) (run 60 (rows two_trace 10) two_prog (init two_prog (sized 0 two_prog two_bounds))) =
  Some ([(true, 0); (true, 1); (true, 2); (false, 6)],
        [(true, 0); (true, 1); (true, 2); (true, 3); (true, 4); (true, 5); (true, 6); (false, 7); (false, 8); (true, 9); (true, 10)]).
Proof. destruct I; vm_compute; reflexivity. Qed.

(** ** A section next to a since formula: G[0,1] a1, and a0 S[0,2] a1 *)
Definition odd_prog : list instr :=
  [ Instr LOAD (Atomic 0) NotSet 0; Instr LOAD (Atomic 1) NotSet 0; Instr SINCE (Sub 0) (Sub 1) 0;
    Instr RETURN (Sub 2) NotSet 0; Instr RELEASE (Direct false) (Sub 1) 0; Instr RETURN (Sub 4) NotSet 1 ].
Definition odd_confs : list qconf :=
  [ QConf 5 0 0; QConf 5 0 0; QConf 5 0 2; QConf 1 0 0; QConf 5 0 1; QConf 1 0 0 ].
Definition odd_part (k : nat) : bool := (k =? 1) || (4 <=? k).
Example odd_hypotheses :
  ft_part odd_part odd_prog odd_confs /\ part_ample odd_part odd_prog odd_confs /\ distinct_reports odd_prog.
Proof.
  split; [apply ft_partb_spec; vm_compute; reflexivity|]. split; [apply part_ampleb_spec; vm_compute; reflexivity|].
  apply distinctb_spec; vm_compute; reflexivity.
Qed.
Example odd_run (I : impl) :
  option_map (reports 1) (run 60 (rows two_trace 10) odd_prog (init odd_prog odd_confs)) =
  Some [(true, 0); (true, 1); (true, 2); (true, 3); (true, 4); (false, 6); (true, 7); (true, 8)].
Proof. destruct I; vm_compute; reflexivity. Qed.

Print Assumptions C23_section_sound.
Print Assumptions C23_section_in_order.
Print Assumptions C24_section_timely.
Print Assumptions C27_section_sound.
Print Assumptions C27_section_timely.
Print Assumptions C25_sections_end.
Print Assumptions C26_sections_constant_sufficient.
Print Assumptions C26_sections_enough_sizes_sufficient.
Print Assumptions C26_sections_default_sizes_sufficient.
