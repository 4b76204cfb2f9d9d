(** * Past-time monitoring of once and historically: C27, C25 and C26

    Programs over O[a,b] and H[a,b] as the compiler emits them ([pt_program]),
    for the C and the Rust monitor alike ([I]).  A past-time formula may be
    decided before its time: [lead] says by how much.  General since and
    trigger are refuted in Prop_Monitor.v. *)
From Coq Require Import List Arith Bool Lia.
Require Import Verif.Mltl Verif.MltlEval Verif.Scq Verif.Engine Verif.Monitoring Verif.ScqSize.
Require Import Verif.MonitorCheck Verif.PastMonitor Verif.PastProofs Verif.PastCheck Verif.PastSize Verif.PastSizeProofs.
Import ListNotations.

(** C27: whatever is reported for a time is the truth of the formula there;
    times not yet seen are reported no further ahead than the formula looks. *)
Theorem C27_once_historically_sound (I : impl) prog confs tr fuel n m k ins t b :
  pt_program prog confs -> distinct_reports prog -> pt_queues_ample prog confs ->
  run fuel (rows tr n) prog (init prog confs) = Some m ->
  nth_error prog k = Some ins -> i_op ins = RETURN ->
  reported (reports (i_num ins) m) t b ->
  (b = true <-> sat tr (node_expr prog confs k) t) /\ t < n + lead (node_expr prog confs k).
Proof. intros H1 H2 H3. exact (prun_sound prog confs tr H1 H2 H3 fuel n m k ins t b). Qed.

(** C27: the reports of a formula carry strictly increasing times. *)
Theorem C27_once_historically_in_order (I : impl) prog confs tr fuel n m k ins :
  pt_program prog confs -> distinct_reports prog -> pt_queues_ample prog confs ->
  run fuel (rows tr n) prog (init prog confs) = Some m ->
  nth_error prog k = Some ins -> i_op ins = RETURN -> increasing (reports (i_num ins) m).
Proof. intros H1 H2 H3. exact (prun_increasing prog confs tr H1 H2 H3 fuel n m k ins). Qed.

(** C27: there is no delay: every time seen has been reported. *)
Theorem C27_once_historically_timely (I : impl) prog confs tr fuel n m k ins t :
  pt_program prog confs -> distinct_reports prog -> pt_queues_ample prog confs ->
  run fuel (rows tr n) prog (init prog confs) = Some m ->
  nth_error prog k = Some ins -> i_op ins = RETURN ->
  t < n -> exists b, reported (reports (i_num ins) m) t b.
Proof. intros H1 H2 H3. exact (prun_timely prog confs tr H1 H2 H3 fuel n m k ins t). Qed.

(** C25: every step of such a program ends, within a number of passes that
    depends on the program only. *)
Theorem C25_past_steps_end (I : impl) prog confs tr fuel n :
  pt_program prog confs -> distinct_reports prog -> pt_queues_ample prog confs ->
  pt_max_passes prog confs <= fuel ->
  exists m, run fuel (rows tr n) prog (init prog confs) = Some m.
Proof. intros H1 H2 H3. exact (prun_total prog confs tr H1 H2 H3 fuel n). Qed.

(** C26: the compiler's option to add a constant to every queue is enough once
    the constant exceeds every lead. *)
Theorem C26_past_scq_constant_sufficient (I : impl) const prog confs tr n :
  length prog = length confs ->
  (forall k ins, nth_error prog k = Some ins -> lead (node_expr prog confs k) < const) ->
  pt_program prog (sized const prog confs) -> distinct_reports prog ->
  exists m, run (pt_max_passes prog confs) (rows tr n) prog (init prog (sized const prog confs)) = Some m /\
    forall k ins t, nth_error prog k = Some ins -> i_op ins = RETURN ->
      (forall b, reported (reports (i_num ins) m) t b -> (b = true <-> sat tr (node_expr prog confs k) t)) /\
      (t < n -> exists b, reported (reports (i_num ins) m) t b).
Proof. exact (past_sized_correct const prog confs tr n). Qed.

(** C26: where no temporal operator is inside another, one slot more than the
    steps a formula runs ahead of the trace is enough for its queue. *)
Theorem C26_past_enough_sizes_sufficient (I : impl) prog confs tr n :
  pt_program prog confs -> distinct_reports prog -> pt_flat prog confs -> pt_queues_enough prog confs ->
  pt_monitored prog confs confs tr n.
Proof. exact (penough_monitored prog confs tr n). Qed.

(** C26: for such programs the computed sizes are enough, with no constant
    added. *)
Theorem C26_past_default_sizes_sufficient (I : impl) const prog confs tr n :
  length prog = length confs -> pt_program prog (sized const prog confs) -> distinct_reports prog ->
  pt_flat prog confs -> pt_monitored prog confs (sized const prog confs) tr n.
Proof. exact (sized_past_monitored const prog confs tr n). Qed.

(** ** A program meeting the hypotheses: O[2,5] (a0 && H[0,3] a1), and !a1 *)
Definition past_prog : list instr :=
  [ Instr LOAD (Atomic 0) NotSet 0; Instr LOAD (Atomic 1) NotSet 0;
    Instr TRIGGER (Direct false) (Sub 1) 0; Instr AND (Sub 0) (Sub 2) 0;
    Instr SINCE (Direct true) (Sub 3) 0; Instr RETURN (Sub 4) NotSet 0;
    Instr NOT (Sub 1) NotSet 0; Instr RETURN (Sub 6) NotSet 1 ].
Definition past_bounds : list qconf :=
  [ QConf 0 0 0; QConf 0 0 0; QConf 0 0 3; QConf 0 0 0; QConf 0 2 5; QConf 0 0 0; QConf 0 0 0; QConf 0 0 0 ].
Definition past_confs : list qconf :=
  [ QConf 2 0 0; QConf 2 0 0; QConf 5 0 3; QConf 5 0 0; QConf 10 2 5; QConf 1 0 0; QConf 2 0 0; QConf 1 0 0 ].
Definition past_trace : trace := fun i a =>
  match a with 0 => (i =? 3) || (i =? 7) || (i =? 9) | _ => negb (i =? 2) && negb (i =? 10) end.

Example past_formula :
  map (node_expr past_prog past_confs) [5; 7] =
  [ ES 2 5 (EConst true) (EAnd [EAtom 0; ET 0 3 (EConst false) (EAtom 1)]); ENot (EAtom 1) ].
Proof. reflexivity. Qed.
Example past_hypotheses :
  pt_program past_prog past_confs /\ distinct_reports past_prog /\ pt_queues_ample past_prog past_confs /\
  pt_max_passes past_prog past_confs = 32.
Proof.
  split; [apply pt_programb_spec; vm_compute; reflexivity|].
  split; [apply distinctb_spec; vm_compute; reflexivity|].
  split; [apply pt_ampleb_spec; vm_compute; reflexivity|]. reflexivity.
Qed.
Example past_sized_hypotheses :
  pt_program past_prog (sized 9 past_prog past_bounds) /\
  forallb (fun k => lead (node_expr past_prog past_bounds k) <? 9) (seq 0 8) = true.
Proof. split; [apply pt_programb_spec; vm_compute; reflexivity|reflexivity]. Qed.
Example past_run (I : impl) :
  option_map (fun m => (reports 0 m, reports 1 m)) (run 32 (rows past_trace 12) past_prog (init past_prog past_confs)) =
  Some ([(false, 1); (false, 2); (false, 3); (false, 4); (false, 7); (false, 8); (true, 9); (true, 12);
         (true, 14); (false, 15)],
        [(false, 0); (false, 1); (true, 2); (false, 3); (false, 4); (false, 5); (false, 6); (false, 7);
         (false, 8); (false, 9); (true, 10); (false, 11)]).
Proof. destruct I; vm_compute; reflexivity. Qed.

(** ** A program the computed sizes serve: O[1,3] a0 && H[0,2] (a0 || a1) *)
Definition flat_prog : list instr :=
  [ Instr LOAD (Atomic 0) NotSet 0; Instr SINCE (Direct true) (Sub 0) 0; Instr LOAD (Atomic 1) NotSet 0;
    Instr OR (Sub 0) (Sub 2) 0; Instr TRIGGER (Direct false) (Sub 3) 0; Instr AND (Sub 1) (Sub 4) 0;
    Instr RETURN (Sub 5) NotSet 0 ].
Definition flat_bounds : list qconf :=
  [ QConf 0 0 0; QConf 0 1 3; QConf 0 0 0; QConf 0 0 0; QConf 0 0 2; QConf 0 0 0; QConf 0 0 0 ].
Example flat_formula :
  node_expr flat_prog flat_bounds 6 =
  EAnd [ES 1 3 (EConst true) (EAtom 0); ET 0 2 (EConst false) (EOr [EAtom 0; EAtom 1])].
Proof. reflexivity. Qed.
Example flat_sizes : map c_len (sized 0 flat_prog flat_bounds) = [1; 2; 1; 1; 1; 2; 1].
Proof. reflexivity. Qed.
Example flat_hypotheses :
  pt_program flat_prog (sized 0 flat_prog flat_bounds) /\ distinct_reports flat_prog /\
  pt_flat flat_prog flat_bounds /\ pt_queues_enough flat_prog (sized 0 flat_prog flat_bounds).
Proof.
  split; [apply pt_programb_spec; vm_compute; reflexivity|]. split; [apply distinctb_spec; vm_compute; reflexivity|].
  split; [apply flatb_spec; reflexivity|]. apply penoughb_spec. reflexivity.
Qed.
Example flat_monitored (I : impl) tr n : pt_monitored flat_prog flat_bounds (sized 0 flat_prog flat_bounds) tr n.
Proof.
  destruct flat_hypotheses as (H1 & H2 & H3 & _). exact (C26_past_default_sizes_sufficient I 0 flat_prog flat_bounds tr n eq_refl H1 H2 H3).
Qed.
Example flat_run (I : impl) :
  option_map (reports 0) (run 30 (rows past_trace 9) flat_prog (init flat_prog (sized 0 flat_prog flat_bounds))) =
  Some [(false, 0); (false, 1); (false, 2); (false, 3); (false, 4); (true, 5); (true, 6); (false, 7); (true, 8)].
Proof. destruct I; vm_compute; reflexivity. Qed.

(** ** C26 fails for past-time formulas: O[0,3] (H[0,1] a0) && a1
    When a0 turns false at 2, H[0,1] a0 is known to be false up to 3, so that
    O[0,3] of it, true up to 4, is known to be false for 5 and 6 a step before 4:
    its queue of one slot gives up the verdict for 4, which the conjunction has not
    read yet. *)
Definition runs_on_prog : list instr :=
  [ Instr LOAD (Atomic 0) NotSet 0; Instr TRIGGER (Direct false) (Sub 0) 0;
    Instr SINCE (Direct true) (Sub 1) 0; Instr LOAD (Atomic 1) NotSet 0;
    Instr AND (Sub 2) (Sub 3) 0; Instr RETURN (Sub 4) NotSet 0 ].
Definition runs_on_bounds : list qconf :=
  [ QConf 0 0 0; QConf 0 0 1; QConf 0 0 3; QConf 0 0 0; QConf 0 0 0; QConf 0 0 0 ].
Theorem C26_past_computed_sizes_refuted :
  exists prog confs (tr : trace),
    node_expr prog confs 5 = EAnd [ES 0 3 (EConst true) (ET 0 1 (EConst false) (EAtom 0)); EAtom 1] /\
    pt_program prog (sized 0 prog confs) /\ distinct_reports prog /\
    forall I : impl, exists m, run 20 (rows tr 8) prog (init prog (sized 0 prog confs)) = Some m /\
      reported (reports 0 m) 4 false /\ sat tr (node_expr prog confs 5) 4.
Proof.
  exists runs_on_prog, runs_on_bounds, (fun i a => match a with 0 => i <? 2 | _ => true end). split; [reflexivity|].
  split; [apply pt_programb_spec; vm_compute; reflexivity|]. split; [apply distinctb_spec; vm_compute; reflexivity|]. intros I.
  assert (E : option_map (reports 0) (run 20 (rows (fun i a => match a with 0 => i <? 2 | _ => true end) 8) runs_on_prog
                (init runs_on_prog (sized 0 runs_on_prog runs_on_bounds))) =
              Some ([(true, 0); (true, 1); (true, 2); (true, 3); (false, 5); (false, 6); (false, 7); (false, 8)])).
  { destruct I; vm_compute; reflexivity. }
  destruct (run _ _ _ _) as [m|]; [|discriminate E]. exists m. split; [reflexivity|]. injection E as E. split.
  - rewrite E. exists [(true, 0); (true, 1); (true, 2); (true, 3)], 5, [(false, 6); (false, 7); (false, 8)].
    split; [reflexivity|]. split; [lia|]. cbn. intros v Hv. intuition (subst; cbn; lia).
  - apply den_sat. vm_compute. reflexivity.
Qed.

(** ** C25 fails next to a constant that does not matter
    [true && O[1,2] a0]: once a0 has been seen, O[1,2] a0 is known ahead of time,
    and the conjunction reports the current time again in every pass. *)
Definition loop_prog : list instr :=
  [ Instr LOAD (Atomic 0) NotSet 0; Instr SINCE (Direct true) (Sub 0) 0;
    Instr AND (Direct true) (Sub 1) 0; Instr RETURN (Sub 2) NotSet 0 ].
Definition loop_confs : list qconf := [ QConf 20 0 0; QConf 20 1 2; QConf 20 0 0; QConf 20 0 0 ].
Theorem C25_past_neutral_constant_refuted :
  exists prog confs (tr : trace),
    node_expr prog confs 3 = EAnd [EConst true; ES 1 2 (EConst true) (EAtom 0)] /\
    pt_queues_ample prog confs /\
    forall (I : impl) fuel, run fuel (rows tr 1) prog (init prog confs) = None.
Proof.
  exists loop_prog, loop_confs, (fun _ _ => true). split; [reflexivity|].
  split; [apply pt_ampleb_spec; vm_compute; reflexivity|]. intros I fuel.
  assert (H : step fuel (fun _ => true) loop_prog (init loop_prog loop_confs) = None).
  { revert fuel. destruct I.
    all: do 3 (apply step_next; [vm_compute; discriminate|]).
    all: apply step_repeats; vm_compute; reflexivity. }
  cbn [rows seq map run]. rewrite H. reflexivity.
Qed.

Print Assumptions C27_once_historically_sound.
Print Assumptions C27_once_historically_in_order.
Print Assumptions C27_once_historically_timely.
Print Assumptions C25_past_steps_end.
Print Assumptions C26_past_scq_constant_sufficient.
Print Assumptions C26_past_enough_sizes_sufficient.
Print Assumptions C26_past_default_sizes_sufficient.
Print Assumptions C25_past_neutral_constant_refuted.
Print Assumptions C26_past_computed_sizes_refuted.
