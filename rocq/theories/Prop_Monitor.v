(** * Future-time monitoring: C23, C24, C25, C26 and C27

    [run fuel (rows tr n) prog (init prog confs)] executes the first [n] rows of
    the trace; [fuel] bounds the passes of one step and [None] means that a step
    did not finish within it.  [node_expr prog confs k] is the formula computed
    by instruction [k] and [sat] its textbook semantics on the infinite trace. *)
From Coq Require Import List Arith ZArith Bool Lia.
Require Import Verif.Mltl Verif.MltlEval Verif.Scq Verif.Engine Verif.Monitoring Verif.ScqSize.
Require Import Verif.Transform Verif.ReachProofs Verif.MonitorProofs Verif.BusyProofs Verif.ScqSizeProofs Verif.MonitorCheck.
Import ListNotations.
Local Existing Instance C_monitor.

(** C23: whatever is reported for a time is the truth of the formula there, and
    concerns a time already seen. *)
Theorem C23_reports_sound prog confs tr fuel n m k ins t b :
  ft_program prog confs -> distinct_reports prog -> queues_ample prog confs ->
  run fuel (rows tr n) prog (init prog confs) = Some m ->
  nth_error prog k = Some ins -> i_op ins = RETURN ->
  reported (reports (i_num ins) m) t b ->
  (b = true <-> sat tr (node_expr prog confs k) t) /\ t < n.
Proof. intros H1 H2 H3. exact (run_sound prog confs tr H1 H2 H3 fuel n m k ins t b). Qed.

(** C23: the reports of a formula carry strictly increasing times, so no time is
    reported twice. *)
Theorem C23_reports_in_order prog confs tr fuel n m k ins :
  ft_program prog confs -> distinct_reports prog -> queues_ample prog confs ->
  run fuel (rows tr n) prog (init prog confs) = Some m ->
  nth_error prog k = Some ins -> i_op ins = RETURN ->
  increasing (reports (i_num ins) m).
Proof. intros H1 H2 H3. exact (run_increasing prog confs tr H1 H2 H3 fuel n m k ins). Qed.

(** C24: a time is reported as soon as the rows its verdict can depend on are
    there. *)
Theorem C24_reports_timely prog confs tr fuel n m k ins t :
  ft_program prog confs -> distinct_reports prog -> queues_ample prog confs ->
  run fuel (rows tr n) prog (init prog confs) = Some m ->
  nth_error prog k = Some ins -> i_op ins = RETURN ->
  t + reach (node_expr prog confs k) < n ->
  exists b, reported (reports (i_num ins) m) t b.
Proof. intros H1 H2 H3. exact (run_timely prog confs tr H1 H2 H3 fuel n m k ins t). Qed.

(** The delay in this bound is the worst-case propagation delay the compiler
    computes (cpt.py, model in Transform.v). *)
Theorem C24_delay_is_wpd prog confs k :
  ft_program prog confs -> wpd (node_expr prog confs k) = Z.of_nat (reach (node_expr prog confs k)).
Proof. exact (node_wpd prog confs k). Qed.

(** C25: every step ends, within a number of passes that depends on the program
    only. *)
Theorem C25_steps_end prog confs tr fuel n :
  ft_program prog confs -> distinct_reports prog -> queues_ample prog confs ->
  max_passes prog confs <= fuel ->
  exists m, run fuel (rows tr n) prog (init prog confs) = Some m.
Proof. intros H1 H2 H3. exact (run_total prog confs tr H1 H2 H3 fuel n). Qed.
(** More passes allowed do not change the outcome. *)
Theorem C25_fuel_irrelevant prog rs fuel fuel' m m' :
  fuel <= fuel' -> run fuel rs prog m = Some m' -> run fuel' rs prog m = Some m'.
Proof. exact (run_fuel prog rs fuel fuel' m m'). Qed.

(** C25 fails without the restriction on constants: a program with an absorbing
    constant operand never finishes a step, whatever the state, row and fuel. *)
Theorem C25_absorbing_constant_refuted prog ins :
  In ins prog -> absorbing ins -> forall fuel atoms m, step fuel atoms prog m = None.
Proof. intros H1 H2 fuel atoms m. exact (step_never atoms prog ins H1 H2 fuel m). Qed.

(** ** A program meeting the hypotheses: G[0,3] (!a0 || F[1,2] a1), and a1 *)
Definition ex_prog : list instr :=
  [ Instr LOAD (Atomic 0) NotSet 0; Instr LOAD (Atomic 1) NotSet 0;
    Instr NOT (Sub 0) NotSet 0; Instr UNTIL (Direct true) (Sub 1) 0;
    Instr OR (Sub 2) (Sub 3) 0; Instr RELEASE (Direct false) (Sub 4) 0;
    Instr RETURN (Sub 5) NotSet 0; Instr RETURN (Sub 1) NotSet 1 ].
Definition ex_confs : list qconf :=
  [ QConf 4 0 0; QConf 4 0 0; QConf 4 0 0; QConf 4 1 2; QConf 7 0 0; QConf 7 0 3; QConf 1 0 0; QConf 1 0 0 ].
Definition ex_trace : trace := fun i a => match a with 0 => Nat.eqb (i mod 5) 1 | _ => Nat.eqb (i mod 5) 3 && negb (Nat.eqb i 8) end.

Example ex_formula :
  node_expr ex_prog ex_confs 6 =
  ER 0 3 (EConst false) (EOr [ENot (EAtom 0); EU 1 2 (EConst true) (EAtom 1)]).
Proof. reflexivity. Qed.
Example ex_ft : ft_program ex_prog ex_confs.
Proof. apply ft_programb_spec. vm_compute. reflexivity. Qed.
Example ex_distinct : distinct_reports ex_prog.
Proof. apply distinctb_spec. vm_compute. reflexivity. Qed.
Example ex_ample : queues_ample ex_prog ex_confs.
Proof. apply ampleb_spec. vm_compute. reflexivity. Qed.
(** The request at 1 is answered at 3, the one at 6 is not. *)
Example ex_run :
  option_map (reports 0) (run (max_passes ex_prog ex_confs) (rows ex_trace 12) ex_prog (init ex_prog ex_confs)) =
  Some [(true, 0); (true, 1); (true, 2); (false, 6); (true, 7)].
Proof. vm_compute. reflexivity. Qed.
Example ex_absorbing : absorbing (Instr AND (Sub 0) (Direct false) 0).
Proof. right. reflexivity. Qed.

(** ** C26: queue lengths (see also Prop_Size.v) *)
(** The sizes computed by default are not enough: [a2 U[0,2] (a2 R[2,4] a0)]
    is reported true at times 2 and 3 although it is false there. *)
Definition bad_prog : list instr :=
  [ Instr LOAD (Atomic 2) NotSet 0; Instr LOAD (Atomic 0) NotSet 0; Instr RELEASE (Sub 0) (Sub 1) 0;
    Instr UNTIL (Sub 0) (Sub 2) 0; Instr RETURN (Sub 3) NotSet 0 ].
Definition bad_bounds : list qconf := [ QConf 0 0 0; QConf 0 0 0; QConf 0 2 4; QConf 0 0 2; QConf 0 0 0 ].
Definition table (l : list (list bool)) : trace := fun i a => nth a (nth i l []) false.
Definition bad_trace : trace :=
  table [ [true; true; false]; [false; false; false]; [false; true; true]; [true; true; false];
          [true; true; false]; [false; true; true]; [true; true; true]; [true; false; true] ].
Theorem C26_computed_sizes_refuted :
  exists prog confs tr n m k ins t,
    ft_program prog (sized 0 prog confs) /\ distinct_reports prog /\
    run 100 (rows tr n) prog (init prog (sized 0 prog confs)) = Some m /\
    nth_error prog k = Some ins /\ i_op ins = RETURN /\
    reported (reports (i_num ins) m) t true /\ ~ sat tr (node_expr prog confs k) t.
Proof.
  exists bad_prog, bad_bounds, bad_trace, 8.
  eexists. exists 4. eexists. exists 2.
  split; [apply ft_programb_spec; vm_compute; reflexivity|].
  split; [apply distinctb_spec; vm_compute; reflexivity|].
  split; [vm_compute; reflexivity|]. split; [reflexivity|]. split; [reflexivity|]. split.
  - exists [(false, 0); (false, 1)], 4, [(true, 5)]. split; [reflexivity|]. split; [lia|].
    intros v [<-|[<-|[]]]; cbn; lia.
  - rewrite <- den_sat. vm_compute. discriminate.
Qed.
Example bad_formula :
  node_expr bad_prog bad_bounds 4 = EU 0 2 (EAtom 2) (ER 2 4 (EAtom 2) (EAtom 0)).
Proof. reflexivity. Qed.

(** ** C27: past-time since and trigger
    Even with queues of 50 slots, [a0 S[0,2] a1] is reported true at 13 where
    a1 held at 11 only and a0 did not hold at 12. *)
Definition since_prog (op : opcode) : list instr :=
  [ Instr LOAD (Atomic 0) NotSet 0; Instr LOAD (Atomic 1) NotSet 0; Instr op (Sub 0) (Sub 1) 0;
    Instr RETURN (Sub 2) NotSet 0 ].
Definition since_confs : list qconf := [ QConf 50 0 0; QConf 50 0 0; QConf 50 0 2; QConf 50 0 0 ].
Definition since_trace (flip : bool) : trace :=
  fun i a => xorb flip (match a with 0 => negb (i =? 12) | _ => i =? 11 end).
Theorem C27_since_refuted :
  exists tr n m t,
    run 100 (rows tr n) (since_prog SINCE) (init (since_prog SINCE) since_confs) = Some m /\
    reported (reports 0 m) t true /\ ~ sat tr (ES 0 2 (EAtom 0) (EAtom 1)) t.
Proof.
  exists (since_trace false), 15. eexists. exists 13. split; [vm_compute; reflexivity|]. split.
  - exists (map (fun t => (t =? 11, t)) (seq 0 13)), 13, [(false, 14)]. split; [reflexivity|].
    split; [lia|]. intros v Hv. apply in_map_iff in Hv as (t & <- & Ht). apply in_seq in Ht. cbn. lia.
  - rewrite <- den_sat. vm_compute. discriminate.
Qed.
Theorem C27_trigger_refuted :
  exists tr n m t,
    run 100 (rows tr n) (since_prog TRIGGER) (init (since_prog TRIGGER) since_confs) = Some m /\
    reported (reports 0 m) t false /\ sat tr (ET 0 2 (EAtom 0) (EAtom 1)) t.
Proof.
  exists (since_trace true), 15. eexists. exists 13. split; [vm_compute; reflexivity|]. split.
  - exists (map (fun t => (negb (t =? 11), t)) (seq 0 13)), 13, [(true, 14)]. split; [reflexivity|].
    split; [lia|]. intros v Hv. apply in_map_iff in Hv as (t & <- & Ht). apply in_seq in Ht. cbn. lia.
  - rewrite <- den_sat. vm_compute. reflexivity.
Qed.

Print Assumptions C23_reports_sound.
Print Assumptions C23_reports_in_order.
Print Assumptions C24_reports_timely.
Print Assumptions C24_delay_is_wpd.
Print Assumptions C25_steps_end.
Print Assumptions C25_fuel_irrelevant.
Print Assumptions C25_absorbing_constant_refuted.
Print Assumptions C26_computed_sizes_refuted.
Print Assumptions C27_since_refuted.
Print Assumptions C27_trigger_refuted.
