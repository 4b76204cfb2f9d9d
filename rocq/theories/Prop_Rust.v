(** * C and Rust monitors: C30

    [rust_run fuel rows prog (rust_init prog confs)] executes the Rust
    implementation: [Finished m], [Panicked] (an unsigned subtraction below
    zero, or a slot of the infinite time read as a verdict) or [Unfinished]
    (a step took more than [fuel] passes).  [@run C_monitor] is the C
    implementation of the same program. *)
From Coq Require Import List Arith ZArith Bool Lia.
Require Import Verif.Mltl Verif.MltlEval Verif.Scq Verif.Engine Verif.Monitoring.
Require Import Verif.TightSize Verif.MonitorProofs Verif.MonitorCheck Verif.SizeProofs Verif.RustEngine Verif.RustProofs Verif.RustTight.
Require Import Verif.Prop_Monitor Verif.ScqSize Verif.Prop_Size.
Import ListNotations.

(** The Rust monitor never panics and every step ends. *)
Theorem C30_rust_finishes prog confs tr n :
  ft_program prog confs -> distinct_reports prog -> queues_enough prog confs ->
  exists m, rust_run (max_passes prog confs) (rows tr n) prog (rust_init prog confs) = Finished m.
Proof. intros H1 H2 H3. exact (rust_tight_finishes prog confs tr H1 H2 H3 n). Qed.

(** The two monitors never contradict each other: a time reported by both is
    reported with the same verdict, whatever part of the trace each has seen. *)
Theorem C30_no_contradiction prog confs tr fuel fuel' n n' mc mr k ins t b b' :
  ft_program prog confs -> distinct_reports prog -> queues_enough prog confs ->
  @run C_monitor fuel (rows tr n) prog (@init C_monitor prog confs) = Some mc ->
  rust_run fuel' (rows tr n') prog (rust_init prog confs) = Finished mr ->
  nth_error prog k = Some ins -> i_op ins = RETURN ->
  reported (reports (i_num ins) mc) t b -> reported (reports (i_num ins) mr) t b' -> b = b'.
Proof. intros H1 H2 H3. exact (tight_agree prog confs tr H1 H2 H3 fuel fuel' n n' mc mr k ins t b b'). Qed.

(** Both report a time, with the same verdict and in increasing order of time,
    once the rows it can depend on are there. *)
Theorem C30_same_verdicts prog confs tr n mc mr k ins :
  ft_program prog confs -> distinct_reports prog -> queues_enough prog confs ->
  @run C_monitor (max_passes prog confs) (rows tr n) prog (@init C_monitor prog confs) = Some mc ->
  rust_run (max_passes prog confs) (rows tr n) prog (rust_init prog confs) = Finished mr ->
  nth_error prog k = Some ins -> i_op ins = RETURN ->
  increasing (reports (i_num ins) mc) /\ increasing (reports (i_num ins) mr) /\
  forall t, t + reach (node_expr prog confs k) < n ->
    exists b, reported (reports (i_num ins) mc) t b /\ reported (reports (i_num ins) mr) t b /\
              (b = true <-> sat tr (node_expr prog confs k) t).
Proof. intros H1 H2 H3. exact (tight_same prog confs tr H1 H2 H3 n mc mr k ins). Qed.

(** The Rust monitor's own reports are sound, and never about the future. *)
Theorem C30_rust_sound prog confs tr fuel n m k ins t b :
  ft_program prog confs -> distinct_reports prog -> queues_enough prog confs ->
  rust_run fuel (rows tr n) prog (rust_init prog confs) = Finished m ->
  nth_error prog k = Some ins -> i_op ins = RETURN ->
  reported (reports (i_num ins) m) t b ->
  (b = true <-> sat tr (node_expr prog confs k) t) /\ t < n.
Proof. intros H1 H2 H3. exact (rust_tight_sound prog confs tr H1 H2 H3 fuel n m k ins t b). Qed.

(** Instruction by instruction and on every state, with past-time operators:
    where the Rust code neither panics nor reads an infinite time it computes
    what the shared model of the operators computes with the Rust queues. *)
Theorem C30_operators_agree atoms k ins m m' :
  k < length (m_queues m) ->
  rust_update atoms k ins m = Some m' -> @update Rust_monitor atoms k ins m = m'.
Proof. exact (rust_update_eq atoms k ins m m'). Qed.

(** ** The steps at which they report differ
    [(F[0,3] a0) U[0,1] a1] with a1 never true: after two rows the Rust monitor
    has reported false at 0, the C monitor nothing. *)
Definition late_prog : list instr :=
  [ Instr LOAD (Atomic 0) NotSet 0; Instr LOAD (Atomic 1) NotSet 0;
    Instr UNTIL (Direct true) (Sub 0) 0; Instr UNTIL (Sub 2) (Sub 1) 0; Instr RETURN (Sub 3) NotSet 0 ].
Definition late_confs : list qconf := [ QConf 6 0 0; QConf 6 0 0; QConf 6 0 3; QConf 6 0 1; QConf 1 0 0 ].
Definition late_trace : trace := fun _ _ => false.
Example late_formula :
  node_expr late_prog late_confs 4 = EU 0 1 (EU 0 3 (EConst true) (EAtom 0)) (EAtom 1).
Proof. reflexivity. Qed.

Example late_ft : ft_program late_prog late_confs.
Proof. apply ft_programb_spec. vm_compute. reflexivity. Qed.
Example late_ample : queues_ample late_prog late_confs.
Proof. apply ampleb_spec. vm_compute. reflexivity. Qed.
Theorem C30_same_time_refuted :
  exists prog confs tr n mc mr,
    ft_program prog confs /\ distinct_reports prog /\ queues_ample prog confs /\
    @run C_monitor (max_passes prog confs) (rows tr n) prog (@init C_monitor prog confs) = Some mc /\
    rust_run (max_passes prog confs) (rows tr n) prog (rust_init prog confs) = Finished mr /\
    reports 0 mc = [] /\ reports 0 mr = [(false, 0)].
Proof.
  exists late_prog, late_confs, late_trace, 2. do 2 eexists.
  split; [exact late_ft|]. split; [apply distinctb_spec; vm_compute; reflexivity|].
  split; [exact late_ample|]. split; [vm_compute; reflexivity|]. split; [vm_compute; reflexivity|].
  split; reflexivity.
Qed.
(** Nor do they split the times into reports alike: after four rows the C
    monitor has reported up to 2 in two reports, the Rust monitor in three. *)
Example late_reports :
  option_map (reports 0) (@run C_monitor 100 (rows late_trace 4) late_prog (@init C_monitor late_prog late_confs)) =
  Some [(false, 0); (false, 2)] /\
  match rust_run 100 (rows late_trace 4) late_prog (rust_init late_prog late_confs) with
  | Finished m => reports 0 m = [(false, 0); (false, 1); (false, 2)] | _ => False end.
Proof. vm_compute. auto. Qed.

(** The program of Prop_Monitor on the Rust monitor: same reports. *)
Example rust_ex_run :
  match rust_run (max_passes ex_prog ex_confs) (rows ex_trace 12) ex_prog (rust_init ex_prog ex_confs) with
  | Finished m => reports 0 m = [(true, 0); (true, 1); (true, 2); (false, 6); (true, 7)]
  | _ => False end.
Proof. vm_compute. reflexivity. Qed.
(** The queues of Prop_Size, as short as [queues_enough] lets them be: the hypotheses
    of the theorems above hold, and the Rust monitor reports what the formula says. *)
Example short_queues : ft_program conj_prog conj_confs /\ distinct_reports conj_prog /\ queues_enough conj_prog conj_confs /\
  ~ queues_ample conj_prog conj_confs.
Proof.
  split; [apply ft_programb_spec; vm_compute; reflexivity|]. split; [apply distinctb_spec; vm_compute; reflexivity|].
  split; [apply enoughb_spec; vm_compute; reflexivity|].
  intros H. specialize (H 1 _ 0 _ eq_refl (or_intror eq_refl) eq_refl). vm_compute in H. lia.
Qed.
Example short_reports :
  match rust_run (max_passes conj_prog conj_confs) (rows conj_trace 8) conj_prog (rust_init conj_prog conj_confs) with
  | Finished m => reports 0 m = [(true, 0); (false, 1); (true, 2); (false, 3); (true, 4); (false, 5)] | _ => False end.
Proof. vm_compute. reflexivity. Qed.
(** The panic is a possible outcome of the model: an until whose queue starts
    before its lower bound. *)
Example rust_can_panic :
  let m := @init Rust_monitor late_prog late_confs in
  let q := get_queue m 3 in
  let q' := Queue (q_slots q) (q_write q) (q_read1 q) (q_read2 q) 0 (q_edge q) (q_prev q) 2 3 in
  let m' := set_queue (rust_push_result 1 (true, 0) m) 3 q' in
  rust_update (late_trace 0) 3 (Instr UNTIL (Sub 2) (Sub 1) 0) m' = None.
Proof. vm_compute. reflexivity. Qed.

Print Assumptions C30_rust_finishes.
Print Assumptions C30_no_contradiction.
Print Assumptions C30_same_verdicts.
Print Assumptions C30_rust_sound.
Print Assumptions C30_operators_agree.
Print Assumptions C30_same_time_refuted.
