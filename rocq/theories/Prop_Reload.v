(** * Reloading: C31

    A monitor [m] with some history is given a specification.  [c_load] is the
    C loader on the state [soft_reset m] or [hard_reset m] leaves,
    [update_binary_file] the Rust function. *)
From Coq Require Import List Arith ZArith Bool Lia.
Require Import Verif.Mltl Verif.MltlEval Verif.Graph Verif.GraphSpec.
Require Import Verif.Binary Verif.BinarySpec Verif.Assembly Verif.AssemblySpec Verif.LayoutSpec.
Require Import Verif.Booleanizer Verif.BooleanizerSpec Verif.BooleanizerChain.
Require Import Verif.Scq Verif.Engine Verif.Monitoring Verif.MonitorCheck Verif.RustEngine Verif.Reload Verif.ReloadProofs.
Import ListNotations.
Local Open Scope nat_scope.

(** ** The booleanizer starts clean
    C31 holds for everything computed from the signals: whatever the buffers of
    the old monitor contain, after loading the atomics have at every step the
    values they have in a new monitor, and one run is defined where the other is. *)
Theorem C31_booleanizer_clean h T cls types wpd_of bpd_of const ft pt aux :
  denotes h T -> tl_shaped h cls ->
  (forall n, reachable h [ft] n -> assemblable h cls ft_code n) ->
  (forall n, reachable h [pt] n -> assemblable h cls pt_code n) ->
  (forall n, reachable h [ft] n -> reachable h [pt] n -> engine_of (cls n) <> EngBz) ->
  numeric h cls types (in_program h ft pt) ->
  exists fuel0 asm, (forall fuel, fuel0 <= fuel -> gen_assembly fuel h cls wpd_of bpd_of const ft pt = Some asm) /\
  forall bytes, Forall fits asm -> assemble_binary asm aux = Some bytes ->
  exists acts, load bytes = Some acts /\
    forall F inp old, typed types inp ->
    let run s := bz_run_from F (fst (bz_reload acts s)) (snd (bz_reload acts s)) inp in
    let new := BzState (fun _ => 0%Z) (fun _ => 0%Z) (fun _ => false) in
    (forall t s s' n aid x e, (Z.of_nat t < 2 ^ 31)%Z -> run old (S t) = Some s -> run new (S t) = Some s' ->
       in_program h ft pt n -> cls n = CAtomic aid -> nchildren (h n) = [x] -> stands h cls types x e true ->
       atomic_buffer s aid = atomic_buffer s' aid) /\
    (forall t, (Z.of_nat t <= 2 ^ 31)%Z ->
       (forall t' n e int, t' < t -> in_program h ft pt n -> stands h cls types n e int -> exists v, yields F inp t' e v) ->
       (exists s, run old t = Some s) /\ exists s, run new t = Some s).
Proof. exact (reload_same h T cls types wpd_of bpd_of const ft pt aux). Qed.

(** ** The temporal engine of the C monitor does not
    [a0] is monitored for three steps and loaded again: the first report after
    loading says that a0 was false up to time 3, though it was true at 0.  A
    hard reset gives the same. *)
Definition again_prog : list instr := [ Instr LOAD (Atomic 0) NotSet 0; Instr RETURN (Sub 0) NotSet 0 ].
Definition again_confs : list qconf := [ QConf 3 0 0; QConf 1 0 0 ].
Definition at_step (n : nat) : trace := fun i _ => i =? n.
Theorem C31_c_reload_refuted :
  forall reset, reset = soft_reset \/ reset = hard_reset ->
  exists prog confs tr1 n1 m1 tr n m,
    ft_program prog confs /\ queues_ample prog confs /\
    @run C_monitor 100 (rows tr1 n1) prog (@init C_monitor prog confs) = Some m1 /\
    @run C_monitor 100 (rows tr n) prog (c_load prog confs (reset m1)) = Some m /\
    reported (reports 0 m) 0 false /\ sat tr (node_expr prog confs 1) 0.
Proof.
  intros reset Hr.
  destruct Hr as [-> | ->]; exists again_prog, again_confs, (at_step 2), 3; eexists; exists (at_step 0), 4; eexists;
  (split; [apply ft_programb_spec; vm_compute; reflexivity|]);
  (split; [apply ampleb_spec; vm_compute; reflexivity|]);
  (split; [vm_compute; reflexivity|]);
  (split; [vm_compute; reflexivity|]);
  (split; [|rewrite <- den_sat; reflexivity]);
  exists [], 3, []; (split; [reflexivity|]); (split; [lia|]); intros v [].
Qed.
(** A formula may not be reported at all afterwards: [F[0,2] a0]. *)
Example silent_after_reload :
  let prog := [ Instr LOAD (Atomic 0) NotSet 0; Instr UNTIL (Direct true) (Sub 0) 0; Instr RETURN (Sub 1) NotSet 0 ] in
  let confs := [ QConf 5 0 0; QConf 5 0 2; QConf 1 0 0 ] in
  match @run C_monitor 100 (rows (at_step 0) 3) prog (@init C_monitor prog confs) with
  | Some m1 => option_map (reports 0) (@run C_monitor 100 (rows (at_step 4) 50) prog (c_load prog confs (soft_reset m1)))
  | None => None
  end = Some [].
Proof. vm_compute. reflexivity. Qed.

(** What is missing are exactly the control blocks: with them zeroed, and queue
    memory zeroed as a hard reset does, loading gives the new monitor's state
    from every state.  Without them it does so only before the first step. *)
Theorem C31_c_cleared prog confs m :
  length prog = length confs -> Forall (fun c => 1 <= c_len c) confs -> laid_out confs m ->
  c_load prog confs (zero_blocks (hard_reset m)) = @init C_monitor prog confs.
Proof. exact (c_load_cleared prog confs m). Qed.
Theorem C31_c_unused_partial prog confs :
  length prog = length confs -> Forall (fun c => 1 <= c_len c) confs ->
  c_load prog confs (soft_reset (c_default confs)) = @init C_monitor prog confs /\
  c_load prog confs (soft_reset (@init C_monitor prog confs)) = @init C_monitor prog confs.
Proof. intros H1 H2. exact (conj (c_load_default prog confs H1 H2) (c_load_again prog confs H1 H2)). Qed.
Example again_laid_out m :
  @run C_monitor 100 (rows (at_step 2) 3) again_prog (@init C_monitor again_prog again_confs) = Some m -> laid_out again_confs m.
Proof. intros H. vm_compute in H. injection H as <-. reflexivity. Qed.

(** ** The Rust monitor keeps the old instructions
    A monitor for [a0] is given the specification [a1]: it goes on to report a0. *)
Theorem C31_rust_reload_refuted :
  exists old new confs tr n m m',
    ft_program old confs /\ ft_program new confs /\ queues_ample new confs /\
    monitor_steps 100 (rows tr n) (update_binary_file new confs (get_monitor old confs)) = Finished m /\
    monitor_steps 100 (rows tr n) (get_monitor new confs) = Finished m' /\
    (forall t, sat tr (node_expr old confs 1) t) /\ (forall t, ~ sat tr (node_expr new confs 1) t) /\
    reports 0 m = [(true, 0); (true, 1)] /\ reports 0 m' = [(false, 0); (false, 1)].
Proof.
  exists again_prog, [ Instr LOAD (Atomic 1) NotSet 0; Instr RETURN (Sub 0) NotSet 0 ], again_confs, (fun _ a => a =? 0), 2.
  do 2 eexists.
  split; [apply ft_programb_spec; vm_compute; reflexivity|].
  split; [apply ft_programb_spec; vm_compute; reflexivity|].
  split; [apply ampleb_spec; vm_compute; reflexivity|].
  split; [vm_compute; reflexivity|]. split; [vm_compute; reflexivity|].
  split; [intros t; rewrite <- den_sat; reflexivity|].
  split; [intros t; rewrite <- den_sat; discriminate|]. split; reflexivity.
Qed.
(** It is clean when there were no temporal instructions before, whatever else
    the monitor held; and [get_monitor] is the monitor of Prop_Rust.v. *)
Theorem C31_rust_reload_partial fuel rows prog confs r :
  length prog = length confs -> r_table r = [] ->
  monitor_steps fuel rows (update_binary_file prog confs r) = monitor_steps fuel rows (get_monitor prog confs) /\
  monitor_steps fuel rows (get_monitor prog confs) = rust_run fuel rows prog (rust_init prog confs).
Proof. intros H1 H2. exact (conj (update_empty_run fuel rows prog confs r H1 H2) (get_monitor_run fuel rows prog confs H1)). Qed.

Print Assumptions C31_booleanizer_clean.
Print Assumptions C31_c_reload_refuted.
Print Assumptions C31_c_cleared.
Print Assumptions C31_c_unused_partial.
Print Assumptions C31_rust_reload_refuted.
Print Assumptions C31_rust_reload_partial.
