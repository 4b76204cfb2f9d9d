(** * C26: how long the queues have to be

    [sized const prog confs] are the queue lengths the compiler computes, with
    its option to add [const] slots to every queue. *)
From Coq Require Import List Arith ZArith Bool Lia.
Require Import Verif.Mltl Verif.MltlEval Verif.Scq Verif.Engine Verif.Monitoring Verif.ScqSize Verif.TightSize.
Require Import Verif.MonitorCheck Verif.SizeProofs.
Import ListNotations.

(** Queues that hold what their readers wait for are enough: in either monitor,
    for every trace, every report is right, in order and in time. *)
Theorem C26_enough_sizes_sufficient {I : impl} prog confs tr n :
  ft_program prog confs -> distinct_reports prog -> queues_enough prog confs ->
  monitored prog confs confs tr n.
Proof. exact (enough_monitored prog confs tr n). Qed.

(** The computed sizes are enough for programs in which until and release occur
    only as F and G, and operands that may write several verdicts in one step
    do not lag behind their siblings. *)
Theorem C26_default_sizes_sufficient {I : impl} const prog confs tr n :
  length prog = length confs -> ft_program prog (sized const prog confs) -> distinct_reports prog ->
  modest prog confs -> monitored prog confs (sized const prog confs) tr n.
Proof.
  exact (fun E Hft Hd Hm => sized_monitored const prog confs tr n E Hft Hd (modest_enough const prog confs E Hft Hm)).
Qed.

(** For all programs they are enough once the added constant is no less than
    every reach. *)
Theorem C26_scq_constant_sufficient {I : impl} const prog confs tr n :
  length prog = length confs -> ft_program prog (sized const prog confs) -> distinct_reports prog ->
  (forall k ins, nth_error prog k = Some ins -> reach (node_expr prog confs k) <= const) ->
  monitored prog confs (sized const prog confs) tr n.
Proof.
  exact (fun E Hft Hd Hc => sized_monitored const prog confs tr n E Hft Hd (constant_enough const prog confs E Hft Hc)).
Qed.

(** What is computed: the least length (above the constant) that spans, for each
    operand read beside the queue's own formula, from its own best-case delay to
    the other's worst-case delay. *)
Theorem C26_computed_size_least const prog confs k ins c :
  length prog = length confs -> ft_program prog (sized const prog confs) ->
  nth_error prog k = Some ins -> nth_error (sized const prog confs) k = Some c -> i_op ins <> RETURN ->
  let needs o := reach (operand_expr (exprs prog confs) o) - soon (node_expr prog confs k) + 1 + const in
  (forall o, sibling prog k o -> needs o <= c_len c) /\ 1 + const <= c_len c /\
  forall L, 1 + const <= L -> (forall o, sibling prog k o -> needs o <= L) -> c_len c <= L.
Proof. exact (fun E Hft => computed_least const prog confs E Hft k ins c). Qed.

(** ** A program that the computed sizes serve: G[0,5] (!a0 || F[0,3] a1) *)
Definition good_prog : list instr :=
  [ Instr LOAD (Atomic 0) NotSet 0; Instr NOT (Sub 0) NotSet 0; Instr LOAD (Atomic 1) NotSet 0;
    Instr UNTIL (Direct true) (Sub 2) 0; Instr OR (Sub 1) (Sub 3) 0; Instr RELEASE (Direct false) (Sub 4) 0;
    Instr RETURN (Sub 5) NotSet 0 ].
Definition good_bounds : list qconf :=
  [ QConf 0 0 0; QConf 0 0 0; QConf 0 0 0; QConf 0 0 3; QConf 0 0 0; QConf 0 0 5; QConf 0 0 0 ].
Example good_formula :
  node_expr good_prog good_bounds 6 =
  ER 0 5 (EConst false) (EOr [ENot (EAtom 0); EU 0 3 (EConst true) (EAtom 1)]).
Proof. reflexivity. Qed.
Example good_sizes : map c_len (sized 0 good_prog good_bounds) = [1; 4; 1; 1; 1; 1; 1].
Proof. reflexivity. Qed.
Example good_monitored (I : impl) tr n : monitored good_prog good_bounds (sized 0 good_prog good_bounds) tr n.
Proof.
  apply C26_default_sizes_sufficient; [reflexivity| | |].
  - apply ft_programb_spec. vm_compute. reflexivity.
  - apply distinctb_spec. vm_compute. reflexivity.
  - apply modestb_spec. vm_compute. reflexivity.
Qed.
Example good_sibling : sibling good_prog 1 (Sub 3).
Proof. exists (Instr OR (Sub 1) (Sub 3) 0). cbn. split; [tauto|]. split; [discriminate|tauto]. Qed.

(** ** (F[0,5] a0 && a1) && a2 is not served by them: it is reported false at
    time 2 although it is true there, in either monitor. *)
Definition conj_prog : list instr :=
  [ Instr LOAD (Atomic 0) NotSet 0; Instr UNTIL (Direct true) (Sub 0) 0; Instr LOAD (Atomic 1) NotSet 0;
    Instr AND (Sub 1) (Sub 2) 0; Instr LOAD (Atomic 2) NotSet 0; Instr AND (Sub 3) (Sub 4) 0;
    Instr RETURN (Sub 5) NotSet 0 ].
Definition conj_bounds : list qconf :=
  [ QConf 0 0 0; QConf 0 0 5; QConf 0 0 0; QConf 0 0 0; QConf 0 0 0; QConf 0 0 0; QConf 0 0 0 ].
Definition conj_trace : trace :=
  fun i a => match a with 0 => i =? 5 | 1 => negb (i =? 3) | _ => Nat.even i end.
Theorem C26_conjunction_refuted : forall I : impl,
  exists prog confs tr n m k ins t,
    ft_program prog (sized 0 prog confs) /\ distinct_reports prog /\
    run (max_passes prog confs) (rows tr n) prog (init prog (sized 0 prog confs)) = Some m /\
    nth_error prog k = Some ins /\ i_op ins = RETURN /\
    node_expr prog confs k = EAnd [EAnd [EU 0 5 (EConst true) (EAtom 0); EAtom 1]; EAtom 2] /\
    reported (reports (i_num ins) m) t false /\ sat tr (node_expr prog confs k) t.
Proof.
  intros I. exists conj_prog, conj_bounds, conj_trace, 8.
  destruct I.
  all: eexists; exists 6; eexists; exists 2.
  all: split; [apply ft_programb_spec; vm_compute; reflexivity|].
  all: split; [apply distinctb_spec; vm_compute; reflexivity|].
  all: split; [vm_compute; reflexivity|]; split; [reflexivity|]; split; [reflexivity|]; split; [reflexivity|]; split;
    [|rewrite <- den_sat; vm_compute; reflexivity].
  all: exists [(true, 0)], 3, [(true, 4); (false, 5)]; split; [reflexivity|]; split; [lia|].
  all: intros v [<-|[]]; cbn; lia.
Qed.
(** With queues long enough by [queues_enough] the same program is served: its
    inner conjunction needs 6 slots instead of the computed 1. *)
Definition conj_confs : list qconf :=
  [ QConf 1 0 0; QConf 1 0 5; QConf 6 0 0; QConf 6 0 0; QConf 6 0 0; QConf 1 0 0; QConf 1 0 0 ].
Example conj_sizes : map c_len (sized 0 conj_prog conj_bounds) = [1; 1; 6; 1; 6; 1; 1].
Proof. reflexivity. Qed.
Example conj_monitored (I : impl) tr n : monitored conj_prog conj_confs conj_confs tr n.
Proof.
  apply C26_enough_sizes_sufficient.
  - apply ft_programb_spec. vm_compute. reflexivity.
  - apply distinctb_spec. vm_compute. reflexivity.
  - apply enoughb_spec. vm_compute. reflexivity.
Qed.
Example conj_constant (I : impl) tr n : monitored conj_prog conj_bounds (sized 5 conj_prog conj_bounds) tr n.
Proof.
  apply C26_scq_constant_sufficient; [reflexivity| | |].
  - apply ft_programb_spec. vm_compute. reflexivity.
  - apply distinctb_spec. vm_compute. reflexivity.
  - intros k ins H. do 7 (destruct k as [|k]; [vm_compute; lia|]). destruct k; discriminate.
Qed.
(** a0 U[1,3] (G[0,2] a1) needs five slots for each operand. *)
Definition until_prog : list instr :=
  [ Instr LOAD (Atomic 0) NotSet 0; Instr LOAD (Atomic 1) NotSet 0; Instr RELEASE (Direct false) (Sub 1) 0;
    Instr UNTIL (Sub 0) (Sub 2) 0; Instr RETURN (Sub 3) NotSet 0 ].
Definition until_confs : list qconf :=
  [ QConf 5 0 0; QConf 1 0 0; QConf 5 0 2; QConf 1 1 3; QConf 1 0 0 ].
Example until_monitored (I : impl) tr n : monitored until_prog until_confs until_confs tr n.
Proof.
  apply C26_enough_sizes_sufficient.
  - apply ft_programb_spec. vm_compute. reflexivity.
  - apply distinctb_spec. vm_compute. reflexivity.
  - apply enoughb_spec. vm_compute. reflexivity.
Qed.

Print Assumptions C26_enough_sizes_sufficient.
Print Assumptions C26_default_sizes_sufficient.
Print Assumptions C26_scq_constant_sufficient.
Print Assumptions C26_computed_size_least.
Print Assumptions C26_conjunction_refuted.
