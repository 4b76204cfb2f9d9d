(** * C59: satisfiability of formulas about integers, and the monitor's integers *)
From Coq Require Import List Arith ZArith Bool Lia.
From Verif Require Import Mltl MltlShape Binary Booleanizer BooleanizerSpec Smt SmtSpec.
From Verif Require Import SmtArith SmtArithSpec SmtArithProofs SmtArithMonitor.
Import ListNotations.
Local Open Scope nat_scope.

(** The expressions that have a term are those with a value over the integers. *)
Theorem C59_encoded x e : safe_divisors e -> (encodable e = true <-> exists v, exactly x e v).
Proof. exact (encodable_iff x e). Qed.

(** The query is satisfiable exactly if exact integers satisfy the formula.
    Missing from the full claim: the monitor's integers are not exact, see below;
    the temporal operators are those C33 proves the query right for. *)
Theorem C59_exact_partial table e :
  all_nodes quantified_op e -> all_nodes measured_op e -> legal e -> (forall a, safe_atom (table a)) ->
  (num_query table e <-> exists f x tr, shows table f x tr /\ sat tr e 0).
Proof. exact (num_exact table e). Qed.

(** On inputs that keep every value within 32 bits and divide no negative number,
    the monitor's atomic formulas are those of exact integers. *)
Theorem C59_monitor F table f inp x tr :
  (forall t s, inp t s = VInt (x t s)) -> (forall t a, calm_atom (x t) (table a)) ->
  (observes F table f inp tr <-> shows table f x tr).
Proof. exact (calm_observes F table f inp x tr). Qed.

(** A formula reported unsatisfiable never holds on such inputs, at no time. *)
Theorem C59_unsat_partial F table e f inp x tr :
  all_nodes quantified_op e -> all_nodes measured_op e -> legal e -> (forall a, safe_atom (table a)) ->
  (forall t s, inp t s = VInt (x t s)) -> (forall t a, calm_atom (x t) (table a)) ->
  observes F table f inp tr -> ~ num_query table e -> forall i, ~ sat tr e i.
Proof. exact (unsat_never F table e f inp x tr). Qed.

(** "x + 1 < x" is reported unsatisfiable; the monitor reports it true for the
    largest x. *)
Theorem C59_overflow_refuted F : exists table e f inp tr,
  (forall t s, exists z, inp t s = VInt z /\ int32 z) /\ observes F table f inp tr /\
  ~ num_query table e /\ forall i, sat tr e i.
Proof. exact (overflow_witness F). Qed.

(** "x / 2 + 1 == 0 && x + 1 == 0" is reported satisfiable; the monitor rounds
    towards 0 and reports it false on every input. *)
Theorem C59_rounding_refuted : exists table e, (forall a, safe_atom (table a)) /\ num_query table e /\
  forall F f inp tr, (forall t s, exists z, inp t s = VInt z /\ int32 z) -> observes F table f inp tr ->
  forall i, ~ sat tr e i.
Proof. exact rounding_witness. Qed.

(** "x > 2147483647" is reported satisfiable, but is true for no 32-bit integer. *)
Theorem C59_range_refuted : exists table e, (forall a, safe_atom (table a)) /\ num_query table e /\
  forall F f inp tr, (forall t s, exists z, inp t s = VInt z /\ int32 z) -> observes F table f inp tr ->
  forall i, ~ sat tr e i.
Proof. exact range_witness. Qed.

(** "x / 0 == 5" is reported satisfiable; the monitor computes no such value. *)
Theorem C59_zero_refuted : exists table e, num_query table e /\
  forall F f inp tr, observes F table f inp tr -> forall i, ~ sat tr e i.
Proof. exact zero_witness. Qed.

(** ** Examples *)
(** "F[0,3] (x / 3 == 4 && x % 3 == 2)" *)
Definition ex_table : nat -> natom := fun a =>
  match a with
  | 0 => ACompare Eq (NBinary Div sig0 (NValue (VInt 3))) (NValue (VInt 4))
  | _ => ACompare Eq (NBinary Mod sig0 (NValue (VInt 3))) two
  end.
Definition ex_formula : expr := EF 0 3 (EAnd [EAtom 0; EAtom 1]).
Example C59_shape : all_nodes quantified_op ex_formula /\ all_nodes measured_op ex_formula /\ legal ex_formula /\
  forall a, safe_atom (ex_table a).
Proof.
  repeat split; cbn; auto; try lia. intros [|a]; cbn; repeat split; eexists; (split; [reflexivity|lia]).
Qed.
Example C59_satisfiable : num_query ex_table ex_formula.
Proof.
  exists (fun _ k => if (k =? 2)%Z then 14%Z else 0%Z), (fun _ _ => false), (fun a => a), (fun a => a).
  cbn. split; [lia|]. exists 2%Z. cbn. repeat split; lia.
Qed.
Definition ex_inputs : nat -> Z -> Z := fun t _ => if t =? 2 then 14%Z else 7%Z.
Example C59_calm : forall t a, calm_atom (ex_inputs t) (ex_table a).
Proof.
  intros t a. assert (R : (0 <= ex_inputs t 0 <= 14)%Z) by (unfold ex_inputs; destruct (t =? 2); lia).
  assert (C : forall o z, o = Div \/ o = Mod -> (0 < z < 100)%Z -> calm (ex_inputs t) (NBinary o sig0 (NValue (VInt z)))).
  { intros o z Ho Hz. apply (c_quotient _ o _ _ (ex_inputs t 0) z Ho); try constructor; unfold int32; lia. }
  destruct a as [|a]; cbn; (split; [reflexivity|]); (split; [apply C; [auto|lia]|]); constructor; unfold int32; lia.
Qed.
(** "G[0,2] (x % 3 == 5)" is unsatisfiable. *)
Definition un_table : nat -> natom := fun _ => ACompare Eq (NBinary Mod sig0 (NValue (VInt 3))) (NValue (VInt 5)).
Definition un_formula : expr := EG 0 2 (EAtom 0).
Example C59_unsatisfiable : ~ num_query un_table un_formula.
Proof.
  intros (x & f & d0 & m0 & H). cbn in H. destruct H as [H|H]; [lia|]. specialize (H 0%Z ltac:(lia)).
  unfold smt_mod in H. cbn -[Z.modulo] in H. pose proof (Z.mod_pos_bound (x 0%Z 0%Z) 3). lia.
Qed.

Print Assumptions C59_encoded.
Print Assumptions C59_exact_partial.
Print Assumptions C59_monitor.
Print Assumptions C59_unsat_partial.
Print Assumptions C59_overflow_refuted.
Print Assumptions C59_rounding_refuted.
Print Assumptions C59_range_refuted.
Print Assumptions C59_zero_refuted.
