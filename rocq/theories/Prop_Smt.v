(** * C32, C33: the satisfiability queries *)
From Coq Require Import List Arith ZArith NArith Bool Lia.
From Verif Require Import Mltl MltlShape Transform Decompose Smt SmtSpec SmtQueries SmtFunctions.
Import ListNotations.
Local Open Scope nat_scope.

(** ** Bit-vectors *)
(** A query is produced exactly for this fragment. *)
Theorem C32_supported : forall strict e, legal e -> (bv_query strict e <> None <-> all_nodes bit_vector_op e).
Proof. exact bv_query_supported. Qed.
Print Assumptions C32_supported.

Theorem C32_exact : forall e q, legal e -> bv_query false e = Some q -> (bv_satisfiable q e <-> satisfiable e).
Proof. exact bv_exact. Qed.
Print Assumptions C32_exact.

(** "unsat" for the inequality of two formulas means that they are equivalent. *)
Theorem C32_equivalence : forall e1 e2 q, legal e1 -> legal e2 -> bv_query false (differ e1 e2) = Some q ->
  (~ bv_satisfiable q (differ e1 e2) <-> equivalent e1 e2).
Proof. exact bv_equivalence. Qed.
Print Assumptions C32_equivalence.

(** The strict query asks for a trace of any length, cut off at its end. *)
Theorem C32_strict : forall e q, legal e -> bv_query true e = Some q ->
  (bv_satisfiable q e <-> exists len tr, 0 < len /\ tsat len tr e 0).
Proof. exact bv_strict. Qed.
Print Assumptions C32_strict.

(** An "unsat" of the strict query is right. *)
Theorem C32_strict_complete : forall e q, legal e -> bv_query true e = Some q -> satisfiable e -> bv_satisfiable q e.
Proof. exact bv_strict_complete. Qed.
Print Assumptions C32_strict_complete.

(** ** Uninterpreted functions *)
Theorem C33_qf_supported : forall strict e, qf_query strict e <> None <-> all_nodes function_op e.
Proof. exact qf_query_supported. Qed.
Print Assumptions C33_qf_supported.

Theorem C33_uflia_supported : forall strict e, uf_query strict e <> None <-> all_nodes quantified_op e.
Proof. exact uf_query_supported. Qed.
Print Assumptions C33_uflia_supported.

(** Missing: conjunctions and disjunctions of more than two, comparisons of
    temporal formulas (refuted below). *)
Theorem C33_uflia_exact_partial : forall e q, legal e -> all_nodes measured_op e -> uf_query false e = Some q ->
  ((exists f, q f) <-> satisfiable e).
Proof. exact uf_exact. Qed.
Print Assumptions C33_uflia_exact_partial.

Theorem C33_uflia_equivalence_partial : forall e1 e2 q,
  legal e1 -> legal e2 -> all_nodes measured_op e1 -> all_nodes measured_op e2 ->
  uf_query false (differ e1 e2) = Some q -> ((~ exists f, q f) <-> equivalent e1 e2).
Proof. exact uf_equivalence. Qed.
Print Assumptions C33_uflia_equivalence_partial.

(** The strict query asks for a finite trace in the sense of the documentation.
    Missing: "eventually" over [0,0] or [1,1] (refuted below). *)
Theorem C33_uflia_strict_partial : forall e q, legal e -> all_nodes plain_future_op e -> uf_query true e = Some q ->
  ((exists f, q f) <-> exists len tr, fsat len tr e 0).
Proof. exact uf_strict. Qed.
Print Assumptions C33_uflia_strict_partial.

Theorem C33_uflia_strict_complete : forall e q, legal e -> uf_query true e = Some q -> satisfiable e -> exists f, q f.
Proof. exact uf_strict_complete. Qed.
Print Assumptions C33_uflia_strict_complete.

(** The quantifier-free query looks at traces one step too short; the strict one
    decides the same as with bit-vectors. *)
Theorem C33_qf_short_partial : forall e q, legal e -> (0 < wpd e)%Z -> qf_query false e = Some q ->
  ((exists f, q f) <-> exists tr, tsat (Z.to_nat (wpd e)) tr e 0).
Proof. exact qf_short. Qed.
Print Assumptions C33_qf_short_partial.

Theorem C33_qf_strict : forall e q, legal e -> qf_query true e = Some q ->
  ((exists f, q f) <-> exists len tr, 0 < len /\ tsat len tr e 0).
Proof. exact qf_strict. Qed.
Print Assumptions C33_qf_strict.

Theorem C33_qf_strict_complete : forall e q, legal e -> qf_query true e = Some q -> satisfiable e -> exists f, q f.
Proof. exact qf_strict_complete. Qed.
Print Assumptions C33_qf_strict_complete.

(** ** Refutations *)
(** The formula "p" is reported unsatisfiable ... *)
Theorem C33_qf_unsat_refuted : exists e q, legal e /\ qf_query false e = Some q /\ satisfiable e /\ ~ exists f, q f.
Proof. exact qf_atom_unsat. Qed.
Print Assumptions C33_qf_unsat_refuted.
(** ... and "G[1,1] false" satisfiable. *)
Theorem C33_qf_sat_refuted : exists e q, legal e /\ qf_query false e = Some q /\ ~ satisfiable e /\ exists f, q f.
Proof. exact qf_false_sat. Qed.
Print Assumptions C33_qf_sat_refuted.
(** A conjunction of three (as for a program of three specifications). *)
Theorem C33_uflia_unsat_refuted : exists e q, legal e /\ uf_query false e = Some q /\ satisfiable e /\ ~ exists f, q f.
Proof. exact uf_nary_unsat. Qed.
Print Assumptions C33_uflia_unsat_refuted.
Theorem C33_uflia_sat_refuted : exists e q, legal e /\ uf_query false e = Some q /\ ~ satisfiable e /\ exists f, q f.
Proof. exact uf_nary_sat. Qed.
Print Assumptions C33_uflia_sat_refuted.
Theorem C33_uflia_comparison_refuted : exists e q,
  all_nodes binary_op e /\ legal e /\ uf_query false e = Some q /\ satisfiable e /\ ~ exists f, q f.
Proof. exact uf_comparison_unsat. Qed.
Print Assumptions C33_uflia_comparison_refuted.
(** "F[1,1] false" in the strict query. *)
Theorem C33_uflia_strict_refuted : exists e q,
  legal e /\ uf_query true e = Some q /\ (forall len tr, ~ fsat len tr e 0) /\ exists f, q f.
Proof. exact uf_future_sat. Qed.
Print Assumptions C33_uflia_strict_refuted.
(** The strict queries of the three theories do not decide the same. *)
Theorem C33_strict_disagree_refuted : exists e qb qf qu,
  legal e /\ all_nodes plain_future_op e /\
  bv_query true e = Some qb /\ qf_query true e = Some qf /\ uf_query true e = Some qu /\
  (forall len tr, 0 < len -> ~ fsat len tr e 0) /\
  bv_satisfiable qb e /\ (exists f, qf f).
Proof. exact strict_disagree. Qed.
Print Assumptions C33_strict_disagree_refuted.

(** ** Examples *)
(** G[0,5] (p <-> F[2,2] q) && (p U[1,4] !q), its query and an interpretation
    that satisfies it: bit 7 of the vectors is time 0. *)
Definition sample : expr :=
  EAnd [EG 0 5 (EEquiv (EAtom 0) (EF 2 2 (EAtom 1))); EU 1 4 (EAtom 0) (ENot (EAtom 1))].
Example sample_supported : legal sample /\ all_nodes bit_vector_op sample /\ wpd sample = 7%Z.
Proof. cbn. repeat split; lia. Qed.
Example sample_sat : exists q, bv_query false sample = Some q /\
  q (fun a => match a with O => 252%N | _ => 191%N end) = true /\
  q (fun a => match a with O => 252%N | _ => 255%N end) = false.
Proof. eexists. repeat split; vm_compute; reflexivity. Qed.
(** F[0,5] p and F[0,2] F[0,3] p; G[0,1] p and p. *)
Example equivalence_sample : exists q, bv_query false (differ (EF 0 5 (EAtom 0)) (EF 0 2 (EF 0 3 (EAtom 0)))) = Some q /\
  q (fun _ => 32%N) = false /\ q (fun _ => 1%N) = false.
Proof. eexists. repeat split; vm_compute; reflexivity. Qed.
Example difference_sample : exists q, bv_query false (differ (EG 0 1 (EAtom 0)) (EAtom 0)) = Some q /\
  q (fun _ => 2%N) = true.
Proof. eexists. repeat split; vm_compute; reflexivity. Qed.
Example strict_sample : exists q, bv_query true sample = Some q.
Proof. eexists. vm_compute. reflexivity. Qed.
Example uflia_sample : legal sample /\ all_nodes measured_op sample /\ cplen sample = 8%Z /\
  exists q, uf_query false sample = Some q.
Proof. split; [cbn; repeat split; lia|]. split; [cbn; tauto|]. split; [reflexivity|]. eexists. reflexivity. Qed.
Example uflia_strict_sample : all_nodes plain_future_op sample /\ exists q, uf_query true sample = Some q.
Proof. split; [cbn; repeat split; intros H; lia|]. eexists. reflexivity. Qed.
Example qf_sample : (0 < wpd sample)%Z /\ (exists q, qf_query true sample = Some q) /\ exists q, qf_query false sample = Some q.
Proof. split; [reflexivity|]. split; eexists; reflexivity. Qed.
Example unsupported_sample : bv_query false (EImpl (EAtom 0) (EAtom 1)) = None /\
  qf_query false (ER 0 1 (EAtom 0) (EAtom 1)) = None /\ uf_query false (EXor (EAtom 0) (EAtom 1)) = None.
Proof. repeat split. Qed.
