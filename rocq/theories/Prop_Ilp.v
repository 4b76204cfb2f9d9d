(** * C56: extraction by integer programming *)
From Coq Require Import String List NArith ZArith Bool Lia.
Require Import Verif.Mltl Verif.MltlShape Verif.Transform Verif.Egglog Verif.Saturate Verif.SaturateSpec
  Verif.Ilp Verif.IlpSpec Verif.IlpProofs Verif.IlpFeasible Verif.IlpChain Verif.IlpGraphs
  Verif.EgraphJson Verif.EgraphJsonSpec Verif.EgraphJsonProofs Verif.EgraphRead.
Import ListNotations.
Local Open Scope list_scope.
Local Open Scope nat_scope.

(** From a formula to egglog, and from any solution of the constraints to the
    new formula: the recursion ends without an exception, the new formula is
    equivalent, has legal intervals, reads no other atomic, and has no [->],
    [G] or [F] if extended operators are off. *)
Theorem C56_ilp_equivalent :
  forall f e cs k t g ext w v known,
    stands f (pred (length f)) e -> legal e -> to_egglog f = Some (cs, k) -> root_term cs k = Some t ->
    well_formed g -> (forall t', holds_term g (root g) t' -> egraph all_rules t t t') -> feasible g ext w v ->
    (forall a, reads e a -> known a = true) ->
    exists e' fuel, (forall more, fuel <= more -> extract known g v more = Some e') /\
      equivalent e' e /\ legal e' /\ (forall a, reads e' a -> reads e a) /\ (ext = false -> all_nodes not_extended_op e').
Proof. exact ilp_equivalent. Qed.
Print Assumptions C56_ilp_equivalent.

(** The constraints have a solution exactly if the class of the formula holds a
    term over the allowed operators. *)
Theorem C56_solvable :
  forall g ext w, well_formed g -> bounded g w -> (0 <= w)%Z ->
    (exists v, feasible g ext w v) <-> (exists t, holds_term g (root g) t /\ allowed ext t).
Proof. exact solvable_iff. Qed.
Print Assumptions C56_solvable.

(** [(a1 && (true U[3,3] a0)) && (true U[5,5] a2)] and its e-graph under the
    associative rules. *)
Definition three_nodes : list gnode :=
  [GNode (NAtomic 1) []; GNode (NConst true) []; GNode (NAtomic 0) []; GNode (NUntil 3 3) [1; 2]; GNode NAnd [0; 3];
   GNode (NAtomic 2) []; GNode (NUntil 5 5) [1; 5]; GNode NAnd [4; 6]].
Definition three_formula : expr :=
  EAnd [EAnd [EAtom 1; EU 3 3 (EConst true) (EAtom 0)]; EU 5 5 (EConst true) (EAtom 2)].
Ltac standing :=
  eapply stands_node; [reflexivity | cbn [gop gargs]; standings | cbn; reflexivity]
with standings := first [apply all_none | eapply all_more; [standing | standings]].
Example C56_case :
  stands three_nodes (pred (length three_nodes)) three_formula /\ legal three_formula /\
  (exists cs k, to_egglog three_nodes = Some (cs, k) /\ root_term cs k = Some left_term) /\
  well_formed three /\ bounded three 5 /\ wpd three_formula = 5%Z /\
  (forall t', holds_term three (root three) t' -> egraph all_rules left_term left_term t') /\
  feasible three false 5 (solution three false 5) /\
  extract (fun a => a <? 3) three three_solution 5 = Some three_formula.
Proof.
  split; [standing|]. split; [cbn; repeat split; auto|]. split; [vm_compute; eauto|].
  split; [exact three_formed|]. split; [exact three_bounded|]. split; [reflexivity|]. split.
  - intros t' H. apply (egraph_mono rules_associative all_rules); [intros r I; apply in_or_app; left; exact I|].
    apply three_saturated. exists 8. split; [|exact H]. apply three_held. left; reflexivity.
  - split; [|vm_compute; reflexivity].
    apply (solution_feasible three false 5 three_formed three_bounded ltac:(lia)). vm_compute; reflexivity.
Qed.

(** ** Reading the e-graph *)
(** The document egglog writes is read without an exception, and the e-class of
    the formula holds the same terms as in the document. *)
Theorem C56_reading :
  forall d c, written_by_egglog d -> formula_class d c ->
    exists g, read_egraph d c = Some g /\ well_formed g /\ forall t, holds_term g (root g) t <-> says d c t.
Proof. exact egraph_read. Qed.
Print Assumptions C56_reading.

(** From a formula to egglog, and from the document egglog writes and any
    solution of the constraints to the new formula. *)
Theorem C56_document_equivalent :
  forall f e cs k t d c ext w v known,
    stands f (pred (length f)) e -> legal e -> to_egglog f = Some (cs, k) -> root_term cs k = Some t ->
    written_by_egglog d -> formula_class d c -> (forall t', says d c t' -> egraph all_rules t t t') ->
    (forall a, reads e a -> known a = true) ->
    exists g, read_egraph d c = Some g /\
      (feasible g ext w v -> exists e' fuel, (forall more, fuel <= more -> extract known g v more = Some e') /\
        equivalent e' e /\ legal e' /\ (forall a, reads e' a -> reads e a) /\ (ext = false -> all_nodes not_extended_op e')).
Proof. exact json_equivalent. Qed.
Print Assumptions C56_document_equivalent.

(** The document egglog writes for the e-graph of [C56_case]. *)
Definition three_document : document :=
  [(txt "bool-0", JNode (txt "true") [] (txt "bool-0"));
   (txt "String-0", JNode (txt """a0""") [] (txt "String-0"));
   (txt "String-1", JNode (txt """a1""") [] (txt "String-1"));
   (txt "String-2", JNode (txt """a2""") [] (txt "String-2"));
   (txt "i64-0", JNode (txt "3") [] (txt "i64-0"));
   (txt "i64-1", JNode (txt "5") [] (txt "i64-1"));
   (txt "function-7-Interval", JNode (txt "Interval") [txt "i64-0"; txt "i64-0"] (txt "IntervalSort-0"));
   (txt "function-8-Interval", JNode (txt "Interval") [txt "i64-1"; txt "i64-1"] (txt "IntervalSort-1"));
   (txt "function-0-Bool", JNode (txt "Bool") [txt "bool-0"] (txt "MLTL-0"));
   (txt "function-1-Var", JNode (txt "Var") [txt "String-0"] (txt "MLTL-1"));
   (txt "function-2-Var", JNode (txt "Var") [txt "String-1"] (txt "MLTL-2"));
   (txt "function-3-Var", JNode (txt "Var") [txt "String-2"] (txt "MLTL-3"));
   (txt "function-10-Until", JNode (txt "Until") [txt "function-7-Interval"; txt "function-0-Bool"; txt "function-1-Var"] (txt "MLTL-4"));
   (txt "function-11-Until", JNode (txt "Until") [txt "function-8-Interval"; txt "function-0-Bool"; txt "function-3-Var"] (txt "MLTL-5"));
   (txt "function-12-And2", JNode (txt "And2") [txt "function-2-Var"; txt "function-10-Until"] (txt "MLTL-6"));
   (txt "function-13-And2", JNode (txt "And2") [txt "function-10-Until"; txt "function-11-Until"] (txt "MLTL-7"));
   (txt "function-14-And2", JNode (txt "And2") [txt "function-12-And2"; txt "function-11-Until"] (txt "MLTL-8"));
   (txt "function-15-And2", JNode (txt "And2") [txt "function-2-Var"; txt "function-13-And2"] (txt "MLTL-8"))].
(** The same with the parts of its ids and texts shown. *)
Definition three_parts : document :=
  [(value_id "bool" (txt "0"), JNode (bool_text true) [] (txt "bool-0"));
   (value_id "String" (txt "0"), JNode (atomic_text 0) [] (txt "String-0"));
   (value_id "String" (txt "1"), JNode (atomic_text 1) [] (txt "String-1"));
   (value_id "String" (txt "2"), JNode (atomic_text 2) [] (txt "String-2"));
   (value_id "i64" (txt "0"), JNode (z_text 3) [] (txt "i64-0"));
   (value_id "i64" (txt "1"), JNode (z_text 5) [] (txt "i64-1"));
   (function_id (txt "7") "Interval", JNode (txt "Interval") [value_id "i64" (txt "0"); value_id "i64" (txt "0")] (txt "IntervalSort-0"));
   (function_id (txt "8") "Interval", JNode (txt "Interval") [value_id "i64" (txt "1"); value_id "i64" (txt "1")] (txt "IntervalSort-1"));
   (function_id (txt "0") "Bool", JNode (txt "Bool") [value_id "bool" (txt "0")] (txt "MLTL-0"));
   (function_id (txt "1") "Var", JNode (txt "Var") [value_id "String" (txt "0")] (txt "MLTL-1"));
   (function_id (txt "2") "Var", JNode (txt "Var") [value_id "String" (txt "1")] (txt "MLTL-2"));
   (function_id (txt "3") "Var", JNode (txt "Var") [value_id "String" (txt "2")] (txt "MLTL-3"));
   (function_id (txt "10") "Until", JNode (txt "Until") [function_id (txt "7") "Interval"; function_id (txt "0") "Bool"; function_id (txt "1") "Var"] (txt "MLTL-4"));
   (function_id (txt "11") "Until", JNode (txt "Until") [function_id (txt "8") "Interval"; function_id (txt "0") "Bool"; function_id (txt "3") "Var"] (txt "MLTL-5"));
   (function_id (txt "12") "And2", JNode (txt "And2") [function_id (txt "2") "Var"; function_id (txt "10") "Until"] (txt "MLTL-6"));
   (function_id (txt "13") "And2", JNode (txt "And2") [function_id (txt "10") "Until"; function_id (txt "11") "Until"] (txt "MLTL-7"));
   (function_id (txt "14") "And2", JNode (txt "And2") [function_id (txt "12") "And2"; function_id (txt "11") "Until"] (txt "MLTL-8"));
   (function_id (txt "15") "And2", JNode (txt "And2") [function_id (txt "2") "Var"; function_id (txt "13") "And2"] (txt "MLTL-8"))].

Example three_same : three_document = three_parts.
Proof. vm_compute. reflexivity. Qed.
Ltac member := cbn [In]; repeat (first [left; reflexivity | right]).
Ltac present := unfold op_is, in_class; eexists; eexists; member.
Ltac formula_node k s := exists (txt k), s; split; [reflexivity|split; [vm_compute; tauto|split; [reflexivity|eexists; present]]].
Ltac formula_nodes :=
  repeat (apply Forall_cons; [match goal with |- formula_id _ (function_id (txt ?k) ?s) => formula_node k s end|]); apply Forall_nil.
Ltac an_entry :=
  first
    [ apply entry_int | apply entry_string | apply entry_bool_value
    | eapply entry_interval; present
    | eapply entry_bool; [reflexivity|present] | eapply entry_var; [reflexivity|present]
    | eapply entry_plain; [reflexivity|member|reflexivity|formula_nodes]
    | eapply entry_temporal; [reflexivity|member|reflexivity|eexists; eexists; eexists; split; [member|split; present]|formula_nodes] ].
Example C56_document :
  written_by_egglog three_document /\ formula_class three_document (txt "MLTL-8") /\
  read_egraph three_document (txt "MLTL-8") = Some three /\
  (forall t', says three_document (txt "MLTL-8") t' -> egraph all_rules left_term left_term t') /\
  says three_document (txt "MLTL-8") right_term.
Proof.
  assert (W : written_by_egglog three_document).
  { split; [vm_compute; repeat (constructor; [intros H; repeat (destruct H as [H|H]; [discriminate H|]); exact H|]); constructor|].
    rewrite three_same. unfold three_parts at 2. repeat (apply Forall_cons; [unfold three_parts; an_entry|]). apply Forall_nil. }
  assert (C : formula_class three_document (txt "MLTL-8")).
  { rewrite three_same. exists (function_id (txt "14") "And2"). unfold three_parts. split; [formula_node "14"%string "And2"%string|present]. }
  assert (R : read_egraph three_document (txt "MLTL-8") = Some three) by (vm_compute; reflexivity).
  destruct (C56_reading _ _ W C) as (g & R' & _ & S). rewrite R in R'. injection R' as <-.
  split; [exact W|]. split; [exact C|]. split; [exact R|]. split.
  - intros t' H. apply S in H. apply (egraph_mono rules_associative all_rules); [intros r I; apply in_or_app; left; exact I|].
    apply three_saturated. exists 8. split; [|exact H]. apply three_held. left; reflexivity.
  - apply S, three_held. right; reflexivity.
Qed.

(** Without the temporal rules and extended operators a formula with [->] has no
    solution: the command fails where it could have kept the formula. *)
Theorem C56_no_temporal_rules_refuted :
  exists e t g,
    legal e /\ to_eterm e = Some t /\ well_formed g /\ bounded g (wpd e) /\
    (forall s s', egraph other_rules t s s' <-> exists c, holds_term g c s /\ holds_term g c s') /\ holds_term g (root g) t /\
    forall v, ~ feasible g false (wpd e) v.
Proof.
  exists implication, implication_term, implication_graph.
  split; [cbn; auto|]. split; [reflexivity|]. split; [exact implication_formed|]. split.
  { intros c n l u I E. destruct c as [|[|[|c]]]; cbn in I; [destruct I as [<-|[]]; discriminate E..|destruct c; contradiction]. }
  split; [exact implication_classes|]. split; [exact (implication_holds 2 ltac:(lia))|]. exact (implication_infeasible _).
Qed.
Print Assumptions C56_no_temporal_rules_refuted.

(** The optimum need not be the term of the class with the smallest queues. *)
Theorem C56_least_memory_refuted :
  exists e t g v e1 e2,
    legal e /\ to_eterm e = Some t /\ well_formed g /\
    (forall s s', egraph rules_associative t s s' <-> exists c, holds_term g c s /\ holds_term g c s') /\ holds_term g (root g) t /\
    optimal g true (wpd e) v /\ (forall v', optimal g true (wpd e) v' -> exists fuel, extract (fun _ => true) g v' fuel = Some e1) /\
    (exists t2, holds_term g (root g) t2 /\ e2 = of_eterm t2) /\ (queue_slots e2 < queue_slots e1)%Z.
Proof.
  exists three_formula, left_term, three, three_solution, (of_eterm left_term), (of_eterm right_term).
  split; [cbn; repeat split; auto|]. split; [reflexivity|]. split; [exact three_formed|]. split; [exact three_saturated|].
  split; [apply three_held; left; reflexivity|]. change (wpd three_formula) with 5%Z. split.
  { split; [exact three_feasible|]. intros v' F. rewrite three_cost. exact (three_least v' F). }
  split; [exact three_optimum|]. split; [exists right_term; split; [apply three_held; right|]; reflexivity|vm_compute; reflexivity].
Qed.
Print Assumptions C56_least_memory_refuted.
