(** * The compiler's record of who uses an expression: C55 *)
From Coq Require Import List Arith ZArith Bool Ascii Lia.
Require Import Verif.Mltl Verif.MltlShape Verif.MltlEval Verif.Transform Verif.Pipeline Verif.Graph Verif.GraphSpec.
Require Import Verif.Binary Verif.BinarySpec Verif.Assembly Verif.Layout Verif.AssemblySpec Verif.LayoutSpec.
Require Import Verif.Scq Verif.Engine Verif.Monitoring Verif.TightSize Verif.EndToEnd Verif.DefaultSpec Verif.DefaultProofs.
Require Import Verif.Parents Verif.ParentsSpec Verif.ParentsProofs Verif.ParentsEqsat Verif.ParentsReports Verif.Prop_Default.
Import ListNotations.
Local Existing Instance C_monitor.
Local Open Scope Z_scope.

(** C55: whatever a pass constructs and replaces, no user of an expression goes
    unrecorded. *)
Theorem C55_edits_complete roots g roots' g' : edited roots g roots' g' -> complete roots g -> complete roots' g'.
Proof. exact (edited_complete roots g roots' g'). Qed.
Print Assumptions C55_edits_complete.

(** C55: eliminating common subexpressions by the record gives the program that
    replacing every use would give, and leaves the record as complete, and as
    exact, as it was. *)
Theorem C55_cse_complete T g ft pt :
  denotes (fst g) T -> well_shaped (fst g) -> nkind (fst g ft) = KSet -> nkind (fst g pt) = KSet -> complete [ft; pt] g ->
  exists depth0, forall depth, (depth0 <= depth)%nat -> exists fuel0 g' h',
    (forall fuel, (fuel0 <= fuel)%nat -> optimize_cse_recorded depth fuel g ft pt = Some g' /\ optimize_cse depth fuel (fst g) ft pt = Some h') /\
    (forall n, reachable h' [ft; pt] n -> fst g' n = h' n) /\
    complete [ft; pt] g' /\ (only_users [ft; pt] g -> only_users [ft; pt] g').
Proof. exact (cse_complete T g ft pt). Qed.
Print Assumptions C55_cse_complete.

(** C55: queue sizes computed from a complete record are never below those of the
    true siblings, and equal to them if nothing else is recorded. *)
Theorem C55_sizes roots g cls wpd bpd const nodes n : complete roots g ->
  (forall p, In p nodes <-> reachable (fst g) roots p) -> reachable (fst g) roots n ->
  scq_size (fst g) cls wpd bpd const nodes n <= recorded_size g cls wpd bpd const n /\
  (only_users roots g -> recorded_size g cls wpd bpd const n = scq_size (fst g) cls wpd bpd const nodes n).
Proof.
  exact (fun C N R => conj (size_at_least roots g cls wpd bpd const nodes n C (fun p => proj1 (N p)))
                           (fun O => size_equal roots g cls wpd bpd const nodes n C O N R)).
Qed.
Print Assumptions C55_sizes.

(** C55 with C39: from formulas to reports, with CSE, queue sizes and instruction
    selection all working on the record. *)
Theorem C55_recorded_end_to_end g T cls wpd_of bpd_of const ft pt specs aux :
  denotes (fst g) T -> well_shaped (fst g) -> nkind (fst g ft) = KSet -> nkind (fst g pt) = KSet ->
  complete [ft; pt] g -> only_users [ft; pt] g ->
  named_apart (fst g) cls -> cls ft = CSet -> cls pt = CSet -> nchildren (fst g pt) = [] ->
  tl_shaped (fst g) cls -> (forall n, reachable (fst g) [ft] n -> assemblable (fst g) cls ft_code n) ->
  (forall n e, means (fst g) cls n e -> wpd e <= wpd_of n /\ bpd_of n <= Z.of_nat (soonest e)) ->
  Forall2 (spec_of compile_expr (fst g) cls) (nchildren (fst g ft)) specs -> NoDup (map fst specs) ->
  Forall (fun s => legal (snd s) /\ all_nodes rewrite_source_op (snd s) /\
                   monitorable (compile_expr (snd s)) /\ modest_formula (compile_expr (snd s))) specs ->
  0 <= const ->
  exists depth0, forall depth, (depth0 <= depth)%nat -> exists fuel0 g' asm,
    (forall fuel, (fuel0 <= fuel)%nat -> optimize_cse_recorded depth fuel g ft pt = Some g' /\
                                         gen_assembly_recorded fuel g' cls wpd_of bpd_of const ft pt = Some asm) /\
    forall bytes, Forall fits asm -> arena_slots asm < 2 ^ 32 -> assemble_binary asm aux = Some bytes ->
    exists prog confs passes0, boot bytes = Some (prog, confs) /\
      forall tr n passes, (passes0 <= passes)%nat ->
      exists m, run passes (rows tr n) prog (init prog confs) = Some m /\
        forall num e, In (num, e) specs ->
          increasing (reports (Z.to_nat num) m) /\
          (forall t b, reported (reports (Z.to_nat num) m) t b -> (b = true <-> sat tr e t) /\ (t < n)%nat) /\
          (forall t, Z.of_nat t + wpd (compile_expr e) < Z.of_nat n -> exists b, reported (reports (Z.to_nat num) m) t b).
Proof. exact (recorded_end_to_end g T cls wpd_of bpd_of const ft pt specs aux). Qed.
Print Assumptions C55_recorded_end_to_end.

(** C55: equality saturation with greedy extraction keeps the record complete if
    the rest of the program uses none of the atomics of the formula. *)
Theorem C55_greedy_complete_partial atomic roots f old t next g fuel next' g' :
  complete roots g -> reachable (fst g) roots f -> nchildren (fst g f) = [old] -> ~ In old (f :: roots) ->
  (forall n, reachable (fst g) roots n -> (n < next)%nat) -> (forall n, (next <= n)%nat -> snd g n = []) ->
  (forall x, In x (atomics_of atomic t) -> reachable (fst g) roots x /\ x <> old) ->
  (forall x p, In x (atomics_of atomic t) -> reachable (rest f (fst g)) (roots ++ atomics_of atomic t) p ->
     ~ In x (nchildren (rest f (fst g) p))) ->
  (forall s args, t <> Tree KLeaf s args) ->
  eqsat_formula atomic false fuel f t next g = Some (next', g') -> complete roots g'.
Proof. exact (fun C Hf Hs Ho Hl Hn Ha Hu => greedy_complete atomic roots f old t next g C Hf Hs Ho Hl Hn Ha Hu fuel next' g'). Qed.
Print Assumptions C55_greedy_complete_partial.

(** C55: with extraction by integer programming, each atomic must also occur only
    once in the formula. *)
Theorem C55_ilp_complete_partial atomic roots f old t next g fuel next' g' :
  complete roots g -> reachable (fst g) roots f -> nchildren (fst g f) = [old] -> ~ In old (f :: roots) ->
  (forall n, reachable (fst g) roots n -> (n < next)%nat) ->
  (forall x, In x (atomics_of atomic t) -> reachable (fst g) roots x /\ x <> old) ->
  (forall x p, In x (atomics_of atomic t) -> reachable (rest f (fst g)) (roots ++ atomics_of atomic t) p ->
     ~ In x (nchildren (rest f (fst g) p))) ->
  NoDup (atomics_of atomic t) ->
  eqsat_formula atomic true fuel f t next g = Some (next', g') -> complete roots g'.
Proof. exact (fun C Hf Hs Ho Hl Ha Hu => ilp_complete atomic roots f old t next g C Hf Hs Ho Hl Ha Hu fuel next' g'). Qed.
Print Assumptions C55_ilp_complete_partial.

(** Formulas 0: a && F[0,5] b, 1: !a, before equality saturation. *)
Local Open Scope char_scope.
Definition eg (n : nat) : node :=
  match n with
  | 0%nat => Node KSet ["S"] [2; 3]%nat
  | 1%nat => Node KSet ["P"] []
  | 2%nat => Node KFormula ["f"] [4]%nat
  | 3%nat => Node KFormula ["g"] [5]%nat
  | 4%nat => Node KOp ["&"] [6; 7]%nat
  | 5%nat => Node KOp ["!"] [8]%nat
  | 6%nat | 8%nat => Node KLeaf ["a"] []
  | 7%nat => Node KOp ["U"] [9; 10]%nat
  | 9%nat => Node KLeaf ["1"] []
  | _ => Node KLeaf ["b"] []
  end.
Definition eg_parents (n : nat) : list nat :=
  match n with 2 | 3 => [0] | 4 => [2] | 5 => [3] | 6 | 7 => [4] | 8 => [5] | 9 | 10 => [7] | _ => [] end%nat.
Definition eg_atomic (s : list ascii) : option nat := match s with ["a"] => Some 8 | ["b"] => Some 10 | _ => None end%nat.
Definition eg_results : list (nat * tree) := [(2, tree_of eg 5 4); (3, tree_of eg 5 5)]%nat.
Definition eg_after : graph := force (eg, eg_parents) (eqsat_formulas eg_atomic false 100 eg_results 20 (eg, eg_parents)).
Definition eg_heap (n : nat) : node :=
  match n with
  | 2%nat => Node KFormula ["f"] [24]%nat
  | 3%nat => Node KFormula ["g"] [26]%nat
  | 20%nat | 25%nat => Node KLeaf ["a"] []
  | 21%nat => Node KLeaf ["1"] []
  | 22%nat => Node KLeaf ["b"] []
  | 23%nat => Node KOp ["U"] [21; 10]%nat
  | 24%nat => Node KOp ["&"] [8; 23]%nat
  | 26%nat => Node KOp ["!"] [8]%nat
  | _ => eg n
  end.
Definition eg_class (s : list ascii) : nclass :=
  match s with
  | ["S"] | ["P"] => CSet
  | ["f"] => CFormula 0
  | ["g"] => CFormula 1
  | ["U"] => CTemporal OpUntil 0 5
  | ["!"] => COp OpNot
  | ["&"] => COp OpAnd
  | ["|"] => COp OpOr
  | ["a"] => CSignal 0
  | ["b"] => CSignal 1
  | ["c"] => CSignal 2
  | _ => CBool true
  end.
Definition eg_delay (s : list ascii) : Z := match s with ["U"] | ["&"] | ["|"] => 5 | _ => 0 end.
Definition eg_cls (n : nat) : nclass := eg_class (nsym (eg_heap n)).
Definition eg_wpd (n : nat) : Z := eg_delay (nsym (eg_heap n)).
Lemma eg_after_eq : eqsat_formulas eg_atomic false 100 eg_results 20 (eg, eg_parents) = Some eg_after.
Proof. apply forced. vm_compute. reflexivity. Qed.
Lemma eg_after_heap n : fst eg_after n = eg_heap n.
Proof. do 30 (destruct n as [|n]; [vm_compute; reflexivity|]). vm_compute. reflexivity. Qed.
Definition eg_opt : graph := force (eg, eg_parents) (optimize_cse_recorded 20 200 eg_after 0 1).
Definition eg_asm : list instruction := force [] (gen_assembly_recorded 200 eg_opt eg_cls eg_wpd (fun _ => 0) 0 0 1).
Definition eg_bytes : list Z := force [] (assemble_binary eg_asm []).
Definition eg_boot : list instr * list qconf := force ([], []) (boot eg_bytes).
Definition eg_trace : trace := fun i a => match a with O => (i =? 1)%nat | _ => (i =? 4)%nat end.
Definition eg_end : monitor :=
  force (init [] []) (run 40 (rows eg_trace 10) (fst eg_boot) (init (fst eg_boot) (snd eg_boot))).
Lemma eg_opt_eq : optimize_cse_recorded 20 200 eg_after 0 1 = Some eg_opt.
Proof. apply (forced (eg, eg_parents)). vm_compute. reflexivity. Qed.
Lemma eg_asm_eq : gen_assembly_recorded 200 eg_opt eg_cls eg_wpd (fun _ => 0) 0 0 1 = Some eg_asm.
Proof. apply (forced []). vm_compute. reflexivity. Qed.
Lemma eg_bytes_eq : assemble_binary eg_asm [] = Some eg_bytes.
Proof. apply (forced []). vm_compute. reflexivity. Qed.
Lemma eg_boot_eq : boot eg_bytes = Some (fst eg_boot, snd eg_boot).
Proof. rewrite <- surjective_pairing. apply (forced ([], [])). vm_compute. reflexivity. Qed.
Lemma eg_end_eq : run 40 (rows eg_trace 10) (fst eg_boot) (init (fst eg_boot) (snd eg_boot)) = Some eg_end.
Proof. apply (forced (init [] [])). vm_compute. reflexivity. Qed.
Lemma eg_reports : reports 0 eg_end = [(false, 0); (false, 2); (false, 3); (false, 4); (false, 5); (false, 6); (false, 7); (false, 8); (false, 9)]%nat.
Proof. vm_compute. reflexivity. Qed.
Lemma eg_reach n : reachable eg [0; 1]%nat n -> In n (seq 0 11)%nat.
Proof.
  induction 1 as [n H|n c H IH Hc]; [cbn in *; tauto|].
  cbn in IH. repeat (destruct IH as [<-|IH]; [cbn in Hc; cbn; intuition|]). easy.
Qed.
Ltac user :=
  first [ apply reach_start; first [left; reflexivity|right; left; reflexivity]
        | match goal with |- reachable ?h ?l ?n =>
            let ps := eval vm_compute in (filter (fun p => existsb (Nat.eqb n) (nchildren (h p))) (seq 0 30)) in
            match ps with ?p :: _ => apply (reach_child h l p n); [user|cbn; tauto] end
          end ].
Lemma eg_complete : complete [0; 1]%nat (eg, eg_parents) /\ only_users [0; 1]%nat (eg, eg_parents).
Proof.
  split.
  - intros p c H Hc. apply eg_reach in H. cbn in H. cbn [fst snd] in *.
    repeat (destruct H as [<-|H]; [cbn in Hc; repeat (destruct Hc as [<-|Hc]; [cbn; tauto|]); destruct Hc|]). easy.
  - intros p c H Hp. apply eg_reach in H. cbn in H. cbn [fst snd] in *.
    repeat (destruct H as [<-|H]; [cbn in Hp; repeat (destruct Hp as [<-|Hp]; [split; [user|cbn; tauto]|]); destruct Hp|]). easy.
Qed.

Example C55_edits_case : exists g',
  edited [0; 1]%nat (eg, eg_parents) [0; 1]%nat g' /\ nchildren (fst g' 3%nat) = [20]%nat /\ snd g' 20%nat = [3]%nat.
Proof.
  eexists. split; [|split].
  - apply (ed_construct _ _ 20 KOp ["!"] [10]%nat).
    + intros H. apply eg_reach in H. cbn in H. intuition discriminate.
    + constructor; [user|constructor].
    + apply (ed_replace _ _ 5 20); [user|]. apply (ed_drop _ _ [0; 1]%nat); [intros n H; right; exact H|]. apply ed_none.
  - vm_compute. reflexivity.
  - vm_compute. reflexivity.
Qed.

(** The record of the graph of Prop_Default.v: hypotheses of C55_cse_complete,
    C55_sizes and, with C39_default_hypotheses, of C55_recorded_end_to_end. *)
Definition dg_parents (n : nat) : list nat := filter (fun p => existsb (Nat.eqb n) (nchildren (dg p))) (seq 0 17).
Lemma dg_reach_all n : reachable dg [0; 1]%nat n -> In n (seq 0 17)%nat.
Proof.
  induction 1 as [n H|n c H IH Hc]; [cbn in *; tauto|].
  cbn in IH. repeat (destruct IH as [<-|IH]; [cbn in Hc; cbn; intuition|]). easy.
Qed.
Example C55_recorded_hypotheses : complete [0; 1]%nat (dg, dg_parents) /\ only_users [0; 1]%nat (dg, dg_parents).
Proof.
  split.
  - intros p c H Hc. apply dg_reach_all in H. cbn in H. cbn [fst snd] in *.
    repeat (destruct H as [<-|H]; [cbn in Hc; repeat (destruct Hc as [<-|Hc]; [vm_compute; tauto|]); destruct Hc|]). easy.
  - intros p c H Hp. apply dg_reach_all in H. cbn in H. cbn [fst snd] in *.
    repeat (destruct H as [<-|H]; [vm_compute in Hp; repeat (destruct Hp as [<-|Hp]; [split; [user|cbn; tauto]|]); destruct Hp|]). easy.
Qed.
(** The object kept for F[0,3] b, 11, has both users; a waits for it (size 4). *)
Example C55_cse_case : option_map (fun g => (snd g 9%nat, snd g 11%nat, recorded_size g dg_cls dg_wpd dg_bpd 0 8))
                         (optimize_cse_recorded 20 200 (dg, dg_parents) 0 1) = Some ([5]%nat, [5; 7]%nat, 4).
Proof. vm_compute. reflexivity. Qed.

(** The formula (F[0,5] a && b) && c of Prop_Default.v, alone in its program. *)
Definition cg_parents (n : nat) : list nat := filter (fun p => existsb (Nat.eqb n) (nchildren (cg p))) (seq 0 10).
Definition cg_atomic (s : list ascii) : option nat :=
  match s with ["a"] => Some 9 | ["b"] => Some 7 | ["c"] => Some 5 | _ => None end%nat.
Definition cg_tree : tree := tree_of cg 5 3.
Lemma cg_reach_all n : reachable cg [0; 1]%nat n -> In n (seq 0 10)%nat.
Proof.
  induction 1 as [n H|n c H IH Hc]; [cbn in *; tauto|].
  cbn in IH. repeat (destruct IH as [<-|IH]; [cbn in Hc; cbn; intuition|]). easy.
Qed.
Lemma cg_rest n : reachable (rest 2 cg) ([0; 1] ++ [9; 7; 5])%nat n -> In n [0; 1; 9; 7; 5; 2]%nat.
Proof.
  induction 1 as [n H|n c H IH Hc]; [cbn in *; tauto|].
  cbn in IH. repeat (destruct IH as [<-|IH]; [cbn in Hc; cbn; intuition|]). easy.
Qed.
Example C55_greedy_hypotheses :
  complete [0; 1]%nat (cg, cg_parents) /\ reachable cg [0; 1]%nat 2%nat /\ nchildren (cg 2) = [3]%nat /\ ~ In 3%nat [2; 0; 1]%nat /\
  (forall n, reachable cg [0; 1]%nat n -> (n < 20)%nat) /\ (forall n, (20 <= n)%nat -> cg_parents n = []) /\
  atomics_of cg_atomic cg_tree = [9; 7; 5]%nat /\ NoDup [9; 7; 5]%nat /\
  (forall x, In x [9; 7; 5]%nat -> reachable cg [0; 1]%nat x /\ x <> 3%nat) /\
  (forall x p, In x [9; 7; 5]%nat -> reachable (rest 2 cg) ([0; 1] ++ [9; 7; 5])%nat p -> ~ In x (nchildren (rest 2 cg p))) /\
  (forall s args, cg_tree <> Tree KLeaf s args).
Proof.
  split.
  { intros p c H Hc. apply cg_reach_all in H. cbn in H. cbn [fst snd] in *.
    repeat (destruct H as [<-|H]; [cbn in Hc; repeat (destruct Hc as [<-|Hc]; [vm_compute; tauto|]); destruct Hc|]). easy. }
  split; [user|]. split; [reflexivity|]. split; [cbn; intuition discriminate|].
  split; [intros n H; apply cg_reach_all, in_seq in H; lia|].
  split; [intros n H; do 20 (destruct n as [|n]; [lia|]); reflexivity|].
  split; [vm_compute; reflexivity|]. split; [repeat constructor; cbn; intuition discriminate|].
  split; [intros x [<-|[<-|[<-|[]]]]; (split; [user|discriminate])|].
  split; [|discriminate].
  intros x p Hx H. apply cg_rest in H. cbn in H.
  repeat (destruct H as [<-|H]; [cbn; cbn in Hx; intuition congruence|]). easy.
Qed.
Example C55_greedy_case :
  option_map (fun r => map (fun n => (nchildren (fst (snd r) n), snd (snd r) n)) [2; 9; 7; 5]%nat)
    (eqsat_formula cg_atomic false 100 2 cg_tree 20 (cg, cg_parents)) = Some [([26], [0]); ([], [22]); ([], [24]); ([], [26])]%nat /\
  option_map (fun r => map (fun n => (nchildren (fst (snd r) n), snd (snd r) n)) [2; 9; 7; 5]%nat)
    (eqsat_formula cg_atomic true 100 2 cg_tree 20 (cg, cg_parents)) = Some [([23], [0]); ([], [21]); ([], [22]); ([], [23])]%nat.
Proof. split; vm_compute; reflexivity. Qed.

Definition eg_formula : expr := EAnd [EAtom 0; EF 0 5 (EAtom 1)].
Definition eg_expr (n : nat) : option expr :=
  let u := EU 0 5 (EConst true) (EAtom 1) in
  match n with
  | 0%nat | 1%nat | 2%nat | 3%nat => None
  | 4%nat | 24%nat => Some (EAnd [EAtom 0; u])
  | 5%nat | 26%nat => Some (ENot (EAtom 0))
  | 6%nat | 8%nat | 20%nat | 25%nat => Some (EAtom 0)
  | 7%nat | 23%nat => Some u
  | 9%nat | 21%nat => Some (EConst true)
  | _ => Some (EAtom 1)
  end.
Lemma eg_means n e : eg_expr n = Some e -> means eg_heap eg_cls n e.
Proof.
  do 27 (destruct n as [|n]; [cbn; intros E; try discriminate; injection E as <-; meaning|]).
  cbn; intros E; injection E as <-; meaning.
Qed.

(** The equality saturation pass itself does not: when two formulas share an
    input, the one read back last is all its record mentions.  Even if the pass
    leaves both formulas as they were, the other formula then gets a queue that
    is too short, and a wrong report, although the formula is one for which
    C55_recorded_end_to_end promises right ones. *)
Theorem C55_greedy_shared_input_refuted :
  exists atomic g T results cls wpd_of e1 e2,
    complete [0; 1]%nat g /\ only_users [0; 1]%nat g /\ denotes (fst g) T /\
    Forall2 (fun f r => fst r = f /\ exists c, nchildren (fst g f) = [c] /\ T c = snd r) (nchildren (fst g 0%nat)) results /\
    Forall (fun e => legal e /\ all_nodes rewrite_source_op e /\ monitorable (compile_expr e) /\ modest_formula (compile_expr e)) [e1; e2] /\
    exists g', eqsat_formulas atomic false 100 results 20 g = Some g' /\ ~ complete [0; 1]%nat g' /\
      Forall2 (spec_of compile_expr (fst g') cls) (nchildren (fst g' 0%nat)) [(0, e1); (1, e2)] /\
      (forall n e, means (fst g') cls n e -> wpd_of n = wpd e /\ 0 = bpd e) /\
      exists g'' asm bytes prog confs tr n m t,
        optimize_cse_recorded 20 200 g' 0 1 = Some g'' /\ gen_assembly_recorded 200 g'' cls wpd_of (fun _ => 0) 0 0 1 = Some asm /\
        assemble_binary asm [] = Some bytes /\ boot bytes = Some (prog, confs) /\
        run 40 (rows tr n) prog (init prog confs) = Some m /\ reported (reports 0 m) t false /\ sat tr e1 t.
Proof.
  exists eg_atomic, (eg, eg_parents), (tree_of eg 5), eg_results, eg_cls, eg_wpd, eg_formula, (ENot (EAtom 0)).
  split; [apply eg_complete|]. split; [apply eg_complete|].
  split; [intros n; do 11 (destruct n as [|n]; [reflexivity|]); reflexivity|].
  split; [repeat constructor; eexists; split; reflexivity|].
  split.
  { constructor; [|constructor; [|constructor]]; (repeat apply conj; cbn; auto; try lia; try exact I; try discriminate).
    all: try (eexists; reflexivity).
    left. split; [exact I|left]. split; [right; eexists; reflexivity|exact I]. }
  exists eg_after. split; [exact eg_after_eq|].
  split.
  { intros C. specialize (C 24%nat 8%nat).
    assert (H : In 24%nat (snd eg_after 8%nat)).
    { apply C; [|rewrite eg_after_heap; left; reflexivity].
      apply reach_child with 2%nat; [|rewrite eg_after_heap; left; reflexivity].
      apply reach_child with 0%nat; [|rewrite eg_after_heap; left; reflexivity]. apply reach_start. left. reflexivity. }
    vm_compute in H. intuition discriminate. }
  split.
  { rewrite eg_after_heap. constructor; [|constructor; [|constructor]]; (split; [reflexivity|]); (split; [cbn; lia|]); eexists;
      (split; [rewrite eg_after_heap; reflexivity|]); apply (means_ext eg_heap); try (intros; symmetry; apply eg_after_heap); apply eg_means; reflexivity. }
  split.
  { intros n e M. apply (means_ext _ eg_heap _ _ _ eg_after_heap) in M. destruct (eg_expr n) as [e'|] eqn:E.
    - rewrite <- (means_det eg_heap eg_cls n e' (eg_means n e' E) e M). clear M.
      do 27 (destruct n as [|n]; [cbn in E; try discriminate; injection E as <-; split; reflexivity|]).
      cbn in E. injection E as <-. split; reflexivity.
    - do 4 (destruct n as [|n]; [inversion M; discriminate|]). do 23 (destruct n as [|n]; [discriminate|]). discriminate. }
  exists eg_opt, eg_asm, eg_bytes, (fst eg_boot), (snd eg_boot), eg_trace, 10%nat, eg_end, 1%nat.
  split; [exact eg_opt_eq|]. split; [exact eg_asm_eq|]. split; [exact eg_bytes_eq|]. split; [exact eg_boot_eq|]. split; [exact eg_end_eq|]. split.
  - rewrite eg_reports. exists [(false, 0%nat)], 2%nat, [(false, 3); (false, 4); (false, 5); (false, 6); (false, 7); (false, 8); (false, 9)]%nat.
    split; [reflexivity|]. split; [lia|]. intros v [<-|[]]. cbn. lia.
  - apply den_sat. vm_compute. reflexivity.
Qed.
Print Assumptions C55_greedy_shared_input_refuted.

(** Formula 0: (a && F[0,5] b) || (!a && F[0,5] c). *)
Definition ig (n : nat) : node :=
  match n with
  | 0%nat => Node KSet ["S"] [2]%nat
  | 1%nat => Node KSet ["P"] []
  | 2%nat => Node KFormula ["f"] [3]%nat
  | 3%nat => Node KOp ["|"] [4; 5]%nat
  | 4%nat => Node KOp ["&"] [6; 7]%nat
  | 5%nat => Node KOp ["&"] [8; 9]%nat
  | 6%nat | 12%nat => Node KLeaf ["a"] []
  | 7%nat => Node KOp ["U"] [10; 11]%nat
  | 8%nat => Node KOp ["!"] [12]%nat
  | 9%nat => Node KOp ["U"] [13; 14]%nat
  | 10%nat | 13%nat => Node KLeaf ["1"] []
  | 11%nat => Node KLeaf ["b"] []
  | _ => Node KLeaf ["c"] []
  end.
Definition ig_parents (n : nat) : list nat := filter (fun p => existsb (Nat.eqb n) (nchildren (ig p))) (seq 0 15).
Definition ig_atomic (s : list ascii) : option nat :=
  match s with ["a"] => Some 12 | ["b"] => Some 11 | ["c"] => Some 14 | _ => None end%nat.
Definition ig_after : graph := force (ig, ig_parents) (eqsat_formulas ig_atomic true 0 [(2%nat, tree_of ig 6 3)] 20 (ig, ig_parents)).
Definition ig_heap (n : nat) : node :=
  match n with
  | 2%nat => Node KFormula ["f"] [27]%nat
  | 20%nat | 24%nat => Node KLeaf ["1"] []
  | 21%nat => Node KOp ["U"] [20; 11]%nat
  | 22%nat => Node KOp ["&"] [12; 21]%nat
  | 23%nat => Node KOp ["!"] [12]%nat
  | 25%nat => Node KOp ["U"] [24; 14]%nat
  | 26%nat => Node KOp ["&"] [23; 25]%nat
  | 27%nat => Node KOp ["|"] [22; 26]%nat
  | _ => ig n
  end.
Definition ig_cls (n : nat) : nclass := eg_class (nsym (ig_heap n)).
Definition ig_wpd (n : nat) : Z := eg_delay (nsym (ig_heap n)).
Lemma ig_after_eq : eqsat_formulas ig_atomic true 0 [(2%nat, tree_of ig 6 3)] 20 (ig, ig_parents) = Some ig_after.
Proof. apply forced. vm_compute. reflexivity. Qed.
Lemma ig_after_heap n : fst ig_after n = ig_heap n.
Proof. do 30 (destruct n as [|n]; [vm_compute; reflexivity|]). vm_compute. reflexivity. Qed.
Definition ig_opt : graph := force (ig, ig_parents) (optimize_cse_recorded 20 200 ig_after 0 1).
Definition ig_asm : list instruction := force [] (gen_assembly_recorded 200 ig_opt ig_cls ig_wpd (fun _ => 0) 0 0 1).
Definition ig_bytes : list Z := force [] (assemble_binary ig_asm []).
Definition ig_boot : list instr * list qconf := force ([], []) (boot ig_bytes).
Definition ig_end : monitor :=
  force (init [] []) (run 40 (rows eg_trace 10) (fst ig_boot) (init (fst ig_boot) (snd ig_boot))).
Definition ig_formula : expr := EOr [EAnd [EAtom 0; EF 0 5 (EAtom 1)]; EAnd [ENot (EAtom 0); EF 0 5 (EAtom 2)]].
Definition ig_expr (n : nat) : option expr :=
  let u := EU 0 5 (EConst true) (EAtom 1) in
  let v := EU 0 5 (EConst true) (EAtom 2) in
  match n with
  | 0%nat | 1%nat | 2%nat => None
  | 3%nat | 27%nat => Some (EOr [EAnd [EAtom 0; u]; EAnd [ENot (EAtom 0); v]])
  | 4%nat | 22%nat => Some (EAnd [EAtom 0; u])
  | 5%nat | 26%nat => Some (EAnd [ENot (EAtom 0); v])
  | 6%nat | 12%nat => Some (EAtom 0)
  | 7%nat | 21%nat => Some u
  | 8%nat | 23%nat => Some (ENot (EAtom 0))
  | 9%nat | 25%nat => Some v
  | 10%nat | 13%nat | 20%nat | 24%nat => Some (EConst true)
  | 11%nat => Some (EAtom 1)
  | _ => Some (EAtom 2)
  end.
Lemma ig_means n e : ig_expr n = Some e -> means ig_heap ig_cls n e.
Proof.
  do 28 (destruct n as [|n]; [cbn; intros E; try discriminate; injection E as <-; meaning|]).
  cbn; intros E; injection E as <-; meaning.
Qed.
Lemma ig_opt_eq : optimize_cse_recorded 20 200 ig_after 0 1 = Some ig_opt.
Proof. apply (forced (ig, ig_parents)). vm_compute. reflexivity. Qed.
Lemma ig_asm_eq : gen_assembly_recorded 200 ig_opt ig_cls ig_wpd (fun _ => 0) 0 0 1 = Some ig_asm.
Proof. apply (forced []). vm_compute. reflexivity. Qed.
Lemma ig_bytes_eq : assemble_binary ig_asm [] = Some ig_bytes.
Proof. apply (forced []). vm_compute. reflexivity. Qed.
Lemma ig_boot_eq : boot ig_bytes = Some (fst ig_boot, snd ig_boot).
Proof. rewrite <- surjective_pairing. apply (forced ([], [])). vm_compute. reflexivity. Qed.
Lemma ig_end_eq : run 40 (rows eg_trace 10) (fst ig_boot) (init (fst ig_boot) (snd ig_boot)) = Some ig_end.
Proof. apply (forced (init [] [])). vm_compute. reflexivity. Qed.
Lemma ig_reports : reports 0 ig_end = [(true, 0); (false, 1); (true, 4)]%nat.
Proof. vm_compute. reflexivity. Qed.
Lemma ig_reach n : reachable ig [0; 1]%nat n -> In n (seq 0 15)%nat.
Proof.
  induction 1 as [n H|n c H IH Hc]; [cbn in *; tauto|].
  cbn in IH. repeat (destruct IH as [<-|IH]; [cbn in Hc; cbn; intuition|]). easy.
Qed.
Lemma ig_complete : complete [0; 1]%nat (ig, ig_parents) /\ only_users [0; 1]%nat (ig, ig_parents).
Proof.
  split.
  - intros p c H Hc. apply ig_reach in H. cbn in H. cbn [fst snd] in *.
    repeat (destruct H as [<-|H]; [cbn in Hc; repeat (destruct Hc as [<-|Hc]; [vm_compute; tauto|]); destruct Hc|]). easy.
  - intros p c H Hp. apply ig_reach in H. cbn in H. cbn [fst snd] in *.
    repeat (destruct H as [<-|H]; [vm_compute in Hp; repeat (destruct Hp as [<-|Hp]; [split; [user|cbn; tauto]|]); destruct Hp|]). easy.
Qed.

(** With extraction by integer programming one formula is enough: an input that
    occurs twice in it keeps only its last user. *)
Theorem C55_ilp_repeated_input_refuted :
  exists atomic g T result cls wpd_of e,
    complete [0; 1]%nat g /\ only_users [0; 1]%nat g /\ denotes (fst g) T /\
    nchildren (fst g 0%nat) = [2%nat] /\ (exists c, nchildren (fst g 2%nat) = [c] /\ T c = result) /\
    legal e /\ all_nodes rewrite_source_op e /\ monitorable (compile_expr e) /\ modest_formula (compile_expr e) /\
    exists g', eqsat_formulas atomic true 0 [(2%nat, result)] 20 g = Some g' /\ ~ complete [0; 1]%nat g' /\
      Forall2 (spec_of compile_expr (fst g') cls) (nchildren (fst g' 0%nat)) [(0, e)] /\
      (forall n e, means (fst g') cls n e -> wpd_of n = wpd e /\ 0 = bpd e) /\
      exists g'' asm bytes prog confs tr n m t,
        optimize_cse_recorded 20 200 g' 0 1 = Some g'' /\ gen_assembly_recorded 200 g'' cls wpd_of (fun _ => 0) 0 0 1 = Some asm /\
        assemble_binary asm [] = Some bytes /\ boot bytes = Some (prog, confs) /\
        run 40 (rows tr n) prog (init prog confs) = Some m /\ reported (reports 0 m) t false /\ sat tr e t.
Proof.
  exists ig_atomic, (ig, ig_parents), (tree_of ig 6), (tree_of ig 6 3), ig_cls, ig_wpd, ig_formula.
  split; [apply ig_complete|]. split; [apply ig_complete|].
  split; [intros n; do 15 (destruct n as [|n]; [reflexivity|]); reflexivity|].
  split; [reflexivity|]. split; [exists 3%nat; split; reflexivity|].
  split; [cbn; repeat split; auto; lia|]. split; [cbn; auto 20|].
  split.
  { left. split; [|left]; (left; split; [exact I|left; split; [right; eexists; reflexivity|exact I]]). }
  split; [cbn; repeat apply conj; auto; try lia; try discriminate; try exact I; eexists; reflexivity|].
  exists ig_after. split; [exact ig_after_eq|].
  split.
  { intros C. specialize (C 22%nat 12%nat).
    assert (H : In 22%nat (snd ig_after 12%nat)).
    { apply C; [|rewrite ig_after_heap; left; reflexivity].
      apply reach_child with 27%nat; [|rewrite ig_after_heap; left; reflexivity].
      apply reach_child with 2%nat; [|rewrite ig_after_heap; left; reflexivity].
      apply reach_child with 0%nat; [|rewrite ig_after_heap; left; reflexivity]. apply reach_start. left. reflexivity. }
    vm_compute in H. intuition discriminate. }
  split.
  { rewrite ig_after_heap. constructor; [|constructor]. split; [reflexivity|]. split; [cbn; lia|]. eexists.
    split; [rewrite ig_after_heap; reflexivity|]. apply (means_ext ig_heap); [intros; symmetry; apply ig_after_heap|]. apply ig_means. reflexivity. }
  split.
  { intros n e M. apply (means_ext _ ig_heap _ _ _ ig_after_heap) in M. destruct (ig_expr n) as [e'|] eqn:E.
    - rewrite <- (means_det ig_heap ig_cls n e' (ig_means n e' E) e M). clear M.
      do 28 (destruct n as [|n]; [cbn in E; try discriminate; injection E as <-; split; reflexivity|]).
      cbn in E. injection E as <-. split; reflexivity.
    - do 3 (destruct n as [|n]; [inversion M; discriminate|]). do 25 (destruct n as [|n]; [discriminate|]). discriminate. }
  exists ig_opt, ig_asm, ig_bytes, (fst ig_boot), (snd ig_boot), eg_trace, 10%nat, ig_end, 1%nat.
  split; [exact ig_opt_eq|]. split; [exact ig_asm_eq|]. split; [exact ig_bytes_eq|]. split; [exact ig_boot_eq|]. split; [exact ig_end_eq|]. split.
  - rewrite ig_reports. exists [(true, 0%nat)], 1%nat, [(true, 4%nat)]. split; [reflexivity|]. split; [lia|]. intros v [<-|[]]. cbn. lia.
  - apply den_sat. vm_compute. reflexivity.
Qed.
Print Assumptions C55_ilp_repeated_input_refuted.
