(** * Numeric expressions: C28, C29, and C39 from signals to reports

    [types] tells which signals are integers (or Booleans, which the host passes
    as integers).  A program's atomics are nodes of class [CAtomic] above numeric
    expressions; [stands] reads a node as an expression and [yields] gives its
    value at a step, integers in 32-bit two's complement.  The chain is assembly
    ([gen_assembly]), packing, the C loader ([load], [bz_load]) and the
    booleanizer ([bz_run]); [bz_run] is [None] when an instruction has no defined
    result in C. *)
From Coq Require Import List Arith ZArith Bool Ascii Lia.
Require Import Verif.Mltl Verif.MltlShape Verif.Transform Verif.Pipeline Verif.Graph Verif.GraphSpec.
Require Import Verif.Binary Verif.BinarySpec Verif.Assembly Verif.Layout Verif.AssemblySpec Verif.LayoutSpec.
Require Import Verif.Scq Verif.Engine Verif.Monitoring Verif.EndToEnd Verif.EndToEndProofs.
Require Import Verif.Booleanizer Verif.BooleanizerSpec Verif.BooleanizerOps Verif.BooleanizerChain Verif.BooleanizerPrev.
Import ListNotations.
Local Existing Instance C_monitor.
Local Open Scope Z_scope.

(** C28: after step [t] every atomic holds the value of its expression; the
    monitor never goes wrong as long as the expressions have values. *)
Theorem C28_atomics_evaluated h T cls types wpd_of bpd_of const ft pt aux :
  denotes h T -> tl_shaped h cls ->
  (forall n, reachable h [ft] n -> assemblable h cls ft_code n) ->
  (forall n, reachable h [pt] n -> assemblable h cls pt_code n) ->
  (forall n, reachable h [ft] n -> reachable h [pt] n -> engine_of (cls n) <> EngBz) ->
  numeric h cls types (in_program h ft pt) ->
  exists fuel0 asm, (forall fuel, (fuel0 <= fuel)%nat -> gen_assembly fuel h cls wpd_of bpd_of const ft pt = Some asm) /\
  forall bytes, Forall fits asm -> assemble_binary asm aux = Some bytes ->
  exists acts, load bytes = Some acts /\
    forall F inp, typed types inp ->
      (forall t s, Z.of_nat t < 2 ^ 31 -> bz_run F (fst (bz_load acts)) (snd (bz_load acts)) inp (S t) = Some s ->
         forall n aid x e, in_program h ft pt n -> cls n = CAtomic aid -> nchildren (h n) = [x] -> stands h cls types x e true ->
         exists v, yields F inp t e (VInt v) /\ atomic_buffer s aid = negb (v =? 0)) /\
      (forall t, Z.of_nat t <= 2 ^ 31 ->
         (forall t' n e int, (t' < t)%nat -> in_program h ft pt n -> stands h cls types n e int -> exists v, yields F inp t' e v) ->
         exists s, bz_run F (fst (bz_load acts)) (snd (bz_load acts)) inp t = Some s).
Proof. exact (chain h T cls types wpd_of bpd_of const ft pt aux). Qed.
Print Assumptions C28_atomics_evaluated.

(** The value of an expression is unique, so the atomic is too. *)
Theorem C28_values_unique F inp t e v w : yields F inp t e v -> yields F inp t e w -> v = w.
Proof. intros H1 H2. exact (yields_unique F inp t e v H1 w H2). Qed.
Print Assumptions C28_values_unique.

(** C29: an atomic that compares [prev init e] with a constant holds at step
    [t + 1] what one that compares [e] with it holds at step [t], and compares
    [init] at step 0. *)
Theorem C29_prev_shifts h T cls types wpd_of bpd_of const ft pt aux :
  denotes h T -> tl_shaped h cls ->
  (forall n, reachable h [ft] n -> assemblable h cls ft_code n) ->
  (forall n, reachable h [pt] n -> assemblable h cls pt_code n) ->
  (forall n, reachable h [ft] n -> reachable h [pt] n -> engine_of (cls n) <> EngBz) ->
  numeric h cls types (in_program h ft pt) ->
  exists fuel0 asm, (forall fuel, (fuel0 <= fuel)%nat -> gen_assembly fuel h cls wpd_of bpd_of const ft pt = Some asm) /\
  forall bytes, Forall fits asm -> assemble_binary asm aux = Some bytes ->
  exists acts, load bytes = Some acts /\
    forall F inp o init e c n p x aid n' x' aid', typed types inp ->
      in_program h ft pt n -> cls n = CAtomic aid -> nchildren (h n) = [x] ->
      stands h cls types x (NBinary o (NPrev init e) (NValue c)) true ->
      in_program h ft pt n' -> cls n' = CAtomic aid' -> nchildren (h n') = [x'] ->
      stands h cls types x' (NBinary o e (NValue c)) true ->
      bz_run F (fst (bz_load acts)) (snd (bz_load acts)) inp 1 = Some p ->
      (exists v, yields F inp 0 (NBinary o (NValue init) (NValue c)) (VInt v) /\ atomic_buffer p aid = negb (v =? 0)) /\
      forall t s s', Z.of_nat t + 1 < 2 ^ 31 ->
        bz_run F (fst (bz_load acts)) (snd (bz_load acts)) inp (S t) = Some s ->
        bz_run F (fst (bz_load acts)) (snd (bz_load acts)) inp (S (S t)) = Some s' ->
        atomic_buffer s' aid = atomic_buffer s aid'.
Proof. exact (prev_shifts h T cls types wpd_of bpd_of const ft pt aux). Qed.
Print Assumptions C29_prev_shifts.

(** C39 from signals: the reports are true of the formulas over the trace that
    gives every atomic the value of its expression. *)
Theorem C39_signals_to_reports h T cls types wpd_of bpd_of const ft pt specs aux :
  denotes h T -> cls ft = CSet -> cls pt = CSet -> nchildren (h pt) = [] ->
  tl_shaped h cls -> (forall n, reachable h [ft] n -> assemblable h cls ft_code n) ->
  Forall2 (spec_of compile_expr h cls) (nchildren (h ft)) specs -> NoDup (map fst specs) ->
  Forall (fun s => legal (snd s) /\ all_nodes rewrite_source_op (snd s) /\
                   monitorable (compile_expr (snd s)) /\ wpd (compile_expr (snd s)) < const) specs ->
  0 <= const -> numeric h cls types (reachable h [ft]) ->
  exists fuel0 asm, (forall fuel, (fuel0 <= fuel)%nat -> gen_assembly fuel h cls wpd_of bpd_of const ft pt = Some asm) /\
  forall bytes, Forall fits asm -> arena_slots asm < 2 ^ 32 -> assemble_binary asm aux = Some bytes ->
  exists acts prog confs passes0, load bytes = Some acts /\ boot bytes = Some (prog, confs) /\
    forall F inp n passes, typed types inp -> Z.of_nat n <= 2 ^ 31 -> (passes0 <= passes)%nat ->
    (forall t x e int, (t < n)%nat -> reachable h [ft] x -> stands h cls types x e int -> exists v, yields F inp t e v) ->
    exists rs tr m, bz_rows F (fst (bz_load acts)) (snd (bz_load acts)) inp n = Some rs /\
      run passes rs prog (init prog confs) = Some m /\
      (forall t a k x e, (t < n)%nat -> reachable h [ft] k -> cls k = CAtomic a -> nchildren (h k) = [x] ->
         stands h cls types x e true -> 0 <= a ->
         exists v, yields F inp t e (VInt v) /\ tr t (Z.to_nat a) = negb (v =? 0)) /\
      forall num e, In (num, e) specs ->
        increasing (reports (Z.to_nat num) m) /\
        (forall t b, reported (reports (Z.to_nat num) m) t b -> (b = true <-> sat tr e t) /\ (t < n)%nat) /\
        (forall t, Z.of_nat t + wpd (compile_expr e) < Z.of_nat n -> exists b, reported (reports (Z.to_nat num) m) t b).
Proof. exact (signals_to_reports h T cls types wpd_of bpd_of const ft pt specs aux). Qed.
Print Assumptions C39_signals_to_reports.

(** ** Examples: F[0,1] (prev(2, y + 1) > 2), y + 1 > 2 and x > y + 1, where
    signals 0 and 1 are x and y. *)
Definition sym (n : nat) : list ascii := [ascii_of_nat (97 + n)].
Definition bzg (n : nat) : node :=
  match n with
  | 0%nat => Node KSet (sym 0) [2; 11; 16]%nat
  | 1%nat => Node KSet (sym 1) []
  | 2%nat => Node KFormula (sym 2) [13]%nat
  | 3%nat => Node KOp (sym 3) [4]%nat
  | 4%nat => Node KOp (sym 4) [6; 7]%nat
  | 6%nat => Node KOp (sym 6) [7; 8]%nat
  | 8%nat => Node KOp (sym 8) [9; 10]%nat
  | 11%nat => Node KFormula (sym 11) [12]%nat
  | 12%nat => Node KOp (sym 12) [15]%nat
  | 13%nat => Node KOp (sym 13) [14; 3]%nat
  | 15%nat => Node KOp (sym 15) [8; 7]%nat
  | 16%nat => Node KFormula (sym 16) [17]%nat
  | 17%nat => Node KOp (sym 17) [18]%nat
  | 18%nat => Node KOp (sym 18) [5; 8]%nat
  | _ => Node KLeaf (sym n) []
  end.
Definition bz_cls (n : nat) : nclass :=
  match n with
  | 0%nat | 1%nat => CSet
  | 2%nat => CFormula 0
  | 3%nat => CAtomic 0
  | 4%nat => Assembly.CBz 14
  | 5%nat => CBzLoad 1 0
  | 6%nat => Assembly.CBz 39
  | 7%nat => CBzConst 3 (BzInt 2)
  | 8%nat => Assembly.CBz 24
  | 9%nat => CBzLoad 1 1
  | 10%nat => CBzConst 3 (BzInt 1)
  | 11%nat => CFormula 1
  | 12%nat => CAtomic 1
  | 13%nat => CTemporal OpUntil 0 1
  | 15%nat => Assembly.CBz 14
  | 16%nat => CFormula 2
  | 17%nat => CAtomic 2
  | 18%nat => Assembly.CBz 14
  | _ => CBool true
  end.
Fixpoint tree_of (g : nat -> node) (fuel n : nat) : tree :=
  match fuel with
  | O => Tree (nkind (g n)) (nsym (g n)) []
  | S fuel => Tree (nkind (g n)) (nsym (g n)) (map (tree_of g fuel) (nchildren (g n)))
  end.
Definition ints (_ : Z) : bool := true.
Definition y1 : nexpr := NBinary Add (NSignal 1) (NValue (VInt 1)).
Definition two : nexpr := NValue (VInt 2).
Definition bz_specs : list (Z * expr) := [(0, EF 0 1 (EAtom 0)); (1, EAtom 1); (2, EAtom 2)].
Ltac leaf := repeat first [reflexivity | lia | vm_compute; first [reflexivity | intros; discriminate] | split].
Lemma bz_y1 : stands bzg bz_cls ints 8 y1 true.
Proof.
  apply (st_binary _ _ _ 8 Add 24 9 10 _ _ true); try reflexivity; [apply (st_signal _ _ ints 9 1); leaf|].
  apply (st_value _ _ _ 10 (VInt 1)). leaf.
Qed.
Lemma bz_two : stands bzg bz_cls ints 7 two true.
Proof. apply (st_value _ _ _ 7 (VInt 2)). leaf. Qed.
Lemma bz_prev : stands bzg bz_cls ints 6 (NPrev (VInt 2) y1) true.
Proof. apply (st_prev _ _ _ 6 7 8 (VInt 2)); try reflexivity; [leaf|exact bz_y1]. Qed.
Lemma bz_reach n : reachable bzg [0%nat] n -> In n (0 :: seq 2 17)%nat.
Proof.
  induction 1 as [n H|n c H IH Hc]; [destruct H as [<-|[]]; cbn; auto|].
  cbn in IH. repeat (destruct IH as [<-|IH]; [cbn in Hc; cbn; intuition|]). easy.
Qed.
Lemma bz_nodes n : reachable bzg [0%nat] n -> bz_class (bz_cls n) -> exists e int, stands bzg bz_cls ints n e int.
Proof.
  intros R B. apply bz_reach in R. cbn in R.
  repeat (destruct R as [<-|R]; [try contradiction B|]); try easy.
  - exists (NBinary Gt (NPrev (VInt 2) y1) two), true. apply (st_binary _ _ _ 4 Gt 14 6 7 _ _ true); try reflexivity; [exact bz_prev|exact bz_two].
  - do 2 eexists. apply (st_signal _ _ ints 5 0); leaf.
  - do 2 eexists. exact bz_prev.
  - do 2 eexists. exact bz_two.
  - do 2 eexists. exact bz_y1.
  - do 2 eexists. apply (st_signal _ _ ints 9 1); leaf.
  - do 2 eexists. apply (st_value _ _ _ 10 (VInt 1)). leaf.
  - exists (NBinary Gt y1 two), true. apply (st_binary _ _ _ 15 Gt 14 8 7 _ _ true); try reflexivity; [exact bz_y1|exact bz_two].
  - exists (NBinary Gt (NSignal 0) y1), true. apply (st_binary _ _ _ 18 Gt 14 5 8 _ _ true); try reflexivity; [apply (st_signal _ _ ints 5 0); leaf|exact bz_y1].
Qed.
Example C28_hypotheses :
  denotes bzg (tree_of bzg 7) /\ tl_shaped bzg bz_cls /\
  (forall n, reachable bzg [0%nat] n -> assemblable bzg bz_cls ft_code n) /\
  numeric bzg bz_cls ints (reachable bzg [0%nat]).
Proof.
  split; [|split; [|split]].
  - intros n. do 19 (destruct n as [|n]; [reflexivity|]). reflexivity.
  - intros n. do 19 (destruct n as [|n]; [cbn; first [exact I|eexists; split; [reflexivity|exact I]|repeat constructor]|]). exact I.
  - intros n R. apply bz_reach in R. cbn in R.
    repeat (destruct R as [<-|R]; [cbn; first [exact I|reflexivity|eexists; split; [reflexivity|discriminate]|
      split; [discriminate|lia]|eexists; split; [reflexivity|exact I]|repeat constructor]|]). easy.
  - split.
    + exact bz_nodes.
    + intros n m aid Rn Rm. apply bz_reach in Rn. apply bz_reach in Rm. cbn in Rn, Rm.
      repeat (destruct Rn as [<-|Rn]; [intros E; try discriminate E; injection E as <-;
        repeat (destruct Rm as [<-|Rm]; [intros E; try discriminate E; reflexivity|]); easy|]). easy.
    + intros n R x0 x. apply bz_reach in R. cbn in R.
      repeat (destruct R as [<-|R]; [intros C; try discriminate C; intros E; cbn in E; injection E as <- <-; discriminate|]). easy.
Qed.
Example C39_signal_hypotheses :
  bz_cls 0 = CSet /\ bz_cls 1 = CSet /\ nchildren (bzg 1) = [] /\
  Forall2 (spec_of compile_expr bzg bz_cls) (nchildren (bzg 0)) bz_specs /\ NoDup (map fst bz_specs) /\
  Forall (fun s => legal (snd s) /\ all_nodes rewrite_source_op (snd s) /\
                   monitorable (compile_expr (snd s)) /\ wpd (compile_expr (snd s)) < 2) bz_specs.
Proof.
  do 3 (split; [reflexivity|]). split; [|split].
  - constructor; [|constructor; [|constructor; [|constructor]]]; (split; [reflexivity|]); (split; [cbn; lia|]); eexists; (split; [reflexivity|]).
    + apply (means_until _ _ 13 14 3 0 1 (EConst true)); [reflexivity|lia|reflexivity|apply means_const; reflexivity|].
      apply (means_atomic _ _ 3 0); [reflexivity|lia].
    + apply (means_atomic _ _ 12 1); [reflexivity|lia].
    + apply (means_atomic _ _ 17 2); [reflexivity|lia].
  - repeat constructor; cbn; intuition discriminate.
  - repeat constructor; cbn; eauto 10; lia.
Qed.
(** The two comparisons of C29_prev_shifts are among its atomics. *)
Example C29_hypotheses :
  stands bzg bz_cls ints 4 (NBinary Gt (NPrev (VInt 2) y1) two) true /\ stands bzg bz_cls ints 15 (NBinary Gt y1 two) true.
Proof.
  split; [apply (st_binary _ _ _ 4 Gt 14 6 7 _ _ true); try reflexivity; [exact bz_prev|exact bz_two]|].
  apply (st_binary _ _ _ 15 Gt 14 8 7 _ _ true); try reflexivity; [exact bz_y1|exact bz_two].
Qed.
(** The chain on that graph with x = 2^31 - 1, 0, 3, 3 and y = 2^31 - 1, 5, 0,
    1: at step 0 the sum wraps around. *)
Definition no_floats : float_ops :=
  FloatOps (fun _ _ => 0) (fun _ _ => 0) (fun _ _ => 0) (fun _ _ => 0) (fun _ _ => 0) (fun _ => 0) (fun _ => 0) (fun _ => 0) (fun _ _ => false) 0.
Definition bz_inputs (t : nat) (k : Z) : value :=
  VInt (nth t (if k =? 0 then [2147483647; 0; 3; 3] else [2147483647; 5; 0; 1]) 0).
Definition atomics_of (asm : option (list instruction)) (inp : nat -> Z -> value) (n : nat) (as_ : list nat) : option (list (list bool)) :=
  match asm with
  | Some asm =>
      match assemble_binary asm [] with
      | Some bytes =>
          match load bytes with
          | Some acts => option_map (map (fun r => map r as_)) (bz_rows no_floats (fst (bz_load acts)) (snd (bz_load acts)) inp n)
          | None => None
          end
      | None => None
      end
  | None => None
  end.
Example C28_case :
  atomics_of (gen_assembly 100 bzg bz_cls (fun _ => 0) (fun _ => 0) 2 0 1) bz_inputs 4 [0; 1; 2]%nat =
  Some [[false; false; true]; [false; true; false]; [true; false; true]; [false; false; true]].
Proof. vm_compute. reflexivity. Qed.

(** C28 fails when a definition is used by both a future-time and a past-time
    specification: p := x > 1 in FTSPEC p and PTSPEC p.  The second pass numbers
    the shared instructions anew, all alike, so the comparison reads its operands
    from one slot. *)
Definition shg (n : nat) : node :=
  match n with
  | 0%nat => Node KSet (sym 0) [2%nat]
  | 1%nat => Node KSet (sym 1) [3%nat]
  | 2%nat => Node KFormula (sym 2) [4%nat]
  | 3%nat => Node KFormula (sym 3) [4%nat]
  | 4%nat => Node KOp (sym 4) [5%nat]
  | 5%nat => Node KOp (sym 5) [6; 7]%nat
  | _ => Node KLeaf (sym n) []
  end.
Definition shg_cls (n : nat) : nclass :=
  match n with
  | 0%nat | 1%nat => CSet
  | 2%nat => CFormula 0
  | 3%nat => CFormula 1
  | 4%nat => CAtomic 0
  | 5%nat => Assembly.CBz 14
  | 6%nat => CBzLoad 1 0
  | _ => CBzConst 3 (BzInt 1)
  end.
Theorem C28_shared_definition_refuted :
  exists h T cls types fuel const ft pt asm bytes acts s n x e inp,
    denotes h T /\ tl_shaped h cls /\
    (forall n, assemblable h cls ft_code n /\ assemblable h cls pt_code n) /\
    numeric h cls types (in_program h ft pt) /\ typed types inp /\
    gen_assembly fuel h cls (fun _ => 0) (fun _ => 0) const ft pt = Some asm /\
    assemble_binary asm [] = Some bytes /\ load bytes = Some acts /\
    bz_run no_floats (fst (bz_load acts)) (snd (bz_load acts)) inp 1 = Some s /\
    cls n = CAtomic 0 /\ nchildren (h n) = [x] /\ stands h cls types x e true /\
    yields no_floats inp 0 e (VInt 1) /\ atomic_buffer s 0 = false.
Proof.
  assert (S6 : stands shg shg_cls ints 6 (NSignal 0) true) by (apply (st_signal _ _ ints 6 0); leaf).
  assert (S7 : forall n, (7 <= n)%nat -> stands shg shg_cls ints n (NValue (VInt 1)) true).
  { intros n L. apply (st_value _ _ _ n (VInt 1)). do 7 (destruct n as [|n]; [lia|]). leaf. }
  assert (S5 : stands shg shg_cls ints 5 (NBinary Gt (NSignal 0) (NValue (VInt 1))) true).
  { apply (st_binary _ _ _ 5 Gt 14 6 7 _ _ true); try reflexivity; [exact S6|apply S7; lia]. }
  exists shg, (tree_of shg 4), shg_cls, ints, 50%nat, 0, 0%nat, 1%nat. do 4 eexists.
  exists 4%nat, 5%nat, (NBinary Gt (NSignal 0) (NValue (VInt 1))), (fun _ _ => VInt 7).
  split; [intros n; do 8 (destruct n as [|n]; [reflexivity|]); reflexivity|].
  split; [intros n; do 8 (destruct n as [|n]; [cbn; first [exact I|eexists; split; [reflexivity|exact I]]|]); exact I|].
  split; [intros n; do 8 (destruct n as [|n]; [split; cbn; first [exact I|reflexivity|eexists; split; [reflexivity|first [discriminate|exact I]]|repeat constructor]|]); split; reflexivity|].
  split.
  { split.
    - intros n _ B. do 5 (destruct n as [|n]; [contradiction B|]). destruct n as [|n]; [eauto|]. destruct n as [|n]; [eauto|].
      do 2 eexists. apply S7. lia.
    - intros n m aid _ _. do 7 (destruct n as [|n]; [intros E; try discriminate E; injection E as <-;
        do 7 (destruct m as [|m]; [intros E; try discriminate E; reflexivity|]); intros E; discriminate E|]). intros E; discriminate E.
    - intros n _ x0 x. do 7 (destruct n as [|n]; [discriminate|]). discriminate. }
  split; [intros t k; split; [reflexivity|vm_compute; split; [intros; discriminate|reflexivity]]|].
  do 4 (split; [vm_compute; reflexivity|]). split; [reflexivity|]. split; [reflexivity|]. split; [exact S5|]. split.
  - eapply y_binary_int; [apply (y_signal no_floats (fun _ _ => VInt 7) 0 0)|apply y_value|]. left. split; [lia|reflexivity].
  - reflexivity.
Qed.
Print Assumptions C28_shared_definition_refuted.

(** C29 fails for d := prev(0, x) and prev(0, d) > 1: both copies happen at the
    end of a step, the inner one first, so the outer one is a step early. *)
Definition nest (n : nat) : node :=
  match n with
  | 0%nat => Node KSet (sym 0) [2%nat]
  | 1%nat => Node KSet (sym 1) []
  | 2%nat => Node KFormula (sym 2) [3%nat]
  | 3%nat => Node KOp (sym 3) [4%nat]
  | 4%nat => Node KOp (sym 4) [5; 9]%nat
  | 5%nat => Node KOp (sym 5) [8; 6]%nat
  | 6%nat => Node KOp (sym 6) [8; 7]%nat
  | _ => Node KLeaf (sym n) []
  end.
Definition nest_cls (n : nat) : nclass :=
  match n with
  | 0%nat | 1%nat => CSet
  | 2%nat => CFormula 0
  | 3%nat => CAtomic 0
  | 4%nat => Assembly.CBz 14
  | 5%nat | 6%nat => Assembly.CBz 39
  | 7%nat => CBzLoad 1 0
  | 8%nat => CBzConst 3 (BzInt 0)
  | _ => CBzConst 3 (BzInt 1)
  end.
Theorem C29_nested_prev_refuted :
  exists h T cls types fuel const ft pt asm bytes acts s n x e inp,
    denotes h T /\ tl_shaped h cls /\
    (forall n, assemblable h cls ft_code n /\ assemblable h cls pt_code n) /\
    (forall n, bz_class (cls n) -> exists e int, stands h cls types n e int) /\ typed types inp /\
    gen_assembly fuel h cls (fun _ => 0) (fun _ => 0) const ft pt = Some asm /\
    assemble_binary asm [] = Some bytes /\ load bytes = Some acts /\
    bz_run no_floats (fst (bz_load acts)) (snd (bz_load acts)) inp 2 = Some s /\
    cls n = CAtomic 0 /\ nchildren (h n) = [x] /\ stands h cls types x e true /\
    yields no_floats inp 1 e (VInt 0) /\ atomic_buffer s 0 = true.
Proof.
  assert (S7 : stands nest nest_cls ints 7 (NSignal 0) true) by (apply (st_signal _ _ ints 7 0); leaf).
  assert (S8 : stands nest nest_cls ints 8 (NValue (VInt 0)) true) by (apply (st_value _ _ _ 8 (VInt 0)); leaf).
  assert (S9 : forall n, (9 <= n)%nat -> stands nest nest_cls ints n (NValue (VInt 1)) true).
  { intros n L. apply (st_value _ _ _ n (VInt 1)). do 9 (destruct n as [|n]; [lia|]). leaf. }
  assert (S6 : stands nest nest_cls ints 6 (NPrev (VInt 0) (NSignal 0)) true).
  { apply (st_prev _ _ _ 6 8 7 (VInt 0)); try reflexivity; [leaf|exact S7]. }
  assert (S5 : stands nest nest_cls ints 5 (NPrev (VInt 0) (NPrev (VInt 0) (NSignal 0))) true).
  { apply (st_prev _ _ _ 5 8 6 (VInt 0)); try reflexivity; [leaf|exact S6]. }
  assert (S4 : stands nest nest_cls ints 4 (NBinary Gt (NPrev (VInt 0) (NPrev (VInt 0) (NSignal 0))) (NValue (VInt 1))) true).
  { apply (st_binary _ _ _ 4 Gt 14 5 9 _ _ true); try reflexivity; [exact S5|apply S9; lia]. }
  exists nest, (tree_of nest 7), nest_cls, ints, 50%nat, 0, 0%nat, 1%nat. do 4 eexists.
  exists 3%nat, 4%nat, (NBinary Gt (NPrev (VInt 0) (NPrev (VInt 0) (NSignal 0))) (NValue (VInt 1))), (fun _ _ => VInt 7).
  split; [intros n; do 10 (destruct n as [|n]; [reflexivity|]); reflexivity|].
  split; [intros n; do 10 (destruct n as [|n]; [cbn; first [exact I|eexists; split; [reflexivity|exact I]]|]); exact I|].
  split; [intros n; do 10 (destruct n as [|n]; [split; cbn; first [exact I|reflexivity|eexists; split; [reflexivity|first [discriminate|exact I]]|repeat constructor]|]); split; reflexivity|].
  split.
  { intros n B. do 4 (destruct n as [|n]; [contradiction B|]). do 5 (destruct n as [|n]; [eauto|]). do 2 eexists. apply S9. lia. }
  split; [intros t k; split; [reflexivity|vm_compute; split; [intros; discriminate|reflexivity]]|].
  do 4 (split; [vm_compute; reflexivity|]). split; [reflexivity|]. split; [reflexivity|]. split; [exact S4|]. split.
  - eapply y_binary_int; [apply y_prev_later, y_prev_start|apply y_value|]. right. split; [lia|reflexivity].
  - reflexivity.
Qed.
Print Assumptions C29_nested_prev_refuted.
