(** * From formulas to reports with the compiler's own queue sizes: C39

    As C39_end_to_end, for any queue constant (the default is 0): the queue sizes
    are those the compiler derives from the delays of siblings. *)
From Coq Require Import List Arith ZArith Bool Ascii Lia.
Require Import Verif.Mltl Verif.MltlShape Verif.MltlEval Verif.Transform Verif.Pipeline Verif.Graph Verif.GraphSpec.
Require Import Verif.Binary Verif.BinarySpec Verif.Assembly Verif.Layout Verif.AssemblySpec Verif.LayoutSpec.
Require Import Verif.Scq Verif.Engine Verif.Monitoring Verif.TightSize Verif.EndToEnd Verif.DefaultSpec Verif.DefaultProofs.
Import ListNotations.
Local Existing Instance C_monitor.
Local Open Scope Z_scope.

(** C39: with the sizes the compiler computes, every report of a formula in which
    operands keep up with each other is right and arrives within the worst-case
    delay. *)
Theorem C39_default_sizes_end_to_end h T cls wpd_of bpd_of const ft pt specs aux :
  denotes h T -> well_shaped h -> nkind (h ft) = KSet -> nkind (h pt) = KSet ->
  named_apart h cls -> cls ft = CSet -> cls pt = CSet -> nchildren (h pt) = [] ->
  tl_shaped h cls -> (forall n, reachable h [ft] n -> assemblable h cls ft_code n) ->
  (forall n e, means h cls n e -> wpd e <= wpd_of n /\ bpd_of n <= Z.of_nat (soonest e)) ->
  Forall2 (spec_of compile_expr h cls) (nchildren (h ft)) specs -> NoDup (map fst specs) ->
  Forall (fun s => legal (snd s) /\ all_nodes rewrite_source_op (snd s) /\
                   monitorable (compile_expr (snd s)) /\ modest_formula (compile_expr (snd s))) specs ->
  0 <= const ->
  exists depth0, forall depth, (depth0 <= depth)%nat -> exists fuel0 h' asm,
    (forall fuel, (fuel0 <= fuel)%nat -> optimize_cse depth fuel h ft pt = Some h' /\
                                         gen_assembly fuel h' cls wpd_of bpd_of const ft pt = Some asm) /\
    forall bytes, Forall fits asm -> arena_slots asm < 2 ^ 32 -> assemble_binary asm aux = Some bytes ->
    exists prog confs passes0, boot bytes = Some (prog, confs) /\
      forall tr n passes, (passes0 <= passes)%nat ->
      exists m, run passes (rows tr n) prog (init prog confs) = Some m /\
        forall num e, In (num, e) specs ->
          increasing (reports (Z.to_nat num) m) /\
          (forall t b, reported (reports (Z.to_nat num) m) t b -> (b = true <-> sat tr e t) /\ (t < n)%nat) /\
          (forall t, Z.of_nat t + wpd (compile_expr e) < Z.of_nat n -> exists b, reported (reports (Z.to_nat num) m) t b).
Proof. exact (default_end_to_end h T cls wpd_of bpd_of const ft pt specs aux). Qed.
Print Assumptions C39_default_sizes_end_to_end.

(** Formulas 0: G[0,5] (!a || F[0,3] b), 1: a && F[0,3] b; F[0,3] b occurs twice,
    nodes 9 and 11. *)
Local Open Scope char_scope.
Definition dg (n : nat) : node :=
  match n with
  | 0%nat => Node KSet ["S"] [2; 3]%nat
  | 1%nat => Node KSet ["P"] []
  | 2%nat => Node KFormula ["f"] [4]%nat
  | 3%nat => Node KFormula ["g"] [5]%nat
  | 4%nat => Node KOp ["R"] [6; 7]%nat
  | 5%nat => Node KOp ["&"] [8; 9]%nat
  | 6%nat => Node KLeaf ["0"] []
  | 7%nat => Node KOp ["|"] [10; 11]%nat
  | 8%nat | 14%nat => Node KLeaf ["a"] []
  | 9%nat => Node KOp ["U"] [12; 13]%nat
  | 10%nat => Node KOp ["!"] [14]%nat
  | 11%nat => Node KOp ["U"] [15; 16]%nat
  | 13%nat | 16%nat => Node KLeaf ["b"] []
  | _ => Node KLeaf ["1"] []
  end.
Definition dg_class (s : list ascii) : nclass :=
  match s with
  | ["S"] | ["P"] => CSet
  | ["f"] => CFormula 0
  | ["g"] => CFormula 1
  | ["R"] => CTemporal OpRelease 0 5
  | ["U"] => CTemporal OpUntil 0 3
  | ["!"] => COp OpNot
  | ["&"] => COp OpAnd
  | ["|"] => COp OpOr
  | ["a"] => CSignal 0
  | ["b"] => CSignal 1
  | ["0"] => CBool false
  | _ => CBool true
  end.
Definition dg_cls (n : nat) : nclass := dg_class (nsym (dg n)).
Definition dg_wpd (n : nat) : Z := match nsym (dg n) with ["R"] => 8 | ["U"] | ["&"] | ["|"] => 3 | _ => 0 end.
Definition dg_bpd (n : nat) : Z := 0.
Fixpoint tree_of (g : nat -> node) (fuel n : nat) : tree :=
  match fuel with
  | O => Tree (nkind (g n)) (nsym (g n)) []
  | S fuel => Tree (nkind (g n)) (nsym (g n)) (map (tree_of g fuel) (nchildren (g n)))
  end.
Definition dg_specs : list (Z * expr) :=
  [(0%Z, EG 0 5 (EOr [ENot (EAtom 0); EF 0 3 (EAtom 1)])); (1%Z, EAnd [EAtom 0; EF 0 3 (EAtom 1)])].
Definition dg_expr (n : nat) : option expr :=
  let u := EU 0 3 (EConst true) (EAtom 1) in
  match n with
  | 0%nat | 1%nat | 2%nat | 3%nat => None
  | 4%nat => Some (ER 0 5 (EConst false) (EOr [ENot (EAtom 0); u]))
  | 5%nat => Some (EAnd [EAtom 0; u])
  | 6%nat => Some (EConst false)
  | 7%nat => Some (EOr [ENot (EAtom 0); u])
  | 8%nat | 14%nat => Some (EAtom 0)
  | 9%nat | 11%nat => Some u
  | 10%nat => Some (ENot (EAtom 0))
  | 13%nat | 16%nat => Some (EAtom 1)
  | _ => Some (EConst true)
  end.
Ltac leaf := first [apply (means_signal _ _ _ 0); [reflexivity|lia] | apply (means_signal _ _ _ 1); [reflexivity|lia]
                   | apply (means_signal _ _ _ 2); [reflexivity|lia] | apply means_const; reflexivity].
Ltac meaning := first
  [ leaf
  | eapply means_not; [reflexivity|reflexivity|meaning]
  | eapply means_and; [reflexivity|reflexivity|meaning|meaning]
  | eapply means_or; [reflexivity|reflexivity|meaning|meaning]
  | eapply (means_until _ _ _ _ _ 0 3); [reflexivity|lia|reflexivity|meaning|meaning]
  | eapply (means_until _ _ _ _ _ 0 5); [reflexivity|lia|reflexivity|meaning|meaning]
  | eapply (means_release _ _ _ _ _ 0 5); [reflexivity|lia|reflexivity|meaning|meaning] ].
Lemma dg_means n e : dg_expr n = Some e -> means dg dg_cls n e.
Proof.
  do 17 (destruct n as [|n]; [cbn; intros E; try discriminate; injection E as <-; meaning|]).
  cbn; intros E; injection E as <-; meaning.
Qed.
Lemma dg_reach n : reachable dg [0%nat] n -> In n (0 :: seq 2 15)%nat.
Proof.
  induction 1 as [n H|n c H IH Hc]; [destruct H as [<-|[]]; cbn; auto|].
  cbn in IH. repeat (destruct IH as [<-|IH]; [cbn in Hc; cbn; intuition|]). easy.
Qed.
Example C39_default_hypotheses :
  denotes dg (tree_of dg 5) /\ well_shaped dg /\ nkind (dg 0) = KSet /\ nkind (dg 1) = KSet /\
  named_apart dg dg_cls /\ dg_cls 0 = CSet /\ dg_cls 1 = CSet /\ nchildren (dg 1) = [] /\
  tl_shaped dg dg_cls /\ (forall n, reachable dg [0%nat] n -> assemblable dg dg_cls ft_code n) /\
  (forall n e, means dg dg_cls n e -> dg_wpd n = wpd e /\ dg_bpd n = bpd e) /\
  Forall2 (spec_of compile_expr dg dg_cls) (nchildren (dg 0)) dg_specs /\ NoDup (map fst dg_specs) /\
  Forall (fun s => legal (snd s) /\ all_nodes rewrite_source_op (snd s) /\
                   monitorable (compile_expr (snd s)) /\ modest_formula (compile_expr (snd s))) dg_specs.
Proof.
  repeat apply conj; try reflexivity.
  - intros n. do 17 (destruct n as [|n]; [reflexivity|]). reflexivity.
  - intros n. split.
    + do 17 (destruct n as [|n]; [split; [discriminate|repeat constructor; discriminate]|]).
      split; [discriminate|repeat constructor; discriminate].
    + do 17 (destruct n as [|n]; [cbn; first [reflexivity|eexists; split; [reflexivity|right; reflexivity]
               |split; [discriminate|]; repeat constructor
               |repeat constructor]|]); try reflexivity.
      all: repeat (first [left; reflexivity|right; reflexivity|constructor]).
  - intros n m _ E. unfold dg_cls. rewrite E. reflexivity.
  - intros n. do 17 (destruct n as [|n]; [cbn; first [exact I|eexists; split; [reflexivity|exact I]|repeat constructor]|]). exact I.
  - intros n H. apply dg_reach in H. cbn in H.
    repeat (destruct H as [<-|H]; [cbn; first [exact I|reflexivity|eexists; split; [reflexivity|discriminate]|split; [discriminate|lia]]|]). easy.
  - intros n e M. destruct (dg_expr n) as [e'|] eqn:E.
    + rewrite <- (means_det dg dg_cls n e' (dg_means n e' E) e M). clear M.
      do 17 (destruct n as [|n]; [cbn in E; try discriminate; injection E as <-; split; reflexivity|]).
      cbn in E. injection E as <-. split; reflexivity.
    + do 4 (destruct n as [|n]; [inversion M; discriminate|]). do 13 (destruct n as [|n]; [discriminate|]). discriminate.
  - constructor; [|constructor; [|constructor]]; (split; [reflexivity|]); (split; [cbn; lia|]); eexists; (split; [reflexivity|]);
      apply dg_means; reflexivity.
  - repeat constructor; cbn; intuition discriminate.
  - constructor; [|constructor; [|constructor]]; (repeat apply conj; cbn; auto; try lia; try exact I); try (eexists; reflexivity).
    1: right; eexists; reflexivity.
    1,4: left; split; [exact I|left; split; [right; eexists; reflexivity|exact I]].
    all: discriminate.
Qed.
Definition dg_bytes : option (list Z) :=
  match optimize_cse 20 200 dg 0 1 with
  | Some h => match gen_assembly 200 h dg_cls dg_wpd dg_bpd 0 0 1 with
              | Some asm => assemble_binary asm []
              | None => None
              end
  | None => None
  end.
Definition dg_trace (t a : nat) : bool := match a with O => (t =? 1)%nat | _ => (t =? 4)%nat end.
Example C39_default_case :
  match dg_bytes with
  | Some bytes =>
      match boot bytes with
      | Some (prog, confs) =>
          option_map (fun m => (map c_len confs, reports 0 m, reports 1 m)) (run 20 (rows dg_trace 10) prog (init prog confs))
      | None => None
      end
  | None => None
  end = Some ([4; 4; 1; 1; 1; 1; 1; 1; 1]%nat, [(true, 0); (true, 1); (true, 2); (true, 3); (true, 4)]%nat,
              [(false, 0); (true, 1); (false, 4); (false, 5); (false, 6); (false, 7); (false, 8); (false, 9)]%nat).
Proof. vm_compute. reflexivity. Qed.

(** Formula 0: (F[0,5] a && b) && c. *)
Definition cg (n : nat) : node :=
  match n with
  | 0%nat => Node KSet ["S"] [2]%nat
  | 1%nat => Node KSet ["P"] []
  | 2%nat => Node KFormula ["f"] [3]%nat
  | 3%nat => Node KOp ["&"] [4; 5]%nat
  | 4%nat => Node KOp ["&"] [6; 7]%nat
  | 5%nat => Node KLeaf ["c"] []
  | 6%nat => Node KOp ["U"] [8; 9]%nat
  | 7%nat => Node KLeaf ["b"] []
  | 9%nat => Node KLeaf ["a"] []
  | _ => Node KLeaf ["1"] []
  end.
Definition cg_class (s : list ascii) : nclass :=
  match s with
  | ["S"] | ["P"] => CSet
  | ["f"] => CFormula 0
  | ["U"] => CTemporal OpUntil 0 5
  | ["&"] => COp OpAnd
  | ["a"] => CSignal 0
  | ["b"] => CSignal 1
  | ["c"] => CSignal 2
  | _ => CBool true
  end.
Definition cg_cls (n : nat) : nclass := cg_class (nsym (cg n)).
Definition cg_wpd (n : nat) : Z := match nsym (cg n) with ["U"] | ["&"] => 5 | _ => 0 end.
Definition cg_bpd (n : nat) : Z := 0.
Definition cg_formula : expr := EAnd [EAnd [EF 0 5 (EAtom 0); EAtom 1]; EAtom 2].
Definition cg_expr (n : nat) : option expr :=
  let u := EU 0 5 (EConst true) (EAtom 0) in
  match n with
  | 0%nat | 1%nat | 2%nat => None
  | 3%nat => Some (EAnd [EAnd [u; EAtom 1]; EAtom 2])
  | 4%nat => Some (EAnd [u; EAtom 1])
  | 5%nat => Some (EAtom 2)
  | 6%nat => Some u
  | 7%nat => Some (EAtom 1)
  | 9%nat => Some (EAtom 0)
  | _ => Some (EConst true)
  end.
Lemma cg_means n e : cg_expr n = Some e -> means cg cg_cls n e.
Proof.
  do 10 (destruct n as [|n]; [cbn; intros E; try discriminate; injection E as <-; meaning|]).
  cbn; intros E; injection E as <-; meaning.
Qed.
Lemma cg_reach n : reachable cg [0%nat] n -> In n (0 :: seq 2 8)%nat.
Proof.
  induction 1 as [n H|n c H IH Hc]; [destruct H as [<-|[]]; cbn; auto|].
  cbn in IH. repeat (destruct IH as [<-|IH]; [cbn in Hc; cbn; intuition|]). easy.
Qed.
Definition force {X} (d : X) (o : option X) : X := match o with Some x => x | None => d end.
Lemma forced {X} (d : X) o : (match o with Some _ => true | None => false end) = true -> o = Some (force d o).
Proof. destruct o; [reflexivity|discriminate]. Qed.
Definition cg_opt : heap := force cg (optimize_cse 20 200 cg 0 1).
Definition cg_asm : list instruction := force [] (gen_assembly 200 cg_opt cg_cls cg_wpd cg_bpd 0 0 1).
Definition cg_bytes : list Z := force [] (assemble_binary cg_asm []).
Definition cg_boot : list instr * list qconf := force ([], []) (boot cg_bytes).
Definition cg_trace : trace := fun i a => match a with O => (i =? 5)%nat | 1%nat => negb (i =? 3)%nat | _ => Nat.even i end.
Definition cg_end : monitor :=
  force (init [] []) (run 40 (rows cg_trace 8) (fst cg_boot) (init (fst cg_boot) (snd cg_boot))).

Lemma cg_opt_eq : optimize_cse 20 200 cg 0 1 = Some cg_opt.
Proof. apply (forced cg). vm_compute. reflexivity. Qed.
Lemma cg_asm_eq : gen_assembly 200 cg_opt cg_cls cg_wpd cg_bpd 0 0 1 = Some cg_asm.
Proof. apply (forced []). vm_compute. reflexivity. Qed.
Lemma cg_bytes_eq : assemble_binary cg_asm [] = Some cg_bytes.
Proof. apply (forced []). vm_compute. reflexivity. Qed.
Lemma cg_boot_eq : boot cg_bytes = Some (fst cg_boot, snd cg_boot).
Proof. rewrite <- surjective_pairing. apply (forced ([], [])). vm_compute. reflexivity. Qed.
Lemma cg_end_eq : run 40 (rows cg_trace 8) (fst cg_boot) (init (fst cg_boot) (snd cg_boot)) = Some cg_end.
Proof. apply (forced (init [] [])). vm_compute. reflexivity. Qed.
Lemma cg_fits : Forall fits cg_asm.
Proof.
  let l := eval vm_compute in cg_asm in assert (E : cg_asm = l) by (vm_compute; reflexivity). rewrite E.
  repeat (constructor; [cbn [fits tl_fits tl_value1 tl_value2 tl_id tl_type1 tl_type2 tl_operator]; unfold tl_fits, word, small; cbn [tl_value1 tl_value2 tl_id tl_type1 tl_type2 tl_operator]; lia|]). constructor.
Qed.
Lemma cg_slots : arena_slots cg_asm < 2 ^ 32.
Proof. vm_compute. reflexivity. Qed.
Lemma cg_reports : reports 0 cg_end = [(true, 0); (false, 3); (true, 4); (false, 5)]%nat.
Proof. vm_compute. reflexivity. Qed.

(** For other formulas the default sizes do lead to wrong reports, from the
    formula to the report, with everything else as in the theorem above. *)
Theorem C39_default_sizes_refuted :
  exists h T cls wpd_of bpd_of ft pt e,
    denotes h T /\ well_shaped h /\ nkind (h ft) = KSet /\ nkind (h pt) = KSet /\
    named_apart h cls /\ cls ft = CSet /\ cls pt = CSet /\ nchildren (h pt) = [] /\
    tl_shaped h cls /\ (forall n, reachable h [ft] n -> assemblable h cls ft_code n) /\
    (forall n e, means h cls n e -> wpd e <= wpd_of n /\ bpd_of n <= Z.of_nat (soonest e)) /\
    Forall2 (spec_of compile_expr h cls) (nchildren (h ft)) [(0, e)] /\
    legal e /\ all_nodes rewrite_source_op e /\ monitorable (compile_expr e) /\
    exists h' asm bytes prog confs tr n m t,
      optimize_cse 20 200 h ft pt = Some h' /\ gen_assembly 200 h' cls wpd_of bpd_of 0 ft pt = Some asm /\
      Forall fits asm /\ arena_slots asm < 2 ^ 32 /\ assemble_binary asm [] = Some bytes /\
      boot bytes = Some (prog, confs) /\ run 40 (rows tr n) prog (init prog confs) = Some m /\
      reported (reports 0 m) t false /\ sat tr e t.
Proof.
  exists cg, (tree_of cg 5), cg_cls, cg_wpd, cg_bpd, 0%nat, 1%nat, cg_formula.
  repeat apply conj; try reflexivity.
  - intros n. do 10 (destruct n as [|n]; [reflexivity|]). reflexivity.
  - intros n. split.
    + do 10 (destruct n as [|n]; [split; [discriminate|repeat constructor; discriminate]|]).
      split; [discriminate|repeat constructor; discriminate].
    + do 10 (destruct n as [|n]; [cbn; first [reflexivity|eexists; split; [reflexivity|right; reflexivity]
               |split; [discriminate|]; repeat constructor
               |repeat constructor]|]); try reflexivity.
      all: repeat (first [left; reflexivity|right; reflexivity|constructor]).
  - intros n m _ E. unfold cg_cls. rewrite E. reflexivity.
  - intros n. do 10 (destruct n as [|n]; [cbn; first [exact I|eexists; split; [reflexivity|exact I]|repeat constructor]|]). exact I.
  - intros n H. apply cg_reach in H. cbn in H.
    repeat (destruct H as [<-|H]; [cbn; first [exact I|reflexivity|eexists; split; [reflexivity|discriminate]|split; [discriminate|lia]]|]). easy.
  - intros n e M. destruct (cg_expr n) as [e'|] eqn:E.
    + rewrite <- (means_det cg cg_cls n e' (cg_means n e' E) e M). clear M.
      do 10 (destruct n as [|n]; [cbn in E; try discriminate; injection E as <-; split; reflexivity|]).
      cbn in E. injection E as <-. split; reflexivity.
    + do 3 (destruct n as [|n]; [inversion M; discriminate|]). do 7 (destruct n as [|n]; [discriminate|]). discriminate.
  - constructor; [|constructor]. split; [reflexivity|]. split; [cbn; lia|]. eexists. split; [reflexivity|].
    apply cg_means. reflexivity.
  - cbn. auto 12.
  - left. split; [left|left; exact I]. split; [split; [right; eexists; reflexivity|exact I]|left; exact I].
  - exists cg_opt, cg_asm, cg_bytes, (fst cg_boot), (snd cg_boot), cg_trace, 8%nat, cg_end, 2%nat.
    split; [exact cg_opt_eq|]. split; [exact cg_asm_eq|]. split; [exact cg_fits|]. split; [exact cg_slots|].
    split; [exact cg_bytes_eq|]. split; [exact cg_boot_eq|]. split; [exact cg_end_eq|]. split.
    + rewrite cg_reports. exists [(true, 0%nat)], 3%nat, [(true, 4%nat); (false, 5%nat)]. split; [reflexivity|]. split; [lia|].
      intros v [<-|[]]. cbn. lia.
    + apply den_sat. vm_compute. reflexivity.
Qed.
Print Assumptions C39_default_sizes_refuted.
