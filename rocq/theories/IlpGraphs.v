(** * Two saturated e-graphs (proofs) *)
From Coq Require Import List Arith ZArith Bool Lia.
Require Import Verif.Mltl Verif.Transform Verif.Egglog Verif.Ilp Verif.IlpSpec Verif.IlpProofs Verif.IlpFeasible.
Import ListNotations.
Local Open Scope list_scope.
Local Open Scope nat_scope.

Ltac invert_held :=
  repeat match goal with
  | H : hold_terms _ (kids _) _ |- _ => cbn [kids] in H
  | H : hold_terms _ [] _ |- _ => inversion H; subst; clear H
  | H : hold_terms _ (_ :: _) _ |- _ => inversion H; subst; clear H
  end.
Ltac invert_class H :=
  let n := fresh "n" in let ts := fresh "ts" in let t := fresh "t" in
  let I := fresh "I" in let A := fresh "A" in let E := fresh "E" in
  inversion H as [? n ts t I A E]; subst; clear H; cbn in I;
  repeat match type of I with _ \/ _ => destruct I as [I|I] end;
  [subst n; cbn [kids] in A; invert_held; cbn [op_of term_of] in E..|contradiction].

(** ** [a0 -> a1]: nothing but the temporal rules applies *)
Definition implication : expr := EImpl (EAtom 0) (EAtom 1).
Definition implication_term : eterm := TImplies (TVar 0) (TVar 1).
Definition implication_graph : graph := Graph [[Node (OVar 0) []]; [Node (OVar 1) []]; [Node OImplies [0; 1]]] 2.
Definition other_rules : list rule := rules_associative ++ rules_commutative ++ rules_multi_arity ++ rules_const_folding.
Definition no_match (p : tpat) : bool := match p with PV _ | PImplies _ _ => false | _ => true end.
Lemma other_rules_apart : forallb (fun r => no_match (lhs r) && (negb (bidirectional r) || no_match (rhs r))) other_rules = true.
Proof. vm_compute. reflexivity. Qed.
Lemma no_match_spec p sb st : no_match p = true -> tinst sb st p <> implication_term /\ forall a, tinst sb st p <> TVar a.
Proof. destruct p; cbn; intros H; try discriminate; split; intros; discriminate. Qed.
Definition in_implication (t : eterm) : Prop := t = TVar 0 \/ t = TVar 1 \/ t = implication_term.
Lemma implication_saturated s t : egraph other_rules implication_term s t -> s = t /\ in_implication s.
Proof.
  unfold in_implication. induction 1.
  all: try (split; [reflexivity|tauto]).
  all: try solve [destruct IHegraph as [-> ?]; tauto | destruct IHegraph1 as [-> ?], IHegraph2 as [-> ?]; tauto].
  { destruct IHegraph as (_ & [->|[->| ->]]); cbn [subterms In implication_term] in H0; intuition (subst; auto). }
  { exfalso. pose proof (proj1 (forallb_forall _ _) other_rules_apart r H) as M. apply andb_true_iff in M as [M _].
    destruct (no_match_spec _ sb st M) as [A B]. destruct IHegraph as (_ & [C|[C|C]]); [exact (B _ C)|exact (B _ C)|exact (A C)]. }
  { exfalso. pose proof (proj1 (forallb_forall _ _) other_rules_apart r H) as M. apply andb_true_iff in M as [_ M].
    rewrite H0 in M. cbn [negb orb] in M.
    destruct (no_match_spec _ sb st M) as [A B]. destruct IHegraph as (_ & [C|[C|C]]); [exact (B _ C)|exact (B _ C)|exact (A C)]. }
  all: try solve [exfalso; match goal with H : _ /\ (_ \/ _ \/ _) |- _ => idtac end;
                  repeat match goal with H : _ /\ _ |- _ => destruct H end;
                  repeat match goal with H : _ \/ _ |- _ => destruct H end; discriminate].
  all: repeat match goal with H : _ /\ _ |- _ => destruct H end; subst; tauto.
Qed.
Lemma implication_held c t : holds_term implication_graph c t -> t = match c with 0 => TVar 0 | 1 => TVar 1 | _ => implication_term end.
Proof.
  assert (H0 : forall t, holds_term implication_graph 0 t -> t = TVar 0) by (intros x H; invert_class H; injection E as <-; reflexivity).
  assert (H1 : forall t, holds_term implication_graph 1 t -> t = TVar 1) by (intros x H; invert_class H; injection E as <-; reflexivity).
  intros H. destruct c as [|[|[|c]]]; auto.
  - invert_class H.
    match goal with A : holds_term _ 0 _, B : holds_term _ 1 _ |- _ => apply H0 in A; apply H1 in B; subst end.
    injection E as <-. reflexivity.
  - exfalso. inversion H as [? n ts x I A E]. cbn in I. destruct c; exact I.
Qed.
Lemma implication_holds c : c < 3 -> holds_term implication_graph c match c with 0 => TVar 0 | 1 => TVar 1 | _ => implication_term end.
Proof.
  assert (H0 : holds_term implication_graph 0 (TVar 0)) by (eapply (holds_node _ 0 _ []); [left; reflexivity|constructor|reflexivity]).
  assert (H1 : holds_term implication_graph 1 (TVar 1)) by (eapply (holds_node _ 1 _ []); [left; reflexivity|constructor|reflexivity]).
  intros L. destruct c as [|[|[|c]]]; auto; [|lia].
  eapply (holds_node _ 2 _ [TVar 0; TVar 1]); [left; reflexivity|repeat constructor; assumption|reflexivity].
Qed.
(** The classes are those egglog ends with. *)
Lemma implication_classes s t : egraph other_rules implication_term s t <->
  exists c, holds_term implication_graph c s /\ holds_term implication_graph c t.
Proof.
  split.
  - intros H. apply implication_saturated in H as (<- & [->|[->| ->]]); 
      [exists 0; split; exact (implication_holds 0 ltac:(lia))|exists 1; split; exact (implication_holds 1 ltac:(lia))
      |exists 2; split; exact (implication_holds 2 ltac:(lia))].
  - assert (R : egraph other_rules implication_term implication_term implication_term) by constructor.
    intros (c & A & B). apply implication_held in A, B. subst. destruct c as [|[|c]]; [| |exact R];
      refine (eg_sub _ _ _ _ R _); cbn; auto.
Qed.
Lemma implication_formed : well_formed implication_graph.
Proof.
  split; [cbn; lia|]. intros c n I. destruct c as [|[|[|c]]]; cbn in I; [destruct I as [<-|[]]..|destruct c; contradiction];
    cbn; split; auto; repeat constructor.
Qed.
Lemma implication_infeasible w v : ~ feasible implication_graph false w v.
Proof.
  intros F. destruct (extraction _ _ _ _ implication_formed F) as (t & _ & H & A & _).
  apply implication_held in H. subst. exact (A eq_refl).
Qed.

(** ** [(a1 && (true U[3,3] a0)) && (true U[5,5] a2)] under the associative rules *)
Definition near : eterm := TUntil 3 3 (TBool true) (TVar 0).
Definition far : eterm := TUntil 5 5 (TBool true) (TVar 2).
Definition left_term : eterm := TAnd2 (TAnd2 (TVar 1) near) far.
Definition right_term : eterm := TAnd2 (TVar 1) (TAnd2 near far).
Definition three : graph :=
  Graph [[Node (OBool true) []]; [Node (OVar 0) []]; [Node (OVar 1) []]; [Node (OVar 2) []];
         [Node (OUntil 3 3) [0; 1]]; [Node (OUntil 5 5) [0; 3]];
         [Node OAnd [2; 4]]; [Node OAnd [4; 5]]; [Node OAnd [6; 5]; Node OAnd [2; 7]]] 8.
Definition three_at (c : nat) (t : eterm) : Prop :=
  match c with
  | 0 => t = TBool true | 1 => t = TVar 0 | 2 => t = TVar 1 | 3 => t = TVar 2
  | 4 => t = near | 5 => t = far | 6 => t = TAnd2 (TVar 1) near | 7 => t = TAnd2 near far
  | 8 => t = left_term \/ t = right_term
  | _ => False
  end.
Lemma three_held c t : holds_term three c t <-> three_at c t.
Proof.
  split.
  - intros H.
    assert (H0 : forall t, holds_term three 0 t -> t = TBool true) by (intros x Q; invert_class Q; injection E as <-; reflexivity).
    assert (H1 : forall t, holds_term three 1 t -> t = TVar 0) by (intros x Q; invert_class Q; injection E as <-; reflexivity).
    assert (H2 : forall t, holds_term three 2 t -> t = TVar 1) by (intros x Q; invert_class Q; injection E as <-; reflexivity).
    assert (H3 : forall t, holds_term three 3 t -> t = TVar 2) by (intros x Q; invert_class Q; injection E as <-; reflexivity).
    assert (H4 : forall t, holds_term three 4 t -> t = near).
    { intros x Q; invert_class Q. repeat match goal with A : holds_term _ 0 _ |- _ => apply H0 in A | A : holds_term _ 1 _ |- _ => apply H1 in A end.
      subst. injection E as <-. reflexivity. }
    assert (H5 : forall t, holds_term three 5 t -> t = far).
    { intros x Q; invert_class Q. repeat match goal with A : holds_term _ 0 _ |- _ => apply H0 in A | A : holds_term _ 3 _ |- _ => apply H3 in A end.
      subst. injection E as <-. reflexivity. }
    assert (H6 : forall t, holds_term three 6 t -> t = TAnd2 (TVar 1) near).
    { intros x Q; invert_class Q. repeat match goal with A : holds_term _ 2 _ |- _ => apply H2 in A | A : holds_term _ 4 _ |- _ => apply H4 in A end.
      subst. injection E as <-. reflexivity. }
    assert (H7 : forall t, holds_term three 7 t -> t = TAnd2 near far).
    { intros x Q; invert_class Q. repeat match goal with A : holds_term _ 4 _ |- _ => apply H4 in A | A : holds_term _ 5 _ |- _ => apply H5 in A end.
      subst. injection E as <-. reflexivity. }
    destruct c as [|[|[|[|[|[|[|[|[|c]]]]]]]]]; cbn [three_at]; auto.
    + invert_class H.
      * repeat match goal with A : holds_term _ 6 _ |- _ => apply H6 in A | A : holds_term _ 5 _ |- _ => apply H5 in A end.
        subst. injection E as <-. left; reflexivity.
      * repeat match goal with A : holds_term _ 2 _ |- _ => apply H2 in A | A : holds_term _ 7 _ |- _ => apply H7 in A end.
        subst. injection E as <-. right; reflexivity.
    + inversion H as [? n ts x I A E]. cbn in I. destruct c; exact I.
  - assert (H0 : holds_term three 0 (TBool true)) by (eapply (holds_node _ 0 _ []); [left; reflexivity|constructor|reflexivity]).
    assert (H1 : holds_term three 1 (TVar 0)) by (eapply (holds_node _ 1 _ []); [left; reflexivity|constructor|reflexivity]).
    assert (H2 : holds_term three 2 (TVar 1)) by (eapply (holds_node _ 2 _ []); [left; reflexivity|constructor|reflexivity]).
    assert (H3 : holds_term three 3 (TVar 2)) by (eapply (holds_node _ 3 _ []); [left; reflexivity|constructor|reflexivity]).
    assert (H4 : holds_term three 4 near)
      by (eapply (holds_node _ 4 _ [TBool true; TVar 0]); [left; reflexivity|repeat constructor; assumption|reflexivity]).
    assert (H5 : holds_term three 5 far)
      by (eapply (holds_node _ 5 _ [TBool true; TVar 2]); [left; reflexivity|repeat constructor; assumption|reflexivity]).
    assert (H6 : holds_term three 6 (TAnd2 (TVar 1) near))
      by (eapply (holds_node _ 6 _ [TVar 1; near]); [left; reflexivity|repeat constructor; assumption|reflexivity]).
    assert (H7 : holds_term three 7 (TAnd2 near far))
      by (eapply (holds_node _ 7 _ [near; far]); [left; reflexivity|repeat constructor; assumption|reflexivity]).
    destruct c as [|[|[|[|[|[|[|[|[|c]]]]]]]]]; cbn [three_at]; try (intros ->; assumption); [|contradiction].
    intros [->| ->].
    + eapply (holds_node _ 8 (Node OAnd [6; 5]) [TAnd2 (TVar 1) near; far]); [left; reflexivity|repeat constructor; assumption|reflexivity].
    + eapply (holds_node _ 8 (Node OAnd [2; 7]) [TVar 1; TAnd2 near far]); [right; left; reflexivity|repeat constructor; assumption|reflexivity].
Qed.
Lemma three_formed : well_formed three.
Proof.
  split; [cbn; lia|]. intros c n I.
  destruct c as [|[|[|[|[|[|[|[|[|c]]]]]]]]]; cbn in I;
    repeat match goal with H : _ \/ _ |- _ => destruct H as [<-|I] end; try contradiction;
    try (cbn; split; [auto|repeat constructor]; fail).
  destruct c; contradiction.
Qed.
Definition three_terms : list eterm :=
  [TBool true; TVar 0; TVar 1; TVar 2; near; far; TAnd2 (TVar 1) near; TAnd2 near far; left_term; right_term].
Definition same_class (s t : eterm) : Prop :=
  In s three_terms /\ (s = t \/ (s = left_term /\ t = right_term) \/ (s = right_term /\ t = left_term)).
Ltac member := cbn [In three_terms]; unfold near, far, left_term, right_term; repeat (first [left; reflexivity | right]).
Lemma same_class_held s t : same_class s t <-> exists c, holds_term three c s /\ holds_term three c t.
Proof.
  unfold same_class. split.
  - intros (I & H). cbn [In three_terms] in I.
    destruct H as [<-|[(-> & ->)|(-> & ->)]]; [|exists 8; rewrite !three_held; cbn; auto..].
    repeat destruct I as [<-|I]; [exists 0|exists 1|exists 2|exists 3|exists 4|exists 5|exists 6|exists 7|exists 8|exists 8|contradiction];
      rewrite !three_held; cbn [three_at]; auto.
  - intros (c & A & B). rewrite three_held in A, B.
    destruct c as [|[|[|[|[|[|[|[|[|c]]]]]]]]]; cbn [three_at] in A, B; try contradiction;
      [subst; split; [member|left; reflexivity]..|].
    destruct A as [-> | ->], B as [-> | ->]; (split; [member|]); auto.
Qed.
Ltac components :=
  repeat match goal with H : same_class _ _ |- _ => destruct H end;
  match goal with I : In (_ _) three_terms |- _ =>
    let J := fresh in pose proof I as J; cbn [In three_terms] in J; unfold near, far, left_term, right_term in J;
    repeat destruct J as [J|J]; try discriminate J; try contradiction; injection J; intros; subst
  end;
  repeat match goal with H : _ = _ \/ _ |- _ => destruct H as [<-|[(? & _)|(? & _)]] end; try discriminate;
  (split; [assumption|left; reflexivity]).
Lemma three_saturated s t : egraph rules_associative left_term s t <-> exists c, holds_term three c s /\ holds_term three c t.
Proof.
  rewrite <- same_class_held. split.
  - induction 1.
    { split; [member|left; reflexivity]. }
    { destruct IHegraph as (I & _). split; [|left; reflexivity].
      cbn [In three_terms] in I. repeat destruct I as [<-|I]; [..|contradiction]; cbn [subterms In near far left_term right_term] in H0;
        repeat destruct H0 as [<-|H0]; try contradiction; member. }
    { destruct IHegraph as (I & _). cbn [rules_associative In] in H. destruct H as [<-|[<-|[]]]; cbn [lhs rhs tinst] in *;
        cbn [In three_terms] in I; unfold near, far, left_term, right_term in I;
        repeat destruct I as [I|I]; try discriminate; try contradiction;
        injection I as <- <- <-; (split; [member|]);
        unfold near, far, left_term, right_term; auto. }
    { destruct IHegraph as (I & _). cbn [rules_associative In] in H. destruct H as [<-|[<-|[]]]; cbn [lhs rhs tinst] in *;
        cbn [In three_terms] in I; unfold near, far, left_term, right_term in I;
        repeat destruct I as [I|I]; try discriminate; try contradiction;
        injection I as <- <- <-; (split; [member|]);
        unfold near, far, left_term, right_term; auto. }
    { destruct IHegraph as (I & [->|[(-> & ->)|(-> & ->)]]); (split; [|tauto]); auto; member. }
    { destruct IHegraph1 as (I & A), IHegraph2 as (J & C). split; [exact I|].
      destruct A as [->|[(-> & ->)|(-> & ->)]]; [exact C|..]; destruct C as [<-|[(C & ->)|(C & ->)]]; auto; try discriminate C. }
    all: components.
  - assert (S1 : forall s t, egraph rules_associative left_term s s -> In t (subterms s) -> egraph rules_associative left_term t t)
      by (intros; eapply eg_sub; eassumption).
    assert (L : egraph rules_associative left_term left_term left_term) by constructor.
    assert (R : egraph rules_associative left_term left_term right_term).
    { exact (eg_fire rules_associative left_term (nth 0 rules_associative (Rule false (PV 0) (PV 0) [])) (fun _ => 0%Z)
        (fun v => match v with 0 => TVar 1 | 1 => near | _ => far end) (or_introl eq_refl) (Forall_nil _) (eg_root _ _)). }
    assert (R' : egraph rules_associative left_term right_term right_term) by (eapply eg_trans; [apply eg_sym|]; exact R).
    assert (A6 : egraph rules_associative left_term (TAnd2 (TVar 1) near) (TAnd2 (TVar 1) near)) by (apply (S1 left_term); [exact L|cbn; auto]).
    assert (A7 : egraph rules_associative left_term (TAnd2 near far) (TAnd2 near far)) by (apply (S1 right_term); [exact R'|cbn; auto]).
    assert (A4 : egraph rules_associative left_term near near) by (apply (S1 (TAnd2 near far)); [exact A7|cbn; auto]).
    assert (A5 : egraph rules_associative left_term far far) by (apply (S1 (TAnd2 near far)); [exact A7|cbn; auto]).
    assert (A2 : egraph rules_associative left_term (TVar 1) (TVar 1)) by (apply (S1 right_term); [exact R'|cbn; auto]).
    assert (A0 : egraph rules_associative left_term (TBool true) (TBool true)) by (apply (S1 near); [exact A4|cbn; auto]).
    assert (A1 : egraph rules_associative left_term (TVar 0) (TVar 0)) by (apply (S1 near); [exact A4|cbn; auto]).
    assert (A3 : egraph rules_associative left_term (TVar 2) (TVar 2)) by (apply (S1 far); [exact A5|cbn; auto]).
    intros (I & [<-|[(-> & ->)|(-> & ->)]]).
    + cbn [In three_terms] in I. repeat destruct I as [<-|I]; [..|contradiction]; assumption.
    + exact R.
    + apply eg_sym, R.
Qed.

Lemma egraph_mono rs rs' root s t : (forall r, In r rs -> In r rs') -> egraph rs root s t -> egraph rs' root s t.
Proof. intros M. induction 1; eauto using egraph. Qed.

(** ** The optimum, and the queues of the two terms *)
Definition three_solution : values :=
  let active c := if c =? 7 then 0%Z else 1%Z in
  let worst c := match c with 4 | 6 => 3%Z | 5 | 8 => 5%Z | _ => 0%Z end in
  let best c := match c with 4 | 6 => 3%Z | 5 | 8 => 5%Z | _ => 0%Z end in
  Values active (fun c i => match i with 0 => active c | _ => 0%Z end) (fun c => Z.of_nat (S c)) worst best
    (fun c i => match c, i with 7, _ => 5%Z | 8, 1 => 0%Z | _, _ => worst c end)
    (fun c i => match c, i with 7, _ => 5%Z | 8, 1 => 0%Z | _, _ => best c end).
Lemma three_bounded : bounded three 5.
Proof.
  intros c n l u I E.
  destruct c as [|[|[|[|[|[|[|[|[|c]]]]]]]]]; cbn in I;
    repeat match goal with H : _ \/ _ |- _ => destruct H as [<-|I] end; try contradiction; cbn in E; try discriminate;
    try (injection E as <- <-; lia).
  destruct c; contradiction.
Qed.
Ltac each_class c := destruct c as [|[|[|[|[|[|[|[|[|c]]]]]]]]].
Ltac each_node c i E :=
  each_class c; [destruct i as [|[|i]]; cbn in E; try discriminate E; try (destruct i; discriminate E); injection E as <-..
                |destruct c, i; discriminate E].
Lemma three_feasible : feasible three true 5 three_solution.
Proof.
  constructor.
  - intros c L. cbn in L. each_class c; [vm_compute; repeat split; try discriminate; auto..|lia].
  - intros c i n E. each_node c i E; vm_compute; repeat split; try discriminate; auto.
  - reflexivity.
  - discriminate.
  - intros c i n E. each_node c i E; vm_compute; reflexivity.
  - intros c L. cbn in L. each_class c; [vm_compute; reflexivity..|lia].
  - intros c i n E. each_node c i E; vm_compute; auto.
  - intros c L. cbn in L. each_class c; [vm_compute; auto..|lia].
  - intros c i n E _. each_node c i E; vm_compute; discriminate.
  - intros c i n k E I. each_node c i E; cbn [kids In] in I; repeat destruct I as [<-|I]; try contradiction; vm_compute; discriminate.
Qed.
Lemma three_left known : (forall a, a < 3 -> known a = true) -> extract known three three_solution 5 = Some (of_eterm left_term).
Proof. intros K. vm_compute. rewrite !K by auto. reflexivity. Qed.
Lemma three_cost : objective three three_solution = 12%Z.
Proof. vm_compute. reflexivity. Qed.
(** A chosen node chooses the nodes of its operands, in classes of one node. *)
Definition lone (c : nat) : Prop := exists n, members three c = [n].
Lemma three_class v c : feasible three true 5 v -> c < 9 -> lone c -> eclass v c = chosen v c 0 /\ binary (chosen v c 0).
Proof.
  intros F L (n & E). pose proof (f_one _ _ _ _ F c L) as O. unfold over in O. rewrite E in O. cbn -[Z.add] in O.
  split; [lia|]. apply (f_node _ _ _ _ F c 0 n). unfold node_at. rewrite E. reflexivity.
Qed.
Lemma three_kids v c i o j k : feasible three true 5 v -> node_at three c i = Some (Node o [j; k]) -> j < 9 -> k < 9 -> lone j -> lone k ->
  chosen v c i = 1%Z -> chosen v j 0 = 1%Z /\ chosen v k 0 = 1%Z.
Proof.
  intros F E Lj Lk Oj Ok C. pose proof (f_kids _ _ _ _ F c i _ E) as S. rewrite C in S. cbn -[Z.add Z.mul Z.of_nat] in S.
  destruct (three_class v j F Lj Oj) as [A1 A2], (three_class v k F Lk Ok) as [B1 B2]. rewrite A1, B1 in S.
  change (Z.of_nat 2) with 2%Z in S. unfold binary in A2, B2. lia.
Qed.
Lemma three_delay v c n : feasible three true 5 v -> members three c = [n] ->
  wpd_class v c = (chosen v c 0 * wpd_node v c 0)%Z /\ bpd_class v c = (chosen v c 0 * bpd_node v c 0)%Z.
Proof.
  intros F E. assert (L : c < 9). { apply (node_class three c 0 n). unfold node_at. rewrite E. reflexivity. }
  pose proof (f_class_delays _ _ _ _ F c L) as [A B]. unfold over in A, B. rewrite E in A, B. cbn -[Z.add Z.mul] in A, B. lia.
Qed.
Ltac lonely := eexists; reflexivity.
Lemma three_costs v : feasible three true 5 v ->
  (chosen v 8 0 = 1 /\ 12 <= objective three v \/ 14 <= objective three v)%Z.
Proof.
  intros F.
  assert (R : (chosen v 8 0 = 1 /\ chosen v 8 1 = 0 \/ chosen v 8 0 = 0 /\ chosen v 8 1 = 1)%Z).
  { pose proof (f_root _ _ _ _ F) as R. pose proof (f_one _ _ _ _ F 8 ltac:(cbn; lia)) as O. change (root three) with 8 in R.
    rewrite R in O. cbn -[Z.add] in O.
    pose proof (proj1 (f_node _ _ _ _ F 8 0 _ eq_refl)) as N. pose proof (proj1 (f_node _ _ _ _ F 8 1 _ eq_refl)) as N'.
    unfold binary in *. clear - O N N'. lia. }
  pose proof (proj2 (three_class v 6 F ltac:(lia) ltac:(lonely))) as N6.
  pose proof (proj2 (three_class v 7 F ltac:(lia) ltac:(lonely))) as N7.
  assert (X : (chosen v 8 0 = 1 /\ chosen v 6 0 = 1 \/ chosen v 8 0 = 0 /\ chosen v 7 0 = 1)%Z /\
    chosen v 2 0 = 1%Z /\ chosen v 4 0 = 1%Z /\ chosen v 5 0 = 1%Z).
  { destruct R as [[R R']|[R R']].
    - destruct (three_kids v 8 0 OAnd 6 5 F eq_refl ltac:(lia) ltac:(lia) ltac:(lonely) ltac:(lonely) R) as [A B].
      destruct (three_kids v 6 0 OAnd 2 4 F eq_refl ltac:(lia) ltac:(lia) ltac:(lonely) ltac:(lonely) A) as [C D]. auto.
    - destruct (three_kids v 8 1 OAnd 2 7 F eq_refl ltac:(lia) ltac:(lia) ltac:(lonely) ltac:(lonely) R') as [A B].
      destruct (three_kids v 7 0 OAnd 4 5 F eq_refl ltac:(lia) ltac:(lia) ltac:(lonely) ltac:(lonely) B) as [C D]. auto 6. }
  destruct X as (X & X2 & X4 & X5).
  destruct (three_kids v 4 0 _ 0 1 F eq_refl ltac:(lia) ltac:(lia) ltac:(lonely) ltac:(lonely) X4) as [X0 X1].
  destruct (three_kids v 5 0 _ 0 3 F eq_refl ltac:(lia) ltac:(lia) ltac:(lonely) ltac:(lonely) X5) as [_ X3].
  pose proof (f_delays _ _ _ _ F 0 0 _ eq_refl) as D0. pose proof (f_delays _ _ _ _ F 1 0 _ eq_refl) as D1.
  pose proof (f_delays _ _ _ _ F 2 0 _ eq_refl) as D2. pose proof (f_delays _ _ _ _ F 3 0 _ eq_refl) as D3.
  pose proof (f_delays _ _ _ _ F 4 0 _ eq_refl) as D4. pose proof (f_delays _ _ _ _ F 5 0 _ eq_refl) as D5.
  pose proof (f_delays _ _ _ _ F 6 0 _ eq_refl) as D6. pose proof (f_delays _ _ _ _ F 7 0 _ eq_refl) as D7.
  pose proof (f_delays _ _ _ _ F 8 0 _ eq_refl) as D8. pose proof (f_delays _ _ _ _ F 8 1 _ eq_refl) as D8'.
  cbn -[Z.mul Z.add Z.max Z.min] in D0, D1, D2, D3, D4, D5, D6, D7, D8, D8'.
  destruct D0 as [D0 B0], D1 as [D1 B1], D2 as [D2 B2], D3 as [D3 B3].
  rewrite !(proj1 (three_delay v 0 _ F eq_refl)), !(proj1 (three_delay v 1 _ F eq_refl)), !(proj2 (three_delay v 0 _ F eq_refl)),
    !(proj2 (three_delay v 1 _ F eq_refl)), X0, X1, D0, D1, B0, B1 in D4. cbn in D4. destruct D4 as [D4 B4].
  rewrite !(proj1 (three_delay v 0 _ F eq_refl)), !(proj1 (three_delay v 3 _ F eq_refl)), !(proj2 (three_delay v 0 _ F eq_refl)),
    !(proj2 (three_delay v 3 _ F eq_refl)), X0, X3, D0, D3, B0, B3 in D5. cbn in D5. destruct D5 as [D5 B5].
  rewrite !(proj1 (three_delay v 2 _ F eq_refl)), !(proj1 (three_delay v 4 _ F eq_refl)), !(proj2 (three_delay v 2 _ F eq_refl)),
    !(proj2 (three_delay v 4 _ F eq_refl)), X2, X4, D2, D4, B2, B4 in D6. cbn in D6. destruct D6 as [D6 B6].
  rewrite !(proj1 (three_delay v 4 _ F eq_refl)), !(proj1 (three_delay v 5 _ F eq_refl)), !(proj2 (three_delay v 4 _ F eq_refl)),
    !(proj2 (three_delay v 5 _ F eq_refl)), X4, X5, D4, D5, B4, B5 in D7. cbn in D7. destruct D7 as [D7 B7].
  rewrite !(proj1 (three_delay v 6 _ F eq_refl)), !(proj1 (three_delay v 5 _ F eq_refl)), !(proj2 (three_delay v 6 _ F eq_refl)),
    !(proj2 (three_delay v 5 _ F eq_refl)), X5, D5, B5, D6, B6 in D8.
  rewrite !(proj1 (three_delay v 7 _ F eq_refl)), !(proj1 (three_delay v 2 _ F eq_refl)), !(proj2 (three_delay v 7 _ F eq_refl)),
    !(proj2 (three_delay v 2 _ F eq_refl)), X2, D2, B2, D7, B7 in D8'.
  clear F.
  destruct R as [[R R']|[R R']], X as [[Q X]|[Q X]]; try (exfalso; lia); destruct N6 as [N6|N6], N7 as [N7|N7]; try (exfalso; lia).
  all: rewrite N6 in D8; rewrite N7 in D8'; cbn in D8, D8'; destruct D8 as [D8 B8], D8' as [D8' B8'].
  1,2: left; split; [exact R|].
  3,4: right.
  all: cbv -[chosen wpd_node bpd_node Z.add Z.mul Z.max Z.sub Z.le].
  all: rewrite ?X0, ?X1, ?X2, ?X3, ?X4, ?X5, ?N6, ?N7, ?R, ?R', ?D0, ?D1, ?D2, ?D3, ?D4, ?D5, ?D6, ?D7, ?D8, ?D8',
    ?B0, ?B1, ?B2, ?B3, ?B4, ?B5, ?B6, ?B7, ?B8, ?B8'; lia.
Qed.
Lemma three_least v : feasible three true 5 v -> (12 <= objective three v)%Z.
Proof. intros F. destruct (three_costs v F); lia. Qed.
Lemma three_optimum v : optimal three true 5 v -> exists fuel, extract (fun _ => true) three v fuel = Some (of_eterm left_term).
Proof.
  intros [F O]. specialize (O _ three_feasible). rewrite three_cost in O. destruct (three_costs v F) as [[C _]|C]; [|lia].
  destruct (extraction three true 5 v three_formed F) as (t & fuel & H & _ & X). apply three_held in H as [->| ->].
  - exists fuel. apply X; auto.
  - exfalso. specialize (X (fun _ => true) (S (S fuel)) ltac:(auto) ltac:(lia)). unfold extract in X.
    assert (R8 : representative three v 8 = Some (Node OAnd [6; 5])).
    { unfold representative. change (8 <? length (classes three)) with true. rewrite (f_root _ _ _ _ F : eclass v 8 = 1%Z).
      cbn. rewrite C. reflexivity. }
    assert (R6 : forall n, representative three v 6 = Some n -> n = Node OAnd [2; 4]).
    { intros n. unfold representative. destruct (_ && _); [|discriminate]. cbn. destruct (chosen v 6 0 =? 1)%Z; [|discriminate]. congruence. }
    change (root three) with 8 in X. rewrite R8 in X.
    set (rep := representative three v) in *. cbn -[build] in X. change (build (fun _ => true) rep (S (S fuel)) (Node OAnd [6; 5])) with
      (option_map EAnd (collect [match rep 6 with Some m => build (fun _ => true) rep (S fuel) m | None => None end;
                                 match rep 5 with Some m => build (fun _ => true) rep (S fuel) m | None => None end])) in X.
    destruct (rep 6) as [n|]; [|discriminate]. rewrite (R6 n eq_refl) in X.
    assert (A : build (fun _ => true) rep (S fuel) (Node OAnd [2; 4]) = None \/ exists l, build (fun _ => true) rep (S fuel) (Node OAnd [2; 4]) = Some (EAnd l)).
    { clear. cbn [build op_of]. destruct (collect _) as [l|]; [right; exists l; reflexivity|left; reflexivity]. }
    destruct A as [A|[l A]]; rewrite A in X; [discriminate|].
    destruct (rep 5) as [m|]; [|discriminate]. destruct (build (fun _ => true) rep (S fuel) m); cbn in X; discriminate.
Qed.
