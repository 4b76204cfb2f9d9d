(** * The graph of the compiled formulas (proofs) *)
From Coq Require Import List Arith NArith ZArith Bool Ascii String Lia.
Require Import Verif.MapFile Verif.MapProofs Verif.Mltl Verif.MltlShape Verif.Transform Verif.TransformProofs Verif.Rewrite Verif.RewriteProofs.
Require Import Verif.Pipeline Verif.PipelineProofs Verif.Graph Verif.GraphSpec Verif.Binary Verif.Assembly Verif.AssemblySpec.
Require Import Verif.EndToEnd Verif.EndToEndProofs Verif.EndToEndSections Verif.DefinitionsProofs Verif.C2poText Verif.Elaborate Verif.ElaborateProofs.
Import ListNotations.
Local Open Scope list_scope.
Local Open Scope nat_scope.

(** ** Atoms of compiled formulas *)
Section Atoms.
Variable C : nat -> Prop.
Definition atom_in (e : expr) : Prop := match e with EAtom a => C a | _ => True end.
Definition source (e : expr) : Prop := simple_op e /\ atom_in e.
Lemma source_and es : all_nodes source (EAnd es) -> exists p q, es = [p; q] /\ all_nodes source p /\ all_nodes source q.
Proof. intros [[L _] H]. cbn in L. destruct es as [|p [|q [|? ?]]]; try discriminate. cbn in H. exists p, q. tauto. Qed.
Lemma source_or es : all_nodes source (EOr es) -> exists p q, es = [p; q] /\ all_nodes source p /\ all_nodes source q.
Proof. intros [[L _] H]. cbn in L. destruct es as [|p [|q [|? ?]]]; try discriminate. cbn in H. exists p, q. tauto. Qed.
Ltac done H := unfold source in *; cbn in *; tauto.
Lemma rw_node_source e : all_nodes source e -> all_nodes source (rw_node e).
Proof.
  intros H. unfold rw_node.
  destruct e as [| |p|es|es| | | |p q|lb ub p|lb ub p| | | | | |]; try exact H.
  - destruct p as [[]| |r| | | | | | |lb ub r|lb ub r| | | | | |]; cbn [rw_not]; try exact H; try (done H).
    + destruct r; try exact H; done H.
    + destruct r; try exact H; done H.
  - destruct (source_and _ H) as (l & r & -> & Hl & Hr). cbn [rw_and].
    destruct l; try exact H; destruct r; try exact H; cbn [all_nodes] in Hl, Hr.
    + destruct (expr_eqb _ _); [|exact H]. repeat (destruct (_ && _); [done H|]). exact H.
    + destruct (expr_eqb _ _).
      * unfold rw_merge. repeat (destruct (_ && _); [done H|]). exact H.
      * done H.
    + destruct (_ && _); [|exact H]. done H.
  - destruct (source_or _ H) as (l & r & -> & Hl & Hr). cbn [rw_or].
    destruct l; try exact H; destruct r; try exact H; cbn [all_nodes] in Hl, Hr.
    + destruct (expr_eqb _ _).
      * unfold rw_merge. repeat (destruct (_ && _); [done H|]). exact H.
      * done H.
    + destruct (expr_eqb _ _); [|exact H]. repeat (destruct (_ && _); [done H|]). exact H.
  - done H.
  - unfold rw_future. destruct p; try (destruct (_ && _); [done H|exact H]); try (done H).
    destruct (Nat.eqb lb ub); [done H|]. destruct (Nat.eqb _ _); [done H|].
    destruct (_ && _); [done H|exact H].
  - unfold rw_global. destruct p; try (destruct (_ && _); [done H|exact H]); try (done H).
    destruct (Nat.eqb lb ub); [done H|]. destruct (Nat.eqb _ _); [done H|].
    destruct (_ && _); [done H|exact H].
Qed.
Lemma rewrites_source e : all_nodes source e -> all_nodes source (optimize_rewrites e).
Proof.
  unfold optimize_rewrites. induction e using expr_ind'; intros He; cbn [expr_map]; apply rw_node_source;
    try exact He; try (unfold source in *; cbn [all_nodes simple_op atom_in] in *; tauto).
  - destruct (source_and _ He) as (p & q & -> & Hp & Hq).
    inversion H as [|? ? IHp Hl]; subst. inversion Hl as [|? ? IHq _]; subst. cbn. unfold source; cbn. auto 7.
  - destruct (source_or _ He) as (p & q & -> & Hp & Hq).
    inversion H as [|? ? IHp Hl]; subst. inversion Hl as [|? ? IHq _]; subst. cbn. unfold source; cbn. auto 7.
Qed.

(** The same for past-time formulas. *)
Definition pt_source (e : expr) : Prop := pt_simple_op e /\ atom_in e.
Lemma pt_source_and es : all_nodes pt_source (EAnd es) -> exists p q, es = [p; q] /\ all_nodes pt_source p /\ all_nodes pt_source q.
Proof. intros [[L _] H]. cbn in L. destruct es as [|p [|q [|? ?]]]; try discriminate. cbn in H. exists p, q. tauto. Qed.
Lemma pt_source_or es : all_nodes pt_source (EOr es) -> exists p q, es = [p; q] /\ all_nodes pt_source p /\ all_nodes pt_source q.
Proof. intros [[L _] H]. cbn in L. destruct es as [|p [|q [|? ?]]]; try discriminate. cbn in H. exists p, q. tauto. Qed.
Ltac pt_done H := unfold pt_source in *; cbn in *; tauto.
Lemma rw_node_pt_source e : all_nodes pt_source e -> all_nodes pt_source (rw_node e).
Proof.
  intros H. unfold rw_node.
  destruct e as [| |p|es|es| | | |p q|lb ub p|lb ub p| | | | | |]; try exact H; try (pt_done H).
  - destruct p as [[]| |r| | | | | | |lb ub r|lb ub r| | | | | |]; cbn [rw_not]; try exact H; try (pt_done H).
  - destruct (pt_source_and _ H) as (l & r & -> & Hl & Hr). cbn [rw_and].
    destruct l; try exact H; destruct r; try exact H; pt_done H.
  - destruct (pt_source_or _ H) as (l & r & -> & Hl & Hr). cbn [rw_or].
    destruct l; try exact H; destruct r; try exact H; pt_done H.
Qed.
Lemma rewrites_pt_source e : all_nodes pt_source e -> all_nodes pt_source (optimize_rewrites e).
Proof.
  unfold optimize_rewrites. induction e using expr_ind'; intros He; cbn [expr_map]; apply rw_node_pt_source;
    try exact He; try (unfold pt_source in *; cbn [all_nodes pt_simple_op atom_in] in *; tauto).
  - destruct (pt_source_and _ He) as (p & q & -> & Hp & Hq).
    inversion H as [|? ? IHp Hl]; subst. inversion Hl as [|? ? IHq _]; subst. cbn. unfold pt_source; cbn. auto 7.
  - destruct (pt_source_or _ He) as (p & q & -> & Hp & Hq).
    inversion H as [|? ? IHp Hl]; subst. inversion Hl as [|? ? IHq _]; subst. cbn. unfold pt_source; cbn. auto 7.
Qed.

(** What objects of a kind are built from. *)
Fixpoint built (k : bool) (e : expr) : Prop :=
  match e with
  | EConst _ => True
  | EAtom a => C a
  | ENot p => built k p
  | EAnd [p; q] | EOr [p; q] | EEquiv p q => built k p /\ built k q
  | EU lb ub p q | ER lb ub p q => k = true /\ lb <= ub /\ built k p /\ built k q
  | ES lb ub p q | ET lb ub p q => k = false /\ lb <= ub /\ built k p /\ built k q
  | _ => False
  end.
Lemma core_built e : all_nodes source e -> legal e -> built true (expr_map core_node e).
Proof.
  induction e using expr_ind'; intros He Le; cbn [expr_map core_node];
    try (unfold source in He; cbn [all_nodes simple_op atom_in legal] in He, Le; cbn [built]; tauto).
  - destruct (source_and _ He) as (p & q & -> & Hp & Hq). cbn in Le.
    inversion H as [|? ? IHp Hl]; subst. inversion Hl as [|? ? IHq _]; subst. cbn. tauto.
  - destruct (source_or _ He) as (p & q & -> & Hp & Hq). cbn in Le.
    inversion H as [|? ? IHp Hl]; subst. inversion Hl as [|? ? IHq _]; subst. cbn. tauto.
Qed.
Lemma pt_core_built e : all_nodes pt_source e -> legal e -> built false (expr_map core_node e).
Proof.
  induction e using expr_ind'; intros He Le; cbn [expr_map core_node];
    try (unfold pt_source in He; cbn [all_nodes pt_simple_op atom_in legal] in He, Le; cbn [built]; tauto).
  - destruct (pt_source_and _ He) as (p & q & -> & Hp & Hq). cbn in Le.
    inversion H as [|? ? IHp Hl]; subst. inversion Hl as [|? ? IHq _]; subst. cbn. tauto.
  - destruct (pt_source_or _ He) as (p & q & -> & Hp & Hq). cbn in Le.
    inversion H as [|? ? IHp Hl]; subst. inversion Hl as [|? ? IHq _]; subst. cbn. tauto.
Qed.
Lemma node_ok_source e : all_nodes (node_ok true C) e -> all_nodes source e.
Proof. apply all_nodes_impl. intros x (A & _ & B). split; [exact A|exact B]. Qed.
Lemma node_ok_pt_source e : all_nodes (node_ok false C) e -> all_nodes pt_source e.
Proof. apply all_nodes_impl. intros x (A & _ & B). split; [exact A|exact B]. Qed.
Lemma node_ok_shape k e : all_nodes (node_ok k C) e -> all_nodes (shape k) e.
Proof. apply all_nodes_impl. intros x (A & _). exact A. Qed.
Lemma node_ok_legal k e : all_nodes (node_ok k C) e -> legal e.
Proof.
  induction e using expr_ind'; intros [(A & B & _) H1]; try (cbn in *; tauto).
  - cbn in *. rewrite fold_all_nodes in H1. clear A B. induction es as [|x es IH]; [exact I|]. inversion H; subst. inversion H1; subst. cbn. auto.
  - cbn in *. rewrite fold_all_nodes in H1. clear A B. induction es as [|x es IH]; [exact I|]. inversion H; subst. inversion H1; subst. cbn. auto.
Qed.
Lemma shape_rewritable k e : all_nodes (shape k) e -> all_nodes rewrite_source_op e.
Proof. apply all_nodes_impl. destruct k; intros []; cbn; tauto. Qed.
Lemma compiled_built k e : all_nodes (node_ok k C) e -> built k (compile_expr e).
Proof.
  intros H. rewrite compile_expr_id. unfold remove_extended. pose proof (node_ok_shape k e H) as Sh.
  assert (Lg : legal (optimize_rewrites e)) by (apply rewrites_legal; [apply (node_ok_legal k), H|apply (shape_rewritable k), Sh]).
  destruct k; cbn [shape] in Sh.
  - apply rewrites_simple in Sh. rewrite (to_binary_id _ (simple_binary _ Sh)). apply core_built; [apply rewrites_source, node_ok_source, H|exact Lg].
  - apply rewrites_pt_simple in Sh. rewrite (to_binary_id _ (pt_simple_binary _ Sh)). apply pt_core_built; [apply rewrites_pt_source, node_ok_pt_source, H|exact Lg].
Qed.
End Atoms.

(** ** Symbols *)
Lemma binary_text_inj k k' lb ub lb' ub' : binary_text k lb ub = binary_text k' lb' ub' -> k = k' /\ lb = lb' /\ ub = ub'.
Proof.
  unfold binary_text. intros H.
  assert (K : k = k' /\ bounds_text lb ub = bounds_text lb' ub').
  { destruct k, k'; try discriminate H; (split; [reflexivity|]; exact (f_equal (@tl ascii) H)). }
  destruct K as [-> K]. split; [reflexivity|]. unfold bounds_text in K. apply (f_equal (@tl ascii)) in K. cbn [tl] in K. clear H.
  assert (T : forall a r, ~ is_digit ","%char = true -> take_while is_digit (dec a ++ ","%char :: r) = dec a).
  { intros a r _. pose proof (dec_digits a) as D. induction (dec a) as [|c w IH]; [reflexivity|]. cbn in D. apply andb_true_iff in D as [D1 D2].
    cbn. rewrite D1. f_equal. apply IH, D2. }
  assert (E : dec (N.of_nat lb) = dec (N.of_nat lb')).
  { rewrite <- (T (N.of_nat lb) (dec (N.of_nat ub) ++ ["]"%char])) by discriminate. rewrite K. apply T. discriminate. }
  split; [apply dec_inj in E; apply Nat2N.inj, E|]. rewrite E in K. apply app_inv_head in K. apply (f_equal (@tl ascii)) in K. cbn [tl] in K. apply app_inj_tail in K as [K _].
  apply dec_inj in K. apply Nat2N.inj, K.
Qed.
Definition ops : list (str * nclass) :=
  [(prefix_text PNot, Assembly.COp OpNot); (infix_text And, Assembly.COp OpAnd); (infix_text Or, Assembly.COp OpOr);
   (infix_text Iff, Assembly.COp OpEquiv)].
Lemma plain_chars s : s <> [] -> forallb (fun c => negb (Ascii.eqb c space || Ascii.eqb c lpar || Ascii.eqb c rpar || Ascii.eqb c colon)) s = true -> plain s.
Proof.
  intros N H. split; [exact N|]. apply Forall_forall. intros c Hc. rewrite forallb_forall in H. specialize (H c Hc). apply negb_true_iff in H.
  repeat (apply orb_false_iff in H as [H ?]). repeat split; apply Ascii.eqb_neq; assumption.
Qed.
Lemma plain_app_chars s t : forallb (fun c => negb (Ascii.eqb c space || Ascii.eqb c lpar || Ascii.eqb c rpar || Ascii.eqb c colon)) s = true ->
  forallb (fun c => negb (Ascii.eqb c space || Ascii.eqb c lpar || Ascii.eqb c rpar || Ascii.eqb c colon)) t = true ->
  forallb (fun c => negb (Ascii.eqb c space || Ascii.eqb c lpar || Ascii.eqb c rpar || Ascii.eqb c colon)) (s ++ t) = true.
Proof. intros. rewrite forallb_app, H, H0. reflexivity. Qed.
Lemma digit_chars n : forallb (fun c => negb (Ascii.eqb c space || Ascii.eqb c lpar || Ascii.eqb c rpar || Ascii.eqb c colon)) (dec n) = true.
Proof.
  eapply forallb_impl; [|apply dec_digits]. intros c H. apply negb_true_iff.
  destruct c as [[] [] [] [] [] [] [] []]; vm_compute in H |- *; congruence.
Qed.
Lemma word_chars w : forallb is_word w = true ->
  forallb (fun c => negb (Ascii.eqb c space || Ascii.eqb c lpar || Ascii.eqb c rpar || Ascii.eqb c colon)) w = true.
Proof.
  intros D. eapply forallb_impl; [|exact D]. intros c H. apply negb_true_iff.
  destruct c as [[] [] [] [] [] [] [] []]; vm_compute in H |- *; congruence.
Qed.
Lemma binary_text_plain k lb ub : plain (binary_text k lb ub).
Proof.
  apply plain_chars; [destruct k; discriminate|]. unfold binary_text, bounds_text.
  destruct k; cbn [quoted list_ascii_of_string app]; apply (plain_app_chars [_; _]); try reflexivity;
    (apply plain_app_chars; [apply digit_chars|]; apply (plain_app_chars [_]); [reflexivity|]; apply plain_app_chars; [apply digit_chars|reflexivity]).
Qed.

Section Graph.
Variable C : nat -> Prop.
Variable name : nat -> str.
Variable titles : list (str * nat).
Hypothesis name_plain : forall a, C a -> plain (name a).
Hypothesis name_inj : forall a b, C a -> C b -> name a = name b -> a = b.
Hypothesis name_const : forall a b, C a -> name a <> quoted (if b : bool then "true" else "false")%string.
Hypothesis titles_plain : forall x n, In (x, n) titles -> plain x.
Hypothesis titles_apart : NoDup (map fst titles).

(** The class of an object by its kind and symbol. *)
Inductive spelled : kind -> str -> nclass -> Prop :=
| spelled_signal a : C a -> spelled KLeaf (name a) (CSignal (Z.of_nat a))
| spelled_const b : spelled KLeaf (quoted (if b : bool then "true" else "false")) (Assembly.CBool b)
| spelled_op s c : In (s, c) ops -> spelled KOp s c
| spelled_until lb ub : spelled KOp (binary_text BU lb ub) (CTemporal OpUntil (Z.of_nat lb) (Z.of_nat ub))
| spelled_release lb ub : spelled KOp (binary_text BR lb ub) (CTemporal OpRelease (Z.of_nat lb) (Z.of_nat ub))
| spelled_since lb ub : spelled KOp (binary_text BS lb ub) (CTemporal OpSince (Z.of_nat lb) (Z.of_nat ub))
| spelled_trigger lb ub : spelled KOp (binary_text BT lb ub) (CTemporal OpTrigger (Z.of_nat lb) (Z.of_nat ub))
| spelled_formula x n : In (x, n) titles -> spelled KFormula x (CFormula (Z.of_nat n))
| spelled_set s : plain s -> spelled KSet s CSet.
Lemma spelled_plain k s c : spelled k s c -> plain s.
Proof.
  intros [a A|b|s' c' I|lb ub|lb ub|lb ub|lb ub|x n I|s' P]; auto.
  - destruct b; apply plain_chars; try discriminate; reflexivity.
  - cbn in I. repeat (destruct I as [I|I]; [injection I as <- <-; apply plain_chars; [discriminate|reflexivity]|]). destruct I.
  - apply binary_text_plain.
  - apply binary_text_plain.
  - apply binary_text_plain.
  - apply binary_text_plain.
  - eapply titles_plain, I.
Qed.
Lemma assoc_fun {A B} (l : list (A * B)) x a b : NoDup (map fst l) -> In (x, a) l -> In (x, b) l -> a = b.
Proof.
  induction l as [|[y c] l IH]; intros N H1 H2; [destruct H1|]. cbn in N. inversion N as [|? ? N1 N2]; subst.
  destruct H1 as [H1|H1], H2 as [H2|H2].
  - congruence.
  - injection H1 as -> ->. exfalso. apply N1, (in_map fst _ _ H2).
  - injection H2 as -> ->. exfalso. apply N1, (in_map fst _ _ H1).
  - auto.
Qed.
Lemma op_not_temporal s c k lb ub : In (s, c) ops -> s <> binary_text k lb ub.
Proof. intros I. cbn in I. repeat (destruct I as [I|I]; [injection I as <- <-; destruct k; discriminate|]). destruct I. Qed.
Definition temporal_kind (o : binary) : opkind :=
  match o with BU => OpUntil | BR => OpRelease | BS => OpSince | BT => OpTrigger end.
Lemma spelled_inv k s c : spelled k s c ->
  match k with
  | KLeaf => (exists a, C a /\ s = name a /\ c = CSignal (Z.of_nat a)) \/ (exists b : bool, s = quoted (if b then "true" else "false") /\ c = Assembly.CBool b)
  | KOp => In (s, c) ops \/ exists o lb ub, s = binary_text o lb ub /\ c = CTemporal (temporal_kind o) (Z.of_nat lb) (Z.of_nat ub)
  | KFormula => exists n, In (s, n) titles /\ c = CFormula (Z.of_nat n)
  | KSet => c = CSet
  end.
Proof.
  intros [a A|b|s' d I|lb ub|lb ub|lb ub|lb ub|x n I|s' P]; cbn; eauto 8.
  - right; exists BU; cbn; eauto.
  - right; exists BR; cbn; eauto.
  - right; exists BS; cbn; eauto.
  - right; exists BT; cbn; eauto.
Qed.
Lemma spelled_fun k s c c' : spelled k s c -> spelled k s c' -> c = c'.
Proof.
  intros H H'. apply spelled_inv in H, H'. destruct k.
  - destruct H as [(a & A & -> & ->)|(b & -> & ->)], H' as [(a' & A' & E & ->)|(b' & E & ->)].
    + f_equal. f_equal. apply name_inj; assumption.
    + exfalso. revert E. apply name_const, A.
    + exfalso. symmetry in E. revert E. apply name_const, A'.
    + destruct b, b'; try reflexivity; discriminate.
  - destruct H as [I|(o & lb & ub & -> & ->)], H' as [I'|(o' & lb' & ub' & E & ->)].
    + eapply (assoc_fun ops); [|exact I|exact I']. repeat constructor; cbn; intuition discriminate.
    + exfalso. eapply op_not_temporal; [exact I|exact E].
    + exfalso. eapply op_not_temporal; [exact I'|reflexivity].
    + apply binary_text_inj in E as (-> & -> & ->). reflexivity.
  - destruct H as (n & I & ->), H' as (n' & I' & ->). f_equal. f_equal. eapply assoc_fun; eauto.
  - congruence.
Qed.

(** ** Objects *)
Variable L : list (node * nclass).
(** The kind of the formulas placed. *)
Variable kd : bool.
Definition code : opkind -> option Z := if kd then ft_code else pt_code.
Notation h := (heap_of L).
Notation cls := (class_of L).
Definition shaped (n : nat) : Prop :=
  match nkind (h n) with
  | KLeaf => nchildren (h n) = []
  | KOp => nchildren (h n) <> [] /\ Forall (fun c => is_expr (nkind (h c))) (nchildren (h n))
  | KFormula => exists c, nchildren (h n) = [c] /\ is_expr (nkind (h c))
  | KSet => Forall (fun c => nkind (h c) = KFormula) (nchildren (h n))
  end.
Definition tl_ok (n : nat) : Prop :=
  match cls n with
  | Assembly.COp _ | CTemporal _ _ _ => Forall (fun c => value_class (cls c)) (nchildren (h n))
  | CFormula _ => exists c, nchildren (h n) = [c] /\ value_class (cls c)
  | _ => True
  end.
Definition entry_ok (lo i : nat) : Prop :=
  Forall (fun c => lo <= c < i) (nchildren (h i)) /\ shaped i /\ tl_ok i /\ assemblable h cls code i /\
  spelled (nkind (h i)) (nsym (h i)) (cls i).
Definition is_const (e : expr) : Prop := match e with EConst _ => True | _ => False end.
Definition root_ok (r : nat) (e : expr) : Prop :=
  is_expr (nkind (h r)) /\ value_class (cls r) /\ means h cls r e /\ (~ is_const e -> forall b, cls r <> Assembly.CBool b).
Definition placed (base : nat) (e : expr) : Prop :=
  let n := List.length (objects name base e) in
  0 < n /\ root_ok (base + pred n) e /\ forall i, base <= i < base + n -> entry_ok base i.
Lemma entry_lower lo lo' i : lo' <= lo -> entry_ok lo i -> entry_ok lo' i.
Proof. intros L0 (A & B). split; [|exact B]. eapply Forall_impl; [|exact A]. cbv beta. lia. Qed.

Lemma at_place pre x post : L = pre ++ x :: post -> h (List.length pre) = fst x /\ cls (List.length pre) = snd x.
Proof.
  intros ->. unfold heap_of, class_of. rewrite app_nth2, Nat.sub_diag by lia. auto.
Qed.
Definition operator_class (c : nclass) : Prop :=
  match c with Assembly.COp o | CTemporal o _ _ => code o <> None | _ => False end.
Lemma op2_placed sym c e p q base pre post :
  objects name base e = op2 sym c base (objects name base p) (objects name (base + List.length (objects name base p)) q) ->
  base = List.length pre -> L = pre ++ objects name base e ++ post ->
  spelled KOp sym c -> operator_class c -> ~ is_const e ->
  (forall n x y, cls n = c -> nchildren (h n) = [x; y] -> means h cls x p -> means h cls y q -> means h cls n e) ->
  placed base p -> placed (base + List.length (objects name base p)) q -> placed base e.
Proof.
  intros Eo Eb EL Sp Oc Nc Me (P1 & (P2 & P3 & P4 & _) & P5) (Q1 & (Q2 & Q3 & Q4 & _) & Q5).
  set (l1 := objects name base p) in *. set (l2 := objects name (base + List.length l1) q) in *.
  unfold op2 in Eo. set (x := base + pred (List.length l1)) in *. set (y := base + List.length l1 + pred (List.length l2)) in *.
  set (r := base + List.length l1 + List.length l2).
  assert (At : h r = Node KOp sym [x; y] /\ cls r = c).
  { assert (E : L = (pre ++ l1 ++ l2) ++ (Node KOp sym [x; y], c) :: post).
    { rewrite EL, Eo. rewrite <- !app_assoc. reflexivity. }
    replace r with (List.length (pre ++ l1 ++ l2)) by (rewrite !app_length; unfold r; lia). apply (at_place _ _ _ E). }
  destruct At as [Hr Cr].
  assert (Ln : List.length (objects name base e) = List.length l1 + List.length l2 + 1) by (rewrite Eo, !app_length; cbn; lia).
  unfold placed. rewrite Ln. cbv zeta. replace (base + pred (List.length l1 + List.length l2 + 1)) with r by (unfold r; lia).
  split; [lia|]. split.
  - split; [right; rewrite Hr; reflexivity|]. split; [rewrite Cr; destruct c; try contradiction; exact I|]. split.
    + apply (Me r x y); [exact Cr|rewrite Hr; reflexivity|exact P4|exact Q4].
    + intros _ b K. rewrite <- Cr, K in Oc. exact Oc.
  - intros i Hi. destruct (Nat.lt_ge_cases i (base + List.length l1)) as [K|K]; [apply P5; lia|].
    destruct (Nat.lt_ge_cases i r) as [K2|K2]; [eapply entry_lower; [|apply Q5; unfold r in K2; lia]; lia|].
    assert (i = r) by (unfold r in *; lia). subst i. unfold entry_ok, shaped, tl_ok, assemblable. rewrite Hr, Cr. cbn [nchildren nkind nsym].
    split; [constructor; [unfold x, r; lia|constructor; [unfold y, r; lia|constructor]]|].
    split; [split; [discriminate|]; auto|]. split; [destruct c; try contradiction; auto|]. split; [|exact Sp].
    destruct c; try contradiction; (split; [exact Oc|cbn; lia]).
Qed.
Lemma op1_placed sym c e p base pre post :
  objects name base e = op1 sym c base (objects name base p) ->
  base = List.length pre -> L = pre ++ objects name base e ++ post ->
  spelled KOp sym c -> operator_class c -> ~ is_const e ->
  (forall n x, cls n = c -> nchildren (h n) = [x] -> means h cls x p -> means h cls n e) ->
  placed base p -> placed base e.
Proof.
  intros Eo Eb EL Sp Oc Nc Me (P1 & (P2 & P3 & P4 & _) & P5).
  set (l1 := objects name base p) in *. unfold op1 in Eo. set (x := base + pred (List.length l1)) in *.
  set (r := base + List.length l1).
  assert (At : h r = Node KOp sym [x] /\ cls r = c).
  { assert (E : L = (pre ++ l1) ++ (Node KOp sym [x], c) :: post).
    { rewrite EL, Eo. rewrite <- !app_assoc. reflexivity. }
    replace r with (List.length (pre ++ l1)) by (rewrite !app_length; unfold r; lia). apply (at_place _ _ _ E). }
  destruct At as [Hr Cr].
  assert (Ln : List.length (objects name base e) = List.length l1 + 1) by (rewrite Eo, !app_length; cbn; lia).
  unfold placed. rewrite Ln. cbv zeta. replace (base + pred (List.length l1 + 1)) with r by (unfold r; lia).
  split; [lia|]. split.
  - split; [right; rewrite Hr; reflexivity|]. split; [rewrite Cr; destruct c; try contradiction; exact I|]. split.
    + apply (Me r x); [exact Cr|rewrite Hr; reflexivity|exact P4].
    + intros _ b K. rewrite <- Cr, K in Oc. exact Oc.
  - intros i Hi. destruct (Nat.lt_ge_cases i (base + List.length l1)) as [K|K]; [apply P5; lia|].
    assert (i = r) by (unfold r in *; lia). subst i. unfold entry_ok, shaped, tl_ok, assemblable. rewrite Hr, Cr. cbn [nchildren nkind nsym].
    split; [constructor; [unfold x, r; lia|constructor]|].
    split; [split; [discriminate|]; auto|]. split; [destruct c; try contradiction; auto|]. split; [|exact Sp].
    destruct c; try contradiction; (split; [exact Oc|cbn; lia]).
Qed.
Lemma leaf_placed sym c e base pre post :
  objects name base e = [(Node KLeaf sym [], c)] -> base = List.length pre -> L = pre ++ objects name base e ++ post ->
  spelled KLeaf sym c -> (match c with CSignal _ | Assembly.CBool _ => True | _ => False end) ->
  (~ is_const e -> forall b, c <> Assembly.CBool b) -> (forall n, cls n = c -> means h cls n e) -> placed base e.
Proof.
  intros Eo Eb EL Sp Oc Nc Me. assert (At : h base = Node KLeaf sym [] /\ cls base = c).
  { subst base. rewrite Eo in EL. cbn [app] in EL. apply (at_place _ _ _ EL). }
  destruct At as [Hr Cr]. unfold placed. rewrite Eo. cbn [List.length pred]. rewrite Nat.add_0_r. split; [lia|]. split.
  - split; [left; rewrite Hr; reflexivity|]. split; [rewrite Cr; destruct c; try contradiction; exact I|].
    split; [apply Me, Cr|]. intros N b. rewrite Cr. apply Nc, N.
  - intros i Hi. assert (i = base) by lia. subst i. unfold entry_ok, shaped, tl_ok, assemblable. rewrite Hr, Cr. cbn [nchildren nkind nsym].
    split; [constructor|]. split; [reflexivity|]. split; [destruct c; try contradiction; auto|]. split; [|exact Sp]. destruct c; try contradiction; auto.
Qed.
Lemma objects_placed e : built C kd e -> forall pre post, L = pre ++ objects name (List.length pre) e ++ post -> placed (List.length pre) e.
Proof.
  assert (Second : forall pre post p q n, L = pre ++ (objects name (List.length pre) p ++
      objects name (List.length pre + List.length (objects name (List.length pre) p)) q ++ [n]) ++ post ->
      L = pre ++ objects name (List.length pre) p ++ (objects name (List.length pre + List.length (objects name (List.length pre) p)) q ++ n :: post) /\
      L = (pre ++ objects name (List.length pre) p) ++ objects name (List.length (pre ++ objects name (List.length pre) p)) q ++ n :: post).
  { intros pre post p q n ->. rewrite app_length. split; rewrite <- !app_assoc; reflexivity. }
  induction e using expr_ind'; intros B pre post EL; cbn [built] in B; try contradiction.
  - eapply leaf_placed; [reflexivity|reflexivity|exact EL|apply spelled_const|exact I|cbn; tauto|]. intros n K. apply means_const, K.
  - eapply leaf_placed; [reflexivity|reflexivity|exact EL|apply spelled_signal, B|exact I|discriminate|]. intros n K.
    pose proof (means_signal h cls n (Z.of_nat a) K ltac:(lia)) as M. rewrite Nat2Z.id in M. exact M.
  - eapply op1_placed; [reflexivity|reflexivity|exact EL|apply spelled_op; cbn; auto|unfold operator_class, code; destruct kd; discriminate|cbn; tauto| |].
    + intros n x K1 K2 K3. eapply means_not; eauto.
    + apply (IHe B pre ([(Node KOp (prefix_text PNot) [List.length pre + pred (List.length (objects name (List.length pre) e))], Assembly.COp OpNot)] ++ post)).
      rewrite EL. cbn [objects]. unfold op1. rewrite <- app_assoc. reflexivity.
  - destruct es as [|p [|q [|? ?]]]; try contradiction. inversion H as [|? ? IHp Hl]; subst. inversion Hl as [|? ? IHq _]; subst. destruct B as [B1 B2].
    destruct (Second _ _ _ _ _ EL) as [E1 E2].
    eapply op2_placed; [reflexivity|reflexivity|exact EL|apply spelled_op; cbn; auto|unfold operator_class, code; destruct kd; discriminate|cbn; tauto| |exact (IHp B1 _ _ E1)|].
    + intros n x y K1 K2 K3 K4. eapply means_and; eauto.
    + rewrite <- app_length. exact (IHq B2 _ _ E2).
  - destruct es as [|p [|q [|? ?]]]; try contradiction. inversion H as [|? ? IHp Hl]; subst. inversion Hl as [|? ? IHq _]; subst. destruct B as [B1 B2].
    destruct (Second _ _ _ _ _ EL) as [E1 E2].
    eapply op2_placed; [reflexivity|reflexivity|exact EL|apply spelled_op; cbn; auto|unfold operator_class, code; destruct kd; discriminate|cbn; tauto| |exact (IHp B1 _ _ E1)|].
    + intros n x y K1 K2 K3 K4. eapply means_or; eauto.
    + rewrite <- app_length. exact (IHq B2 _ _ E2).
  - destruct B as [B1 B2]. destruct (Second _ _ _ _ _ EL) as [E1 E2].
    eapply op2_placed; [reflexivity|reflexivity|exact EL|apply spelled_op; cbn; auto|unfold operator_class, code; destruct kd; discriminate|cbn; tauto| |exact (IHe1 B1 _ _ E1)|].
    + intros n x y K1 K2 K3 K4. eapply means_equiv; eauto.
    + rewrite <- app_length. exact (IHe2 B2 _ _ E2).
  - destruct B as (Kd & Le & B1 & B2). destruct (Second _ _ _ _ _ EL) as [E1 E2].
    eapply op2_placed; [reflexivity|reflexivity|exact EL|apply spelled_until|unfold operator_class, code; rewrite Kd; discriminate|cbn; tauto| |exact (IHe1 B1 _ _ E1)|].
    + intros n x y K1 K2 K3 K4. pose proof (means_until h cls n x y (Z.of_nat lb) (Z.of_nat ub) _ _ K1 ltac:(lia) K2 K3 K4) as M. rewrite !Nat2Z.id in M. exact M.
    + rewrite <- app_length. exact (IHe2 B2 _ _ E2).
  - destruct B as (Kd & Le & B1 & B2). destruct (Second _ _ _ _ _ EL) as [E1 E2].
    eapply op2_placed; [reflexivity|reflexivity|exact EL|apply spelled_release|unfold operator_class, code; rewrite Kd; discriminate|cbn; tauto| |exact (IHe1 B1 _ _ E1)|].
    + intros n x y K1 K2 K3 K4. pose proof (means_release h cls n x y (Z.of_nat lb) (Z.of_nat ub) _ _ K1 ltac:(lia) K2 K3 K4) as M. rewrite !Nat2Z.id in M. exact M.
    + rewrite <- app_length. exact (IHe2 B2 _ _ E2).
  - destruct B as (Kd & Le & B1 & B2). destruct (Second _ _ _ _ _ EL) as [E1 E2].
    eapply op2_placed; [reflexivity|reflexivity|exact EL|apply spelled_since|unfold operator_class, code; rewrite Kd; discriminate|cbn; tauto| |exact (IHe1 B1 _ _ E1)|].
    + intros n x y K1 K2 K3 K4. pose proof (means_since h cls n x y (Z.of_nat lb) (Z.of_nat ub) _ _ K1 ltac:(lia) K2 K3 K4) as M. rewrite !Nat2Z.id in M. exact M.
    + rewrite <- app_length. exact (IHe2 B2 _ _ E2).
  - destruct B as (Kd & Le & B1 & B2). destruct (Second _ _ _ _ _ EL) as [E1 E2].
    eapply op2_placed; [reflexivity|reflexivity|exact EL|apply spelled_trigger|unfold operator_class, code; rewrite Kd; discriminate|cbn; tauto| |exact (IHe1 B1 _ _ E1)|].
    + intros n x y K1 K2 K3 K4. pose proof (means_trigger h cls n x y (Z.of_nat lb) (Z.of_nat ub) _ _ K1 ltac:(lia) K2 K3 K4) as M. rewrite !Nat2Z.id in M. exact M.
    + rewrite <- app_length. exact (IHe2 B2 _ _ E2).
Qed.

(** ** Formulas *)
Lemma formulas_placed : forall l pre post, Forall (fun s => built C kd (snd s) /\ ~ is_const (snd s)) l -> incl (map fst l) titles ->
  L = pre ++ fst (formula_objects name (List.length pre) l) ++ post ->
  (forall i, List.length pre <= i < List.length pre + List.length (fst (formula_objects name (List.length pre) l)) -> entry_ok (List.length pre) i) /\
  Forall2 (fun f s => formula_means h cls f (Z.of_nat (snd (fst s))) (snd s) /\ nkind (h f) = KFormula /\
                      List.length pre <= f < List.length pre + List.length (fst (formula_objects name (List.length pre) l)))
          (snd (formula_objects name (List.length pre) l)) l.
Proof.
  induction l as [|[[x n] e] l IH]; intros pre post F I EL; cbn [formula_objects].
  - split; [cbn; lia|constructor].
  - cbn [formula_objects] in EL. inversion F as [|? ? [B Nc] F']; subst. cbn [snd fst] in *.
    set (o := objects name (List.length pre) e) in *. set (f := List.length pre + List.length o) in *.
    specialize (IH (pre ++ o ++ [(Node KFormula x [pred f], CFormula (Z.of_nat n))]) post F').
    assert (Lp : List.length (pre ++ o ++ [(Node KFormula x [pred f], CFormula (Z.of_nat n))]) = S f) by (rewrite !app_length; unfold f; cbn; lia).
    rewrite Lp in IH. destruct (formula_objects name (S f) l) as [os fs]. cbn [fst snd] in *.
    assert (EL2 : L = (pre ++ o ++ [(Node KFormula x [pred f], CFormula (Z.of_nat n))]) ++ os ++ post).
    { rewrite EL. rewrite <- !app_assoc. cbn [app]. rewrite <- ?app_assoc. reflexivity. }
    destruct IH as [G1 G2]; [intros y Hy; apply I; right; exact Hy|exact EL2|].
    assert (Pl : placed (List.length pre) e).
    { apply (objects_placed e B pre ((Node KFormula x [pred f], CFormula (Z.of_nat n)) :: os ++ post)). rewrite EL. rewrite <- app_assoc. reflexivity. }
    destruct Pl as (P1 & (P2 & P3 & P4 & P5) & P6). fold o in P1, P2, P3, P4, P5, P6.
    replace (List.length pre + pred (List.length o)) with (pred f) in * by (unfold f; lia).
    assert (At : h f = Node KFormula x [pred f] /\ cls f = CFormula (Z.of_nat n)).
    { assert (E : L = (pre ++ o) ++ (Node KFormula x [pred f], CFormula (Z.of_nat n)) :: (os ++ post)).
      { rewrite EL. rewrite <- !app_assoc. reflexivity. }
      pose proof (at_place _ _ _ E) as K. rewrite app_length in K. exact K. }
    destruct At as [Hf Cf]. rewrite !app_length. cbn [List.length]. split.
    + intros i Hi. destruct (Nat.lt_ge_cases i f) as [K|K]; [apply P6; unfold f in K; lia|].
      destruct (Nat.eq_dec i f) as [-> |K2]; [|eapply entry_lower; [|apply G1; unfold f in *; lia]; unfold f in *; lia].
      unfold entry_ok, shaped, tl_ok, assemblable. rewrite Hf, Cf. cbn [nchildren nkind nsym].
      split; [constructor; [unfold f; lia|constructor]|]. split; [eauto|]. split; [eauto|]. split; [eauto|].
      apply spelled_formula. apply I. left. reflexivity.
    + constructor.
      * cbn [fst snd]. split; [|split; [rewrite Hf; reflexivity|unfold f; lia]]. split; [exact Cf|]. split; [lia|]. exists (pred f). rewrite Hf. auto.
      * eapply Forall2_weaken; [|exact G2]. cbv beta. intros f' s (K1 & K2 & K3). split; [exact K1|]. split; [exact K2|].
        unfold f in *. lia.
Qed.
End Graph.

(** ** Trees *)
Fixpoint unfolded (h : heap) (k n : nat) : tree :=
  match k with
  | O => Tree (nkind (h n)) (nsym (h n)) []
  | S k => Tree (nkind (h n)) (nsym (h n)) (map (unfolded h k) (nchildren (h n)))
  end.
Lemma unfolded_same h : (forall n, Forall (fun c => c < n) (nchildren (h n))) -> forall n k k', n < k -> n < k' -> unfolded h k n = unfolded h k' n.
Proof.
  intros H. induction n as [n IH] using lt_wf_ind. intros [|k] [|k'] K K'; try lia. cbn. f_equal. apply map_ext_in. intros c Hc.
  specialize (H n). rewrite Forall_forall in H. pose proof (H c Hc). apply IH; lia.
Qed.
Lemma downward_denotes h : (forall n, Forall (fun c => c < n) (nchildren (h n))) -> denotes h (fun n => unfolded h (S n) n).
Proof.
  intros H n. cbn [unfolded]. f_equal. apply map_ext_in. intros c Hc. pose proof (H n) as G. rewrite Forall_forall in G. specialize (G c Hc).
  apply (unfolded_same h H c n (S c)); [exact G|lia].
Qed.

(** ** The program *)
Lemma reachable_within (h : heap) (s : nat) (P : nat -> Prop) :
  Forall P (nchildren (h s)) -> (forall n, P n -> Forall P (nchildren (h n))) -> forall n, reachable h [s] n -> n = s \/ P n.
Proof.
  intros H0 H1 n R. induction R as [n Hn|n c R IH Hc].
  - left. destruct Hn as [<-|[]]. reflexivity.
  - right. destruct IH as [-> |IH].
    + rewrite Forall_forall in H0. apply H0, Hc.
    + pose proof (H1 n IH) as K. rewrite Forall_forall in K. apply K, Hc.
Qed.
Section Program.
Variable C : nat -> Prop.
Variable name : nat -> str.
Variables l l' : list (str * nat * expr).
Hypothesis name_plain : forall a, C a -> plain (name a).
Hypothesis name_inj : forall a b, C a -> C b -> name a = name b -> a = b.
Hypothesis name_const : forall a b, C a -> name a <> quoted (if b : bool then "true" else "false")%string.
Hypothesis labels_plain : forall s, In s (l ++ l') -> plain (fst (fst s)).
Hypothesis labels_apart : NoDup (map (fun s => fst (fst s)) (l ++ l')).
Hypothesis l_built : Forall (fun s => built C true (snd s) /\ ~ is_const (snd s)) l.
Hypothesis l'_built : Forall (fun s => built C false (snd s) /\ ~ is_const (snd s)) l'.
Notation L := (program_objects name l l').
Notation h := (heap_of L).
Notation cls := (class_of L).
Notation ft := (future_set name l l').
Notation T := (map fst (l ++ l')).
Notation spelled := (spelled C name T).
Lemma program_graph :
  denotes h (fun n => unfolded h (S n) n) /\ well_shaped h /\ nkind (h ft) = KSet /\ nkind (h (S ft)) = KSet /\
  named_apart h cls /\ cls ft = CSet /\ cls (S ft) = CSet /\
  (forall n, reachable h [ft] n -> ~ reachable h [S ft] n) /\ tl_shaped h cls /\
  (forall n, reachable h [ft] n -> assemblable h cls ft_code n) /\
  (forall n, reachable h [S ft] n -> assemblable h cls pt_code n) /\
  Forall2 (fun f s => formula_means h cls f (Z.of_nat (snd (fst s))) (snd s)) (nchildren (h ft)) l /\
  Forall2 (fun f s => formula_means h cls f (Z.of_nat (snd (fst s))) (snd s)) (nchildren (h (S ft))) l'.
Proof.
  set (os := fst (formula_objects name 0 l)). set (fs := snd (formula_objects name 0 l)).
  set (os' := fst (formula_objects name (List.length os) l')). set (ps := snd (formula_objects name (List.length os) l')).
  assert (EL : L = os ++ os' ++ [(Node KSet (quoted "FTSPEC") fs, CSet); (Node KSet (quoted "PTSPEC") ps, CSet)]).
  { unfold program_objects, ps, os', fs, os. destruct (formula_objects name 0 l) as [a b]. cbn [fst snd]. destruct (formula_objects name (List.length a) l'). reflexivity. }
  assert (Eft : ft = List.length os + List.length os') by reflexivity.
  assert (TA : NoDup (map fst T)) by (rewrite map_map; exact labels_apart).
  assert (TP : forall x n, In (x, n) T -> plain x).
  { intros x n K. apply in_map_iff in K as (s & E & K). replace x with (fst (fst s)) by (rewrite E; reflexivity). apply labels_plain, K. }
  assert (I1 : incl (map fst l) T) by (rewrite map_app; apply incl_appl, incl_refl).
  assert (I2 : incl (map fst l') T) by (rewrite map_app; apply incl_appr, incl_refl).
  destruct (formulas_placed C name T L true l [] _ l_built I1 EL) as [En Fm].
  assert (EL' : L = os ++ fst (formula_objects name (List.length os) l') ++ [(Node KSet (quoted "FTSPEC") fs, CSet); (Node KSet (quoted "PTSPEC") ps, CSet)]) by exact EL.
  destruct (formulas_placed C name T L false l' os _ l'_built I2 EL') as [En' Fm'].
  cbn [List.length] in En, Fm. rewrite Nat.add_0_l in En, Fm. fold os in En, Fm. fold fs in Fm. fold os' in En', Fm'. fold ps in Fm'.
  assert (At : h ft = Node KSet (quoted "FTSPEC") fs /\ cls ft = CSet).
  { assert (E : L = (os ++ os') ++ (Node KSet (quoted "FTSPEC") fs, CSet) :: [(Node KSet (quoted "PTSPEC") ps, CSet)]) by (rewrite EL, <- app_assoc; reflexivity).
    replace ft with (List.length (os ++ os')) by (rewrite app_length; symmetry; exact Eft). apply (at_place L _ _ _ E). }
  assert (At2 : h (S ft) = Node KSet (quoted "PTSPEC") ps /\ cls (S ft) = CSet).
  { assert (E : L = (os ++ os' ++ [(Node KSet (quoted "FTSPEC") fs, CSet)]) ++ (Node KSet (quoted "PTSPEC") ps, CSet) :: []) by (rewrite EL, <- !app_assoc; reflexivity).
    replace (S ft) with (List.length (os ++ os' ++ [(Node KSet (quoted "FTSPEC") fs, CSet)])) by (rewrite !app_length, Eft; cbn; lia).
    apply (at_place L _ _ _ E). }
  assert (Out : forall n, S ft < n -> h n = fst nothing /\ cls n = snd nothing).
  { intros n K. unfold heap_of, class_of. rewrite (nth_overflow L); [auto|]. rewrite EL, !app_length. cbn. rewrite Eft in K. lia. }
  destruct At as [Hf Cf]. destruct At2 as [Hp Cp].
  assert (Kids : forall lo hi gs (k : list (str * nat * expr)), Forall2 (fun f s => formula_means h cls f (Z.of_nat (snd (fst s))) (snd s) /\ nkind (h f) = KFormula /\ lo <= f < hi) gs k ->
             Forall (fun c => lo <= c < hi) gs /\ Forall (fun c => nkind (h c) = KFormula) gs).
  { induction 1 as [|f s gs k (_ & H1 & H2) _ [IH1 IH2]]; split; constructor; auto. }
  destruct (Kids _ _ _ _ Fm) as [Kf1 Kf2]. destruct (Kids _ _ _ _ Fm') as [Kp1 Kp2]. clear Kids.
  clearbody os fs os' ps. rewrite Eft in *. clear Eft.
  assert (All : forall n, exists k, entry_ok C name T L k 0 n).
  { intros n. destruct (Nat.lt_ge_cases n (List.length os)) as [K|K]; [exists true; apply En; lia|].
    destruct (Nat.lt_ge_cases n (List.length os + List.length os')) as [K0|K0]; [exists false; eapply entry_lower; [|apply En'; lia]; lia|].
    exists true. destruct (Nat.eq_dec n (List.length os + List.length os')) as [-> |K1].
    { unfold entry_ok, shaped, tl_ok, assemblable. rewrite Hf, Cf. cbn [nchildren nkind nsym]. repeat split; auto.
      - eapply Forall_impl; [|exact Kf1]. cbv beta. lia.
      - apply spelled_set. apply plain_chars; [discriminate|reflexivity]. }
    destruct (Nat.eq_dec n (S (List.length os + List.length os'))) as [-> |K2].
    { unfold entry_ok, shaped, tl_ok, assemblable. rewrite Hp, Cp. cbn [nchildren nkind nsym]. repeat split; auto.
      - eapply Forall_impl; [|exact Kp1]. cbv beta. lia.
      - apply spelled_set. apply plain_chars; [discriminate|reflexivity]. }
    destruct (Out n) as [H1 H2]; [lia|]. unfold entry_ok, shaped, tl_ok, assemblable. rewrite H1, H2. cbn. repeat split; auto.
    apply (spelled_const C name T true). }
  assert (Rf : forall n, reachable h [List.length os + List.length os'] n -> n = List.length os + List.length os' \/ 0 <= n < List.length os).
  { apply reachable_within; [rewrite Hf; exact Kf1|]. intros n K. destruct (En n K) as (J & _). eapply Forall_impl; [|exact J]. cbv beta. lia. }
  assert (Rp : forall n, reachable h [S (List.length os + List.length os')] n -> n = S (List.length os + List.length os') \/ List.length os <= n < List.length os + List.length os').
  { apply reachable_within; [rewrite Hp; exact Kp1|]. intros n K. destruct (En' n K) as (J & _). eapply Forall_impl; [|exact J]. cbv beta. lia. }
  split. { apply downward_denotes. intros n. destruct (All n) as (k & J & _). eapply Forall_impl; [|exact J]. cbv beta. lia. }
  split. { intros n. destruct (All n) as (k & _ & S1 & _ & _ & Sp). split; [eapply (spelled_plain C name T); eauto|exact S1]. }
  split; [rewrite Hf; reflexivity|]. split; [rewrite Hp; reflexivity|].
  split. { intros n m K1 K2. destruct (All n) as (k & _ & _ & _ & _ & S1). destruct (All m) as (k' & _ & _ & _ & _ & S2). rewrite <- K1, <- K2 in S2.
    eapply (spelled_fun C name T); eauto. }
  split; [exact Cf|]. split; [exact Cp|].
  split. { intros n R1 R2. apply Rf in R1. apply Rp in R2. lia. }
  split. { intros n. destruct (All n) as (k & _ & _ & J & _). exact J. }
  split. { intros n R. apply Rf in R as [-> |R]; [unfold assemblable; rewrite Cf; exact I|]. destruct (En n R) as (_ & _ & _ & J & _). exact J. }
  split. { intros n R. apply Rp in R as [-> |R]; [unfold assemblable; rewrite Cp; exact I|]. destruct (En' n R) as (_ & _ & _ & J & _). exact J. }
  split; [rewrite Hf|rewrite Hp]; cbn [nchildren]; (eapply Forall2_weaken; [|eassumption]); cbv beta; intros f s K; apply K.
Qed.
End Program.
