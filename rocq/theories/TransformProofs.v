(** * Proofs about the tree passes of Transform.v *)
From Coq Require Import List Arith Bool Lia ZArith Permutation.
Require Import Verif.Mltl Verif.MltlShape Verif.MltlEval Verif.Transform.
Import ListNotations.

(** ** List operators on denotations *)
Lemma den_and tr es i : den tr (EAnd es) i = forallb (fun e => den tr e i) es.
Proof. cbn [den]. induction es as [|e es IH]; cbn; [reflexivity|]. rewrite IH; reflexivity. Qed.
Lemma den_or tr es i : den tr (EOr es) i = existsb (fun e => den tr e i) es.
Proof. cbn [den]. induction es as [|e es IH]; cbn; [reflexivity|]. rewrite IH; reflexivity. Qed.

Lemma forallb_ext_in {A} (f g : A -> bool) l :
  (forall x, In x l -> f x = g x) -> forallb f l = forallb g l.
Proof.
  induction l as [|a l IH]; intros H; cbn; [reflexivity|].
  rewrite (H a) by (left; reflexivity). rewrite IH; [reflexivity|].
  intros x Hx; apply H; right; exact Hx.
Qed.
Lemma existsb_ext_in {A} (f g : A -> bool) l :
  (forall x, In x l -> f x = g x) -> existsb f l = existsb g l.
Proof.
  induction l as [|a l IH]; intros H; cbn; [reflexivity|].
  rewrite (H a) by (left; reflexivity). rewrite IH; [reflexivity|].
  intros x Hx; apply H; right; exact Hx.
Qed.
Lemma forallb_map' {A B} (f : B -> bool) (g : A -> B) l :
  forallb f (map g l) = forallb (fun x => f (g x)) l.
Proof. induction l as [|a l IH]; cbn; [reflexivity|]. rewrite IH; reflexivity. Qed.
Lemma existsb_map' {A B} (f : B -> bool) (g : A -> B) l :
  existsb f (map g l) = existsb (fun x => f (g x)) l.
Proof. induction l as [|a l IH]; cbn; [reflexivity|]. rewrite IH; reflexivity. Qed.
Lemma negb_forallb {A} (f : A -> bool) l : negb (forallb f l) = existsb (fun x => negb (f x)) l.
Proof. induction l as [|a l IH]; cbn; [reflexivity|]. rewrite negb_andb, IH; reflexivity. Qed.
Lemma negb_existsb {A} (f : A -> bool) l : negb (existsb f l) = forallb (fun x => negb (f x)) l.
Proof. induction l as [|a l IH]; cbn; [reflexivity|]. rewrite negb_orb, IH; reflexivity. Qed.

(** ** Congruence: a map whose node function preserves meaning preserves meaning *)
Lemma expr_map_den tr f : (forall e i, den tr (f e) i = den tr e i) ->
  forall e i, den tr (expr_map f e) i = den tr e i.
Proof.
  intros Hf e.
  induction e as [b|a|e IH|es IH|es IH|p q IHp IHq|p q IHp IHq|p q IHp IHq|p q IHp IHq
                 |lb ub p IHp|lb ub p IHp|lb ub p q IHp IHq|lb ub p q IHp IHq
                 |lb ub p IHp|lb ub p IHp|lb ub p q IHp IHq|lb ub p q IHp IHq] using expr_ind';
    intros i; cbn [expr_map]; rewrite Hf; try reflexivity.
  - cbn [den]. rewrite IH; reflexivity.
  - rewrite !den_and, forallb_map'. apply forallb_ext_in. intros x Hx.
    rewrite Forall_forall in IH. apply IH; exact Hx.
  - rewrite !den_or, existsb_map'. apply existsb_ext_in. intros x Hx.
    rewrite Forall_forall in IH. apply IH; exact Hx.
  - cbn [den]. rewrite IHp, IHq; reflexivity.
  - cbn [den]. rewrite IHp, IHq; reflexivity.
  - cbn [den]. rewrite IHp, IHq; reflexivity.
  - cbn [den]. rewrite IHp, IHq; reflexivity.
  - cbn [den]. apply opF_ext; assumption.
  - cbn [den]. apply opG_ext; assumption.
  - cbn [den]. apply opU_ext; assumption.
  - cbn [den]. apply opR_ext; assumption.
  - cbn [den]. apply opO_ext; assumption.
  - cbn [den]. apply opH_ext; assumption.
  - cbn [den]. apply opS_ext; assumption.
  - cbn [den]. apply opT_ext; assumption.
Qed.

Lemma expr_map_deq f : (forall e, deq (f e) e) -> forall e, deq (expr_map f e) e.
Proof. intros Hf e tr. apply expr_map_den. intros e' i. apply Hf. Qed.

Lemma expr_map_equivalent f : (forall e, deq (f e) e) -> forall e, equivalent (expr_map f e) e.
Proof. intros H e. apply deq_equivalent, expr_map_deq, H. Qed.

(** ** Binarisation *)
Lemma chain_and tr i l acc :
  den tr (fold_left (fun acc c => EAnd [acc; c]) l acc) i
  = den tr acc i && forallb (fun e => den tr e i) l.
Proof.
  revert acc; induction l as [|c l IH]; intros acc; cbn [fold_left forallb].
  - rewrite andb_true_r; reflexivity.
  - rewrite IH. cbn [den fold_right]. rewrite andb_true_r, andb_assoc; reflexivity.
Qed.
Lemma chain_or tr i l acc :
  den tr (fold_left (fun acc c => EOr [acc; c]) l acc) i
  = den tr acc i || existsb (fun e => den tr e i) l.
Proof.
  revert acc; induction l as [|c l IH]; intros acc; cbn [fold_left existsb].
  - rewrite orb_false_r; reflexivity.
  - rewrite IH. cbn [den fold_right]. rewrite orb_false_r, orb_assoc; reflexivity.
Qed.

Lemma binary_node_deq e : deq (binary_node e) e.
Proof.
  intros tr i. destruct e as [| | |es|es| | | | | | | | | | | |]; cbn [binary_node]; try reflexivity.
  - destruct es as [|a [|b [|c es]]]; try reflexivity.
    unfold chain. rewrite chain_and. cbn [den fold_right].
    fold (den tr (EAnd es) i). change (fold_right (fun e b => den tr e i && b) true es)
      with (den tr (EAnd es) i). rewrite den_and. cbn [forallb].
    rewrite andb_true_r. rewrite !andb_assoc; reflexivity.
  - destruct es as [|a [|b [|c es]]]; try reflexivity.
    unfold chain. rewrite chain_or. cbn [den fold_right].
    change (fold_right (fun e b => den tr e i || b) false es)
      with (den tr (EOr es) i). rewrite den_or. cbn [existsb].
    rewrite orb_false_r. rewrite !orb_assoc; reflexivity.
Qed.

Lemma to_binary_equivalent e : equivalent (to_binary e) e.
Proof. apply expr_map_equivalent, binary_node_deq. Qed.

(** ** Shapes *)
Lemma fold_all_nodes P es :
  fold_right (fun e Q => all_nodes P e /\ Q) True es <-> Forall (all_nodes P) es.
Proof.
  induction es as [|e es IH]; cbn [fold_right]; split; intros H; auto.
  - destruct H as [H1 H2]; constructor; [exact H1 | apply IH, H2].
  - inversion H as [|? ? H1 H2]; subst. split; [exact H1 | apply IH, H2].
Qed.

Lemma fold_right_legal es :
  fold_right (fun e P => legal e /\ P) True es <-> Forall legal es.
Proof.
  induction es as [|e es IH]; cbn [fold_right]; split; intros H; auto.
  - destruct H; constructor; [assumption | apply IH; assumption].
  - inversion H; subst. split; [assumption | apply IH; assumption].
Qed.

Lemma chain_shape mk (P : expr -> Prop) es :
  (forall a b, all_nodes P a -> all_nodes P b -> all_nodes P (mk [a; b])) ->
  (length es <= 2 -> Forall (all_nodes P) es -> all_nodes P (mk es)) ->
  Forall (all_nodes P) es -> all_nodes P (chain mk es).
Proof.
  intros H2 Hshort H. destruct es as [|a [|b [|c es]]].
  - apply Hshort; cbn; auto.
  - apply Hshort; cbn; auto.
  - apply Hshort; cbn; auto.
  - unfold chain. inversion H as [|? ? Ha H']; subst. inversion H' as [|? ? Hb H'']; subst.
    assert (Hacc : all_nodes P (mk [a; b])) by (apply H2; assumption).
    revert Hacc. generalize (mk [a; b]). clear - H2 H''. revert H''.
    generalize (c :: es). intros l; induction l as [|d l IH]; intros Hl acc Hacc; cbn [fold_left].
    + exact Hacc.
    + inversion Hl; subst. apply IH; [assumption|]. apply H2; assumption.
Qed.

Lemma expr_map_shape f P :
  (forall b, all_nodes P (f (EConst b))) -> (forall a, all_nodes P (f (EAtom a))) ->
  (forall p, all_nodes P p -> all_nodes P (f (ENot p))) ->
  (forall es, Forall (all_nodes P) es -> all_nodes P (f (EAnd es))) ->
  (forall es, Forall (all_nodes P) es -> all_nodes P (f (EOr es))) ->
  (forall p q, all_nodes P p -> all_nodes P q -> all_nodes P (f (EXor p q))) ->
  (forall p q, all_nodes P p -> all_nodes P q -> all_nodes P (f (EImpl p q))) ->
  (forall p q, all_nodes P p -> all_nodes P q -> all_nodes P (f (EEquiv p q))) ->
  (forall p q, all_nodes P p -> all_nodes P q -> all_nodes P (f (EBeq p q))) ->
  (forall lb ub p, all_nodes P p -> all_nodes P (f (EF lb ub p))) ->
  (forall lb ub p, all_nodes P p -> all_nodes P (f (EG lb ub p))) ->
  (forall lb ub p q, all_nodes P p -> all_nodes P q -> all_nodes P (f (EU lb ub p q))) ->
  (forall lb ub p q, all_nodes P p -> all_nodes P q -> all_nodes P (f (ER lb ub p q))) ->
  (forall lb ub p, all_nodes P p -> all_nodes P (f (EO lb ub p))) ->
  (forall lb ub p, all_nodes P p -> all_nodes P (f (EH lb ub p))) ->
  (forall lb ub p q, all_nodes P p -> all_nodes P q -> all_nodes P (f (ES lb ub p q))) ->
  (forall lb ub p q, all_nodes P p -> all_nodes P q -> all_nodes P (f (ET lb ub p q))) ->
  forall e, all_nodes P (expr_map f e).
Proof.
  intros. induction e using expr_ind'; cbn [expr_map]; auto.
  - match goal with H : Forall _ es |- _ => rename H into IH end.
    match goal with H : forall es, _ -> all_nodes P (f (EAnd es)) |- _ => apply H end.
    rewrite Forall_forall in IH. apply Forall_forall. intros x Hx.
    apply in_map_iff in Hx as (y & <- & Hy). apply IH; exact Hy.
  - match goal with H : Forall _ es |- _ => rename H into IH end.
    match goal with H : forall es, _ -> all_nodes P (f (EOr es)) |- _ => apply H end.
    rewrite Forall_forall in IH. apply Forall_forall. intros x Hx.
    apply in_map_iff in Hx as (y & <- & Hy). apply IH; exact Hy.
Qed.

Lemma to_binary_shape e : all_nodes binary_op (to_binary e).
Proof.
  unfold to_binary. apply expr_map_shape; intros; cbn [binary_node all_nodes binary_op]; auto.
  - apply chain_shape; auto.
    + intros a b Ha Hb; cbn; auto.
    + intros Hl Hs; cbn. split; [exact Hl | apply fold_all_nodes, Hs].
  - apply chain_shape; auto.
    + intros a b Ha Hb; cbn; auto.
    + intros Hl Hs; cbn. split; [exact Hl | apply fold_all_nodes, Hs].
Qed.

(** ** Flattening *)
Lemma flatten_and tr i cs acc :
  forallb (fun e => den tr e i) (flatten_children same_and acc cs)
  = forallb (fun e => den tr e i) acc && forallb (fun e => den tr e i) cs.
Proof.
  revert acc; induction cs as [|c cs IH]; intros acc; cbn [flatten_children forallb].
  - rewrite andb_true_r; reflexivity.
  - assert (Hc : forallb (fun e => den tr e i) (flatten_children same_and (acc ++ [c]) cs)
                 = forallb (fun e => den tr e i) acc && (den tr c i && forallb (fun e => den tr e i) cs)).
    { rewrite IH, forallb_app. cbn [forallb]. rewrite andb_true_r, andb_assoc; reflexivity. }
    destruct (same_and c) as [ccs|] eqn:E; [|exact Hc].
    destruct (length acc <? MAX_ARITY); [|exact Hc].
    destruct c; try discriminate. injection E as ->.
    rewrite IH, forallb_app, den_and, andb_assoc; reflexivity.
Qed.
Lemma flatten_or tr i cs acc :
  existsb (fun e => den tr e i) (flatten_children same_or acc cs)
  = existsb (fun e => den tr e i) acc || existsb (fun e => den tr e i) cs.
Proof.
  revert acc; induction cs as [|c cs IH]; intros acc; cbn [flatten_children existsb].
  - rewrite orb_false_r; reflexivity.
  - assert (Hc : existsb (fun e => den tr e i) (flatten_children same_or (acc ++ [c]) cs)
                 = existsb (fun e => den tr e i) acc || (den tr c i || existsb (fun e => den tr e i) cs)).
    { rewrite IH, existsb_app. cbn [existsb]. rewrite orb_false_r, orb_assoc; reflexivity. }
    destruct (same_or c) as [ccs|] eqn:E; [|exact Hc].
    destruct (length acc <? MAX_ARITY); [|exact Hc].
    destruct c; try discriminate. injection E as ->.
    rewrite IH, existsb_app, den_or, orb_assoc; reflexivity.
Qed.

Lemma flatten_node_deq e : deq (flatten_node e) e.
Proof.
  intros tr i. destruct e; cbn [flatten_node]; try reflexivity.
  - rewrite !den_and, flatten_and; reflexivity.
  - rewrite !den_or, flatten_or; reflexivity.
Qed.
Lemma flatten_equivalent e : equivalent (flatten e) e.
Proof. apply expr_map_equivalent, flatten_node_deq. Qed.

(** ** Extended operators *)
Lemma core_node_deq e : deq (core_node e) e.
Proof.
  intros tr i. destruct e; cbn [core_node]; try reflexivity; cbn [den fold_right].
  - destruct (den tr e1 i), (den tr e2 i); reflexivity.
  - destruct (den tr e1 i), (den tr e2 i); reflexivity.
  - apply opU_const_true.
  - apply opR_const_false.
  - apply opS_const_true.
  - apply opT_const_false.
Qed.

Lemma deq_trans a b c : deq a b -> deq b c -> deq a c.
Proof. intros H1 H2 tr i. rewrite H1; apply H2. Qed.
Lemma deq_sym a b : deq a b -> deq b a.
Proof. intros H tr i. rewrite H; reflexivity. Qed.
Lemma deq_refl a : deq a a.
Proof. intros tr i; reflexivity. Qed.
Lemma equivalent_trans a b c : equivalent a b -> equivalent b c -> equivalent a c.
Proof. intros H1 H2 tr i. rewrite (H1 tr i). apply H2. Qed.
Lemma equivalent_sym a b : equivalent a b -> equivalent b a.
Proof. intros H tr i. rewrite (H tr i). reflexivity. Qed.
Lemma equivalent_refl a : equivalent a a.
Proof. intros tr i. reflexivity. Qed.

Lemma remove_extended_equivalent e : equivalent (remove_extended e) e.
Proof.
  eapply equivalent_trans; [apply expr_map_equivalent, core_node_deq | apply to_binary_equivalent].
Qed.

Lemma map_core_shape e : all_nodes binary_op e -> all_nodes core_op (expr_map core_node e).
Proof.
  induction e as [b|a|e IH|es IH|es IH|p q IHp IHq|p q IHp IHq|p q IHp IHq|p q IHp IHq
                 |lb ub p IHp|lb ub p IHp|lb ub p q IHp IHq|lb ub p q IHp IHq
                 |lb ub p IHp|lb ub p IHp|lb ub p q IHp IHq|lb ub p q IHp IHq] using expr_ind';
    cbn [all_nodes binary_op expr_map core_node core_op fold_right length]; intros [Hn H];
    try (destruct H as [H1 H2]); repeat split; auto.
  - rewrite map_length; exact Hn.
  - apply fold_all_nodes. apply fold_all_nodes in H. apply Forall_forall.
    rewrite Forall_forall in IH, H. intros x Hx. apply in_map_iff in Hx as (y & <- & Hy). auto.
  - rewrite map_length; exact Hn.
  - apply fold_all_nodes. apply fold_all_nodes in H. apply Forall_forall.
    rewrite Forall_forall in IH, H. intros x Hx. apply in_map_iff in Hx as (y & <- & Hy). auto.
Qed.

Lemma remove_extended_shape e : all_nodes core_op (remove_extended e).
Proof. apply map_core_shape, to_binary_shape. Qed.

(** ** BNF *)
Lemma bnf_node_deq e : deq (bnf_node e) e.
Proof.
  intros tr i. destruct e; cbn [bnf_node]; try reflexivity.
  - cbn [den]. change (fold_right (fun e b => den tr e i && b) true (map ENot es))
      with (den tr (EAnd (map ENot es)) i).
    change (fold_right (fun e b => den tr e i || b) false es) with (den tr (EOr es) i).
    rewrite den_and, den_or, forallb_map', negb_forallb. apply existsb_ext_in.
    intros x _. cbn [den]. apply negb_involutive.
  - cbn [den fold_right]. destruct (den tr e1 i), (den tr e2 i); reflexivity.
  - cbn [den fold_right]. destruct (den tr e1 i), (den tr e2 i); reflexivity.
  - cbn [den]. apply opU_const_true.
  - cbn [den]. rewrite opG_dual. f_equal. rewrite opU_const_true. reflexivity.
  - cbn [den]. rewrite opR_dual. reflexivity.
Qed.
Lemma to_bnf_equivalent e : equivalent (to_bnf e) e.
Proof. apply expr_map_equivalent, bnf_node_deq. Qed.

Lemma to_bnf_shape e : all_nodes bnf_source_op e -> all_nodes bnf_op (to_bnf e).
Proof.
  unfold to_bnf.
  induction e as [b|a|e IH|es IH|es IH|p q IHp IHq|p q IHp IHq|p q IHp IHq|p q IHp IHq
                 |lb ub p IHp|lb ub p IHp|lb ub p q IHp IHq|lb ub p q IHp IHq
                 |lb ub p IHp|lb ub p IHp|lb ub p q IHp IHq|lb ub p q IHp IHq] using expr_ind';
    cbn [all_nodes bnf_source_op expr_map bnf_node bnf_op fold_right length]; intros [Hn H];
    try contradiction; try (destruct H as [H1 H2]); repeat split; auto.
  - apply fold_all_nodes. apply fold_all_nodes in H. apply Forall_forall.
    rewrite Forall_forall in IH, H. intros x Hx. apply in_map_iff in Hx as (y & <- & Hy). auto.
  - apply fold_all_nodes. apply fold_all_nodes in H. apply Forall_forall.
    rewrite Forall_forall in IH, H. intros x Hx. apply in_map_iff in Hx as (z & <- & Hz).
    apply in_map_iff in Hz as (y & <- & Hy). cbn. auto.
Qed.

(** ** NNF *)
(** [no_neg_xor m e]: the traversal never meets [!(p xor q)]. *)
Fixpoint no_neg_xor (m : nnf_mode) (e : expr) {struct e} : Prop :=
  match e with
  | EConst _ | EAtom _ => True
  | ENot p => match m with
              | Neg => no_neg_xor Kids p
              | Visit => no_neg_xor Neg p
              | Kids => no_neg_xor Visit p
              end
  | EAnd es | EOr es =>
      fold_right (fun e Q => no_neg_xor (match m with Neg => Neg | _ => Visit end) e /\ Q) True es
  | EXor p q => match m with
                | Neg => False
                | Visit => no_neg_xor Visit p /\ no_neg_xor Neg p /\
                           no_neg_xor Visit q /\ no_neg_xor Neg q
                | Kids => no_neg_xor Visit p /\ no_neg_xor Visit q
                end
  | EImpl p q => match m with
                 | Neg => no_neg_xor Visit p /\ no_neg_xor Neg q
                 | Visit => no_neg_xor Neg p /\ no_neg_xor Visit q
                 | Kids => no_neg_xor Visit p /\ no_neg_xor Visit q
                 end
  | EEquiv p q => match m with
                  | Neg => no_neg_xor Visit p /\ no_neg_xor Neg p /\
                           no_neg_xor Visit q /\ no_neg_xor Neg q
                  | _ => no_neg_xor Visit p /\ no_neg_xor Visit q
                  end
  | EF _ _ p | EG _ _ p => no_neg_xor (match m with Neg => Neg | _ => Visit end) p
  | EU _ _ p q | ER _ _ p q =>
      no_neg_xor (match m with Neg => Neg | _ => Visit end) p /\
      no_neg_xor (match m with Neg => Neg | _ => Visit end) q
  | EO _ _ p | EH _ _ p => no_neg_xor Visit p
  | EBeq p q | ES _ _ p q | ET _ _ p q => no_neg_xor Visit p /\ no_neg_xor Visit q
  end.

Definition sgn (m : nnf_mode) (b : bool) : bool := match m with Neg => negb b | _ => b end.

Lemma fold_conj {A} (P : A -> Prop) l :
  fold_right (fun x Q => P x /\ Q) True l <-> Forall P l.
Proof.
  induction l as [|x l IH]; cbn [fold_right]; split; intros H; auto.
  - destruct H; constructor; [assumption | apply IH; assumption].
  - inversion H; subst. split; [assumption | apply IH; assumption].
Qed.

Lemma nnf_deq tr e : forall m, no_neg_xor m e -> forall i, den tr (nnf m e) i = sgn m (den tr e i).
Proof.
  induction e as [b|a|e IH|es IH|es IH|p q IHp IHq|p q IHp IHq|p q IHp IHq|p q IHp IHq
                 |lb ub p IHp|lb ub p IHp|lb ub p q IHp IHq|lb ub p q IHp IHq
                 |lb ub p IHp|lb ub p IHp|lb ub p q IHp IHq|lb ub p q IHp IHq] using expr_ind';
    intros m Hx i.
  - destruct m; reflexivity.
  - destruct m; reflexivity.
  - destruct m; cbn [nnf no_neg_xor den sgn] in *; rewrite (IH _ Hx); cbn [sgn];
      rewrite ?negb_involutive; reflexivity.
  - cbn [no_neg_xor] in Hx. apply fold_conj in Hx. rewrite Forall_forall in IH, Hx.
    destruct m; cbn [nnf sgn]; rewrite ?den_or, ?den_and, ?forallb_map', ?existsb_map', ?negb_forallb;
      try apply forallb_ext_in; try apply existsb_ext_in; intros x Hin;
      rewrite (IH x Hin _ (Hx x Hin)); reflexivity.
  - cbn [no_neg_xor] in Hx. apply fold_conj in Hx. rewrite Forall_forall in IH, Hx.
    destruct m; cbn [nnf sgn]; rewrite ?den_or, ?den_and, ?forallb_map', ?existsb_map', ?negb_existsb;
      try apply forallb_ext_in; try apply existsb_ext_in; intros x Hin;
      rewrite (IH x Hin _ (Hx x Hin)); reflexivity.
  - destruct m; cbn [no_neg_xor nnf sgn den fold_right] in *.
    + destruct Hx as (H1 & H2 & H3 & H4).
      rewrite (IHp _ H1), (IHp _ H2), (IHq _ H3), (IHq _ H4). cbn [sgn].
      destruct (den tr p i), (den tr q i); reflexivity.
    + contradiction.
    + destruct Hx as (H1 & H2). rewrite (IHp _ H1), (IHq _ H2); reflexivity.
  - destruct m; cbn [no_neg_xor nnf sgn den fold_right] in *;
      destruct Hx as (H1 & H2); rewrite (IHp _ H1), (IHq _ H2); cbn [sgn];
      destruct (den tr p i), (den tr q i); reflexivity.
  - destruct m; cbn [no_neg_xor nnf sgn den fold_right] in *.
    + destruct Hx as (H1 & H2). rewrite (IHp _ H1), (IHq _ H2); reflexivity.
    + destruct Hx as (H1 & H2 & H3 & H4).
      rewrite (IHp _ H1), (IHp _ H2), (IHq _ H3), (IHq _ H4). cbn [sgn].
      destruct (den tr p i), (den tr q i); reflexivity.
    + destruct Hx as (H1 & H2). rewrite (IHp _ H1), (IHq _ H2); reflexivity.
  - destruct m; cbn [no_neg_xor nnf sgn den fold_right] in *;
      destruct Hx as (H1 & H2); rewrite (IHp _ H1), (IHq _ H2); reflexivity.
  - destruct m; cbn [no_neg_xor nnf sgn den] in *.
    + apply opF_ext; intros j; apply (IHp _ Hx).
    + rewrite opF_dual, negb_involutive. apply opG_ext; intros j; apply (IHp _ Hx).
    + apply opF_ext; intros j; apply (IHp _ Hx).
  - destruct m; cbn [no_neg_xor nnf sgn den] in *.
    + apply opG_ext; intros j; apply (IHp _ Hx).
    + rewrite opG_dual, negb_involutive. apply opF_ext; intros j; apply (IHp _ Hx).
    + apply opG_ext; intros j; apply (IHp _ Hx).
  - destruct m; cbn [no_neg_xor nnf sgn den] in *; destruct Hx as (H1 & H2).
    + apply opU_ext; intros j; [apply (IHp _ H1) | apply (IHq _ H2)].
    + rewrite (opU_dual lb ub (den tr p)), negb_involutive.
      apply opR_ext; intros j; [apply (IHp _ H1) | apply (IHq _ H2)].
    + apply opU_ext; intros j; [apply (IHp _ H1) | apply (IHq _ H2)].
  - destruct m; cbn [no_neg_xor nnf sgn den] in *; destruct Hx as (H1 & H2).
    + apply opR_ext; intros j; [apply (IHp _ H1) | apply (IHq _ H2)].
    + rewrite (opR_dual lb ub (den tr p)), negb_involutive.
      apply opU_ext; intros j; [apply (IHp _ H1) | apply (IHq _ H2)].
    + apply opR_ext; intros j; [apply (IHp _ H1) | apply (IHq _ H2)].
  - destruct m; cbn [no_neg_xor nnf sgn den] in *;
      rewrite (opO_ext lb ub _ _ (IHp _ Hx)); reflexivity.
  - destruct m; cbn [no_neg_xor nnf sgn den] in *;
      rewrite (opH_ext lb ub _ _ (IHp _ Hx)); reflexivity.
  - destruct m; cbn [no_neg_xor nnf sgn den] in *; destruct Hx as (H1 & H2);
      rewrite (opS_ext lb ub _ _ _ _ (IHp _ H1) (IHq _ H2)); reflexivity.
  - destruct m; cbn [no_neg_xor nnf sgn den] in *; destruct Hx as (H1 & H2);
      rewrite (opT_ext lb ub _ _ _ _ (IHp _ H1) (IHq _ H2)); reflexivity.
Qed.

Lemma to_nnf_equivalent e : no_neg_xor Visit e -> equivalent (to_nnf e) e.
Proof. intros H. apply deq_equivalent. intros tr i. apply (nnf_deq tr e Visit H). Qed.

Lemma no_xor_no_neg_xor e : all_nodes no_xor_op e -> forall m, no_neg_xor m e.
Proof.
  induction e as [b|a|e IH|es IH|es IH|p q IHp IHq|p q IHp IHq|p q IHp IHq|p q IHp IHq
                 |lb ub p IHp|lb ub p IHp|lb ub p q IHp IHq|lb ub p q IHp IHq
                 |lb ub p IHp|lb ub p IHp|lb ub p q IHp IHq|lb ub p q IHp IHq] using expr_ind';
    cbn [all_nodes no_xor_op]; intros [Hn H] m; try contradiction;
    try (destruct H as [H1 H2]); destruct m; cbn [no_neg_xor]; auto;
    try (apply fold_conj; apply fold_all_nodes in H; rewrite Forall_forall in IH, H |- *;
         intros x Hx; apply IH; auto).
Qed.

Lemma Forall_map_all P (f : expr -> expr) es :
  Forall (fun e => all_nodes P (f e)) es ->
  fold_right (fun e Q => all_nodes P e /\ Q) True (map f es).
Proof.
  intros H. apply fold_all_nodes, Forall_forall. intros x Hx.
  apply in_map_iff in Hx as (y & <- & Hy). rewrite Forall_forall in H. apply H; exact Hy.
Qed.

Lemma nnf_shape e : all_nodes nnf_source_op e ->
  forall m, (m = Kids -> match e with ENot _ => False | _ => True end) ->
  all_nodes nnf_op (nnf m e).
Proof.
  induction e as [b|a|e IH|es IH|es IH|p q IHp IHq|p q IHp IHq|p q IHp IHq|p q IHp IHq
                 |lb ub p IHp|lb ub p IHp|lb ub p q IHp IHq|lb ub p q IHp IHq
                 |lb ub p IHp|lb ub p IHp|lb ub p q IHp IHq|lb ub p q IHp IHq] using expr_ind';
    cbn [all_nodes nnf_source_op]; intros [Hn H] m Hk; try contradiction;
    try (destruct H as [H1 H2]);
    try (assert (V : forall m, m <> Kids -> m = Kids -> match p with ENot _ => False | _ => True end) by congruence);
    try (assert (V' : forall m, m <> Kids -> m = Kids -> match q with ENot _ => False | _ => True end) by congruence).
  - destruct m; cbn; auto.
  - destruct m; cbn; auto.
  - destruct m; cbn [nnf].
    + apply IH; [exact H | congruence].
    + apply IH; [exact H |]. intros _. destruct e; auto.
    + contradiction (Hk eq_refl).
  - apply fold_all_nodes in H. rewrite Forall_forall in H, IH.
    destruct m; cbn [nnf all_nodes nnf_op]; split; auto; apply Forall_map_all, Forall_forall;
      intros x Hx; apply IH; auto; congruence.
  - apply fold_all_nodes in H. rewrite Forall_forall in H, IH.
    destruct m; cbn [nnf all_nodes nnf_op]; split; auto; apply Forall_map_all, Forall_forall;
      intros x Hx; apply IH; auto; congruence.
  - destruct m; cbn [nnf all_nodes nnf_op fold_right]; repeat split; auto;
      try (apply IHp; [assumption | congruence]); try (apply IHq; [assumption | congruence]).
  - destruct m; cbn [nnf all_nodes nnf_op fold_right]; repeat split; auto;
      try (apply IHp; [assumption | congruence]); try (apply IHq; [assumption | congruence]).
  - destruct m; cbn [nnf all_nodes nnf_op fold_right]; repeat split; auto;
      try (apply IHp; [assumption | congruence]); try (apply IHq; [assumption | congruence]).
  - destruct m; cbn [nnf all_nodes nnf_op]; split; auto; apply IHp; auto; congruence.
  - destruct m; cbn [nnf all_nodes nnf_op]; split; auto; apply IHp; auto; congruence.
  - destruct m; cbn [nnf all_nodes nnf_op]; repeat split; auto;
      try (apply IHp; [assumption | congruence]); try (apply IHq; [assumption | congruence]).
  - destruct m; cbn [nnf all_nodes nnf_op]; repeat split; auto;
      try (apply IHp; [assumption | congruence]); try (apply IHq; [assumption | congruence]).
Qed.

Lemma to_nnf_shape e : all_nodes nnf_source_op e -> all_nodes nnf_op (to_nnf e).
Proof. intros H. apply nnf_shape; [exact H | discriminate]. Qed.

(** ** Release removal *)
Lemma release_node_deq e : deq (release_node e) e.
Proof.
  intros tr i. destruct e; cbn [release_node]; try reflexivity.
  cbn [den]. rewrite opR_dual. reflexivity.
Qed.
Lemma remove_release_equivalent e : equivalent (remove_release e) e.
Proof. apply expr_map_equivalent, release_node_deq. Qed.

Lemma remove_release_shape e : all_nodes no_release_op (remove_release e).
Proof.
  apply expr_map_shape; intros; cbn [release_node all_nodes no_release_op]; auto;
    try (split; [exact I | apply fold_all_nodes; assumption]).
Qed.

(** ** Sorting *)
Lemma insert_pd_perm e l : Permutation (insert_pd e l) (e :: l).
Proof.
  induction l as [|x l IH]; cbn [insert_pd]; [reflexivity|].
  destruct (wpd e <=? wpd x)%Z; [reflexivity|].
  rewrite IH. apply perm_swap.
Qed.
Lemma sort_pd_perm l : Permutation (sort_pd l) l.
Proof.
  induction l as [|x l IH]; [reflexivity|]. cbn [sort_pd fold_right].
  rewrite insert_pd_perm. apply perm_skip, IH.
Qed.
Lemma forallb_perm {A} (f : A -> bool) l l' : Permutation l l' -> forallb f l = forallb f l'.
Proof.
  induction 1; cbn; auto.
  - rewrite IHPermutation; reflexivity.
  - rewrite !andb_assoc, (andb_comm (f y)); reflexivity.
  - congruence.
Qed.
Lemma existsb_perm {A} (f : A -> bool) l l' : Permutation l l' -> existsb f l = existsb f l'.
Proof.
  induction 1; cbn; auto.
  - rewrite IHPermutation; reflexivity.
  - rewrite !orb_assoc, (orb_comm (f y)); reflexivity.
  - congruence.
Qed.
Lemma eqb_comm a b : Bool.eqb a b = Bool.eqb b a.
Proof. destruct a, b; reflexivity. Qed.

Lemma sort_node_deq e : deq (sort_node e) e.
Proof.
  intros tr i. destruct e; cbn [sort_node]; try reflexivity; unfold sort2.
  - rewrite !den_and. apply forallb_perm, sort_pd_perm.
  - rewrite !den_or. apply existsb_perm, sort_pd_perm.
  - destruct (wpd e1 <=? wpd e2)%Z; [reflexivity|]. cbn [den]. apply xorb_comm.
  - destruct (wpd e1 <=? wpd e2)%Z; [reflexivity|]. cbn [den]. apply eqb_comm.
  - destruct (wpd e1 <=? wpd e2)%Z; [reflexivity|]. cbn [den]. apply eqb_comm.
Qed.
Lemma sort_operands_equivalent e : equivalent (sort_operands e) e.
Proof. apply expr_map_equivalent, sort_node_deq. Qed.

(** Sorted by increasing delay. *)
Fixpoint pd_sorted (l : list expr) : Prop :=
  match l with
  | x :: ((y :: _) as l') => (wpd x <= wpd y)%Z /\ pd_sorted l'
  | _ => True
  end.
Lemma insert_pd_sorted e l : pd_sorted l -> pd_sorted (insert_pd e l).
Proof.
  induction l as [|x l IH]; intros H; cbn [insert_pd]; [exact I|].
  destruct (Z.leb_spec (wpd e) (wpd x)) as [Hle|Hgt].
  - split; assumption.
  - destruct l as [|y l].
    + cbn. split; [lia | exact I].
    + destruct H as [Hxy H]. specialize (IH H). cbn [insert_pd] in IH |- *.
      destruct (wpd e <=? wpd y)%Z eqn:E.
      * split; [lia | exact IH].
      * split; [exact Hxy | exact IH].
Qed.
Lemma sort_pd_sorted l : pd_sorted (sort_pd l).
Proof. induction l as [|x l IH]; [exact I|]. apply insert_pd_sorted, IH. Qed.

(** After sorting, the delays of every commutative operator's operands increase. *)
Definition sorted_op (e : expr) : Prop :=
  match e with
  | EAnd es | EOr es => pd_sorted es
  | EXor p q | EEquiv p q | EBeq p q => (wpd p <= wpd q)%Z
  | _ => True
  end.
Lemma sort_operands_shape e : all_nodes sorted_op (sort_operands e).
Proof.
  apply expr_map_shape; intros; cbn [sort_node]; unfold sort2;
    try (destruct (Z.leb_spec (wpd p) (wpd q))); cbn [all_nodes sorted_op];
    try (split; [apply sort_pd_sorted|]);
    try (apply fold_all_nodes; eapply Permutation_Forall; [symmetry; apply sort_pd_perm | assumption]);
    repeat split; auto; try lia.
Qed.
