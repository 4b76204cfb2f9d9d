(** * Reading the e-graph that egglog writes: the classes (proofs) *)
From Coq Require Import List Arith NArith ZArith Bool Ascii String Lia.
Require Import Verif.MapFile Verif.MapProofs Verif.Mltl Verif.MltlShape Verif.Transform Verif.Egglog Verif.Saturate Verif.SaturateSpec
  Verif.Ilp Verif.IlpSpec Verif.IlpProofs Verif.IlpChain Verif.EgraphJson Verif.EgraphJsonSpec Verif.EgraphJsonProofs.
Import ListNotations.
Local Open Scope list_scope.
Local Open Scope nat_scope.

Definition within (m : list (str * list rnode)) (c : str) (r : rnode) : Prop := exists ns, In (c, ns) m /\ In r ns.
Lemma within_add n : forall m c r, within (add_node n m) c r <-> within m c r \/ (c = r_class n /\ r = n).
Proof.
  unfold within. induction m as [|[c0 ns0] m IH]; intros c r; cbn [add_node].
  - split.
    + intros (ns & [H|[]] & I). injection H as <- <-. destruct I as [<-|[]]. right; split; reflexivity.
    + intros [(ns & [] & _)|[-> ->]]. exists [n]. split; left; reflexivity.
  - destruct (MapFile.str_eqb c0 (r_class n)) eqn:E.
    + apply MapProofs.str_eqb_eq in E as ->. split.
      * intros (ns & [H|H] & I); [|left; exists ns; split; [right|]; assumption]. injection H as <- <-.
        apply in_app_or in I as [I|[<-|[]]]; [left; exists ns0; split; [left; reflexivity|exact I]|right; split; reflexivity].
      * intros [(ns & [H|H] & I)|[-> ->]].
        -- injection H as <- <-. exists (ns0 ++ [n]). split; [left; reflexivity|apply in_or_app; left; exact I].
        -- exists ns. split; [right; exact H|exact I].
        -- exists (ns0 ++ [n]). split; [left; reflexivity|apply in_or_app; right; left; reflexivity].
    + split.
      * intros (ns & [H|H] & I); [left; exists ns; split; [left|]; assumption|].
        destruct (proj1 (IH c r) (ex_intro _ ns (conj H I))) as [(ns' & A & B)|X]; [left; exists ns'; split; [right|]; assumption|right; exact X].
      * intros [(ns & [H|H] & I)|X].
        -- exists ns. split; [left; exact H|exact I].
        -- destruct (proj2 (IH c r)) as (ns' & A & B); [left; exists ns; split; assumption|]. exists ns'. split; [right|]; assumption.
        -- destruct (proj2 (IH c r)) as (ns' & A & B); [right; exact X|]. exists ns'. split; [right|]; assumption.
Qed.
Lemma keys_add n : forall m c, In c (map fst (add_node n m)) <-> In c (map fst m) \/ c = r_class n.
Proof.
  induction m as [|[c0 ns0] m IH]; intros c; cbn [add_node].
  - cbn. split; [intros [<-|[]]; auto|intros [[]| ->]; auto].
  - destruct (MapFile.str_eqb c0 (r_class n)) eqn:E; cbn.
    + apply MapProofs.str_eqb_eq in E as ->. split; [tauto|]. intros [H| ->]; auto.
    + rewrite IH. tauto.
Qed.
Lemma distinct_add n : forall m, NoDup (map fst m) -> NoDup (map fst (add_node n m)).
Proof.
  induction m as [|[c0 ns0] m IH]; intros H; cbn [add_node]; [constructor; [intros []|constructor]|].
  destruct (MapFile.str_eqb c0 (r_class n)) eqn:E; cbn in *; [exact H|].
  inversion H as [|? ? X N]; subst. constructor; [|exact (IH N)]. rewrite keys_add. intros [Y| ->]; [exact (X Y)|].
  rewrite MapProofs.str_eqb_refl in E. discriminate E.
Qed.

(** The classes built from the entries [es] of the document. *)
Record built (d : document) (es : document) (m : list (str * list rnode)) : Prop := {
  b_distinct : NoDup (map fst m);
  b_keys : forall c, In c (map fst m) <-> exists id n, In (id, n) es /\ skipped id = false /\ j_eclass n = c;
  b_within : forall c r, within m c r <-> exists id n, In (id, n) es /\ skipped id = false /\ node_from_json d id = Some r /\ j_eclass n = c }.
Lemma loop_built d : written_by_egglog d -> forall rest es m, incl rest d -> built d es m ->
  exists m', read_loop d (map fst rest) m = Some m' /\ built d (es ++ rest) m'.
Proof.
  intros [N E]. induction rest as [|[id n] rest IH]; intros es m Sub B; cbn [read_loop map fst].
  { exists m. rewrite app_nil_r. split; [reflexivity|exact B]. }
  assert (I : In (id, n) d) by (apply Sub; left; reflexivity).
  assert (Sub' : incl rest d) by (intros x X; apply Sub; right; exact X).
  rewrite Forall_forall in E. replace (es ++ (id, n) :: rest) with ((es ++ [(id, n)]) ++ rest) by (rewrite <- app_assoc; reflexivity).
  destruct (entry_read d id n N (E _ I) I) as [[S _]|[S [(o & cs & M) R]]]; rewrite S.
  - apply IH; [exact Sub'|]. destruct B as [B1 B2 B3]. constructor; [exact B1| |].
    + intros c. rewrite B2. split.
      * intros (i & x & H & Y). exists i, x. split; [apply in_or_app; left; exact H|exact Y].
      * intros (i & x & H & Y & Z). apply in_app_or in H as [H|[H|[]]]; [eauto|]. injection H as <- <-. congruence.
    + intros c r. rewrite B3. split.
      * intros (i & x & H & Y). exists i, x. split; [apply in_or_app; left; exact H|exact Y].
      * intros (i & x & H & Y & Z). apply in_app_or in H as [H|[H|[]]]; [eauto|]. injection H as <- <-. congruence.
  - destruct (R o cs M) as [(r & Er & Ec & _) _]. rewrite Er. apply IH; [exact Sub'|].
    destruct B as [B1 B2 B3]. constructor; [apply distinct_add, B1| |].
    + intros c. rewrite keys_add, B2, Ec. split.
      * intros [(i & x & H & Y)| ->]; [exists i, x; split; [apply in_or_app; left; exact H|exact Y]|].
        exists id, n. split; [apply in_or_app; right; left; reflexivity|]. split; [exact S|reflexivity].
      * intros (i & x & H & Y & Z). apply in_app_or in H as [H|[H|[]]]; [left; eauto|]. injection H as <- <-. right; congruence.
    + intros c r'. rewrite within_add, B3, Ec. split.
      * intros [(i & x & H & Y)|[-> ->]]; [exists i, x; split; [apply in_or_app; left; exact H|exact Y]|].
        exists id, n. split; [apply in_or_app; right; left; reflexivity|]. split; [exact S|]. split; [exact Er|reflexivity].
      * intros (i & x & H & Y & Z & W). apply in_app_or in H as [H|[H|[]]]; [left; exists i, x; auto|]. injection H as <- <-.
        right. split; congruence.
Qed.
Lemma from_json_built d : written_by_egglog d -> exists m, from_json d = Some m /\ built d d m.
Proof.
  intros W. unfold from_json. destruct (loop_built d W d [] [] (fun _ x => x)) as (m & E & B); [|exists m; split; assumption].
  constructor; [constructor| |]; intros; cbn; split; try contradiction; intros (i & x & [] & _) || (intros (ns & [] & _)).
Qed.

(** ** The e-graph *)
Lemma paired_length {A C} (R : A -> C -> Prop) l r : Forall2 R l r -> List.length l = List.length r.
Proof. induction 1; cbn; congruence. Qed.
Section Read.
Variables (d : document) (m : list (str * list rnode)).
Hypotheses (W : written_by_egglog d) (B : built d d m).
Notation names := (map fst m).

Lemma class_position c : read_class d c -> exists i, position names c = Some i.
Proof. intros F. apply position_in. apply (b_keys _ _ _ B). exact F. Qed.
Lemma positions_exist cs : Forall (read_class d) cs -> exists ks, Forall2 (fun c k => position names c = Some k) cs ks.
Proof.
  induction 1 as [|c cs F _ (ks & IH)]; [exists []; constructor|]. destruct (class_position c F) as (k & P).
  exists (k :: ks). constructor; assumption.
Qed.
Lemma entry_facts id n : In (id, n) d -> skipped id = false ->
  (exists o cs, means d n o cs) /\
  forall o cs, means d n o cs -> read_as d id n o cs /\ arity_ok o (List.length cs) /\ Forall (read_class d) cs.
Proof.
  intros I S. destruct W as [N E]. rewrite Forall_forall in E.
  destruct (entry_read d id n N (E _ I) I) as [[S' _]|[_ H]]; [congruence|exact H].
Qed.
Lemma node_means id n o cs : In (id, n) d -> means d n o cs -> skipped id = false.
Proof.
  intros I M. destruct W as [N E]. rewrite Forall_forall in E.
  destruct (entry_read d id n N (E _ I) I) as [[_ X]|[S _]]; [destruct (X o cs M)|exact S].
Qed.
(** What a node becomes. *)
Lemma node_becomes c r : within m c r -> exists e id n o cs, enode_of names r = Some e /\ In (id, n) d /\ j_eclass n = c /\ means d n o cs /\
  op_of e = o /\ Forall2 (fun c k => position names c = Some k) cs (kids e) /\ arity_ok o (List.length cs).
Proof.
  intros I. apply (b_within _ _ _ B) in I as (id & n & I & S & R & C).
  destruct (entry_facts id n I S) as ((o & cs & M) & F). destruct (F o cs M) as ((r' & R' & _ & K & O) & A & Fc).
  rewrite R in R'. injection R' as <-. destruct (positions_exist cs Fc) as (ks & P).
  exists (Node o ks), id, n, o, cs. unfold enode_of. rewrite O, K, (proj2 (collect_map _ _ _) P). auto 10.
Qed.
Lemma means_becomes id n o cs : In (id, n) d -> means d n o cs ->
  exists r e, within m (j_eclass n) r /\ enode_of names r = Some e /\ op_of e = o /\ Forall2 (fun c k => position names c = Some k) cs (kids e).
Proof.
  intros I M. pose proof (node_means id n o cs I M) as S. destruct (entry_facts id n I S) as (_ & F).
  destruct (F o cs M) as ((r & R & _ & K & O) & A & Fc). destruct (positions_exist cs Fc) as (ks & P).
  exists r, (Node o ks). split; [apply (b_within _ _ _ B); exists id, n; auto|].
  unfold enode_of. rewrite O, K, (proj2 (collect_map _ _ _) P). auto.
Qed.
Lemma classes_exist : exists cs, Forall2 (fun p es => collect (map (enode_of names) (snd p)) = Some es) m cs.
Proof.
  assert (H : forall l, (forall c r, within l c r -> within m c r) -> exists cs, Forall2 (fun p es => collect (map (enode_of names) (snd p)) = Some es) l cs).
  { induction l as [|[c ns] l IH]; intros Sub; [exists []; constructor|].
    destruct IH as (cs & F); [intros c' r (ns' & I & J); apply Sub; exists ns'; split; [right|]; assumption|].
    assert (X : exists es, Forall2 (fun r e => enode_of names r = Some e) ns es).
    { assert (Y : forall r, In r ns -> exists e, enode_of names r = Some e).
      { intros r I. destruct (node_becomes c r) as (e & _ & _ & _ & _ & E & _); [apply Sub; exists ns; split; [left; reflexivity|exact I]|eauto]. }
      clear -Y. induction ns as [|r ns IH]; [exists []; constructor|].
      destruct (Y r (or_introl eq_refl)) as (e & E). destruct IH as (es & F); [intros x I; apply Y; right; exact I|]. exists (e :: es). constructor; assumption. }
    destruct X as (es & X). exists (es :: cs). constructor; [apply collect_map; exact X|exact F]. }
  apply H. auto.
Qed.
Variables (cs : list (list enode)) (r0 : nat).
Hypothesis F : Forall2 (fun p es => collect (map (enode_of names) (snd p)) = Some es) m cs.
Notation g := (Graph cs r0).
Lemma class_members i e : In e (members g i) <-> exists c r, nth_error names i = Some c /\ within m c r /\ enode_of names r = Some e.
Proof.
  pose proof (b_distinct _ _ _ B) as N. unfold members. cbn [classes].
  assert (H : forall f : rnode -> option enode, forall l ds, Forall2 (fun p es => collect (map f (snd p)) = Some es) l ds -> NoDup (map fst l) ->
              forall i, In e (nth i ds []) <-> exists c r, nth_error (map fst l) i = Some c /\ within l c r /\ f r = Some e).
  { clear. intros f l ds Fl. induction Fl as [|[c ns] es l ds E F IH]; intros N i.
    - destruct i; cbn; (split; [contradiction|intros (c & r & X & _); discriminate X]).
    - cbn [map fst] in N. inversion N as [|? ? X N']; subst. destruct i as [|i]; cbn [nth nth_error map fst].
      + cbn [snd] in E. apply collect_map in E. split.
        * intros I. assert (Y : exists r, In r ns /\ f r = Some e).
          { clear -E I. induction E as [|r e' ns es Q E IH]; [contradiction|]. destruct I as [->|I]; [exists r; split; [left; reflexivity|exact Q]|].
            destruct (IH I) as (r' & A & C). exists r'; split; [right|]; assumption. }
          destruct Y as (r & A & C). exists c, r. split; [reflexivity|]. split; [exists ns; split; [left; reflexivity|exact A]|exact C].
        * intros (c' & r & Q & (ns' & I & J) & Y). injection Q as <-. destruct I as [I|I].
          -- injection I as <-. clear -E J Y. induction E as [|r' e' ns es Q E IH]; [contradiction|]. destruct J as [->|J]; [left; congruence|right; auto].
          -- exfalso. apply X. exact (in_map fst _ _ I).
      + rewrite (IH N' i). split; intros (c' & r & Q & (ns' & I & J) & Y); exists c', r; (split; [exact Q|split; [|exact Y]]); exists ns'.
        * split; [right; exact I|exact J].
        * destruct I as [I|I]; [|split; assumption]. injection I as <- <-. exfalso. apply X. exact (nth_error_In _ _ Q). }
  exact (H (enode_of names) m cs F N i).
Qed.
Scheme holds_ind2 := Induction for holds_term Sort Prop with hold_all_ind2 := Induction for hold_terms Sort Prop.
Scheme says_ind2 := Induction for says Sort Prop with say_all_ind2 := Induction for say_all Sort Prop.
Lemma read_sound : forall i t, holds_term g i t -> forall c, nth_error names i = Some c -> says d c t.
Proof.
  apply (holds_ind2 g (fun i t _ => forall c, nth_error names i = Some c -> says d c t)
           (fun is ts _ => forall cs', Forall2 (fun c k => position names c = Some k) cs' is -> say_all d cs' ts)).
  - intros i e ts t I H IH T c Q. apply class_members in I as (c' & r & Q' & R & E). rewrite Q in Q'. injection Q' as <-.
    destruct (node_becomes c r R) as (e' & id & n & o & cs' & E' & I & <- & M & <- & P & _). rewrite E in E'. injection E' as <-.
    exact (says_node d id n (op_of e) cs' ts t I M (IH cs' P) T).
  - intros cs' P. inversion P. constructor.
  - intros i is t ts H IH Hs IHs cs' P. inversion P as [|c k cs'' ks Q P']; subst. constructor; [|exact (IHs cs'' P')].
    apply IH. exact (proj1 (position_nth _ _ _ Q)).
Qed.
Lemma read_complete : forall c t, says d c t -> forall i, position names c = Some i -> holds_term g i t.
Proof.
  apply (says_ind2 d (fun c t _ => forall i, position names c = Some i -> holds_term g i t)
           (fun cs' ts _ => forall is, Forall2 (fun c k => position names c = Some k) cs' is -> hold_terms g is ts)).
  - intros id n o cs' ts t I M H IH T i Q. destruct (means_becomes id n o cs' I M) as (r & e & R & E & <- & P).
    eapply holds_node; [|exact (IH _ P)|exact T]. apply class_members. exists (j_eclass n), r.
    split; [exact (proj1 (position_nth _ _ _ Q))|]. split; assumption.
  - intros is P. inversion P. constructor.
  - intros c cs' t ts H IH Hs IHs is P. inversion P as [|? k ? ks Q P']; subst. constructor; [exact (IH k Q)|exact (IHs ks P')].
Qed.
Lemma read_formed : r0 < List.length m -> well_formed g.
Proof.
  intros R. assert (Len : List.length (classes g) = List.length m) by (cbn; symmetry; exact (paired_length _ _ _ F)).
  split; [rewrite Len; exact R|]. intros i e I. apply class_members in I as (c & r & _ & R' & E).
  destruct (node_becomes c r R') as (e' & id & n & o & cs' & E' & _ & _ & _ & O & P & A). rewrite E in E'. injection E' as <-. split.
  - rewrite O. replace (List.length (kids e)) with (List.length cs'); [exact A|]. clear -P. induction P; cbn; congruence.
  - rewrite Len. rewrite Forall_forall. intros k K. assert (X : exists c, position names c = Some k).
    { clear -P K. induction P as [|c k' cs ks Q P IH]; [contradiction|]. destruct K as [->|K]; eauto. }
    destruct X as (c' & X). apply position_nth in X as [_ X]. rewrite map_length in X. exact X.
Qed.
End Read.

Lemma egraph_read d c : written_by_egglog d -> formula_class d c ->
  exists g, read_egraph d c = Some g /\ well_formed g /\ forall t, holds_term g (root g) t <-> says d c t.
Proof.
  intros W C. destruct (from_json_built d W) as (m & E & B). destruct (classes_exist d m W B) as (cs & F).
  destruct (class_position d m B c (class_read d c C)) as (r & P). exists (Graph cs r).
  unfold read_egraph, graph_of. rewrite E, (proj2 (collect_map _ _ _) F), P. split; [reflexivity|].
  destruct (position_nth _ _ _ P) as [Q L]. rewrite map_length in L. split; [exact (read_formed d m W B cs r F L)|].
  intros t. cbn [root]. split; intros H.
  - exact (read_sound d m W B cs r F r t H c Q).
  - exact (read_complete d m W B cs r F c t H r P).
Qed.
(** From the formula to egglog, and from the document to the new formula. *)
Lemma json_equivalent f e cs k t d c ext w v known :
  stands f (pred (List.length f)) e -> legal e -> to_egglog f = Some (cs, k) -> root_term cs k = Some t ->
  written_by_egglog d -> formula_class d c -> (forall t', says d c t' -> egraph all_rules t t t') ->
  (forall a, reads e a -> known a = true) ->
  exists g, read_egraph d c = Some g /\
    (feasible g ext w v -> exists e' fuel, (forall more, fuel <= more -> extract known g v more = Some e') /\
      equivalent e' e /\ legal e' /\ (forall a, reads e' a -> reads e a) /\ (ext = false -> all_nodes not_extended_op e')).
Proof.
  intros H L E R W C S K. destruct (egraph_read d c W C) as (g & G & Wf & X). exists g. split; [exact G|]. intros Fe.
  refine (ilp_equivalent f e cs k t g ext w v known H L E R Wf _ Fe K). intros t' T. apply S, X, T.
Qed.
