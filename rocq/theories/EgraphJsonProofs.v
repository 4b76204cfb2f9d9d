(** * Reading the e-graph that egglog writes (proofs) *)
From Coq Require Import List Arith NArith ZArith Bool Ascii String Lia.
Require Import Verif.MapFile Verif.MapProofs Verif.Egglog Verif.Ilp Verif.IlpSpec Verif.EgraphJson Verif.EgraphJsonSpec.
Import ListNotations.
Local Open Scope list_scope.
Local Open Scope nat_scope.

(** ** Lists *)
Lemma collect_some {A} : forall (l : list (option A)) r, collect l = Some r <-> l = map Some r.
Proof.
  induction l as [|[x|] l IH]; intros r; cbn.
  - destruct r; split; intros H; try discriminate H; reflexivity.
  - destruct (collect l) as [r0|] eqn:E; cbn.
    + destruct r as [|y r]; split; intros H; try discriminate H.
      * injection H as -> ->. cbn. f_equal. apply IH. reflexivity.
      * injection H as -> H. apply IH in H. congruence.
    + destruct r as [|y r]; split; intros H; try discriminate H. injection H as -> H. apply IH in H. discriminate H.
  - destruct r; split; intros H; discriminate H.
Qed.
Lemma collect_map {A B} (f : A -> option B) : forall l r, collect (map f l) = Some r <-> Forall2 (fun x y => f x = Some y) l r.
Proof.
  intros l r. rewrite collect_some. revert r. induction l as [|x l IH]; intros [|y r]; cbn; split; intros H; try discriminate H; try (inversion H; fail); auto.
  - injection H as E H. constructor; [exact E|]. apply IH, H.
  - inversion H as [|? ? ? ? E F]; subst. rewrite E. f_equal. apply IH, F.
Qed.
Lemma lookup_in {A} (d : list (str * A)) : NoDup (map fst d) -> forall id v, lookup d id = Some v <-> In (id, v) d.
Proof.
  induction d as [|[k w] d IH]; cbn; intros N id v; [split; [discriminate|contradiction]|].
  inversion N as [|? ? X N']; subst. destruct (str_eqb k id) eqn:E.
  - apply str_eqb_eq in E as ->. split; [intros H; injection H as ->; auto|].
    intros [H|H]; [injection H as ->; reflexivity|]. exfalso. apply X. change id with (fst (id, v)). apply in_map, H.
  - rewrite (IH N' id v). split; [auto|]. intros [H|H]; [|exact H]. injection H as -> ->. rewrite str_eqb_refl in E. discriminate E.
Qed.
Lemma position_nth : forall names c i, position names c = Some i -> nth_error names i = Some c /\ i < List.length names.
Proof.
  induction names as [|x names IH]; cbn; intros c i H; [discriminate|]. destruct (str_eqb x c) eqn:E.
  - injection H as <-. apply str_eqb_eq in E as ->. split; [reflexivity|lia].
  - destruct (position names c) as [j|] eqn:P; [|discriminate]. injection H as <-. destruct (IH c j P). cbn. split; [assumption|lia].
Qed.
Lemma position_in : forall names c, In c names -> exists i, position names c = Some i.
Proof.
  induction names as [|x names IH]; cbn; intros c H; [contradiction|]. destruct (str_eqb x c) eqn:E; [eauto|].
  destruct H as [->|H]; [rewrite str_eqb_refl in E; discriminate|]. destruct (IH c H) as [i ->]. cbn; eauto.
Qed.
Lemma nth_position : forall names, NoDup names -> forall i c, nth_error names i = Some c -> position names c = Some i.
Proof.
  induction names as [|x names IH]; intros N [|i] c H; cbn in *; try discriminate.
  - injection H as ->. rewrite str_eqb_refl. reflexivity.
  - inversion N as [|? ? X N']; subst. destruct (str_eqb x c) eqn:E.
    + apply str_eqb_eq in E as ->. exfalso. apply X. exact (nth_error_In _ _ H).
    + rewrite (IH N' i c H). reflexivity.
Qed.

Lemma filter_every {A} (p : A -> bool) : forall l, forallb p l = true -> filter p l = l.
Proof. induction l as [|x l IH]; cbn; [reflexivity|]. intros H. apply andb_true_iff in H as [-> H]. rewrite (IH H). reflexivity. Qed.
Lemma filter_none {A} (p : A -> bool) : forall l, Forall (fun x => p x = false) l -> filter p l = [].
Proof. induction 1 as [|x l H _ IH]; cbn; [reflexivity|]. rewrite H. exact IH. Qed.

(** ** Marks in ids *)
Lemma contains_skip a q : forall p s, forallb (fun x => negb (Ascii.eqb a x)) p = true -> contains (a :: q) (p ++ s) = contains (a :: q) s.
Proof.
  induction p as [|x p IH]; intros s H; [reflexivity|]. cbn in H. apply andb_true_iff in H as [H1 H2].
  cbn [app contains starts]. apply negb_true_iff in H1. rewrite H1. cbn [andb orb]. apply IH, H2.
Qed.
Lemma contains_app : forall sub s r, contains sub s = true -> contains sub (s ++ r) = true.
Proof.
  assert (S : forall p s r, starts p s = true -> starts p (s ++ r) = true).
  { induction p as [|a p IH]; intros [|b s] r H; cbn in *; try discriminate H; try reflexivity.
    apply andb_true_iff in H as [-> H]. apply IH, H. }
  intros sub. induction s as [|x s IH]; intros r H; cbn [contains app] in *.
  - rewrite orb_false_r in H. destruct r; cbn [contains]; [rewrite H; reflexivity|]. pose proof (S sub [] (a :: r) H) as X; cbn [app] in X; rewrite X; reflexivity.
  - apply orb_true_iff in H as [H|H]; apply orb_true_iff; [left; exact (S sub (x :: s) r H)|right; apply IH, H].
Qed.
Lemma contains_after : forall sub p s, contains sub s = true -> contains sub (p ++ s) = true.
Proof. induction p as [|x p IH]; intros s H; [exact H|]. cbn. rewrite (IH s H). apply orb_true_r. Qed.
Lemma digits_free a k : is_digit a = false -> forallb is_digit k = true -> forallb (fun x => negb (Ascii.eqb a x)) k = true.
Proof.
  intros A H. rewrite forallb_forall in *. intros x I. apply negb_true_iff. destruct (Ascii.eqb a x) eqn:E; [|reflexivity].
  apply Ascii.eqb_eq in E as ->. rewrite (H x I) in A. discriminate A.
Qed.
Definition unmarked (id : str) : Prop :=
  has "Interval" id = false /\ has "String" id = false /\ has "i64" id = false /\ has "bool" id = false.
Lemma formula_unmarked k s : forallb is_digit k = true -> In s formula_constructors -> unmarked (function_id k s).
Proof.
  intros D I. unfold unmarked, has, function_id.
  assert (X : forall a q, is_digit a = false -> contains (a :: q) (txt "function-" ++ k ++ "-"%char :: txt s) = contains (a :: q) (k ++ "-"%char :: txt s) ->
            contains (a :: q) ("-"%char :: txt s) = false -> contains (a :: q) (txt "function-" ++ k ++ "-"%char :: txt s) = false).
  { intros a q A E F. rewrite E, contains_skip; [exact F|]. apply digits_free; assumption. }
  split; [|split; [|split]]; apply X; try reflexivity;
    repeat (destruct I as [<-|I]; [reflexivity|]); contradiction I.
Qed.
Lemma interval_marked k : has "Interval" (function_id k "Interval") = true.
Proof. unfold has, function_id. rewrite app_assoc. apply contains_after. reflexivity. Qed.
Lemma string_marked i : has "String" (value_id "String" i) = true.
Proof. unfold has, value_id. apply contains_app. reflexivity. Qed.
Lemma bool_marked i : has "bool" (value_id "bool" i) = true.
Proof. unfold has, value_id. apply contains_app. reflexivity. Qed.
Lemma int_marked i : has "i64" (value_id "i64" i) = true.
Proof. unfold has, value_id. apply contains_app. reflexivity. Qed.

(** ** Texts *)
Lemma int_z_text z : int_z (z_text z) = Some z.
Proof.
  unfold int_z, z_text. destruct z as [|p|p].
  - reflexivity.
  - destruct (dec_cons (Z.to_N (Zpos p))) as (c & r & E & C). rewrite E.
    assert (Y : int_of (c :: r) = Some (Npos p)) by (rewrite <- E; apply int_dec).
    assert (c <> "-"%char) by (intros ->; discriminate C).
    replace (match c :: r with "-"%char :: r0 => option_map (fun n => (- Z.of_N n)%Z) (int_of r0) | _ => option_map Z.of_N (int_of (c :: r)) end)
      with (option_map Z.of_N (int_of (c :: r))); [rewrite Y; reflexivity|].
    destruct c as [[] [] [] [] [] [] [] []]; try reflexivity; contradiction.
  - cbn [int_z]. rewrite int_dec. reflexivity.
Qed.
Lemma drop_free p s : match s with [] => True | c :: _ => p c = false end -> drop_while p s = s.
Proof. destruct s as [|c s]; [reflexivity|]. cbn. intros ->. reflexivity. Qed.
Lemma unquote_digits n : unquote (dec n) = dec n.
Proof.
  unfold unquote. apply filter_every. rewrite forallb_forall. intros x I.
  pose proof (dec_digits n) as D. rewrite forallb_forall in D. specialize (D x I). apply negb_true_iff.
  destruct (Ascii.eqb quote x) eqn:E; [|reflexivity]. apply Ascii.eqb_eq in E as <-. discriminate D.
Qed.
Lemma strip_atomic a : strip (atomic_text a) = "a"%char :: dec (N.of_nat a).
Proof.
  unfold strip, atomic_text. cbn [drop_while]. rewrite Ascii.eqb_refl. change (Ascii.eqb quote "a") with false. cbv iota.
  rewrite app_comm_cons, rev_app_distr. cbn [rev app drop_while]. rewrite Ascii.eqb_refl.
  destruct (dec_cons (N.of_nat a)) as (c & r & E & _). pose proof (dec_digits (N.of_nat a)) as D.
  rewrite drop_free; [rewrite rev_app_distr, rev_involutive; reflexivity|].
  destruct (rev (dec (N.of_nat a))) as [|x l] eqn:R; [reflexivity|]. cbn [app].
  rewrite forallb_forall in D. assert (I : In x (dec (N.of_nat a))) by (apply in_rev; rewrite R; left; reflexivity).
  specialize (D x I). destruct (Ascii.eqb quote x) eqn:Q; [|reflexivity]. apply Ascii.eqb_eq in Q as <-. discriminate D.
Qed.
Lemma bool_read b : has "true" (bool_text b) = b.
Proof. destruct b; reflexivity. Qed.

(** ** One node *)
Lemma op_lookup d id op : NoDup (map fst d) -> op_is d id op -> exists v, lookup d id = Some v /\ j_op v = op.
Proof. intros N (ks & c & I). exists (JNode op ks c). split; [apply lookup_in; assumption|reflexivity]. Qed.
Definition kept_operand (c : str) : bool := negb (has "Interval" c) && negb (has "String" c) && negb (has "bool" c).
Lemma formula_kept d id : formula_id d id -> kept_operand id = true /\ has "Interval" id = false.
Proof.
  intros (k & s & D & I & -> & _). destruct (formula_unmarked k s D I) as (A & B & _ & E). unfold kept_operand.
  rewrite A, B, E. split; reflexivity.
Qed.
Lemma formulas_kept d ids : Forall (formula_id d) ids -> filter kept_operand ids = ids.
Proof.
  intros F. apply filter_every, forallb_forall. rewrite Forall_forall in F. intros x I. exact (proj1 (formula_kept d x (F x I))).
Qed.
Lemma classes_read d ids cs : NoDup (map fst d) -> Forall2 (in_class d) ids cs ->
  collect (map (fun c => option_map j_eclass (lookup d c)) ids) = Some cs.
Proof.
  intros N F. apply collect_map. induction F as [|x c ids cs (op & ks & I) F IH]; constructor; [|exact IH].
  apply lookup_in in I; [|exact N]. rewrite I. reflexivity.
Qed.
Lemma interval_read d j l u ids s c : NoDup (map fst d) -> interval_is d (function_id j "Interval") l u -> Forall (formula_id d) ids ->
  read_interval d (JNode s (function_id j "Interval" :: ids) c) = Some (l, u).
Proof.
  intros N (il & iu & c' & I & L & U) F. unfold read_interval. cbn [j_children filter]. rewrite interval_marked.
  rewrite filter_none; [|rewrite Forall_forall in *; intros x X; exact (proj2 (formula_kept d x (F x X)))].
  apply lookup_in in I; [|exact N]. rewrite I. cbn [j_children].
  destruct (op_lookup d il _ N L) as (vl & -> & ->). destruct (op_lookup d iu _ N U) as (vu & -> & ->).
  rewrite !int_z_text. reflexivity.
Qed.
Definition read_as (d : document) (id : str) (n : jnode) (o : eop) (cs : list str) : Prop :=
  exists r, node_from_json d id = Some r /\ r_class r = j_eclass n /\ r_kids r = cs /\ operator r = Some o.
Ltac each I := repeat (destruct I as [I|I]; [injection I as <- <- <-|]); [..|contradiction I].
Lemma plain_read d id s k o ids cs c : NoDup (map fst d) -> In (id, JNode (txt s) ids c) d -> In (s, (k, o)) plain_constructors ->
  Forall (formula_id d) ids -> Forall2 (in_class d) ids cs -> read_as d id (JNode (txt s) ids c) o cs.
Proof.
  intros N I P F C. unfold read_as, node_from_json. apply lookup_in in I; [|exact N]. rewrite I. unfold operand_classes. cbn [j_children].
  change (fun c => negb (has "Interval" c) && negb (has "String" c) && negb (has "bool" c)) with kept_operand.
  rewrite (formulas_kept d ids F), (classes_read d ids cs N C). cbn [j_op j_eclass].
  each P; eexists; (split; [vm_compute; reflexivity|split; [reflexivity|split; reflexivity]]).
Qed.
Lemma temporal_read d id s k o j l u ids cs c : NoDup (map fst d) -> In (id, JNode (txt s) (function_id j "Interval" :: ids) c) d ->
  In (s, (k, o)) temporal_constructors -> interval_is d (function_id j "Interval") l u ->
  Forall (formula_id d) ids -> Forall2 (in_class d) ids cs -> read_as d id (JNode (txt s) (function_id j "Interval" :: ids) c) (o l u) cs.
Proof.
  intros N I P V F C. unfold read_as, node_from_json. apply lookup_in in I; [|exact N]. rewrite I. unfold operand_classes. cbn [j_children].
  change (fun c => negb (has "Interval" c) && negb (has "String" c) && negb (has "bool" c)) with kept_operand.
  cbn [filter]. unfold kept_operand at 1. rewrite interval_marked. cbn [negb andb].
  rewrite (formulas_kept d ids F), (classes_read d ids cs N C), (interval_read d j l u ids (txt s) c N V F). cbn [j_op j_eclass].
  assert (T : is_temporal (txt s) = true) by (each P; reflexivity). rewrite T.
  eexists; split; [reflexivity|split; [reflexivity|split; [reflexivity|]]].
  each P; reflexivity.
Qed.
Lemma bool_node_read d id i b c : NoDup (map fst d) -> In (id, JNode (txt "Bool") [value_id "bool" i] c) d -> op_is d (value_id "bool" i) (bool_text b) ->
  read_as d id (JNode (txt "Bool") [value_id "bool" i] c) (OBool b) [].
Proof.
  intros N I V. unfold read_as, node_from_json. apply lookup_in in I; [|exact N]. rewrite I. unfold operand_classes. cbn [j_children filter].
  rewrite bool_marked, andb_false_r. cbn [map collect j_op].
  destruct (op_lookup d _ _ N V) as (v & -> & E). cbn [option_map]. rewrite E, bool_read.
  eexists; split; [reflexivity|split; [reflexivity|split; reflexivity]].
Qed.
Lemma var_node_read d id i a c : NoDup (map fst d) -> In (id, JNode (txt "Var") [value_id "String" i] c) d -> op_is d (value_id "String" i) (atomic_text a) ->
  read_as d id (JNode (txt "Var") [value_id "String" i] c) (OVar a) [].
Proof.
  intros N I V. unfold read_as, node_from_json. apply lookup_in in I; [|exact N]. rewrite I. unfold operand_classes. cbn [j_children filter].
  rewrite string_marked. cbn [negb]. rewrite andb_false_r, andb_false_l. cbn [map collect j_op].
  destruct (op_lookup d _ _ N V) as (v & -> & E). cbn [option_map]. rewrite E, strip_atomic.
  eexists; split; [reflexivity|split; [reflexivity|split; [reflexivity|]]].
  unfold operator. cbn [r_op r_string].
  change (str_eqb (txt "Var") (txt "Bool")) with false. change (str_eqb (txt "Var") (txt "Var")) with true. cbv iota.
  change (unquote ("a"%char :: dec (N.of_nat a))) with ("a"%char :: unquote (dec (N.of_nat a))). rewrite unquote_digits. cbn [skipn].
  rewrite int_dec. cbn. rewrite Nnat.Nat2N.id. reflexivity.
Qed.

(** ** The nodes of a document *)
Definition read_class (d : document) (c : str) : Prop := exists id n, In (id, n) d /\ skipped id = false /\ j_eclass n = c.
Lemma unmarked_read id : unmarked id -> skipped id = false.
Proof. intros (A & B & C & D). unfold skipped. rewrite A, B, C, D. reflexivity. Qed.
Lemma class_read d c : formula_class d c -> read_class d c.
Proof.
  intros (id & (k & s & D & J & -> & _) & op & ks & I). exists (function_id k s), (JNode op ks c).
  split; [exact I|]. split; [apply unmarked_read, formula_unmarked; assumption|reflexivity].
Qed.
Lemma formulas_classes d ids cs : Forall (formula_id d) ids -> Forall2 (in_class d) ids cs -> Forall (read_class d) cs.
Proof.
  intros F C. induction C as [|x c ids cs (op & ks & I) C IH]; constructor; apply Forall_cons_iff in F as [Fx F]; [|exact (IH F)].
  destruct Fx as (k & s & D & J & -> & _). exists (function_id k s), (JNode op ks c).
  split; [exact I|]. split; [apply unmarked_read, formula_unmarked; assumption|reflexivity].
Qed.
Lemma formulas_have_classes d ids : Forall (formula_id d) ids -> exists cs, Forall2 (in_class d) ids cs.
Proof.
  induction 1 as [|x ids (k & s & _ & _ & _ & c & I) _ (cs & IH)]; [exists []; constructor|]. exists (c :: cs). constructor; assumption.
Qed.
Lemma plain_formula s k o : In (s, (k, o)) plain_constructors -> In s formula_constructors.
Proof. intros P. apply in_or_app. right. apply in_or_app. left. exact (in_map fst _ _ P). Qed.
Lemma temporal_formula s k o : In (s, (k, o)) temporal_constructors -> In s formula_constructors.
Proof. intros P. apply in_or_app. right. apply in_or_app. right. exact (in_map fst _ _ P). Qed.
Lemma txt_inj s s' : txt s = txt s' -> s = s'.
Proof. intros H. rewrite <- (string_of_list_ascii_of_string s), <- (string_of_list_ascii_of_string s'). unfold txt in H. rewrite H. reflexivity. Qed.
Lemma plain_det s k o k' o' : In (s, (k, o)) plain_constructors -> In (s, (k', o')) plain_constructors -> k = k' /\ o = o'.
Proof. intros P Q. each P; repeat (destruct Q as [Q|Q]; [inversion Q; subst; auto|]); contradiction Q. Qed.
Lemma temporal_det s k o k' o' : In (s, (k, o)) temporal_constructors -> In (s, (k', o')) temporal_constructors -> k = k' /\ o = o'.
Proof. intros P Q. each P; repeat (destruct Q as [Q|Q]; [inversion Q; subst; auto|]); contradiction Q. Qed.
Lemma kinds_differ s k o k' o' : In (s, (k, o)) plain_constructors -> In (s, (k', o')) temporal_constructors -> False.
Proof. intros P Q. each P; repeat (destruct Q as [Q|Q]; [discriminate Q|]); contradiction Q. Qed.
Lemma plain_name s k o : In (s, (k, o)) plain_constructors -> s <> "Bool"%string /\ s <> "Var"%string /\ s <> "Interval"%string /\ 1 <= k /\ arity_ok o k.
Proof. intros P. each P; cbn; repeat split; try discriminate; lia. Qed.
Lemma temporal_name s k o l u : In (s, (k, o)) temporal_constructors -> s <> "Bool"%string /\ s <> "Var"%string /\ s <> "Interval"%string /\ arity_ok (o l u) k.
Proof. intros P. each P; cbn; repeat split; discriminate. Qed.

Lemma entry_read d id n : NoDup (map fst d) -> entry d (id, n) -> In (id, n) d ->
  (skipped id = true /\ forall o cs, ~ means d n o cs) \/
  (skipped id = false /\ (exists o cs, means d n o cs) /\
   forall o cs, means d n o cs -> read_as d id n o cs /\ arity_ok o (List.length cs) /\ Forall (read_class d) cs).
Proof.
  intros N E I. inversion E as [i z c|i a c|i b c|k il iu l u c L U|k i b c D V|k i a c D V|k s m o ids c D P Len F|k s m o j l u ids c D P Len V F]; subst.
  1, 2, 3: left; split; [unfold skipped; rewrite ?int_marked, ?string_marked, ?bool_marked, ?orb_true_r; reflexivity|];
    intros o cs M; inversion M as [| |s k o' ids cs' c' P Len F|]; subst;
    destruct (plain_name _ _ _ P) as (_ & _ & _ & X & _); cbn in X; lia.
  - left. split; [unfold skipped; rewrite interval_marked; reflexivity|].
    intros o cs M; inversion M as [| |s k' o' ids cs' c' P Len F X Y|s k' o' i' l' u' ids cs' c' P Len F W X Y]; subst.
    + destruct (plain_name _ _ _ P) as (_ & _ & Z & _). apply Z, txt_inj. assumption.
    + destruct (temporal_name _ _ _ l' u' P) as (_ & _ & Z & _). apply Z, txt_inj. assumption.
  - right. split; [apply unmarked_read, formula_unmarked; [exact D|left; reflexivity]|].
    split; [exists (OBool b), []; constructor; exact V|].
    intros o cs M; inversion M as [i' b' c' V'| |s k' o' ids cs' c' P Len F X Y|s k' o' i' l' u' ids cs' c' P Len F W X Y]; subst.
    + split; [apply bool_node_read; assumption|]. split; [reflexivity|constructor].
    + destruct (plain_name _ _ _ P) as (Z & _). exfalso. apply Z, txt_inj. assumption.
    + destruct (temporal_name _ _ _ l' u' P) as (Z & _). exfalso. apply Z, txt_inj. assumption.
  - right. split; [apply unmarked_read, formula_unmarked; [exact D|right; left; reflexivity]|].
    split; [exists (OVar a), []; constructor; exact V|].
    intros o cs M; inversion M as [|i' b' c' V'|s k' o' ids cs' c' P Len F X Y|s k' o' i' l' u' ids cs' c' P Len F W X Y]; subst.
    + split; [apply var_node_read; assumption|]. split; [reflexivity|constructor].
    + destruct (plain_name _ _ _ P) as (_ & Z & _). exfalso. apply Z, txt_inj. assumption.
    + destruct (temporal_name _ _ _ l' u' P) as (_ & Z & _). exfalso. apply Z, txt_inj. assumption.
  - right. split; [apply unmarked_read, formula_unmarked; [exact D|exact (plain_formula _ _ _ P)]|].
    destruct (plain_name _ _ _ P) as (NB & NV & _ & _ & _). split.
    + destruct (formulas_have_classes d ids F) as (cs & C). exists o, cs. eapply means_plain; [exact P|reflexivity|exact C].
    + intros o' cs M; inversion M as [i' b' c' V' X|i' a' c' V' X|s' k' o'' ids' cs' c' P' Len' F' X Y|s' k' o'' i' l' u' ids' cs' c' P' Len' V' F' X Y]; subst.
      * exfalso. apply NB, txt_inj. symmetry; assumption.
      * exfalso. apply NV, txt_inj. symmetry; assumption.
      * apply txt_inj in X. subst s'. destruct (plain_det _ _ _ _ _ P P') as [_ <-].
        destruct (plain_name _ _ _ P) as (_ & _ & _ & _ & A).
        split; [eapply plain_read; eassumption|]. split; [|exact (formulas_classes d ids cs F F')].
        replace (List.length cs) with (List.length ids); [exact A|]. clear -F'. induction F'; cbn; congruence.
      * apply txt_inj in X. subst s'. destruct (kinds_differ _ _ _ _ _ P P').
  - right. split; [apply unmarked_read, formula_unmarked; [exact D|exact (temporal_formula _ _ _ P)]|].
    destruct (temporal_name _ _ _ l u P) as (NB & NV & _ & _). split.
    + destruct (formulas_have_classes d ids F) as (cs & C). exists (o l u), cs. eapply means_temporal; [exact P|reflexivity|exact V|exact C].
    + intros o' cs M; inversion M as [i' b' c' V' X|i' a' c' V' X|s' k' o'' ids' cs' c' P' Len' F' X Y|s' k' o'' i' l' u' ids' cs' c' P' Len' V' F' X Y]; subst.
      * exfalso. apply NB, txt_inj. symmetry; assumption.
      * exfalso. apply NV, txt_inj. symmetry; assumption.
      * apply txt_inj in X. subst s'. destruct (kinds_differ _ _ _ _ _ P' P).
      * apply txt_inj in X. subst s'. destruct (temporal_det _ _ _ _ _ P P') as [_ <-].
        destruct (temporal_name _ _ _ l' u' P) as (_ & _ & _ & A).
        split; [eapply temporal_read; eassumption|]. split; [|exact (formulas_classes d ids cs F F')].
        replace (List.length cs) with (List.length ids); [exact A|]. clear -F'. induction F'; cbn; congruence.
Qed.
