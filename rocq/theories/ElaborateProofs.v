(** * From the text of a C2PO file to formulas over columns (proofs) *)
From Coq Require Import List Arith NArith ZArith Bool Ascii String Lia.
Require Import Verif.MapFile Verif.MapProofs Verif.Mltl Verif.MltlShape Verif.MltlEval Verif.Transform Verif.TransformProofs.
Require Import Verif.Scope Verif.Definitions Verif.DefinitionsProofs Verif.EndToEnd.
Require Import Verif.CsvTrace Verif.C2poText Verif.C2poWrite Verif.Elaborate Verif.ElaborateSpec.
Import ListNotations.
Local Open Scope list_scope.
Local Open Scope nat_scope.

(** ** Places of names *)
Lemma place_nth : forall l s k, place l s = Some k -> nth_error l k = Some s.
Proof.
  induction l as [|x l IH]; intros s k H; [discriminate|]. cbn in H. destruct (str_eqb x s) eqn:E.
  - apply str_eqb_eq in E. injection H as <-. cbn. congruence.
  - destruct (place l s) as [k'|] eqn:P; [|discriminate]. injection H as <-. cbn. apply IH, P.
Qed.
Lemma place_lt l s k : place l s = Some k -> k < List.length l.
Proof. intros H. apply place_nth in H. apply nth_error_Some. congruence. Qed.
Lemma place_in : forall l s, In s l -> exists k, place l s = Some k.
Proof.
  induction l as [|x l IH]; intros s H; [destruct H|]. cbn. destruct (str_eqb x s) eqn:E; [eauto|].
  destruct H as [-> |H]; [rewrite str_eqb_refl in E; discriminate|]. destruct (IH s H) as [k ->]. cbn. eauto.
Qed.
Lemma place_none l s : ~ In s l -> place l s = None.
Proof. intros H. destruct (place l s) eqn:E; [|reflexivity]. apply place_nth, nth_error_In in E. contradiction. Qed.
Lemma place_app l x s : ~ In x l -> place (l ++ [x]) s = if str_eqb x s then Some (List.length l) else place l s.
Proof.
  induction l as [|y l IH]; intros N; cbn.
  - destruct (str_eqb x s); reflexivity.
  - destruct (str_eqb y s) eqn:E.
    + destruct (str_eqb x s) eqn:E2; [|reflexivity]. apply str_eqb_eq in E, E2. exfalso. apply N. left. congruence.
    + rewrite IH by (intros I; apply N; right; exact I). destruct (str_eqb x s); reflexivity.
Qed.

Lemma width_bound m s c : map_get m s = Some c -> N.to_nat c < width_of m.
Proof.
  unfold width_of. induction m as [|[k v] m IH]; intros H; [discriminate|]. cbn [map_get] in H. cbn [fold_right snd].
  destruct (str_eqb k s); [injection H as <-; lia|]. specialize (IH H). lia.
Qed.

(** ** Formulas *)
Section Numbers.
Variable column : str -> option nat.
Variable base defs : nat.
Hypothesis column_low : forall s a, column s = Some a -> a < base.
Notation variable := (variable base defs).
Notation formula := (formula column base defs).

Ltac two H := match type of H with
  | match ?a with Some _ => match ?b with _ => _ end | None => _ end = Some _ =>
    destruct a eqn:?; [|discriminate H]; destruct b eqn:?; [|discriminate H]; injection H as <- end.
Ltac timed H := match type of H with (if ?b && ?c then _ else None) = Some _ => destruct (b && c); [|discriminate H] end.
Lemma formula_total future (times : bool -> Prop) (inputs known : str -> Prop) ds ls e :
  (forall s, inputs s -> exists a, column s = Some a) -> (forall t, times t -> t = future) -> (forall s, known s -> In s ds \/ In s ls) ->
  boolean times inputs known e -> exists b, formula future ds ls e = Some b.
Proof.
  intros Hc Ht Hk. induction e using cx_ind'; cbn [boolean]; intros B; try contradiction.
  - destruct (Hc s B) as [a E]. cbn. rewrite E. cbn. eauto.
  - cbn. unfold Elaborate.variable. destruct (place ds s) eqn:E; [cbn; eauto|]. apply Hk in B.
    destruct B as [B|B]; [apply place_in in B as [k B]; congruence|]. apply place_in in B as [k ->]. cbn. eauto.
  - destruct u; try contradiction. destruct (IHe B) as [b E]. cbn. rewrite E. cbn. eauto.
  - destruct o; try contradiction; destruct es as [|a [|b [|? ?]]]; try contradiction; destruct B as [B1 B2];
      inversion H as [|? ? IH1 H']; subst; inversion H' as [|? ? IH2 _]; subst;
      destruct (IH1 B1) as [p E1]; destruct (IH2 B2) as [q E2]; cbn; rewrite E1, E2; eauto.
  - destruct k; destruct B as (T & L & B); apply Ht in T; subst future; destruct (IHe B) as [b E]; cbn; rewrite E;
      apply Nat.leb_le in L; rewrite L; cbn; eauto.
  - destruct k; try contradiction; destruct B as (T & L & B1 & B2); apply Ht in T; subst future;
      destruct (IHe1 B1) as [p E1]; destruct (IHe2 B2) as [q E2]; cbn; rewrite E1, E2; apply Nat.leb_le in L; rewrite L; eauto.
Qed.
(** The cases of a formula that is read. *)
Lemma formula_sat (tr : trace) (v : str -> nat -> Prop) future (times : bool -> Prop) (inputs known : str -> Prop) ds ls e :
  forall b, formula future ds ls e = Some b ->
  boolean times inputs known e ->
  (forall s a i, inputs s -> column s = Some a -> (tr i a = true <-> v s i)) ->
  (forall s a i, variable ds ls s = Some a -> (tr i a = true <-> v s i)) ->
  forall i, sat tr b i <-> holds v e i.
Proof.
  induction e using cx_ind'; intros b0 F B Hc Hv tm; cbn [boolean] in B; try contradiction; cbn in F.
  - destruct (column s) as [a|] eqn:E; [|discriminate]. injection F as <-. cbn. apply Hc; assumption.
  - destruct (variable ds ls s) as [a|] eqn:E; [|discriminate]. injection F as <-. cbn. apply Hv, E.
  - destruct u; try contradiction. destruct (formula future ds ls e) as [b|]; [|discriminate]. injection F as <-.
    cbn. rewrite (IHe b eq_refl B Hc Hv tm). tauto.
  - destruct o; try contradiction; destruct es as [|a [|b [|? ?]]]; try contradiction; destruct B as [B1 B2];
      inversion H as [|? ? IH1 H']; subst; inversion H' as [|? ? IH2 _]; subst; two F; cbn;
      rewrite (IH1 _ eq_refl B1 Hc Hv tm), (IH2 _ eq_refl B2 Hc Hv tm); tauto.
  - destruct k; destruct B as (_ & L & B); timed F;
      (destruct (formula future ds ls e) as [b|]; [|discriminate]); injection F as <-; cbn.
    + split; intros X j Hj; apply (IHe b eq_refl B Hc Hv), X, Hj.
    + split; intros (j & Hj & X); exists j; (split; [exact Hj|]); apply (IHe b eq_refl B Hc Hv), X.
    + split; intros X j Hj; apply (IHe b eq_refl B Hc Hv), X; lia.
    + split; intros (j & Hj & X); exists j; (split; [lia|]); apply (IHe b eq_refl B Hc Hv), X.
  - destruct k; try contradiction; destruct B as (_ & L & B1 & B2); timed F; two F; cbn.
    + split; intros (j & Hj & X & Y); exists j; (split; [exact Hj|]); (split; [apply (IHe2 _ eq_refl B2 Hc Hv), X|]);
        intros j' Hj'; apply (IHe1 _ eq_refl B1 Hc Hv), Y, Hj'.
    + split; intros X j Hj N; (destruct (X j Hj) as (j' & Hj' & Y); [intros Z; apply N, (IHe2 _ eq_refl B2 Hc Hv), Z|]);
        exists j'; (split; [exact Hj'|]); apply (IHe1 _ eq_refl B1 Hc Hv), Y.
Qed.

(** Shape of the formulas of a kind: no constants, bounds in order, atoms among [A]. *)
Definition legal_op (e : expr) : Prop :=
  match e with
  | EF lb ub _ | EG lb ub _ | EU lb ub _ _ | ER lb ub _ _ | EO lb ub _ | EH lb ub _ => lb <= ub
  | ES _ _ _ _ | ET _ _ _ _ => False
  | _ => True
  end.
Definition shape (k : bool) : expr -> Prop := if k then simple_op else pt_simple_op.
Definition node_ok (k : bool) (A : nat -> Prop) (e : expr) : Prop :=
  shape k e /\ legal_op e /\ match e with EAtom a => A a | _ => True end.
(** All names of the file, by number; the side of a number. *)
Variable Dn Ln : list str.
Variable side : str -> bool.
Hypothesis defs_all : List.length Dn <= defs.
Definition name_of (a : nat) : str := if Nat.ltb a (base + defs) then nth (a - base) Dn [] else nth (a - (base + defs)) Ln [].
Definition side_of (a : nat) : bool := side (name_of a).
Definition reach (inputs : str -> Prop) (ds ls : list str) (k : bool) (a : nat) : Prop :=
  (exists s, inputs s /\ column s = Some a) \/
  (base <= a < base + List.length ds \/ base + defs <= a < base + defs + List.length ls) /\ side_of a = k.
Lemma name_of_variable ds dr ls lr s a : Dn = ds ++ dr -> Ln = ls ++ lr -> variable ds ls s = Some a ->
  name_of a = s /\ (base <= a < base + List.length ds \/ base + defs <= a < base + defs + List.length ls).
Proof.
  intros HD HL V. unfold Elaborate.variable in V. unfold name_of. destruct (place ds s) as [k|] eqn:P.
  - injection V as <-. pose proof (place_lt _ _ _ P). apply place_nth in P. rewrite HD, app_length in defs_all.
    destruct (Nat.ltb_spec (base + k) (base + defs)); [|lia]. split; [|left; lia].
    replace (base + k - base) with k by lia. rewrite HD, app_nth1 by lia. exact (nth_error_nth _ _ _ P).
  - destruct (place ls s) as [k|] eqn:P2; [|discriminate]. injection V as <-. pose proof (place_lt _ _ _ P2). apply place_nth in P2.
    destruct (Nat.ltb_spec (base + defs + k) (base + defs)); [lia|]. split; [|right; lia].
    replace (base + defs + k - (base + defs)) with k by lia. rewrite HL, app_nth1 by lia. exact (nth_error_nth _ _ _ P2).
Qed.
Lemma formula_ok future (times : bool -> Prop) (inputs known : str -> Prop) k ds dr ls lr e : Dn = ds ++ dr -> Ln = ls ++ lr ->
  (forall t, times t -> t = k) -> (forall s, known s -> side s = k) ->
  forall b, formula future ds ls e = Some b -> boolean times inputs known e ->
  all_nodes (node_ok k (reach inputs ds ls k)) b.
Proof.
  intros HD HL Ht Hk. induction e using cx_ind'; intros b0 F B; cbn [boolean] in B; try contradiction; cbn in F.
  - destruct (column s) as [a|] eqn:E; [|discriminate]. injection F as <-. cbn. unfold node_ok, reach. destruct k; cbn; eauto 10.
  - destruct (variable ds ls s) as [a|] eqn:E; [|discriminate]. injection F as <-.
    destruct (name_of_variable _ _ _ _ _ _ HD HL E) as [N R]. cbn. split; [|exact I].
    split; [destruct k; exact I|]. split; [exact I|]. right. split; [exact R|]. unfold side_of. rewrite N. apply Hk, B.
  - destruct u; try contradiction. destruct (formula future ds ls e) as [b|]; [|discriminate]. injection F as <-.
    split; [unfold node_ok; destruct k; cbn; auto|]. exact (IHe b eq_refl B).
  - destruct o; try contradiction; destruct es as [|a [|b [|? ?]]]; try contradiction; destruct B as [B1 B2];
      inversion H as [|? ? IH1 H']; subst; inversion H' as [|? ? IH2 _]; subst; two F;
      (split; [unfold node_ok; destruct k; cbn; auto|]); cbn; auto.
  - destruct k0; destruct B as (T & L & B); apply Ht in T; subst k; timed F;
      (destruct (formula future ds ls e) as [b|]; [|discriminate]); injection F as <-;
      (split; [unfold node_ok; cbn; auto|]); exact (IHe b eq_refl B).
  - destruct k0; try contradiction; destruct B as (T & L & B1 & B2); apply Ht in T; subst k; timed F; two F;
      (split; [unfold node_ok; cbn; auto|]); cbn; auto.
Qed.
Lemma node_ok_mono k (A B : nat -> Prop) e : (forall a, A a -> B a) -> all_nodes (node_ok k A) e -> all_nodes (node_ok k B) e.
Proof.
  intros H. apply all_nodes_impl. intros x (X & Y & Z). split; [exact X|]. split; [exact Y|]. destruct x; auto.
Qed.
Lemma all_nodes_and (P Q : expr -> Prop) e : all_nodes P e -> all_nodes Q e -> all_nodes (fun e => P e /\ Q e) e.
Proof.
  intros H1 H2. induction e using expr_ind'; destruct H1 as [Hn1 Hs1], H2 as [Hn2 Hs2]; (split; [tauto|]); try tauto.
  - rewrite fold_all_nodes in *. rewrite Forall_forall in *. auto.
  - rewrite fold_all_nodes in *. rewrite Forall_forall in *. auto.
Qed.
Lemma avoids_high k (A : nat -> Prop) b x : all_nodes (node_ok k A) b ->
  (forall a, A a -> a < x) -> avoids (fun s => x <= s) b.
Proof.
  intros H L. unfold avoids. eapply all_nodes_impl; [|exact H]. intros e (_ & _ & Z). destruct e; auto. apply L in Z. lia.
Qed.
Lemma reach_mono inputs ds ls ds' ls' k a : List.length ds <= List.length ds' -> List.length ls <= List.length ls' ->
  reach inputs ds ls k a -> reach inputs ds' ls' k a.
Proof. intros L1 L2 [H|[H E]]; [left; exact H|right; split; [lia|exact E]]. Qed.
Lemma reach_lt inputs ds ls k a : List.length ds <= defs -> reach inputs ds ls k a -> a < base + defs + List.length ls.
Proof. intros L [(s & _ & H)|[H _]]; [apply column_low in H; lia|lia]. Qed.
Lemma reach_def_lt inputs ds k a : reach inputs ds [] k a -> a < base + List.length ds \/ base + defs <= a < base + defs.
Proof. intros [(s & _ & H)|[H _]]; [apply column_low in H; lia|cbn in H; lia]. Qed.
Lemma reach_side inputs ds ls k a : base <= a -> reach inputs ds ls k a -> side_of a = k.
Proof. clear defs_all. intros L [(s & _ & H)|[_ E]]; [apply column_low in H; lia|exact E]. Qed.

(** ** Sections *)
(** Numbers in order; bodies only use smaller ones. *)
Fixpoint climbing (lo : nat) (t : table) : Prop :=
  match t with
  | [] => True
  | (x, b) :: t => lo = x /\ avoids (fun s => x <= s) b /\ climbing (S x) t
  end.
Lemma climbing_names : forall t lo, climbing lo t -> Scope.names t = seq lo (List.length t).
Proof.
  induction t as [|[x b] t IH]; intros lo H; [reflexivity|]. destruct H as (-> & _ & H). cbn. f_equal. apply IH, H.
Qed.
Lemma climbing_app : forall t u lo, climbing lo t -> climbing (lo + List.length t) u -> climbing lo (t ++ u).
Proof.
  induction t as [|[x b] t IH]; intros u lo H K; cbn in *; [rewrite Nat.add_0_r in K; exact K|].
  destruct H as (-> & A & H). split; [reflexivity|]. split; [exact A|]. apply IH; [exact H|]. rewrite Nat.add_succ_l, <- Nat.add_succ_r. exact K.
Qed.
Lemma climbing_ordered : forall t lo seen, climbing lo t -> (forall s, In s seen -> s < lo) -> ordered seen t.
Proof.
  clear defs_all. induction t as [|[x b] t IH]; intros lo seen H L; [exact I|]. destruct H as (-> & A & H). cbn. split; [intros K; apply L in K; lia|].
  split.
  - eapply avoids_mono; [|exact A]. intros s [-> |K]; [cbn; lia|]. cbv beta. rewrite (climbing_names _ _ H) in K. apply in_seq in K. lia.
  - eapply IH; [exact H|]. intros s [-> |K]; [lia|]. apply L in K. lia.
Qed.

Variable inputs : str -> Prop.
Hypothesis inputs_column : forall s, inputs s -> exists a, column s = Some a.
Notation definitions := (definitions column base defs).
Notation formulas := (formulas column base defs).
Notation sections := (sections column base defs).

Definition bodies (A : bool -> nat -> Prop) (t : table) : Prop :=
  Forall (fun d => all_nodes (node_ok (side_of (fst d)) (A (side_of (fst d)))) (snd d)) t.
Lemma bodies_mono (A B : bool -> nat -> Prop) t : (forall k a, A k a -> B k a) -> bodies A t -> bodies B t.
Proof. intros H. apply Forall_impl. intros d. apply node_ok_mono, H. Qed.
Lemma side_of_definition ds x dr : Dn = ds ++ x :: dr -> side_of (base + List.length ds) = side x.
Proof.
  intros H. unfold side_of, name_of. rewrite H, app_length in defs_all. cbn in defs_all.
  destruct (Nat.ltb_spec (base + List.length ds) (base + defs)); [|lia]. replace (base + List.length ds - base) with (List.length ds) by lia.
  rewrite H, nth_middle. reflexivity.
Qed.
Lemma side_of_label ls x lr : Ln = ls ++ x :: lr -> side_of (base + defs + List.length ls) = side x.
Proof.
  clear defs_all column_low. intros H. unfold side_of, name_of. destruct (Nat.ltb_spec (base + defs + List.length ls) (base + defs)); [lia|].
  replace (base + defs + List.length ls - (base + defs)) with (List.length ls) by lia. rewrite H, nth_middle. reflexivity.
Qed.

Lemma definitions_spec mode : forall l ds dr, boolean_definitions side inputs mode ds l -> Dn = ds ++ map fst l ++ dr ->
  exists t, definitions mode ds l = Some (t, ds ++ map fst l) /\ List.length t = List.length l /\
    climbing (base + List.length ds) t /\ bodies (reach inputs (ds ++ map fst l) []) t /\
    (forall x b s, In (x, b) t -> b = EAtom s -> s < base).
Proof.
  induction l as [|[x e] l IH]; intros ds dr B HD.
  - exists []. cbn. rewrite app_nil_r. repeat split; try constructor. intros ? ? ? [].
  - destruct B as (B & N & B'). cbn [map fst app] in HD.
    destruct (formula_total mode _ inputs _ ds [] e inputs_column (fun t T => proj1 T) (fun s T => or_introl (proj1 T)) B) as [b E].
    destruct (IH (ds ++ [x]) dr B') as (t & D & L & C & Bo & Al); [rewrite <- app_assoc; exact HD|]. rewrite <- app_assoc in D, Bo. cbn [app] in D, Bo.
    exists ((base + List.length ds, b) :: t).
    pose proof (formula_ok mode _ inputs _ (side x) ds (x :: map fst l ++ dr) [] Ln e HD eq_refl (fun t T => proj2 T) (fun s T => proj2 T) _ E B) as O.
    split; [|split; [|split; [|split]]].
    + cbn [Elaborate.definitions map fst]. destruct e; try (rewrite E, D; reflexivity). exfalso. eapply N. reflexivity.
    + cbn. congruence.
    + cbn [climbing]. split; [reflexivity|]. split.
      * eapply avoids_high; [exact O|]. intros a R. apply reach_def_lt in R. lia.
      * rewrite app_length in C. cbn in C. replace (S (base + List.length ds)) with (base + (List.length ds + 1)) by lia. exact C.
    + constructor; [|exact Bo]. cbn [snd map fst]. rewrite (side_of_definition ds x _ HD).
      eapply node_ok_mono; [|exact O]. intros a. apply reach_mono; rewrite ?app_length; lia.
    + intros y c s [K|K] Y; [|eapply Al; eauto]. injection K as <- <-. subst b.
      destruct e; cbn in E; try discriminate.
      * destruct (column s0) as [a|] eqn:Q; [|discriminate]. injection E as <-. eapply column_low, Q.
      * exfalso. eapply N. reflexivity.
      * destruct u; try discriminate. destruct (formula mode ds [] e); discriminate.
      * destruct o; try discriminate; destruct es as [|p [|q [|? ?]]]; try discriminate;
          destruct (formula mode ds [] p); try discriminate; destruct (formula mode ds [] q); discriminate.
      * destruct k; timed E; destruct (formula mode ds [] e); discriminate.
      * destruct k; timed E; destruct (formula mode ds [] e1); try discriminate; destruct (formula mode ds [] e2); discriminate.
Qed.
Lemma formulas_spec kind : forall l ds dr ls lr, boolean_specs side inputs kind ds ls l ->
  Dn = ds ++ dr -> Ln = ls ++ map label_of l ++ lr ->
  exists t, formulas kind ds ls l = Some (t, ls ++ map label_of l) /\ List.length t = List.length l /\
    climbing (base + defs + List.length ls) t /\ bodies (reach inputs ds (ls ++ map label_of l)) t.
Proof.
  induction l as [|s l IH]; intros ds dr ls lr B HD HL.
  - exists []. cbn. rewrite app_nil_r. repeat split; constructor.
  - destruct s as [x n e|]; [|destruct B]. destruct B as (Sx & B & B'). cbn [map label_of app] in HL.
    assert (Ld : List.length ds <= defs) by (rewrite HD, app_length in defs_all; lia).
    destruct (formula_total kind _ inputs _ ds ls e inputs_column (fun t T => T) (fun s T => proj1 T) B) as [b E].
    destruct (IH ds dr (ls ++ [x]) lr B' HD) as (t & D & L & C & Bo); [rewrite <- app_assoc; exact HL|]. rewrite <- app_assoc in D, Bo. cbn [app] in D, Bo.
    exists ((base + defs + List.length ls, b) :: t).
    pose proof (formula_ok kind _ inputs _ kind ds dr ls (x :: map label_of l ++ lr) e HD HL (fun t T => T) (fun s T => proj2 T) _ E B) as O.
    split; [|split; [|split]].
    + cbn [Elaborate.formulas map label_of]. rewrite E, D. reflexivity.
    + cbn. congruence.
    + cbn [climbing]. split; [reflexivity|]. split.
      * eapply avoids_high; [exact O|]. intros a R. eapply reach_lt; eauto.
      * rewrite app_length in C. cbn in C. replace (S (base + defs + List.length ls)) with (base + defs + (List.length ls + 1)) by lia. exact C.
    + constructor; [|exact Bo]. cbn [snd map label_of fst]. rewrite (side_of_label ls x _ HL), Sx.
      eapply node_ok_mono; [|exact O]. intros a. apply reach_mono; rewrite ?app_length; lia.
Qed.
Definition labels_in (p : list section) : list str :=
  flat_map (fun s => match s with SSpec _ l => map label_of l | _ => [] end) p.
Definition definitions_in (p : list section) : list str :=
  flat_map (fun s => match s with SDefine l => map fst l | _ => [] end) p.
Lemma sections_spec : forall p mode ds ls, boolean_sections side inputs mode ds ls p ->
  Dn = ds ++ definitions_in p -> Ln = ls ++ labels_in p ->
  exists D F, sections mode ds ls p = Some (D, F) /\ List.length D = List.length (definitions_in p) /\
    List.length F = List.length (labels_in p) /\
    climbing (base + List.length ds) D /\ climbing (base + defs + List.length ls) F /\
    bodies (reach inputs (ds ++ definitions_in p) (ls ++ labels_in p)) (D ++ F) /\
    (forall x b s, In (x, b) D -> b = EAtom s -> s < base).
Proof.
  induction p as [|s p IH]; intros mode ds ls B HD HL.
  - exists [], []. cbn. rewrite !app_nil_r. repeat split; try constructor. intros ? ? ? [].
  - destruct s as [l|l|l|l|kind l]; cbn [boolean_sections] in B; try contradiction; destruct B as [B B'].
    + change (definitions_in (SInput l :: p)) with (definitions_in p) in *. change (labels_in (SInput l :: p)) with (labels_in p) in *.
      destruct (IH mode ds ls B' HD HL) as (D & F & E & R). exists D, F. split; [|exact R].
      cbn [Elaborate.sections]. replace (forallb is_bool l) with true; [exact E|]. symmetry. apply forallb_forall. intros d Hd.
      rewrite Forall_forall in B. unfold is_bool. rewrite (B d Hd). apply str_eqb_refl.
    + change (definitions_in (SDefine l :: p)) with (map fst l ++ definitions_in p) in *. change (labels_in (SDefine l :: p)) with (labels_in p) in *.
      destruct (definitions_spec mode l ds _ B HD) as (t & Et & Lt & Ct & Bt & At).
      destruct (IH mode (ds ++ map fst l) ls B') as (D & F & E & L1 & L2 & C1 & C2 & Bo & Al); [rewrite <- app_assoc; exact HD|exact HL|].
      exists (t ++ D), F. split; [cbn [Elaborate.sections]; rewrite Et, E; reflexivity|].
      split; [rewrite !app_length, map_length; lia|]. split; [exact L2|]. split; [|split; [exact C2|split]].
      * apply climbing_app; [exact Ct|]. rewrite app_length, map_length in C1. rewrite Lt, <- Nat.add_assoc. exact C1.
      * rewrite <- app_assoc. unfold bodies. apply Forall_app. rewrite <- app_assoc in Bo. split; [|exact Bo]. eapply bodies_mono; [|exact Bt].
        intros k a. apply reach_mono; rewrite ?app_length; cbn; lia.
      * intros x b s K Y. apply in_app_iff in K as [K|K]; [eapply At|eapply Al]; eauto.
    + change (definitions_in (SSpec kind l :: p)) with (definitions_in p) in *.
      change (labels_in (SSpec kind l :: p)) with (map label_of l ++ labels_in p) in *.
      destruct (formulas_spec kind l ds _ ls _ B HD HL) as (t & Et & Lt & Ct & Bt).
      destruct (IH kind ds (ls ++ map label_of l) B' HD) as (D & F & E & L1 & L2 & C1 & C2 & Bo & Al); [rewrite <- app_assoc; exact HL|].
      exists D, (t ++ F). split; [cbn [Elaborate.sections]; rewrite Et, E; reflexivity|].
      split; [exact L1|]. split; [rewrite !app_length, map_length; lia|]. split; [exact C1|]. split; [|split; [|exact Al]].
      * apply climbing_app; [exact Ct|]. rewrite app_length, map_length in C2. rewrite Lt, <- Nat.add_assoc. exact C2.
      * rewrite <- app_assoc in Bo. unfold bodies in *. rewrite !Forall_app in *. destruct Bo as [Bo1 Bo2].
        split; [exact Bo1|]. split; [|exact Bo2].
        eapply (bodies_mono _ _ t); [|exact Bt]. intros k a. apply reach_mono; rewrite ?app_length; lia.
Qed.

(** ** Meanings *)
Section Meanings.
Variable tr : trace.
Definition signals_hold (v : str -> nat -> Prop) : Prop :=
  forall s a i, inputs s -> column s = Some a -> (tr i a = true <-> v s i).
Definition names_hold (ds ls : list str) (v : str -> nat -> Prop) : Prop :=
  forall s a i, variable ds ls s = Some a -> (tr i a = true <-> v s i).
Lemma names_prefix ds ls v s a : names_hold ds ls v -> variable ds [] s = Some a -> variable ds ls s = Some a.
Proof. intros _. unfold Elaborate.variable. destruct (place ds s); [auto|discriminate]. Qed.
Lemma define_signals v x m : signals_hold v -> ~ inputs x -> signals_hold (define v x m).
Proof.
  intros H N s a i Hs Hc. rewrite (H s a i Hs Hc). unfold define. split.
  - intros Y. right. split; [|exact Y]. intros ->. auto.
  - intros [[-> _]|[_ Y]]; [contradiction|exact Y].
Qed.
Lemma define_definition ds ls v x m : names_hold ds ls v -> ~ In x ds -> ~ In x ls ->
  (forall i, tr i (base + List.length ds) = true <-> m i) -> names_hold (ds ++ [x]) ls (define v x m).
Proof.
  intros H N1 N2 Hm s a i. unfold Elaborate.variable. rewrite place_app by exact N1. unfold define. destruct (str_eqb x s) eqn:E.
  - apply str_eqb_eq in E. subst s. intros K. injection K as <-. rewrite Hm. split; [auto|]. intros [[_ Y]|[Y _]]; [exact Y|congruence].
  - intros K. assert (D : s <> x) by (intros ->; rewrite str_eqb_refl in E; discriminate).
    rewrite (H s a i); [|unfold Elaborate.variable; exact K]. tauto.
Qed.
Lemma define_label ds ls v x m : names_hold ds ls v -> ~ In x ds -> ~ In x ls ->
  (forall i, tr i (base + defs + List.length ls) = true <-> m i) -> names_hold ds (ls ++ [x]) (define v x m).
Proof.
  intros H N1 N2 Hm s a i. unfold Elaborate.variable. rewrite place_app by exact N2. unfold define. destruct (str_eqb x s) eqn:E.
  - apply str_eqb_eq in E. subst s. rewrite (place_none ds x N1). cbn. intros K. injection K as <-. rewrite Hm. split; [auto|].
    intros [[_ Y]|[Y _]]; [exact Y|congruence].
  - intros K. assert (D : s <> x) by (intros ->; rewrite str_eqb_refl in E; discriminate).
    rewrite (H s a i); [|unfold Elaborate.variable; exact K]. tauto.
Qed.
Lemma definitions_hold mode : forall l ds ls v t ds', definitions mode ds l = Some (t, ds') -> boolean_definitions side inputs mode ds l ->
  respects tr t -> signals_hold v -> names_hold ds ls v ->
  NoDup (map fst l) -> (forall x, In x (map fst l) -> ~ In x ds /\ ~ In x ls /\ ~ inputs x) ->
  signals_hold (with_definitions v l) /\ names_hold ds' ls (with_definitions v l).
Proof.
  induction l as [|[x e] l IH]; intros ds ls v t ds' E B R Hs Hn D F; cbn [Elaborate.definitions] in E.
  - injection E as <- <-. auto.
  - destruct B as (B & N & B').
    assert (E' : match formula mode ds [] e with
      | Some b => option_map (fun r => ((base + List.length ds, b) :: fst r, snd r)) (definitions mode (ds ++ [x]) l)
      | None => None end = Some (t, ds')).
    { destruct e; auto; discriminate. }
    clear E. destruct (formula mode ds [] e) as [b|] eqn:Eb; [|discriminate].
    destruct (definitions mode (ds ++ [x]) l) as [[t1 d1]|] eqn:Ed; [|discriminate]. injection E' as <- <-. cbn [fst snd map] in *.
    destruct (F x (or_introl eq_refl)) as (F1 & F2 & F3). inversion D as [|? ? D1 D2]; subst.
    assert (M : forall i, tr i (base + List.length ds) = true <-> holds v e i).
    { intros i. rewrite (R _ b (or_introl eq_refl) i). eapply formula_sat; [exact Eb|exact B|exact Hs|].
      intros s a j V. apply Hn. eapply names_prefix; eauto. }
    apply (IH (ds ++ [x]) ls (define v x (holds v e)) t1 d1 Ed B').
    + intros y c K. apply R. right. exact K.
    + apply define_signals; assumption.
    + apply define_definition; assumption.
    + exact D2.
    + intros y Hy. destruct (F y (or_intror Hy)) as (G1 & G2 & G3). split; [|auto]. rewrite in_app_iff. intros [K|[<-|[]]]; auto.
Qed.
Lemma formulas_hold kind : forall l ds ls v t ls', formulas kind ds ls l = Some (t, ls') -> boolean_specs side inputs kind ds ls l ->
  respects tr t -> signals_hold v -> names_hold ds ls v ->
  NoDup (map label_of l) -> (forall x, In x (map label_of l) -> ~ In x ds /\ ~ In x ls /\ ~ inputs x) ->
  signals_hold (with_labels v l) /\ names_hold ds ls' (with_labels v l) /\
  Forall2 (fun f P => forall i, sat tr (snd f) i <-> snd P i) t (spec_meanings v l).
Proof.
  induction l as [|s l IH]; intros ds ls v t ls' E B R Hs Hn D F; cbn [Elaborate.formulas] in E.
  - injection E as <- <-. split; [exact Hs|]. split; [exact Hn|constructor].
  - destruct s as [x n e|]; [|discriminate]. destruct B as (Sx & B & B').
    destruct (formula kind ds ls e) as [b|] eqn:Eb; [|discriminate].
    destruct (formulas kind ds (ls ++ [x]) l) as [[t1 d1]|] eqn:Ed; [|discriminate]. injection E as <- <-. cbn [fst snd map label_of] in *.
    destruct (F x (or_introl eq_refl)) as (F1 & F2 & F3). inversion D as [|? ? D1 D2]; subst.
    assert (S0 : forall i, sat tr b i <-> holds v e i) by (eapply formula_sat; eauto).
    assert (M : forall i, tr i (base + defs + List.length ls) = true <-> holds v e i).
    { intros i. rewrite (R _ b (or_introl eq_refl) i). apply S0. }
    destruct (IH ds (ls ++ [x]) (define v x (holds v e)) t1 d1 Ed B') as (G1 & G2 & G3).
    + intros y c K. apply R. right. exact K.
    + apply define_signals; assumption.
    + apply define_label; assumption.
    + exact D2.
    + intros y Hy. destruct (F y (or_intror Hy)) as (K1 & K2 & K3). split; [auto|]. split; [|auto]. rewrite in_app_iff. intros [K|[<-|[]]]; auto.
    + split; [exact G1|]. split; [exact G2|]. cbn [spec_meanings]. constructor; [exact S0|exact G3].
Qed.
Lemma respects_app t u : respects tr (t ++ u) <-> respects tr t /\ respects tr u.
Proof.
  unfold respects. split.
  - intros H. split; intros x b K; apply H, in_app_iff; auto.
  - intros [H1 H2] x b K. apply in_app_iff in K as [K|K]; auto.
Qed.
Definition fresh_names (p : list section) : list str :=
  flat_map (fun s => match s with SDefine l => map fst l | SSpec _ l => map label_of l | _ => [] end) p.
Lemma NoDup_app_parts (l l' : list str) : NoDup (l ++ l') -> NoDup l /\ NoDup l' /\ forall x, In x l -> ~ In x l'.
Proof.
  induction l as [|x l IH]; cbn; intros H; [split; [constructor|auto]|]. inversion H as [|? ? H1 H2]; subst.
  destruct (IH H2) as (A & B & C). split; [constructor; auto; intros K; apply H1, in_app_iff; auto|]. split; [exact B|].
  intros y [-> |Y]; [intros K; apply H1, in_app_iff; auto|apply C, Y].
Qed.
Lemma sections_hold : forall p mode ds ls v D F, sections mode ds ls p = Some (D, F) -> boolean_sections side inputs mode ds ls p ->
  Dn = ds ++ definitions_in p -> Ln = ls ++ labels_in p ->
  respects tr (D ++ F) -> signals_hold v -> names_hold ds ls v ->
  NoDup (fresh_names p) -> (forall x, In x (fresh_names p) -> ~ In x ds /\ ~ In x ls /\ ~ inputs x) ->
  Forall2 (fun f P => forall i, sat tr (snd f) i <-> snd P i) F (meanings v p).
Proof.
  induction p as [|s p IH]; intros mode ds ls v D F E B HD HL R Hs Hn Nd Fr.
  - injection E as <- <-. constructor.
  - destruct s as [l|l|l|l|kind l]; cbn [boolean_sections] in B; try contradiction; destruct B as [B B']; cbn [Elaborate.sections] in E.
    + destruct (forallb is_bool l); [|discriminate]. eapply IH; eauto.
    + change (fresh_names (SDefine l :: p)) with (map fst l ++ fresh_names p) in *.
      change (definitions_in (SDefine l :: p)) with (map fst l ++ definitions_in p) in *.
      change (labels_in (SDefine l :: p)) with (labels_in p) in *.
      destruct (definitions_spec mode l ds _ B HD) as (t & Et & Lt & _).
      rewrite Et in E. destruct (sections mode (ds ++ map fst l) ls p) as [[D1 F1]|] eqn:E1; [|discriminate]. injection E as <- <-. cbn [fst snd] in R.
      rewrite <- app_assoc in R. apply respects_app in R as [R1 R2].
      apply NoDup_app_parts in Nd as (N1 & N2 & N3).
      destruct (definitions_hold mode l ds ls v t _ Et B R1 Hs Hn N1) as [G1 G2].
      { intros x Hx. apply Fr, in_app_iff. auto. }
      cbn [meanings]. eapply IH; [exact E1|exact B'| |exact HL|exact R2|exact G1|exact G2|exact N2|].
      { rewrite <- app_assoc. exact HD. }
      intros x Hx. destruct (Fr x) as (K1 & K2 & K3); [apply in_app_iff; auto|]. split; [|auto]. rewrite in_app_iff. intros [K|K]; [auto|]. eapply N3; eauto.
    + change (fresh_names (SSpec kind l :: p)) with (map label_of l ++ fresh_names p) in *.
      change (definitions_in (SSpec kind l :: p)) with (definitions_in p) in *.
      change (labels_in (SSpec kind l :: p)) with (map label_of l ++ labels_in p) in *.
      destruct (formulas_spec kind l ds _ ls _ B HD HL) as (t & Et & Lt & _).
      rewrite Et in E. destruct (sections kind ds (ls ++ map label_of l) p) as [[D1 F1]|] eqn:E1; [|discriminate]. injection E as <- <-. cbn [fst snd] in R.
      apply respects_app in R as [R1 R2]. apply respects_app in R2 as [R2 R3].
      apply NoDup_app_parts in Nd as (N1 & N2 & N3).
      destruct (formulas_hold kind l ds ls v t _ Et B R2 Hs Hn N1) as (G1 & G2 & G3).
      { intros x Hx. apply Fr, in_app_iff. auto. }
      cbn [meanings]. apply Forall2_app; [exact G3|]. eapply IH; [exact E1|exact B'|exact HD| | |exact G1|exact G2|exact N2|].
      { rewrite <- app_assoc. exact HL. }
      { apply respects_app. auto. }
      intros x Hx. destruct (Fr x) as (K1 & K2 & K3); [apply in_app_iff; auto|]. split; [auto|]. split; [|auto]. rewrite in_app_iff. intros [K|K]; [auto|]. eapply N3; eauto.
Qed.
End Meanings.
End Numbers.

(** ** Expansion keeps the shape *)
Section Expansion.
Variable side_of : nat -> bool.
Variable A : bool -> nat -> Prop.
Definition sided (d : nat * expr) : Prop :=
  all_nodes (node_ok (side_of (fst d)) (A (side_of (fst d)))) (snd d) /\ forall k, A k (fst d) -> side_of (fst d) = k.
Lemma expand_ok k t e : Forall sided t -> all_nodes (node_ok k (A k)) e -> all_nodes (node_ok k (A k)) (expr_map (expand_node t) e).
Proof.
  intros Bt. induction e using expr_ind'; intros [H0 H1]; cbn [expr_map expand_node];
    try (split; [unfold node_ok in *; destruct k; cbn in *; tauto|]); try tauto.
  - destruct (lookup t a) as [b|] eqn:E; [|split; [exact H0|exact Logic.I]]. apply lookup_in in E. rewrite Forall_forall in Bt.
    destruct (Bt _ E) as [B1 B2]. cbn [fst snd] in *. rewrite (B2 k) in B1; [exact B1|]. apply H0.
  - split.
    + destruct H0 as (S0 & _). unfold node_ok. destruct k; cbn in *; rewrite map_length; auto.
    + rewrite fold_all_nodes in *. rewrite Forall_forall in *. intros x Hx. apply in_map_iff in Hx as (y & <- & Hy). auto.
  - split.
    + destruct H0 as (S0 & _). unfold node_ok. destruct k; cbn in *; rewrite map_length; auto.
    + rewrite fold_all_nodes in *. rewrite Forall_forall in *. intros x Hx. apply in_map_iff in Hx as (y & <- & Hy). auto.
Qed.
Lemma expand_bodies ds fs : Forall sided ds -> Forall sided fs -> Forall sided (expand ds fs).
Proof.
  intros Hd Hf. unfold expand.
  assert (D : Forall sided (expand_definitions ds)).
  { unfold expand_definitions. assert (G : forall l t, Forall sided l -> Forall sided t ->
      Forall sided (fold_left (fun t d => t ++ [(fst d, expand_body t (snd d))]) l t)).
    { induction l as [|d l IH]; intros t Hl Ht; [exact Ht|]. cbn [fold_left]. inversion Hl as [|? ? [H1 H3] H2]; subst.
      apply IH; [exact H2|]. apply Forall_app. split; [exact Ht|]. constructor; [|constructor]. unfold sided. cbn [snd fst]. split; [|exact H3].
      pose proof (expand_ok _ t _ Ht H1) as X.
      unfold expand_body. destruct (snd d); try exact X. exact H1. }
    apply G; [exact Hd|constructor]. }
  generalize dependent (expand_definitions ds). intros D HD. unfold expand_specs.
  assert (G : forall l t, Forall sided l -> Forall sided t ->
    Forall sided (fold_left (fun t f => t ++ [(fst f, expr_map (expand_node (D ++ t)) (snd f))]) l t)).
  { induction l as [|d l IH]; intros t Hl Ht; [exact Ht|]. cbn [fold_left]. inversion Hl as [|? ? [H1 H3] H2]; subst.
    apply IH; [exact H2|]. apply Forall_app. split; [exact Ht|]. constructor; [|constructor]. unfold sided. cbn [snd fst]. split; [|exact H3].
    apply expand_ok; [|exact H1]. apply Forall_app. auto. }
  apply G; [exact Hf|constructor].
Qed.
End Expansion.

(** ** Which signals are used *)
Lemma boolean_mono times (I J : str -> Prop) known e : (forall s, In s (signals e) -> I s -> J s) -> boolean times I known e -> boolean times J known e.
Proof.
  induction e using cx_ind'; cbn [boolean signals]; intros M B; auto.
  - apply M; [left; reflexivity|exact B].
  - destruct u; auto.
  - assert (G : forall a b, In a es -> In b es -> boolean times I known a /\ boolean times I known b -> boolean times J known a /\ boolean times J known b).
    { rewrite Forall_forall in H. intros a b Ha Hb [B1 B2].
      split; (apply H; [assumption| |assumption]); intros s Hs; apply M; apply in_flat_map; eauto. }
    destruct o; auto; destruct es as [|a [|b [|? ?]]]; auto; apply G; cbn; auto.
  - destruct k; destruct B as (T & L & B); auto.
  - destruct k; auto; destruct B as (T & L & B1 & B2); (split; [exact T|]); (split; [exact L|]); split; auto with datatypes.
Qed.
Lemma boolean_used times (I : str -> Prop) known e s : boolean times I known e -> In s (signals e) -> I s.
Proof.
  induction e using cx_ind'; cbn [boolean signals]; intros B Hs; try contradiction.
  - destruct Hs as [-> |[]]. exact B.
  - destruct u; try contradiction; auto.
  - apply in_flat_map in Hs as (a & Ha & Hs). rewrite Forall_forall in H. destruct o; try contradiction;
      destruct es as [|x [|y [|? ?]]]; try contradiction; destruct B as [B1 B2]; (destruct Ha as [<-|[<-|[]]]; [apply (H x)|apply (H y)]; cbn; auto).
  - destruct k; destruct B as (_ & _ & B); auto.
  - destruct k; try contradiction; destruct B as (_ & _ & B1 & B2); apply in_app_iff in Hs as [Hs|Hs]; auto.
Qed.
Lemma definitions_mono side mode (I J : str -> Prop) : forall l ds, (forall s, In s (flat_map (fun d => signals (snd d)) l) -> I s -> J s) ->
  boolean_definitions side I mode ds l -> boolean_definitions side J mode ds l.
Proof.
  induction l as [|[x e] l IH]; intros ds M B; [exact Logic.I|]. cbn [flat_map snd] in M. destruct B as (B1 & B2 & B3). cbn [boolean_definitions].
  split; [eapply boolean_mono; [|exact B1]; intros s Hs; apply M, in_app_iff; auto|]. split; [exact B2|].
  apply IH; [|exact B3]. intros s Hs. apply M, in_app_iff. auto.
Qed.
Lemma specs_mono side kind (I J : str -> Prop) : forall l ds ls, (forall s, In s (flat_map spec_signals l) -> I s -> J s) ->
  boolean_specs side I kind ds ls l -> boolean_specs side J kind ds ls l.
Proof.
  induction l as [|[x n e|] l IH]; intros ds ls M B; [exact Logic.I| |exact B]. cbn [flat_map spec_signals] in M. destruct B as (B0 & B1 & B3). cbn [boolean_specs].
  split; [exact B0|]. split; [eapply boolean_mono; [|exact B1]; intros s Hs; apply M, in_app_iff; auto|].
  apply IH; [|exact B3]. intros s Hs. apply M, in_app_iff. auto.
Qed.
Lemma sections_mono side (I J : str -> Prop) : forall p mode ds ls, (forall s, In s (used p) -> I s -> J s) ->
  boolean_sections side I mode ds ls p -> boolean_sections side J mode ds ls p.
Proof.
  induction p as [|[l|l|l|l|kind l] p IH]; intros mode ds ls M B; try exact B; cbn [boolean_sections] in *;
    change (used (?s :: p)) with (section_signals s ++ used p) in M; destruct B as [B1 B2].
  - split; [exact B1|]. apply IH; [|exact B2]. exact M.
  - split; [eapply definitions_mono; [|exact B1]|apply IH; [|exact B2]]; intros s Hs; apply M; apply in_app_iff; auto.
  - split; [eapply specs_mono; [|exact B1]|apply IH; [|exact B2]]; intros s Hs; apply M; apply in_app_iff; auto.
Qed.
Lemma definitions_used side mode (I : str -> Prop) s : forall l ds, boolean_definitions side I mode ds l -> In s (flat_map (fun d => signals (snd d)) l) -> I s.
Proof.
  induction l as [|[x e] l IH]; intros ds B Hs; [destruct Hs|]. destruct B as (B1 & B2 & B3). cbn in Hs. apply in_app_iff in Hs as [Hs|Hs]; [|eauto].
  eapply boolean_used; eauto.
Qed.
Lemma specs_used side kind (I : str -> Prop) s : forall l ds ls, boolean_specs side I kind ds ls l -> In s (flat_map spec_signals l) -> I s.
Proof.
  induction l as [|[x n e|] l IH]; intros ds ls B Hs; [destruct Hs| |destruct B]. destruct B as (_ & B1 & B3). cbn in Hs. apply in_app_iff in Hs as [Hs|Hs]; [|eauto].
  eapply boolean_used; eauto.
Qed.
Lemma sections_used side (I : str -> Prop) s : forall p mode ds ls, boolean_sections side I mode ds ls p -> In s (used p) -> I s.
Proof.
  induction p as [|[l|l|l|l|kind l] p IH]; intros mode ds ls B Hs; try contradiction; cbn [boolean_sections] in B; destruct B as [B1 B2];
    unfold used in Hs; cbn [flat_map section_signals] in Hs; fold (used p) in Hs; (apply in_app_iff in Hs as [Hs|Hs]).
  - destruct Hs.
  - eapply IH; eauto.
  - eapply definitions_used; eauto.
  - eapply IH; eauto.
  - eapply specs_used; eauto.
  - eapply IH; eauto.
Qed.

(** ** Elaboration *)
Lemma distinct_NoDup l : NoDup l -> distinct l = true.
Proof.
  induction 1 as [|x l H _ IH]; [reflexivity|]. cbn. rewrite IH. unfold mem. destruct (in_dec _ x l); [contradiction|reflexivity].
Qed.
Lemma declared_same p : declared p = declarations p.
Proof. reflexivity. Qed.
Lemma definition_count_same p : definition_count p = List.length (definitions_in p).
Proof.
  unfold definition_count, definitions_in. induction p as [|[l|l|l|l|b l] p IH]; cbn [flat_map app]; auto.
  rewrite !app_length, map_length, IH. reflexivity.
Qed.
Lemma titles_labels side I : forall p mode ds ls, boolean_sections side I mode ds ls p -> map fst (titles p) = labels_in p /\
  forall v, map fst (meanings v p) = map snd (titles p).
Proof.
  induction p as [|[l|l|l|l|kind l] p IH]; intros mode ds ls B; try contradiction; [split; reflexivity|..]; cbn [boolean_sections] in B; destruct B as [B1 B2].
  - destruct (IH _ _ _ B2) as [T M]. split; [exact T|]. intros v. apply M.
  - destruct (IH _ _ _ B2) as [T M]. split; [exact T|]. intros v. apply M.
  - destruct (IH _ _ _ B2) as [T M]. unfold titles, labels_in in *. cbn [flat_map meanings]. split.
    + rewrite map_app, T. f_equal. rewrite map_map. apply map_ext. intros []; reflexivity.
    + intros v. rewrite !map_app. rewrite M. f_equal. rewrite map_map. clear - B1. revert v ls B1.
      induction l as [|[x n e|] l IHl]; intros v ls B1; [reflexivity| |destruct B1]. cbn. f_equal. destruct B1 as (_ & _ & B1). exact (IHl _ _ B1).
Qed.
Lemma labels_sides side I : forall p mode ds ls, boolean_sections side I mode ds ls p -> Forall2 (fun x k => side x = k) (labels_in p) (kinds p).
Proof.
  induction p as [|[l|l|l|l|kind l] p IH]; intros mode ds ls B; try contradiction; [constructor|..]; cbn [boolean_sections] in B; destruct B as [B1 B2].
  - exact (IH _ _ _ B2).
  - exact (IH _ _ _ B2).
  - unfold labels_in, kinds in *. cbn [flat_map]. apply Forall2_app; [|exact (IH _ _ _ B2)]. clear - B1. revert ls B1.
    induction l as [|[x n e|] l IHl]; intros ls B1; [constructor| |destruct B1]. destruct B1 as (Sx & _ & B1). cbn [map]. constructor; [exact Sx|exact (IHl _ B1)].
Qed.
Lemma fresh_declared p : NoDup (declarations p) -> NoDup (fresh_names p) /\ forall x, In x (fresh_names p) -> ~ In x (inputs_of p).
Proof.
  unfold declarations, fresh_names, inputs_of. induction p as [|s p IH]; cbn [flat_map]; intros N; [split; [constructor|auto]|].
  apply NoDup_app_parts in N as (N1 & N2 & N3). destruct (IH N2) as [F G].
  assert (Sub : forall x, In x (flat_map (fun s => match s with SDefine l => map fst l | SSpec _ l => map label_of l | _ => [] end) p) ->
    In x (flat_map (fun s => match s with SInput l => flat_map fst l | SDefine l => map fst l | SSpec _ l => map label_of l | _ => [] end) p)).
  { intros x Hx. apply in_flat_map in Hx as (s' & Hs' & Hx). apply in_flat_map. exists s'. split; [exact Hs'|]. destruct s'; auto; destruct Hx. }
  assert (Sub2 : forall x, In x (flat_map (fun s => match s with SInput l => flat_map fst l | _ => [] end) p) ->
    In x (flat_map (fun s => match s with SInput l => flat_map fst l | SDefine l => map fst l | SSpec _ l => map label_of l | _ => [] end) p)).
  { intros x Hx. apply in_flat_map in Hx as (s' & Hs' & Hx). apply in_flat_map. exists s'. split; [exact Hs'|]. destruct s'; auto; destruct Hx. }
  assert (Mk : forall l, NoDup l -> (forall x, In x l -> ~ In x (flat_map (fun s => match s with SInput l => flat_map fst l | SDefine l => map fst l | SSpec _ l => map label_of l | _ => [] end) p)) ->
    NoDup (l ++ flat_map (fun s => match s with SDefine l => map fst l | SSpec _ l => map label_of l | _ => [] end) p) /\
    forall x, In x (l ++ flat_map (fun s => match s with SDefine l => map fst l | SSpec _ l => map label_of l | _ => [] end) p) ->
      ~ In x (flat_map (fun s => match s with SInput l => flat_map fst l | _ => [] end) p)).
  { intros l Hl Hd. split.
    - clear N1 N3. induction Hl as [|x l H1 H2 IHl]; [exact F|]. cbn. constructor.
      + rewrite in_app_iff. intros [K|K]; [auto|]. apply (Hd x (or_introl eq_refl)), Sub, K.
      + apply IHl. intros y Hy. apply Hd. right. exact Hy.
    - intros x Hx. apply in_app_iff in Hx as [Hx|Hx]; [|apply G, Hx]. intros K. apply (Hd x Hx), Sub2, K. }
  destruct s as [l|l|l|l|b l]; cbn [app]; try (split; [exact F|exact G]).
  - split; [exact F|]. intros x Hx. rewrite in_app_iff. intros [K|K]; [|exact (G x Hx K)]. exact (N3 x K (Sub x Hx)).
  - apply Mk; assumption.
  - apply Mk; assumption.
Qed.

(** A column of the signals in use. *)
Definition input_column (m : mapping) (p : list section) (a : nat) : Prop :=
  exists s, In s (used p) /\ column_of m s = Some a.
Lemma side_numbers side Dn base defs : forall (F : table) ls xs ks, climbing (base + defs + List.length ls) F ->
  List.length F = List.length xs -> Forall2 (fun x k => side x = k) xs ks ->
  Forall2 (fun f k => side_of base defs Dn (ls ++ xs) side (fst f) = k) F ks.
Proof.
  induction F as [|[n b] F IH]; intros ls xs ks C L S0.
  - destruct xs; [|discriminate]. inversion S0. constructor.
  - destruct xs as [|x xs]; [discriminate|]. inversion S0 as [|? k ? ks' S1 S2]; subst. destruct C as (<- & _ & C). constructor.
    + cbn [fst]. rewrite (side_of_label base defs Dn _ _ ls x xs eq_refl). reflexivity.
    + replace (ls ++ x :: xs) with ((ls ++ [x]) ++ xs) by (rewrite <- app_assoc; reflexivity). apply IH; [|cbn in L; lia|exact S2].
      rewrite app_length. cbn. replace (base + defs + (List.length ls + 1)) with (S (base + defs + List.length ls)) by lia. exact C.
Qed.
Lemma combine_fst {A B} : forall (l : list A) (l' : list B), List.length l = List.length l' -> map fst (combine l l') = l.
Proof. induction l as [|x l IH]; intros [|y l'] L; try discriminate; [reflexivity|]. cbn. f_equal. apply IH. cbn in L. lia. Qed.
Lemma combine_snd {A B} : forall (l : list A) (l' : list B), List.length l = List.length l' -> map snd (combine l l') = l'.
Proof. induction l as [|x l IH]; intros [|y l'] L; try discriminate; [reflexivity|]. cbn. f_equal. apply IH. cbn in L. lia. Qed.
Lemma elaborate_spec m columns p : boolean_file columns p ->
  (forall j n, nth_error columns j = Some n -> map_get m n = Some (N.of_nat j)) ->
  exists specs, elaborate m p = Some specs /\ map fst specs = kinds p /\ map fst (map snd specs) = titles p /\
    Forall (fun s => all_nodes (node_ok (fst s) (input_column m p)) (snd (snd s))) specs /\
    forall tr v, (forall s j i, nth_error columns j = Some s -> (tr i j = true <-> v s i)) ->
      Forall2 (fun s P => snd (fst (snd s)) = fst P /\ forall i, sat tr (snd (snd s)) i <-> snd P i) specs (meanings v p).
Proof.
  intros [Nd [side B]] Hm. set (J := fun s => (In s (inputs_of p) /\ In s columns) /\ In s (used p)).
  assert (BJ : boolean_sections side J false [] [] p) by (eapply sections_mono; [|exact B]; intros s Hs K; split; auto).
  assert (Col : forall s, J s -> exists a, column_of m s = Some a).
  { intros s ((_ & C) & _). apply In_nth_error in C as [j C]. unfold column_of. rewrite (Hm j s C). cbn. eauto. }
  assert (Low : forall s a, column_of m s = Some a -> a < width_of m).
  { intros s a E. unfold column_of in E. destruct (map_get m s) as [c|] eqn:G; [|discriminate]. injection E as <-. eapply width_bound, G. }
  set (nd := definition_count p).
  assert (Ndl : List.length (definitions_in p) <= nd) by (unfold nd; rewrite definition_count_same; lia).
  destruct (sections_spec (column_of m) (width_of m) nd Low (definitions_in p) (labels_in p) side Ndl J Col p false [] [] BJ eq_refl eq_refl)
    as (D & F & E & L1 & L2 & C1 & C2 & Bo & Al).
  cbn [List.length app] in *. rewrite Nat.add_0_r in C1.
  pose proof (side_numbers side (definitions_in p) (width_of m) nd F [] _ _ C2 L2 (labels_sides _ _ _ _ _ _ B)) as Sn. cbn [app] in Sn.
  rewrite Nat.add_0_r in C2.
  exists (combine (kinds p) (combine (titles p) (map snd (expand D F)))).
  assert (Ord : ordered [] (D ++ F)).
  { eapply climbing_ordered; [apply climbing_app; [exact C1|]|intros s []]. rewrite L1. unfold nd in C2. rewrite definition_count_same in C2. exact C2. }
  assert (Nm : Scope.names (D ++ F) = seq (width_of m) (List.length (definitions_in p) + List.length (labels_in p))).
  { rewrite (climbing_names (D ++ F) (width_of m)); [rewrite app_length, L1, L2; reflexivity|].
    apply climbing_app; [exact C1|]. rewrite L1. unfold nd in C2. rewrite definition_count_same in C2. exact C2. }
  assert (NA : forall x b, In (x, b) D -> ~ is_alias (Scope.names D) b).
  { intros x b K (s & -> & K2). pose proof (Al x _ s K eq_refl) as X. rewrite (climbing_names _ _ C1) in K2. apply in_seq in K2. lia. }
  destruct (titles_labels _ _ p _ [] [] B) as [TL TM].
  assert (Fs : Forall2 (fun f g : nat * expr => fst f = fst g) F (expand D F)).
  { pose proof (extension_exists (D ++ F) (fun _ _ => true) Ord) as (tr' & R & A).
    pose proof (expand_macro D F (fun _ _ => true) tr' Ord NA R A) as X. clear - X. induction X as [|? ? ? ? [X _]]; constructor; auto. }
  assert (LF : List.length F = List.length (expand D F)) by (clear - Fs; induction Fs; cbn; congruence).
  assert (LE : List.length (titles p) = List.length (map snd (expand D F))).
  { rewrite map_length, <- LF, L2, <- TL, map_length. reflexivity. }
  assert (LK : List.length (kinds p) = List.length (combine (titles p) (map snd (expand D F)))).
  { rewrite combine_length, <- LE, Nat.min_id, LE, map_length, <- LF. clear - Sn. induction Sn; cbn; congruence. }
  assert (Sp : forall tr (X : Prop), (forall tr', respects tr' (D ++ F) -> (forall i s, ~ In s (Scope.names (D ++ F)) -> tr' i s = tr i s) -> X) -> X).
  { intros tr X K. destruct (extension_exists (D ++ F) tr Ord) as (tr' & R & A). exact (K tr' R A). }
  split; [|split; [|split; [|split]]].
  - unfold elaborate. rewrite declared_same, (distinct_NoDup _ Nd). fold nd. rewrite E. reflexivity.
  - apply combine_fst, LK.
  - rewrite combine_snd by exact LK. apply combine_fst, LE.
  - set (A := reach (column_of m) (width_of m) nd (definitions_in p) (labels_in p) side J (definitions_in p) (labels_in p)).
    set (so := side_of (width_of m) nd (definitions_in p) (labels_in p) side) in *.
    assert (Sd : Forall (sided so A) (expand D F)).
    { unfold bodies in Bo. fold so in Bo. fold A in Bo.
      assert (G : Forall (sided so A) (D ++ F)).
      { rewrite Forall_forall in Bo |- *. intros d Hd. split; [exact (Bo d Hd)|]. intros k R.
        eapply reach_side; [exact Low| |exact R].
        assert (K : In (fst d) (Scope.names (D ++ F))) by (apply in_map, Hd). rewrite Nm in K. apply in_seq in K. lia. }
      apply Forall_app in G as [G1 G2]. apply expand_bodies; assumption. }
    pose proof (expand_no_names D F Ord NA) as An.
    assert (Each : Forall2 (fun g k => all_nodes (node_ok k (input_column m p)) (snd g)) (expand D F) (kinds p)).
    { assert (Se : Forall2 (fun g k => so (fst g) = k) (expand D F) (kinds p)).
      { clear - Fs Sn. revert Sn. generalize (kinds p). induction Fs as [|f g F' G Fg _ IH]; intros ks Sn; inversion Sn; subst; constructor; [congruence|auto]. }
      revert Se Sd An. generalize (kinds p). clear - Nm nd Ndl. intros ks Se. induction Se as [|g k G ks' Hk _ IH]; intros Sd An; constructor.
      - inversion Sd as [|? ? [S1 _] _]; subst. inversion An as [|? ? A1 _]; subst.
        eapply all_nodes_impl; [|exact (all_nodes_and _ _ _ S1 A1)]. intros y ((S2 & S3 & S4) & S5). split; [exact S2|]. split; [exact S3|].
        destruct y; auto. destruct S4 as [(s & Js & Cs)|[S4 _]]; [exists s; split; [apply Js|exact Cs]|]. exfalso. apply S5. rewrite Nm.
        apply in_seq. unfold nd in S4. rewrite definition_count_same in S4. lia.
      - inversion Sd; subst. inversion An; subst. auto. }
    clear - Each LE. rewrite map_length in LE. revert LE. generalize (titles p). induction Each as [|g k G ks H _ IH]; intros [|t T] LE; try discriminate; [constructor|].
    cbn [map combine]. constructor; [exact H|]. apply IH. cbn in LE. lia.
  - intros tr v Hv. apply (Sp tr). intros tr' R A.
    pose proof (expand_macro D F tr tr' Ord NA R A) as X.
    destruct (fresh_declared p Nd) as [Fr1 Fr2].
    assert (M : Forall2 (fun f P => forall i, sat tr' (snd f) i <-> snd P i) F (meanings v p)).
    { eapply (sections_hold (column_of m) (width_of m) nd Low (definitions_in p) (labels_in p) side Ndl J Col tr' p false [] [] v D F E BJ eq_refl eq_refl).
      - exact R.
      - intros s a i ((_ & C) & _) Ca. apply In_nth_error in C as [j C]. unfold column_of in Ca. rewrite (Hm j s C) in Ca. cbn in Ca.
        rewrite Nat2N.id in Ca. injection Ca as <-. rewrite A; [apply Hv, C|]. rewrite Nm, in_seq. intros K.
        pose proof (width_bound m s (N.of_nat j) (Hm j s C)). lia.
      - intros s a i K. cbn in K. discriminate.
      - exact Fr1.
      - intros x Hx. split; [auto|]. split; [auto|]. intros ((K & _) & _). exact (Fr2 x Hx K). }
    specialize (TM v). rewrite combine_length, map_length, Nat.min_l in LK by (rewrite LE, map_length; lia).
    clear - X M TM LE LK. revert X M LE TM LK. generalize (expand D F), (titles p), (meanings v p), (kinds p). intros G. revert F.
    induction G as [|g G IH]; intros F T P K X M LE TM LK; inversion X as [|f ? F' ? [X1 X2] X3]; subst; inversion M as [|? q ? P' M1 M2]; subst.
    + destruct T; [|discriminate]. destruct K; [constructor|discriminate].
    + destruct T as [|t T]; [discriminate|]. destruct K as [|k K]; [discriminate|]. cbn [map combine]. constructor; [|apply (IH F'); auto].
      * cbn [fst snd]. split; [cbn in TM; injection TM; auto|]. intros i. rewrite X2. apply M1.
      * cbn in TM. injection TM. auto.
Qed.
