(** * From files to reports with the delays the compiler records (proofs) *)
From Coq Require Import List Arith NArith ZArith Bool Ascii String Lia Permutation.
Require Import Verif.MapFile Verif.MapProofs Verif.Mltl Verif.MltlShape Verif.MltlEval Verif.Transform Verif.TransformProofs Verif.Rewrite Verif.Scope Verif.Definitions Verif.DefinitionsProofs Verif.Pipeline.
Require Import Verif.Graph Verif.GraphSpec Verif.Binary Verif.BinarySpec Verif.Assembly Verif.Layout Verif.AssemblySpec Verif.LayoutSpec.
Require Import Verif.Scq Verif.Engine Verif.Monitoring Verif.TightSize Verif.PastMonitor Verif.EndToEnd Verif.SectionSpec.
Require Import Verif.PastSize Verif.DefaultSpec Verif.DefaultProofs Verif.SectionDefault.
Require Import Verif.RustEngine Verif.RustLayout Verif.RustLayoutSpec Verif.RustBoot Verif.RustSectionDefault.
Require Import Verif.CsvTrace Verif.CsvSpec Verif.CsvProofs Verif.CsvHeader Verif.CsvAgree Verif.C2poText Verif.C2poWrite Verif.C2poChecks.
Require Import Verif.Elaborate Verif.ElaborateSpec Verif.ElaborateProofs Verif.ElaborateGraph Verif.TextSpec Verif.TextReports.
Require Import Verif.Recorded Verif.RecordedSpec Verif.RecordedProofs Verif.PastRecorded.
Import ListNotations.
Local Open Scope list_scope.
Local Open Scope nat_scope.

(** ** Parsed formulas *)
Lemma parsed_sound A e : all_nodes (node_ok true A) e -> erase (parsed e) = e /\ fut false A (parsed e) /\ sound (parsed e).
Proof.
  assert (One : forall o p, fut1 o -> erase (parsed p) = p /\ fut false A (parsed p) /\ sound (parsed p) ->
                erase (new1 o (parsed p)) = erase1 o p /\ fut false A (new1 o (parsed p)) /\ sound (new1 o (parsed p))).
  { intros o p F (E & H1 & H2). rewrite erase_new1, E. split; [reflexivity|]. split; [apply fut_new1|apply sound_new1]; assumption. }
  assert (Two : forall o p q, fut2 o -> erase (parsed p) = p /\ fut false A (parsed p) /\ sound (parsed p) ->
                erase (parsed q) = q /\ fut false A (parsed q) /\ sound (parsed q) ->
                erase (new2 o (parsed p) (parsed q)) = erase2 o p q /\ fut false A (new2 o (parsed p) (parsed q)) /\ sound (new2 o (parsed p) (parsed q))).
  { intros o p q F (E & H1 & H2) (E' & H1' & H2'). rewrite erase_new2, E, E'. split; [reflexivity|]. split; [apply fut_new2|apply sound_new2]; assumption. }
  induction e using expr_ind'; intros N; pose proof N as (Sh & _); destruct Sh as (Sh & Lg & At); cbn in Sh; try contradiction.
  - cbn. split; [reflexivity|]. split; [exact At|]. split; [split; cbn; lia|exact I].
  - apply (One DNot e I), IHe, N.
  - destruct es as [|p [|q [|? ?]]]; try discriminate. inversion H as [|? ? IHp Hl]; subst. inversion Hl as [|? ? IHq _]; subst.
    destruct N as (_ & N1 & N2 & _). apply (Two DAnd p q I); auto.
  - destruct es as [|p [|q [|? ?]]]; try discriminate. inversion H as [|? ? IHp Hl]; subst. inversion Hl as [|? ? IHq _]; subst.
    destruct N as (_ & N1 & N2 & _). apply (Two DOr p q I); auto.
  - destruct N as (_ & N1 & N2). apply (Two DXor e1 e2 I); auto.
  - destruct N as (_ & N1 & N2). apply (Two DImpl e1 e2 I); auto.
  - destruct N as (_ & N1 & N2). apply (Two DEquiv e1 e2 I); auto.
  - destruct N as (_ & N1). apply (One (DF lb ub) e Lg); auto.
  - destruct N as (_ & N1). apply (One (DG lb ub) e Lg); auto.
  - destruct N as (_ & N1 & N2). apply (Two (DU lb ub) e1 e2 Lg); auto.
  - destruct N as (_ & N1 & N2). apply (Two (DR lb ub) e1 e2 Lg); auto.
Qed.

Lemma parsed_past A e : all_nodes (node_ok false A) e -> erase (parsed e) = e /\ past A (parsed e) /\ fresh (parsed e).
Proof.
  assert (One : forall o p, past1 o -> erase (parsed p) = p /\ past A (parsed p) /\ fresh (parsed p) ->
                erase (new1 o (parsed p)) = erase1 o p /\ past A (new1 o (parsed p)) /\ fresh (new1 o (parsed p))).
  { intros o p F (E & H1 & H2). rewrite erase_new1, E. split; [reflexivity|]. split; [apply past_new1|apply fresh_new1]; assumption. }
  assert (Two : forall o p q, past2 o -> erase (parsed p) = p /\ past A (parsed p) /\ fresh (parsed p) ->
                erase (parsed q) = q /\ past A (parsed q) /\ fresh (parsed q) ->
                erase (new2 o (parsed p) (parsed q)) = erase2 o p q /\ past A (new2 o (parsed p) (parsed q)) /\ fresh (new2 o (parsed p) (parsed q))).
  { intros o p q F (E & H1 & H2) (E' & H1' & H2'). rewrite erase_new2, E, E'. split; [reflexivity|]. split; [apply past_new2|apply fresh_new2]; assumption. }
  induction e using expr_ind'; intros N; pose proof N as (Sh & _); destruct Sh as (Sh & Lg & At); cbn in Sh; try contradiction.
  - cbn. split; [reflexivity|]. split; [exact At|exact I].
  - apply (One DNot e I), IHe, N.
  - destruct es as [|p [|q [|? ?]]]; try discriminate. inversion H as [|? ? IHp Hl]; subst. inversion Hl as [|? ? IHq _]; subst.
    destruct N as (_ & N1 & N2 & _). apply (Two DAnd p q I); auto.
  - destruct es as [|p [|q [|? ?]]]; try discriminate. inversion H as [|? ? IHp Hl]; subst. inversion Hl as [|? ? IHq _]; subst.
    destruct N as (_ & N1 & N2 & _). apply (Two DOr p q I); auto.
  - destruct N as (_ & N1 & N2). apply (Two DXor e1 e2 I); auto.
  - destruct N as (_ & N1 & N2). apply (Two DImpl e1 e2 I); auto.
  - destruct N as (_ & N1 & N2). apply (Two DEquiv e1 e2 I); auto.
  - destruct N as (_ & N1). apply (One (DO lb ub) e Lg); auto.
  - destruct N as (_ & N1). apply (One (DH lb ub) e Lg); auto.
Qed.

(** ** Names *)
Section Names.
Variable column : str -> option nat.
Variable base defs : nat.
Hypothesis column_low : forall s a, column s = Some a -> a < base.
Variable Dn Ln : list str.
Hypothesis defs_all : List.length Dn <= defs.
Notation variable := (variable base defs).
Notation formula := (formula column base defs).
Notation name_of := (name_of base defs Dn Ln).
Ltac two H := match type of H with
  | match ?a with Some _ => match ?b with _ => _ end | None => _ end = Some _ =>
    destruct a eqn:?; [|discriminate H]; destruct b eqn:?; [|discriminate H]; injection H as <- end.
Ltac timed H := match type of H with (if ?b && ?c then _ else None) = Some _ => destruct (b && c); [|discriminate H] end.
Definition mentioned (e : cx) (n : expr) : Prop := match n with EAtom a => a < base \/ In (name_of a) (mentions e) | _ => True end.
Lemma mentioned_mono e e' n : incl (mentions e) (mentions e') -> mentioned e n -> mentioned e' n.
Proof. intros H. destruct n; cbn; auto. intros [K|K]; auto. Qed.
Lemma formula_mentions future ds dr ls lr e : Dn = ds ++ dr -> Ln = ls ++ lr -> forall b, formula future ds ls e = Some b ->
  all_nodes (mentioned e) b.
Proof.
  intros HD HL. induction e using cx_ind'; intros b0 F; cbn in F; try discriminate.
  - injection F as <-. cbn. auto.
  - destruct (column s) as [a|] eqn:E; [|discriminate]. injection F as <-. cbn. split; [|exact I]. left. eapply column_low, E.
  - destruct (variable ds ls s) as [a|] eqn:E; [|discriminate]. injection F as <-.
    destruct (name_of_variable base defs Dn Ln defs_all _ _ _ _ _ _ HD HL E) as [N _]. cbn. split; [|exact I]. right. left. symmetry. exact N.
  - destruct u; try discriminate. destruct (formula future ds ls e) as [b|]; [|discriminate]. injection F as <-. split; [exact I|]. exact (IHe b eq_refl).
  - assert (Two : forall a b p q, es = [a; b] -> formula future ds ls a = Some p -> formula future ds ls b = Some q ->
        all_nodes (mentioned (COp o es)) p /\ all_nodes (mentioned (COp o es)) q).
    { intros a b p q -> E1 E2. inversion H as [|? ? IH1 H']; subst. inversion H' as [|? ? IH2 _]; subst.
      split; (eapply all_nodes_impl; [|eauto]); intros n; apply mentioned_mono; cbn; rewrite app_nil_r; [apply incl_appl|apply incl_appr]; apply incl_refl. }
    destruct o; try discriminate F; destruct es as [|a [|b [|? ?]]]; try discriminate F; two F;
      match goal with A : formula _ _ _ a = Some ?p, B : formula _ _ _ b = Some ?q |- _ => destruct (Two a b p q eq_refl A B) as [X Y] end;
      (split; [exact I|]); cbn [all_nodes fold_right]; auto.
  - destruct k; timed F; (destruct (formula future ds ls e) as [b|]; [|discriminate]); injection F as <-; (split; [exact I|]); exact (IHe b eq_refl).
  - assert (Two : forall p q, formula future ds ls e1 = Some p -> formula future ds ls e2 = Some q ->
        all_nodes (mentioned (CT2 k lb ub e1 e2)) p /\ all_nodes (mentioned (CT2 k lb ub e1 e2)) q).
    { intros p q E1 E2. split; (eapply all_nodes_impl; [|eauto]); intros n; apply mentioned_mono; cbn; [apply incl_appl|apply incl_appr]; apply incl_refl. }
    destruct k; timed F; two F; (split; [exact I|]); exact (Two _ _ eq_refl eq_refl).
Qed.
Lemma formula_instant future ds ls e : instant e = true -> forall b, formula future ds ls e = Some b -> (wpd b <= 0)%Z /\ timeless b = true.
Proof.
  induction e using cx_ind'; intros In0 b0 F; cbn in F; try discriminate.
  - injection F as <-. cbn. split; [lia|reflexivity].
  - destruct (column s) as [a|] eqn:E; [|discriminate]. injection F as <-. cbn. split; [lia|reflexivity].
  - destruct (variable ds ls s) as [a|] eqn:E; [|discriminate]. injection F as <-. cbn. split; [lia|reflexivity].
  - destruct u; try discriminate. destruct (formula future ds ls e) as [b|]; [|discriminate]. injection F as <-. exact (IHe In0 b eq_refl).
  - cbn in In0. assert (Two : forall a b p q, es = [a; b] -> formula future ds ls a = Some p -> formula future ds ls b = Some q ->
        ((wpd p <= 0)%Z /\ timeless p = true) /\ ((wpd q <= 0)%Z /\ timeless q = true)).
    { intros a b p q -> E1 E2. cbn in In0. apply andb_true_iff in In0 as [I1 I2]. apply andb_true_iff in I2 as [I2 _].
      inversion H as [|? ? IH1 H']; subst. inversion H' as [|? ? IH2 _]; subst. eauto. }
    destruct o; try discriminate F; destruct es as [|a [|b [|? ?]]]; try discriminate F; two F;
      match goal with A : formula _ _ _ a = Some ?p, B : formula _ _ _ b = Some ?q |- _ => destruct (Two a b p q eq_refl A B) as [[X X'] [Y Y']] end;
      clear - X X' Y Y'; cbn [wpd timeless forallb map zmax_list fold_left]; rewrite X', Y'; (split; [lia|reflexivity]).
Qed.
(** What the entry of a table comes from. *)
Definition entry_of (l : list (str * cx)) (d : nat * expr) : Prop :=
  base <= fst d /\ exists e, In (name_of (fst d), e) l /\ all_nodes (mentioned e) (snd d) /\ (instant e = true -> (wpd (snd d) <= 0)%Z /\ timeless (snd d) = true).
Lemma entry_mono l l' d : incl l l' -> entry_of l d -> entry_of l' d.
Proof. intros I0 (B & e & H & R). split; [exact B|]. exists e. split; [apply I0, H|exact R]. Qed.
Lemma name_of_definition ds x dr : Dn = ds ++ x :: dr -> name_of (base + List.length ds) = x.
Proof.
  intros H. unfold ElaborateProofs.name_of. pose proof defs_all as D. rewrite H, app_length in D. cbn in D.
  destruct (Nat.ltb_spec (base + List.length ds) (base + defs)); [|lia]. replace (base + List.length ds - base) with (List.length ds) by lia.
  rewrite H, nth_middle. reflexivity.
Qed.
Lemma name_of_label ls x lr : Ln = ls ++ x :: lr -> name_of (base + defs + List.length ls) = x.
Proof.
  clear defs_all column_low. intros H. unfold ElaborateProofs.name_of. destruct (Nat.ltb_spec (base + defs + List.length ls) (base + defs)); [lia|].
  replace (base + defs + List.length ls - (base + defs)) with (List.length ls) by lia. rewrite H, nth_middle. reflexivity.
Qed.
Lemma definitions_entries mode : forall l ds dr t ds', definitions column base defs mode ds l = Some (t, ds') -> Dn = ds ++ map fst l ++ dr ->
  ds' = ds ++ map fst l /\ Forall (entry_of l) t.
Proof.
  induction l as [|[x e] l IH]; intros ds dr t ds' E HD.
  - cbn in E. injection E as <- <-. rewrite app_nil_r. split; [reflexivity|constructor].
  - assert (E' : match formula mode ds [] e with
       | Some b => option_map (fun r => ((base + List.length ds, b) :: fst r, snd r)) (definitions column base defs mode (ds ++ [x]) l) | None => None end = Some (t, ds'))
      by (cbn in E; destruct e; try exact E; discriminate E). clear E.
    destruct (formula mode ds [] e) as [b|] eqn:Ef; [|discriminate]. destruct (definitions column base defs mode (ds ++ [x]) l) as [[t' ds'']|] eqn:Ed; [|discriminate].
    injection E' as <- <-. cbn [map fst app] in HD. destruct (IH (ds ++ [x]) dr t' ds'' Ed) as [E1 E2]; [rewrite <- app_assoc; exact HD|].
    rewrite <- app_assoc in E1. split; [exact E1|]. constructor.
    + split; [cbn; lia|]. exists e. cbn [fst snd]. rewrite (name_of_definition ds x _ HD). split; [left; reflexivity|].
      split; [exact (formula_mentions mode ds _ [] Ln e HD eq_refl b Ef)|]. intros In0. exact (formula_instant mode ds [] e In0 b Ef).
    + eapply Forall_impl; [|exact E2]. intros d. apply entry_mono. intros y Hy. right. exact Hy.
Qed.
Notation spec_entries := (flat_map (fun s => match s with Formula x _ e => [(x, e)] | Contract _ _ _ _ => [] end)).
Lemma formulas_entries kind : forall l ds dr ls lr t ls', formulas column base defs kind ds ls l = Some (t, ls') -> Dn = ds ++ dr -> Ln = ls ++ map label_of l ++ lr ->
  ls' = ls ++ map label_of l /\ Forall (entry_of (spec_entries l)) t.
Proof.
  induction l as [|s l IH]; intros ds dr ls lr t ls' E HD HL.
  - cbn in E. injection E as <- <-. rewrite app_nil_r. split; [reflexivity|constructor].
  - destruct s as [x n e|]; [|discriminate]. cbn in E.
    destruct (formula kind ds ls e) as [b|] eqn:Ef; [|discriminate]. destruct (formulas column base defs kind ds (ls ++ [x]) l) as [[t' ls'']|] eqn:Ed; [|discriminate].
    injection E as <- <-. cbn [map label_of app] in HL. destruct (IH ds dr (ls ++ [x]) lr t' ls'' Ed HD) as [E1 E2]; [rewrite <- app_assoc; exact HL|].
    rewrite <- app_assoc in E1. split; [exact E1|]. constructor.
    + split; [cbn; lia|]. exists e. cbn [fst snd]. rewrite (name_of_label ls x _ HL). split; [left; reflexivity|].
      split; [exact (formula_mentions kind ds dr ls _ e HD HL b Ef)|]. intros In0. exact (formula_instant kind ds ls e In0 b Ef).
    + eapply Forall_impl; [|exact E2]. intros d. apply entry_mono. intros y Hy. right. exact Hy.
Qed.
Lemma sections_entries : forall p mode ds ls D F, sections column base defs mode ds ls p = Some (D, F) ->
  Dn = ds ++ definitions_in p -> Ln = ls ++ labels_in p -> Forall (entry_of (entries p)) (D ++ F).
Proof.
  induction p as [|s p IH]; intros mode ds ls D F E HD HL.
  - cbn in E. injection E as <- <-. constructor.
  - destruct s as [l|l|l|l|kind l]; cbn [Elaborate.sections] in E; try discriminate.
    + destruct (forallb is_bool l); [|discriminate]. exact (IH mode ds ls D F E HD HL).
    + change (definitions_in (SDefine l :: p)) with (map fst l ++ definitions_in p) in HD. change (labels_in (SDefine l :: p)) with (labels_in p) in HL.
      destruct (definitions column base defs mode ds l) as [[t ds']|] eqn:Ed; [|discriminate].
      destruct (definitions_entries mode l ds _ t ds' Ed HD) as [-> Et].
      destruct (sections column base defs mode (ds ++ map fst l) ls p) as [[D' F']|] eqn:Es; [|discriminate]. injection E as <- <-.
      change (entries (SDefine l :: p)) with (l ++ entries p). cbn [fst snd]. rewrite <- app_assoc. apply Forall_app. split.
      * eapply Forall_impl; [|exact Et]. intros d. apply entry_mono, incl_appl, incl_refl.
      * eapply Forall_impl; [|apply (IH mode (ds ++ map fst l) ls D' F' Es); [rewrite <- app_assoc; exact HD|exact HL]]. intros d. apply entry_mono, incl_appr, incl_refl.
    + change (definitions_in (SSpec kind l :: p)) with (definitions_in p) in HD. change (labels_in (SSpec kind l :: p)) with (map label_of l ++ labels_in p) in HL.
      destruct (formulas column base defs kind ds ls l) as [[t ls']|] eqn:Ed; [|discriminate].
      destruct (formulas_entries kind l ds _ ls _ t ls' Ed HD HL) as [-> Et].
      destruct (sections column base defs kind ds (ls ++ map label_of l) p) as [[D' F']|] eqn:Es; [|discriminate]. injection E as <- <-.
      change (entries (SSpec kind l :: p)) with (spec_entries l ++ entries p). cbn [fst snd].
      pose proof (IH kind ds (ls ++ map label_of l) D' F' Es HD ltac:(rewrite <- app_assoc; exact HL)) as R. apply Forall_app in R as [R1 R2].
      apply Forall_app. split; [|apply Forall_app; split].
      * eapply Forall_impl; [|exact R1]. intros d. apply entry_mono, incl_appr, incl_refl.
      * eapply Forall_impl; [|exact Et]. intros d. apply entry_mono, incl_appl, incl_refl.
      * eapply Forall_impl; [|exact R2]. intros d. apply entry_mono, incl_appr, incl_refl.
Qed.
End Names.

(** ** Expanded formulas *)
Section Expanded.
Variable base : nat.
(** Names on the side of the future-time specifications; mentioned names. *)
Variables Sd Q : nat -> Prop.
Definition raw (d : nat * dx) : Prop :=
  base <= fst d /\ (Sd (fst d) -> fut false (fun a => a < base \/ Q a /\ Sd a) (snd d) /\ sound (snd d) /\ (Q (fst d) -> (wpd (erase (snd d)) <= 0)%Z)).
Definition ripe (d : nat * dx) : Prop :=
  base <= fst d /\ (Sd (fst d) -> fut false (fun _ => True) (snd d) /\ sound (snd d) /\ (Q (fst d) -> (wpd (erase (snd d)) <= 0)%Z)).
Lemma dlookup_in t a d : dlookup t a = Some d -> In (a, d) t.
Proof. induction t as [|[x e] t IH]; [discriminate|]. cbn. destruct (Nat.eqb_spec x a); intros E; [injection E as ->; subst; auto|auto]. Qed.
Lemma expand_ripe t d : Forall ripe t -> raw d -> ripe (fst d, dmap (dexpand_node t) (snd d)).
Proof.
  intros Rt [B R]. split; [exact B|]. cbn [fst snd]. intros S0. destruct (R S0) as (F & S1 & W).
  destruct (expand_improves (fun a => a < base \/ Q a /\ Sd a) (fun _ => True) t (snd d)) as (G1 & G2 & G3); [|exact F|exact S1|].
  - intros a Ha. destruct (dlookup t a) as [e|] eqn:E; [|exact I]. apply dlookup_in in E. rewrite Forall_forall in Rt. destruct (Rt _ E) as [B' R']. cbn [fst snd] in B', R'.
    destruct Ha as [Ha|[Qa Sa]]; [lia|]. destruct (R' Sa) as (H1 & H2 & H3). split; [exact H1|]. split; [exact H2|exact (H3 Qa)].
  - split; [exact G1|]. split; [exact G2|]. intros Qd. specialize (W Qd). destruct G3 as [G3 _]. lia.
Qed.
Lemma raw_ripe d : raw d -> ripe d.
Proof.
  intros [B R]. split; [exact B|]. intros S0. destruct (R S0) as (F & R'). split; [|exact R']. clear - F. induction (snd d); cbn in *; tauto.
Qed.
Definition praw (d : nat * dx) : Prop :=
  base <= fst d /\ (Sd (fst d) -> past (fun a => a < base \/ Q a /\ Sd a) (snd d) /\ fresh (snd d) /\ (Q (fst d) -> delay_of (snd d) = (0, 0)%Z)).
Definition pripe (d : nat * dx) : Prop :=
  base <= fst d /\ (Sd (fst d) -> past (fun _ => True) (snd d) /\ fresh (snd d) /\ (Q (fst d) -> delay_of (snd d) = (0, 0)%Z)).
Lemma expand_pripe t d : Forall pripe t -> praw d -> pripe (fst d, dmap (dexpand_node t) (snd d)).
Proof.
  intros Rt [B R]. split; [exact B|]. cbn [fst snd]. intros S0. destruct (R S0) as (F & S1 & W).
  destruct (expand_steady (fun a => a < base \/ Q a /\ Sd a) (fun _ => True) t (snd d)) as (G1 & G2 & G3); [|exact F|exact S1|].
  - intros a Ha. destruct (dlookup t a) as [e|] eqn:E; [|exact I]. apply dlookup_in in E. rewrite Forall_forall in Rt. destruct (Rt _ E) as [B' R']. cbn [fst snd] in B', R'.
    destruct Ha as [Ha|[Qa Sa]]; [lia|]. destruct (R' Sa) as (H1 & H2 & H3). split; [exact H1|]. split; [exact H2|exact (H3 Qa)].
  - split; [exact G1|]. split; [exact G2|]. intros Qd. rewrite G3. exact (W Qd).
Qed.
Lemma praw_pripe d : praw d -> pripe d.
Proof.
  intros [B R]. split; [exact B|]. intros S0. destruct (R S0) as (F & R'). split; [|exact R']. exact (past_mono _ _ _ (fun _ _ => I) F).
Qed.
End Expanded.
(** A property of the entries that expansion brings about. *)
Lemma dexpand_all (raw ripe : nat * dx -> Prop) ds fs :
  (forall t d, Forall ripe t -> raw d -> ripe (fst d, dmap (dexpand_node t) (snd d))) -> (forall d, raw d -> ripe d) ->
  Forall raw ds -> Forall raw fs -> Forall ripe (dexpand ds fs).
Proof.
  intros expand_ripe raw_ripe Hd Hf. unfold dexpand.
  assert (D : Forall ripe (dexpand_definitions ds)).
  { unfold dexpand_definitions. assert (G : forall l t, Forall raw l -> Forall ripe t ->
      Forall ripe (fold_left (fun t d => t ++ [(fst d, dexpand_body t (snd d))]) l t)).
    { induction l as [|d l IH]; intros t Hl Ht; [exact Ht|]. cbn [fold_left]. inversion Hl as [|? ? H1 H2]; subst.
      apply IH; [exact H2|]. apply Forall_app. split; [exact Ht|]. constructor; [|constructor].
      pose proof (expand_ripe t d Ht H1) as X. pose proof (raw_ripe d H1) as Y.
      destruct d as [x e]. cbn [fst snd] in *. unfold dexpand_body. destruct e; try exact X. exact Y. }
    apply G; [exact Hd|constructor]. }
  generalize dependent (dexpand_definitions ds). intros D HD. unfold dexpand_specs.
  assert (G : forall l t, Forall raw l -> Forall ripe t ->
    Forall ripe (fold_left (fun t f => t ++ [(fst f, dmap (dexpand_node (D ++ t)) (snd f))]) l t)).
  { induction l as [|d l IH]; intros t Hl Ht; [exact Ht|]. cbn [fold_left]. inversion Hl as [|? ? H1 H2]; subst.
    apply IH; [exact H2|]. apply Forall_app. split; [exact Ht|]. constructor; [|constructor]. apply expand_ripe; [|exact H1]. apply Forall_app. auto. }
  apply G; [exact Hf|constructor].
Qed.

(** ** What is asked of the delays of an object *)
Definition kept (d : delay) (e : expr) : Prop :=
  (wpd e <= fst d /\ snd d <= Z.of_nat (soonest e) /\ (pt_monitorable e -> snd d <= - Z.of_nat (ahead e)))%Z.
Fixpoint keeps (e : dx) : Prop :=
  kept (delay_of e) (erase e) /\
  match e with D1 _ _ p => keeps p | D2 _ _ p q => keeps p /\ keeps q | _ => True end.
Lemma keeps_here e : keeps e -> kept (delay_of e) (erase e).
Proof. destruct e; intros H; apply H. Qed.
Lemma led_keeps e : led e -> keeps e.
Proof.
  assert (H : forall d e, leads d e -> kept d e) by (unfold leads, kept; intros; lia).
  induction e; intros [L R]; (split; [exact (H _ _ L)|]); try exact I; auto. destruct R. auto.
Qed.
(** A future-time formula that is also a past-time one speaks of the present. *)
Lemma present C e : built C true e -> pt_monitorable e -> soonest e = 0 /\ ahead e = 0.
Proof.
  induction e using expr_ind'; cbn [built pt_monitorable]; intros B M; try contradiction; auto.
  - destruct es as [|p [|q [|? ?]]]; try contradiction. inversion H as [|? ? IHp Hl]; subst. inversion Hl as [|? ? IHq _]; subst.
    destruct B as [B1 B2], M as [M1 M2]. destruct (IHp B1 M1), (IHq B2 M2). cbn. lia.
  - destruct es as [|p [|q [|? ?]]]; try contradiction. inversion H as [|? ? IHp Hl]; subst. inversion Hl as [|? ? IHq _]; subst.
    destruct B as [B1 B2], M as [M1 M2]. destruct (IHp B1 M1), (IHq B2 M2). cbn. lia.
  - destruct B as [B1 B2], M as [M1 M2]. destruct (IHe1 B1 M1), (IHe2 B2 M2). cbn. lia.
  - destruct B. discriminate.
  - destruct B. discriminate.
Qed.
Lemma sound_keeps C e : built C true (erase e) -> sound e -> keeps e.
Proof.
  assert (H : forall d e, built C true e -> enough d e -> kept d e).
  { unfold enough, kept. intros d f B [H1 H2]. split; [exact H1|]. split; [exact H2|]. intros M. destruct (present C f B M). lia. }
  induction e as [b|a|o d p IH|o d p IHp q IHq]; intros B S0; pose proof (sound_here _ S0) as E; (split; [exact (H _ _ B E)|]); try exact I.
  - destruct S0 as [_ S0]. destruct o; try contradiction B. exact (IH B S0).
  - destruct S0 as (_ & S1 & S2). assert (Bs : built C true (erase p) /\ built C true (erase q)) by (destruct o; try contradiction B; cbn in B; tauto).
    destruct Bs. auto.
Qed.

(** ** The delays of the objects *)
Section Aligned.
Variable C : nat -> Prop.
Variable k : bool.
Variable name : nat -> str.
Variable L : list (node * nclass).
Notation h := (heap_of L).
Notation cls := (class_of L).
(** The recorded delays of the objects from [base] on are as asked. *)
Definition covered (base : nat) (ds : list delay) : Prop :=
  forall i d e, nth_error ds i = Some d -> means h cls (base + i) e -> kept d e.
Lemma covered_app base l1 l2 : covered base l1 -> covered (base + List.length l1) l2 -> covered base (l1 ++ l2).
Proof.
  intros H1 H2 i d e N M. destruct (Nat.lt_ge_cases i (List.length l1)) as [K|K].
  - rewrite nth_error_app1 in N by exact K. exact (H1 i d e N M).
  - rewrite nth_error_app2 in N by exact K. apply (H2 _ d e N). replace (base + List.length l1 + (i - List.length l1)) with (base + i) by lia. exact M.
Qed.
Lemma covered_one base d e : means h cls base e -> kept d e -> covered base [d].
Proof.
  intros M En [|i] d' e' N M'; [|destruct i; discriminate]. injection N as <-. rewrite Nat.add_0_r in M'.
  rewrite <- (means_det h cls base e M e' M'). exact En.
Qed.
Lemma covered_none base d : (forall e, ~ means h cls base e) -> covered base [d].
Proof. intros H [|i] d' e' N M'; [|destruct i; discriminate]. rewrite Nat.add_0_r in M'. destruct (H _ M'). Qed.
Lemma delays_covered (T : list (str * nat)) e : built C k (erase e) -> keeps e -> forall pre post, L = pre ++ objects name (List.length pre) (erase e) ++ post ->
  List.length (delays e) = List.length (objects name (List.length pre) (erase e)) /\ covered (List.length pre) (delays e).
Proof.
  intros B S0 pre post EL. revert pre post EL. induction e as [b|a|o d p IH|o d p IHp q IHq]; intros pre post EL.
  - split; [reflexivity|]. destruct (objects_placed C name T L k _ B pre post EL) as (_ & (_ & _ & M & _) & _).
    cbn [erase objects List.length pred] in M. rewrite Nat.add_0_r in M. exact (covered_one _ _ _ M (keeps_here _ S0)).
  - split; [reflexivity|]. destruct (objects_placed C name T L k _ B pre post EL) as (_ & (_ & _ & M & _) & _).
    cbn [erase objects List.length pred] in M. rewrite Nat.add_0_r in M. exact (covered_one _ _ _ M (keeps_here _ S0)).
  - destruct o; try contradiction B. pose proof (objects_placed C name T L k _ B pre post EL) as (_ & (_ & _ & M & _) & _).
    destruct S0 as [S1 S2]. cbn [delays]. cbn [erase erase1 objects] in EL, M |- *. unfold Elaborate.op1 in *.
    rewrite <- app_assoc in EL. destruct (IH B S2 pre _ EL) as [Hl Hc]. rewrite app_length in M |- *. cbn [List.length] in M |- *. rewrite app_length, Hl. split; [reflexivity|].
    apply covered_app; [exact Hc|]. rewrite Hl. replace (List.length pre + pred (List.length (objects name (List.length pre) (erase p)) + 1)) with
      (List.length pre + List.length (objects name (List.length pre) (erase p))) in M by lia. exact (covered_one _ _ _ M S1).
  - pose proof (objects_placed C name T L k _ B pre post EL) as (_ & (_ & _ & M & _) & _). destruct S0 as (S1 & S2 & S3).
    assert (Two : exists n, objects name (List.length pre) (erase (D2 o d p q)) =
              objects name (List.length pre) (erase p) ++ objects name (List.length pre + List.length (objects name (List.length pre) (erase p))) (erase q) ++ [n]).
    { destruct o; try contradiction B; cbn [erase erase2 objects]; unfold Elaborate.op2; eexists; reflexivity. }
    assert (Bs : built C k (erase p) /\ built C k (erase q)) by (destruct o; try contradiction B; cbn in B; tauto). destruct Bs as [B1 B2].
    destruct Two as [n Eo]. rewrite Eo in EL, M |- *. set (l1 := objects name (List.length pre) (erase p)) in *.
    set (l2 := objects name (List.length pre + List.length l1) (erase q)) in *.
    destruct (IHp B1 S2 pre (l2 ++ n :: post)) as [Hl1 Hc1]; [rewrite EL, <- !app_assoc; reflexivity|].
    destruct (IHq B2 S3 (pre ++ l1) (n :: post)) as [Hl2 Hc2]; [rewrite app_length; fold l2; rewrite EL, <- !app_assoc; reflexivity|].
    fold l1 in Hl1. rewrite app_length in Hl2, Hc2. fold l2 in Hl2. cbn [delays]. rewrite !app_length in M. rewrite !app_length. cbn [List.length] in M |- *. rewrite Hl1, Hl2. split; [reflexivity|].
    apply covered_app; [exact Hc1|]. rewrite Hl1. apply covered_app; [exact Hc2|]. rewrite Hl2.
    replace (List.length pre + pred (List.length l1 + (List.length l2 + 1))) with (List.length pre + List.length l1 + List.length l2) in M by lia. exact (covered_one _ _ _ M S1).
Qed.
Lemma formula_no_meaning n c e : cls n = CFormula c -> ~ means h cls n e.
Proof. intros E M. inversion M; congruence. Qed.
Lemma formulas_covered : forall l es pre post, Forall (fun s => built C k (snd s)) l -> map snd l = map (fun e => erase (dcompile e)) es ->
  Forall (fun e => keeps (dcompile e)) es -> L = pre ++ fst (formula_objects name (List.length pre) l) ++ post ->
  List.length (formula_delays es) = List.length (fst (formula_objects name (List.length pre) l)) /\ covered (List.length pre) (formula_delays es).
Proof.
  induction l as [|[[x n] e] l IH]; intros es pre post B Em S0 EL.
  - destruct es; [|discriminate]. split; [reflexivity|]. intros [|i] d e N; discriminate.
  - destruct es as [|y es]; [discriminate|]. cbn [map snd] in Em. injection Em as Ey Em. inversion B as [|? ? B1 B2]; subst. inversion S0 as [|? ? S1 S2]; subst. cbn [snd] in B1.
    cbn [formula_objects] in EL |- *. set (o := objects name (List.length pre) (erase (dcompile y))) in *. set (f := List.length pre + List.length o) in *.
    specialize (IH es (pre ++ o ++ [(Node KFormula x [pred f], CFormula (Z.of_nat n))]) post B2 Em S2).
    assert (Lp : List.length (pre ++ o ++ [(Node KFormula x [pred f], CFormula (Z.of_nat n))]) = S f) by (rewrite !app_length; unfold f; cbn; lia).
    rewrite Lp in IH. destruct (formula_objects name (S f) l) as [os fs]. cbn [fst snd] in *.
    assert (EL2 : L = (pre ++ o ++ [(Node KFormula x [pred f], CFormula (Z.of_nat n))]) ++ os ++ post).
    { rewrite EL. rewrite <- !app_assoc. cbn [app]. rewrite <- ?app_assoc. reflexivity. }
    destruct (IH EL2) as [H1 H2]. clear IH.
    destruct (delays_covered [] (dcompile y) B1 S1 pre ((Node KFormula x [pred f], CFormula (Z.of_nat n)) :: os ++ post)) as [D1 D2];
      [fold o; rewrite EL, <- app_assoc; reflexivity|]. fold o in D1.
    assert (Cf : cls f = CFormula (Z.of_nat n)).
    { assert (E : L = (pre ++ o) ++ (Node KFormula x [pred f], CFormula (Z.of_nat n)) :: (os ++ post)) by (rewrite EL, <- !app_assoc; reflexivity).
      pose proof (at_place L _ _ _ E) as [_ K]. rewrite app_length in K. exact K. }
    unfold formula_delays in *. cbn [flat_map]. rewrite !app_length. cbn [List.length]. rewrite D1, H1. split; [lia|].
    rewrite <- app_assoc. apply covered_app; [exact D2|]. rewrite D1. fold f. apply covered_app.
    + apply covered_none. intros e. exact (formula_no_meaning f _ e Cf).
    + cbn [List.length]. rewrite Nat.add_1_r. exact H2.
Qed.
End Aligned.

(** ** The delays of a program *)
Lemma parsed_same k A e : all_nodes (node_ok k A) e -> erase (parsed e) = e.
Proof. destruct k; intros H; [apply (parsed_sound A e H)|apply (parsed_past A e H)]. Qed.
Lemma dexpand_fst ds fs : map fst (dexpand ds fs) = map fst fs.
Proof.
  unfold dexpand, dexpand_specs. generalize (dexpand_definitions ds). intros D.
  assert (G : forall l t, map fst (fold_left (fun t f => t ++ [(fst f, dmap (dexpand_node (D ++ t)) (snd f))]) l t) = map fst t ++ map fst l).
  { induction l as [|d l IH]; intros t; cbn [fold_left map]; [rewrite app_nil_r; reflexivity|]. rewrite IH, map_app, <- app_assoc. reflexivity. }
  apply G.
Qed.
Lemma dpart_part k : forall (ks : list bool) (ts : list (str * nat)) (g : list dx), List.length ts = List.length g ->
  map erase (dpart k (combine ks g)) = map snd (part k (combine ks (combine ts (map erase g)))).
Proof.
  unfold dpart, part. induction ks as [|j ks IH]; intros ts g Lt; [reflexivity|]. destruct g as [|e g], ts as [|t ts]; try discriminate; [reflexivity|].
  cbn [map combine filter fst]. destruct (Bool.eqb j k); cbn [map snd]; [f_equal|]; apply IH; cbn in Lt; lia.
Qed.
Lemma Forall2_fst (P : nat -> bool -> Prop) (l : list (nat * dx)) : forall ks, Forall2 P (map fst l) ks -> Forall2 (fun d k => P (fst d) k) l ks.
Proof. induction l as [|d l IH]; intros ks H; inversion H; subst; constructor; auto. Qed.
Lemma Forall2_combine {A B} (P : A -> B -> Prop) l ks : Forall2 P l ks -> Forall (fun s => P (snd s) (fst s)) (combine ks l).
Proof. induction 1; constructor; auto. Qed.
Lemma combine_snd {A B C} (f : B -> C) (ks : list A) : forall l, combine ks (map f l) = map (fun s => (fst s, f (snd s))) (combine ks l).
Proof. induction ks as [|k ks IH]; intros [|x l]; [reflexivity..|]. cbn. rewrite IH. reflexivity. Qed.
(** Specifications of the past without nested operators. *)
Definition past_flat (specs : list (bool * item)) : Prop := Forall (fun s => fst s = false -> flat_formula (compile_expr (snd (snd s)))) specs.
Lemma recorded_kept m columns p specs : boolean_file columns p ->
  (forall j n, nth_error columns j = Some n -> map_get m n = Some (N.of_nat j)) ->
  instant_names p -> elaborate m p = Some specs -> past_flat specs ->
  forall n e, means (heap_of (build m p specs)) (class_of (build m p specs)) n e -> kept (nth n (recorded m p) (0, 0)%Z) e.
Proof.
  intros Bf Hm In0 El Fl. destruct (elaborate_spec m columns p Bf Hm) as (specs' & El' & Ek & Et & Ok & _).
  rewrite El in El'. injection El' as <-.
  pose proof Bf as [Nd [side B]]. set (J := fun s => (In s (inputs_of p) /\ In s columns) /\ In s (used p)).
  assert (BJ : boolean_sections side J false [] [] p) by (eapply sections_mono; [|exact B]; intros s Hs K; split; auto).
  assert (Col : forall s, J s -> exists a, column_of m s = Some a).
  { intros s ((_ & C) & _). apply In_nth_error in C as [j C]. unfold column_of. rewrite (Hm j s C). cbn. eauto. }
  assert (Low : forall s a, column_of m s = Some a -> a < width_of m).
  { intros s a E. unfold column_of in E. destruct (map_get m s) as [c|] eqn:G; [|discriminate]. injection E as <-. eapply width_bound, G. }
  set (nd := definition_count p) in *.
  assert (Ndl : List.length (definitions_in p) <= nd) by (unfold nd; rewrite definition_count_same; lia).
  destruct (sections_spec (column_of m) (width_of m) nd Low (definitions_in p) (labels_in p) side Ndl J Col p false [] [] BJ eq_refl eq_refl)
    as (D & F & E & L1 & L2 & C1 & C2 & Bo & Al).
  pose proof (sections_entries (column_of m) (width_of m) nd Low (definitions_in p) (labels_in p) Ndl p false [] [] D F E eq_refl eq_refl) as En.
  pose proof (side_numbers side (definitions_in p) (width_of m) nd F [] _ _ C2 L2 (labels_sides _ _ _ _ _ _ B)) as Sn. cbn [app] in Sn, Bo.
  set (so := side_of (width_of m) nd (definitions_in p) (labels_in p) side) in *.
  set (name := name_of (width_of m) nd (definitions_in p) (labels_in p)).
  set (Q := fun a => In (name a) (flat_map (fun d => mentions (snd d)) (entries p))).
  set (read := map (fun d : nat * expr => (fst d, parsed (snd d)))).
  assert (Pr : forall t, incl t (D ++ F) -> strip (read t) = t).
  { intros t Ht. unfold read. rewrite map_map. cbn [fst snd]. rewrite <- (map_id t) at 2. apply map_ext_in. intros [a b] Hd. cbn [fst snd].
    unfold bodies in Bo. rewrite Forall_forall in Bo. pose proof (parsed_same _ _ _ (Bo _ (Ht _ Hd))) as K. cbn [snd] in K. rewrite K. reflexivity. }
  assert (Raw : Forall (raw (width_of m) (fun a => so a = true) Q) (read (D ++ F))).
  { unfold read. apply Forall_map. rewrite Forall_forall. intros [a b] Hd. unfold bodies in Bo. rewrite Forall_forall in Bo, En.
    destruct (En _ Hd) as (Ba & e & He & Me & We). specialize (Bo _ Hd). cbn [fst snd] in *. split; [exact Ba|]. cbn [fst snd]. intros Sa.
    fold so in Bo. rewrite Sa in Bo. fold name in He.
    destruct (parsed_sound (fun a => a < width_of m \/ Q a /\ so a = true) b) as (P1 & P2 & P3).
    - eapply all_nodes_impl; [|exact (all_nodes_and _ _ _ Bo Me)]. intros y ((S2 & S3 & S4) & S5). split; [exact S2|]. split; [exact S3|].
      destruct y; auto. cbn in S5. destruct S4 as [(s & _ & Cs)|[_ S4]]; [left; eapply Low, Cs|]. destruct S5 as [S5|S5]; [left; exact S5|right].
      split; [|exact S4]. unfold Q. apply in_flat_map. exists (name a, e). split; [exact He|exact S5].
    - split; [exact P2|]. split; [exact P3|]. intros Qa. rewrite P1. apply We. exact (In0 _ _ He Qa). }
  assert (Praw : Forall (praw (width_of m) (fun a => so a = false) Q) (read (D ++ F))).
  { unfold read. apply Forall_map. rewrite Forall_forall. intros [a b] Hd. unfold bodies in Bo. rewrite Forall_forall in Bo, En.
    destruct (En _ Hd) as (Ba & e & He & Me & We). specialize (Bo _ Hd). cbn [fst snd] in *. split; [exact Ba|]. cbn [fst snd]. intros Sa.
    fold so in Bo. rewrite Sa in Bo. fold name in He.
    destruct (parsed_past (fun a => a < width_of m \/ Q a /\ so a = false) b) as (P1 & P2 & P3).
    - eapply all_nodes_impl; [|exact (all_nodes_and _ _ _ Bo Me)]. intros y ((S2 & S3 & S4) & S5). split; [exact S2|]. split; [exact S3|].
      destruct y; auto. cbn in S5. destruct S4 as [(s & _ & Cs)|[_ S4]]; [left; eapply Low, Cs|]. destruct S5 as [S5|S5]; [left; exact S5|right].
      split; [|exact S4]. unfold Q. apply in_flat_map. exists (name a, e). split; [exact He|exact S5].
    - split; [exact P2|]. split; [exact P3|]. intros Qa. apply (timeless_delay _ _ P2 P3). rewrite P1. apply We. exact (In0 _ _ He Qa). }
  unfold read in Raw, Praw. rewrite map_app in Raw, Praw. fold read in Raw, Praw. apply Forall_app in Raw as [RD RF]. apply Forall_app in Praw as [PD PF].
  pose proof (dexpand_all _ _ _ _ (expand_ripe (width_of m) (fun a => so a = true) Q) (raw_ripe _ _ _) RD RF) as Rp.
  pose proof (dexpand_all _ _ _ _ (expand_pripe (width_of m) (fun a => so a = false) Q) (praw_pripe _ _ _) PD PF) as Pp.
  assert (Es : strip (dexpand (read D) (read F)) = expand D F).
  { rewrite erase_expand, !Pr; [reflexivity|apply incl_appr, incl_refl|apply incl_appl, incl_refl]. }
  assert (Sx : Forall2 (fun d k => so (fst d) = k) (dexpand (read D) (read F)) (kinds p)).
  { apply (Forall2_fst (fun a k => so a = k)). rewrite dexpand_fst. unfold read. rewrite map_map. cbn [fst]. clear - Sn. induction Sn; constructor; auto. }
  set (ds := combine (kinds p) (map snd (dexpand (read D) (read F)))).
  assert (Gs : Forall (fun s => (fst s = true -> sound (dcompile (snd s))) /\ (fst s = false -> past (fun _ => True) (snd s) /\ fresh (snd s))) ds).
  { unfold ds. rewrite combine_snd. apply Forall_map. pose proof (Forall2_combine _ _ _ Sx) as Sc. rewrite Forall_forall in *. intros [k d] Hd. cbn [fst snd].
    specialize (Sc _ Hd). cbn [fst snd] in Sc. apply in_combine_r in Hd. destruct (Rp d Hd) as [_ R], (Pp d Hd) as [_ P]. split; intros ->.
    - destruct (R Sc) as (R1 & R2 & _). exact (compile_sound _ _ R1 R2).
    - destruct (P Sc) as (P1 & P2 & _). auto. }
  unfold elaborate in El. rewrite declared_same, (distinct_NoDup _ Nd) in El. fold nd in El. rewrite E in El. injection El as El.
  assert (Lt : List.length (titles p) = List.length (dexpand (read D) (read F))).
  { destruct (titles_labels _ _ p _ [] [] B) as [TL _]. transitivity (List.length (map fst (dexpand (read D) (read F)))); [|apply map_length].
    rewrite dexpand_fst. unfold read. rewrite !map_length, L2, <- TL, map_length. reflexivity. }
  assert (Rc : recorded m p = formula_delays (dpart true ds) ++ formula_delays (dpart false ds) ++ [(0, 0)%Z; (0, 0)%Z]).
  { unfold recorded. fold nd. rewrite E. reflexivity. }
  assert (Dp : forall k, map erase (dpart k ds) = map snd (part k specs)).
  { intros k. unfold ds. rewrite <- El, <- Es, map_map. rewrite (dpart_part k (kinds p) (titles p)) by (rewrite map_length; exact Lt). rewrite map_map. reflexivity. }
  assert (Bt : forall k, Forall (fun s => built (input_column m p) k (snd s) /\ ~ is_const (snd s)) (compiled (part k specs))).
  { intros k. apply compiled_ok. exact (part_Forall (fun k s => all_nodes (node_ok k (input_column m p)) (snd s)) k specs Ok). }
  assert (Dc : forall k, map snd (compiled (part k specs)) = map (fun e => erase (dcompile e)) (dpart k ds)).
  { intros k. unfold compiled. rewrite map_map. cbn [snd]. rewrite <- (map_map snd compile_expr), <- (Dp k), map_map. apply map_ext. intros a. symmetry. apply erase_compile. }
  assert (Gd : forall k, Forall (fun e => keeps (dcompile e)) (dpart k ds)).
  { intros k. assert (Ds : Forall (fun e => (k = true -> sound (dcompile e)) /\ (k = false -> past (fun _ => True) e /\ fresh e)) (dpart k ds)).
    { unfold dpart. apply Forall_map. rewrite Forall_forall in *. intros [j e] Hs. apply filter_In in Hs as [Hs Hk]. cbn [fst snd] in *.
      apply Bool.eqb_prop in Hk. subst j. exact (Gs _ Hs). }
    destruct k.
    - assert (Db : Forall (fun e => built (input_column m p) true (erase (dcompile e))) (dpart true ds)).
      { apply (Forall_map (fun e => erase (dcompile e)) (built (input_column m p) true)). rewrite <- Dc. apply Forall_map. eapply Forall_impl; [|exact (Bt true)]. intros s [K _]. exact K. }
      rewrite Forall_forall in *. intros e He. exact (sound_keeps _ _ (Db e He) (proj1 (Ds e He) eq_refl)).
    - assert (Df : Forall (fun e => flat_formula (compile_expr (erase e))) (dpart false ds)).
      { apply (Forall_map erase (fun e => flat_formula (compile_expr e))). rewrite Dp. apply Forall_map.
        eapply Forall_impl; [|exact (part_Forall (fun k s => k = false -> flat_formula (compile_expr (snd s))) false specs Fl)]. intros s K. exact (K eq_refl). }
      rewrite Forall_forall in *. intros e He. destruct (proj2 (Ds e He) eq_refl) as [K1 K2]. apply led_keeps. exact (compile_led _ _ K1 K2 (Df e He)). }
  unfold build. unfold program_objects.
  set (nm := named_column m (used p)).
  destruct (formula_objects nm 0 (compiled (part true specs))) as [os fs] eqn:Eo.
  destruct (formula_objects nm (List.length os) (compiled (part false specs))) as [os' ps] eqn:Eo'.
  set (sets := [(Node KSet (quoted "FTSPEC") fs, CSet); (Node KSet (quoted "PTSPEC") ps, CSet)]).
  assert (Bk : forall k, Forall (fun s => built (input_column m p) k (snd s)) (compiled (part k specs))).
  { intros k. eapply Forall_impl; [|exact (Bt k)]. intros s [K _]. exact K. }
  destruct (formulas_covered (input_column m p) true nm (os ++ os' ++ sets) (compiled (part true specs)) (dpart true ds) [] (os' ++ sets) (Bk true) (Dc true) (Gd true)) as [Ln Cv].
  { cbn [List.length app]. rewrite Eo. reflexivity. }
  destruct (formulas_covered (input_column m p) false nm (os ++ os' ++ sets) (compiled (part false specs)) (dpart false ds) os sets (Bk false) (Dc false) (Gd false)) as [Ln' Cv'].
  { rewrite Eo'. reflexivity. }
  cbn [List.length] in Ln, Cv. rewrite Eo in Ln. rewrite Eo' in Ln'. cbn [fst] in Ln, Ln'.
  intros n e M. rewrite Rc. destruct (Nat.lt_ge_cases n (List.length os)) as [K|K].
  - rewrite app_nth1 by lia. destruct (nth_error (formula_delays (dpart true ds)) n) as [d|] eqn:Ed.
    + rewrite (nth_error_nth _ _ _ Ed). exact (Cv n d e Ed M).
    + apply nth_error_None in Ed. lia.
  - rewrite app_nth2 by lia. rewrite Ln. destruct (Nat.lt_ge_cases (n - List.length os) (List.length os')) as [K'|K'].
    { rewrite app_nth1 by lia. destruct (nth_error (formula_delays (dpart false ds)) (n - List.length os)) as [d|] eqn:Ed.
      - rewrite (nth_error_nth _ _ _ Ed). apply (Cv' _ d e Ed). replace (List.length os + (n - List.length os)) with n by lia. exact M.
      - apply nth_error_None in Ed. lia. }
    rewrite app_nth2 by lia. rewrite Ln'.
    assert (Cn : forall i, n - List.length os - List.length os' = i -> class_of (os ++ os' ++ sets) n = snd (nth i sets nothing)).
    { intros i <-. unfold class_of. rewrite app_nth2 by lia. rewrite app_nth2 by lia. reflexivity. }
    destruct (n - List.length os - List.length os') as [|[|i]] eqn:En'.
    + exfalso. specialize (Cn 0 eq_refl). cbn in Cn. inversion M; congruence.
    + exfalso. specialize (Cn 1 eq_refl). cbn in Cn. inversion M; congruence.
    + assert (Cb : class_of (os ++ os' ++ sets) n = Assembly.CBool true) by (rewrite (Cn _ eq_refl); destruct i; reflexivity).
      assert (Z0 : nth (S (S i)) [(0, 0)%Z; (0, 0)%Z] (0, 0)%Z = (0, 0)%Z) by (destruct i; reflexivity). rewrite Z0.
      inversion M; try congruence. split; [cbn; lia|]. split; [cbn; lia|]. intros [].
Qed.

(** ** Reports *)
(** What the compiler hands to the elimination of common subexpressions. *)
Lemma default_ready mission py size names cells table content trace p :
  parse_c2po mission py content = Some p -> boolean_file names p -> instant_names p ->
  trace_text size (Some cells) table trace -> Forall2 header_cell names cells -> NoDup names -> Forall plain_row table ->
  exists m specs, parse_trace (used p) trace = Mapped m (List.length table) /\ elaborate m p = Some specs /\ map fst specs = kinds p /\
    (forall tr v, (forall s j i, nth_error names j = Some s -> (tr i j = true <-> v s i)) ->
       Forall2 (fun s P => snd (fst (snd s)) = fst P /\ forall i, sat tr (snd (snd s)) i <-> snd P i) specs (meanings v p)) /\
    (Forall (fun s : bool * item => let e := compile_expr (snd (snd s)) in if fst s then modest_formula e else flat_formula e) specs ->
     let os := build m p specs in
     let ft := future_set (named_column m (used p)) (compiled (part true specs)) (compiled (part false specs)) in
     let h := heap_of os in let cls := class_of os in
     let d n := nth n (recorded m p) (0, 0)%Z in
     (exists T, denotes h T) /\ well_shaped h /\ nkind (h ft) = KSet /\ nkind (h (S ft)) = KSet /\
     named_apart h cls /\ cls ft = CSet /\ cls (S ft) = CSet /\ (forall n, reachable h [ft] n -> ~ reachable h [S ft] n) /\
     tl_shaped h cls /\ (forall n, reachable h [ft] n -> assemblable h cls ft_code n) /\
     (forall n, reachable h [S ft] n -> assemblable h cls pt_code n) /\
     (forall n e, means h cls n e -> kept (d n) e) /\
     Forall2 (spec_of compile_expr h cls) (nchildren (h ft)) (numbered (part true specs)) /\
     Forall2 (spec_of compile_expr h cls) (nchildren (h (S ft))) (numbered (part false specs)) /\
     NoDup (map fst (numbered (part true specs) ++ numbered (part false specs))) /\
     ft_default (numbered (part true specs)) /\ pt_default (numbered (part false specs))).
Proof.
  intros Hp Bf In0 Tt Hc Nn Pr.
  assert (Hi : incl (used p) names).
  { destruct Bf as [_ (side & Bs)]. intros s Hs. apply (sections_used side _ s p false [] [] Bs Hs). }
  destruct (header_columns size names cells table trace (used p) Tt Hc Nn Hi Pr) as (m' & Em' & Hm).
  destruct (text_ready mission py 0 size names cells table content trace p Hp Bf Tt Hc Nn Pr) as (m & specs & Em & Ee & Ek & _ & Se).
  rewrite Em in Em'. injection Em' as <-.
  exists m, specs. split; [exact Em|]. split; [exact Ee|]. split; [exact Ek|]. split; [exact Se|]. intros Hw.
  assert (Hf : past_flat specs).
  { unfold past_flat. eapply Forall_impl; [|exact Hw]. intros [k s] K Ek'. cbn [fst snd] in *. subst k. exact K. }
  pose proof (recorded_kept m names p specs Bf Hm In0 Ee Hf) as Hd.
  assert (Big : exists c, Forall (fun s => (need s < c)%Z) specs).
  { clear. induction specs as [|s specs (c & IH)]; [exists 0%Z; constructor|]. exists (Z.max c (need s + 1))%Z. constructor; [lia|].
    eapply Forall_impl; [|exact IH]. cbv beta. intros; lia. }
  destruct Big as (c & Big).
  destruct (text_ready mission py c size names cells table content trace p Hp Bf Tt Hc Nn Pr) as (m2 & specs2 & Em2 & Ee2 & _ & Rd & _).
  rewrite Em in Em2. injection Em2 as <-. rewrite Ee in Ee2. injection Ee2 as <-. specialize (Rd Big). cbv zeta in Rd.
  destruct Rd as ((T & G1) & G2 & G3 & G4 & G5 & G6 & G7 & G8 & G9 & G10 & G11 & G12 & G13 & G14 & G15 & G16).
  cbv zeta.
  set (os := build m p specs) in *. set (ft := future_set _ _ _) in *.
  assert (Gr : ft_default (numbered (part true specs))).
  { unfold ft_default. unfold ft_ready in G15.
    pose proof (part_Forall (fun k s => let e := compile_expr (snd s) in if k then modest_formula e else flat_formula e) true specs Hw) as Hw2. cbv beta zeta in Hw2.
    unfold numbered in *. apply Forall_map in G15. apply Forall_map. rewrite Forall_forall in *. intros s Hs. destruct (G15 s Hs) as (K1 & K2 & K3 & _). cbn [snd] in *.
    split; [exact K1|]. split; [exact K2|]. split; [exact K3|]. exact (Hw2 s Hs). }
  assert (Gq : pt_default (numbered (part false specs))).
  { unfold pt_default. unfold pt_ready in G16.
    pose proof (part_Forall (fun k s => let e := compile_expr (snd s) in if k then modest_formula e else flat_formula e) false specs Hw) as Hw2. cbv beta zeta in Hw2.
    unfold numbered in *. apply Forall_map in G16. apply Forall_map. rewrite Forall_forall in *. intros s Hs. destruct (G16 s Hs) as (K1 & K2 & K3 & _). cbn [snd] in *.
    split; [exact K1|]. split; [exact K2|]. split; [exact K3|]. exact (Hw2 s Hs). }
  split; [exists T; exact G1|]. repeat (split; [assumption|]). exact Gq.
Qed.

Section C.
Local Existing Instance C_monitor.
Lemma default_text_to_reports mission py const size names cells table content trace p aux :
  parse_c2po mission py content = Some p -> boolean_file names p -> instant_names p ->
  trace_text size (Some cells) table trace -> Forall2 header_cell names cells -> NoDup names ->
  Forall (fun row => plain_row row /\ List.length row = List.length names) table ->
  (0 <= const)%Z ->
  exists m specs, parse_trace (used p) trace = Mapped m (List.length table) /\ elaborate m p = Some specs /\ map fst specs = kinds p /\
  (Forall (fun s : bool * item => let e := compile_expr (snd (snd s)) in if fst s then modest_formula e else flat_formula e) specs ->
   exists depth0, forall depth, depth0 <= depth -> exists fuel0 asm,
    (forall fuel, fuel0 <= fuel -> compile_recorded mission py const depth fuel content trace = Some asm) /\
    forall bytes, Forall fits asm -> (arena_slots asm < 2 ^ 32)%Z -> assemble_binary asm aux = Some bytes ->
    exists prog confs passes0, boot bytes = Some (prog, confs) /\
      forall passes, passes0 <= passes ->
      exists atoms mon, c_atoms size trace = Some atoms /\ run passes atoms prog (init prog confs) = Some mon /\
        forall v, agrees names table v ->
        Forall2 (answers (fun k => reports k mon) (List.length table)) specs (meanings (fun s t => v s t = true) p)).
Proof.
  intros Hp Bf In0 Tt Hc Nn Ft Cn.
  assert (Pr : Forall plain_row table) by (eapply Forall_impl; [|exact Ft]; intros r [K _]; exact K).
  assert (Wd : Forall (fun row => List.length row = List.length names) table) by (eapply Forall_impl; [|exact Ft]; intros r [_ K]; exact K).
  destruct (default_ready mission py size names cells table content trace p Hp Bf In0 Tt Hc Nn Pr) as (m & specs & Em & Ee & Ek & Se & Rd).
  exists m, specs. split; [exact Em|]. split; [exact Ee|]. split; [exact Ek|]. intros Hw. specialize (Rd Hw). cbv zeta in Rd.
  destruct Rd as ((T & G1) & G2 & G3 & G4 & G5 & G6 & G7 & G8 & G9 & G10 & G11 & G12 & G13 & G14 & G15 & G16 & G17).
  destruct (default_sections_end_to_end _ _ _ (fun n => fst (nth n (recorded m p) (0, 0)%Z)) (fun n => snd (nth n (recorded m p) (0, 0)%Z)) const _ _ _ _ aux
              G1 G2 G3 G4 G5 G6 G7 G8 G9 G10 G11 G12 G13 G14 G15 G16 G17 Cn) as (d0 & E).
  exists d0. intros depth Hdp. destruct (E depth Hdp) as (fuel0 & h' & asm & A & B0). exists fuel0, asm. split.
  { intros fuel Hf. destruct (A fuel Hf) as [A1 A2]. unfold compile_recorded. rewrite Hp, Em. unfold compile_files. rewrite Hp, Em, Ee. rewrite A1. exact A2. }
  intros bytes F1 F2 F3. destruct (B0 bytes F1 F2 F3) as (prog & confs & passes0 & Bt & R). exists prog, confs, passes0.
  split; [exact Bt|]. intros passes Ps. clear A B0 E.
  assert (Ho : header_ok (Some cells)) by (apply (strip_cells names cells Hc)).
  destruct (atoms_table size (Some cells) table trace Tt Ho Pr) as (atoms & Ea & La & Ca).
  destruct (R (extended atoms names (fun _ _ => false)) (List.length atoms) passes Ps) as (mon & Rm & _). rewrite extended_rows in Rm.
  exists atoms, mon. split; [exact Ea|]. split; [exact Rm|]. intros v Av.
  destruct (R (extended atoms names v) (List.length atoms) passes Ps) as (mon' & Rm' & Sf & Sp). rewrite extended_rows, Rm in Rm'. injection Rm' as <-.
  rewrite La in Sf, Sp. apply (reports_meanings (extended atoms names v)); [exact Sf|exact Sp|].
  apply Se. exact (extended_agrees atoms names table v La Wd Av Ca).
Qed.
End C.

(** The Rust monitor *)
Lemma rust_default_text_to_reports mission py const size names cells table values content trace p aux :
  parse_c2po mission py content = Some p -> boolean_file names p -> instant_names p ->
  trace_text size (Some cells) table trace -> Forall2 header_cell names cells -> NoDup names ->
  Forall (fun row => List.length row = List.length names) table ->
  Forall2 (Forall2 integer) table values -> Forall (Forall (fun z => (- 2 ^ 31 <= z < 2 ^ 31)%Z)) values ->
  (0 <= const)%Z ->
  exists m specs, parse_trace (used p) trace = Mapped m (List.length table) /\ elaborate m p = Some specs /\ map fst specs = kinds p /\
  (Forall (fun s : bool * item => let e := compile_expr (snd (snd s)) in if fst s then modest_formula e else flat_formula e) specs ->
   exists depth0, forall depth, depth0 <= depth -> exists fuel0 asm,
    (forall fuel, fuel0 <= fuel -> compile_recorded mission py const depth fuel content trace = Some asm) /\
    forall bytes, Forall fits asm -> Forall small aux -> (arena_slots asm < 2 ^ 32)%Z -> assemble_binary asm aux = Some bytes ->
    exists prog confs passes0, rust_boot bytes = Some (prog, confs) /\
      forall passes, passes0 <= passes ->
      exists atoms mon, rust_atoms trace = Some atoms /\ RustEngine.rust_run passes (rust_rows atoms) prog (rust_init prog confs) = Finished mon /\
        forall v, agrees names table v ->
        Forall2 (answers (fun k => reports k mon) (List.length table)) specs (meanings (fun s t => v s t = true) p)).
Proof.
  intros Hp Bf In0 Tt Hc Nn Wd V Bv Cn.
  destruct (rust_table size names cells table values trace Tt Hc Wd V Bv) as (Pr & atoms & Er & La & Ca).
  destruct (default_ready mission py size names cells table content trace p Hp Bf In0 Tt Hc Nn Pr) as (m & specs & Em & Ee & Ek & Se & Rd).
  exists m, specs. split; [exact Em|]. split; [exact Ee|]. split; [exact Ek|]. intros Hw. specialize (Rd Hw). cbv zeta in Rd.
  destruct Rd as ((T & G1) & G2 & G3 & G4 & G5 & G6 & G7 & G8 & G9 & G10 & G11 & G12 & G13 & G14 & G15 & G16 & G17).
  destruct (rust_default_sections_end_to_end _ _ _ (fun n => fst (nth n (recorded m p) (0, 0)%Z)) (fun n => snd (nth n (recorded m p) (0, 0)%Z)) const _ _ _ _ aux
              G1 G2 G3 G4 G5 G6 G7 G8 G9 G10 G11 G12 G13 G14 G15 G16 G17 Cn) as (d0 & E).
  exists d0. intros depth Hdp. destruct (E depth Hdp) as (fuel0 & h' & asm & A & B0). exists fuel0, asm. split.
  { intros fuel Hf. destruct (A fuel Hf) as [A1 A2]. unfold compile_recorded. rewrite Hp, Em. unfold compile_files. rewrite Hp, Em, Ee. rewrite A1. exact A2. }
  intros bytes F1 F0 F2 F3. destruct (B0 bytes F1 F0 F2 F3) as (prog & confs & passes0 & Bt & R). exists prog, confs, passes0.
  split; [exact Bt|]. intros passes Ps. clear A B0 E.
  destruct (R (extended (rust_rows atoms) names (fun _ _ => false)) (List.length (rust_rows atoms)) passes Ps) as (mon & Rm & _). rewrite extended_rows in Rm.
  exists atoms, mon. split; [exact Er|]. split; [exact Rm|]. intros v Av.
  destruct (R (extended (rust_rows atoms) names v) (List.length (rust_rows atoms)) passes Ps) as (mon' & Rm' & Sf & Sp). rewrite extended_rows, Rm in Rm'. injection Rm' as <-.
  rewrite La in Sf, Sp. apply (reports_meanings (extended (rust_rows atoms) names v)); [exact Sf|exact Sp|].
  apply Se. exact (extended_agrees (rust_rows atoms) names table v La Wd Av Ca).
Qed.
