(** * Contracts (proofs) *)
From Coq Require Import List Arith Bool String Permutation Lia.
Require Import Verif.Mltl Verif.MltlEval Verif.Scq Verif.Engine Verif.Monitoring Verif.Contracts Verif.ContractSpec.
Import ListNotations.
Local Existing Instance C_monitor.

(** ** Expansion *)
Definition expand (s : spec) : list spec := if is_contract s then new_formulas s else [s].
Definition no_contract (l : list spec) : Prop := Forall (fun s => is_contract s = false) l.
Lemma splice_first : forall l1 c l2 new, is_contract c = true -> no_contract l1 -> splice (l1 ++ c :: l2) c new = Some (l1 ++ new ++ l2).
Proof.
  induction l1 as [|x l1 IH]; intros c l2 new Hc H; cbn.
  - destruct c; [discriminate|]. cbn. rewrite String.eqb_refl. reflexivity.
  - inversion H; subst. rewrite IH by assumption. destruct x; [reflexivity|discriminate].
Qed.
Lemma splice_none : forall l c new, no_contract l -> splice l c new = None.
Proof.
  induction l as [|x l IH]; intros c new H; [reflexivity|]. inversion H; subst. cbn. rewrite IH by assumption.
  destruct x; [reflexivity|discriminate].
Qed.
Lemma new_no_contract s : no_contract (new_formulas s).
Proof. destruct s; repeat constructor. Qed.
Lemma expand_no_contract s : no_contract (expand s).
Proof. unfold expand. destruct (is_contract s) eqn:E; [apply new_no_contract|repeat constructor; exact E]. Qed.
Lemma flat_no_contract l : no_contract (flat_map expand l).
Proof. unfold no_contract. induction l as [|s l IH]; cbn; [constructor|]. apply Forall_app. split; [apply expand_no_contract|exact IH]. Qed.

Lemma resolve_ft pt cs : forall rest done, no_contract done ->
  resolve_loop (Prog (done ++ rest) pt) (filter is_contract rest ++ cs) = resolve_loop (Prog (done ++ flat_map expand rest) pt) cs.
Proof.
  induction rest as [|s rest IH]; intros done H; [reflexivity|]. cbn [filter flat_map]. unfold expand at 1.
  destruct (is_contract s) eqn:E.
  - cbn [app resolve_loop]. unfold replace_spec. cbn [ft_specs pt_specs]. rewrite splice_first by assumption.
    rewrite app_assoc, IH; [rewrite app_assoc; reflexivity|]. apply Forall_app. split; [exact H|apply new_no_contract].
  - change (done ++ s :: rest) with (done ++ [s] ++ rest). rewrite app_assoc, IH.
    + rewrite <- app_assoc. reflexivity.
    + apply Forall_app. split; [exact H|repeat constructor; exact E].
Qed.
Lemma resolve_pt ft : no_contract ft -> forall rest done, no_contract done ->
  resolve_loop (Prog ft (done ++ rest)) (filter is_contract rest) = Some (Prog ft (done ++ flat_map expand rest)).
Proof.
  intros Hf. induction rest as [|s rest IH]; intros done H; [reflexivity|]. cbn [filter flat_map]. unfold expand at 1.
  destruct (is_contract s) eqn:E.
  - cbn [resolve_loop]. unfold replace_spec. cbn [ft_specs pt_specs]. rewrite splice_none, splice_first by assumption. cbn [option_map].
    rewrite app_assoc, IH; [rewrite app_assoc; reflexivity|]. apply Forall_app. split; [exact H|apply new_no_contract].
  - change (done ++ s :: rest) with (done ++ [s] ++ rest). rewrite app_assoc, IH.
    + rewrite <- app_assoc. reflexivity.
    + apply Forall_app. split; [exact H|repeat constructor; exact E].
Qed.
Lemma resolve_all p : resolve_contracts p = Some (Prog (flat_map expand (ft_specs p)) (flat_map expand (pt_specs p))).
Proof.
  destruct p as [ft pt]. unfold resolve_contracts, get_specs. cbn [ft_specs pt_specs]. rewrite filter_app.
  pose proof (resolve_ft pt (filter is_contract pt) ft [] (Forall_nil _)) as A. cbn [app] in A. rewrite A.
  exact (resolve_pt (flat_map expand ft) (flat_no_contract ft) pt [] (Forall_nil _)).
Qed.

Lemma resolved p : resolve_contracts p = Some (Prog (flat_map monitored_as (ft_specs p)) (flat_map monitored_as (pt_specs p))).
Proof.
  rewrite resolve_all. assert (E : forall l, flat_map expand l = flat_map monitored_as l); [|rewrite !E; reflexivity].
  intros l. apply flat_map_ext. intros []; reflexivity.
Qed.

(** ** Numbers *)
Definition numbers (s : spec) : list nat := match s with Formula _ n _ => [n] | Contract _ n0 n1 n2 _ _ => [n0; n1; n2] end.
Lemma parse_specs_numbers : forall ds n, n <= snd (parse_specs n ds) /\
  flat_map numbers (fst (parse_specs n ds)) = seq n (snd (parse_specs n ds) - n).
Proof.
  induction ds as [|d ds IH]; intros n; cbn.
  - rewrite Nat.sub_diag. split; [lia|reflexivity].
  - destruct d as [[l|] e|l a g]; cbn;
      match goal with |- context [parse_specs ?m ds] => destruct (IH m) as [L E]; destruct (parse_specs m ds) as [r k] end; cbn in *;
      (split; [lia|]); rewrite E.
    + replace (k - n) with (S (k - (n + 1))) by lia. cbn. f_equal. f_equal; lia.
    + replace (k - n) with (S (k - (n + 1))) by lia. cbn. f_equal. f_equal; lia.
    + replace (k - n) with (S (S (S (k - (n + 3))))) by lia. cbn. do 2 f_equal; [lia|]. f_equal; [lia|]. f_equal; lia.
Qed.
Lemma parse_sections_numbers : forall ss n, exists k, flat_map numbers (flat_map snd (parse_sections n ss)) = seq n k.
Proof.
  induction ss as [|[ft ds] ss IH]; intros n; cbn; [exists 0; reflexivity|].
  destruct (parse_specs_numbers ds n) as [L E]. destruct (parse_specs n ds) as [l n1]. cbn in *.
  destruct (IH n1) as [k Hk]. exists ((n1 - n) + k). rewrite flat_map_app, E, Hk, seq_app. do 2 f_equal. lia.
Qed.
Lemma program_permutation : forall secs : list (bool * list spec), Permutation (get_specs (program_of secs)) (flat_map snd secs).
Proof.
  unfold get_specs, program_of. cbn [ft_specs pt_specs]. induction secs as [|[[|] l] secs IH]; cbn; [constructor| |].
  - rewrite <- app_assoc. apply Permutation_app_head, IH.
  - rewrite Permutation_app_comm, <- app_assoc. apply Permutation_app_head. rewrite Permutation_app_comm. exact IH.
Qed.
Lemma flat_permutation {A B} (f : A -> list B) l l' : Permutation l l' -> Permutation (flat_map f l) (flat_map f l').
Proof.
  induction 1; cbn; [constructor|apply Permutation_app_head; assumption| |eapply Permutation_trans; eassumption].
  rewrite !app_assoc. apply Permutation_app_tail, Permutation_app_comm.
Qed.
Lemma numbers_nodup ss : NoDup (flat_map numbers (flat_map snd (parse_sections 0 ss))).
Proof. destruct (parse_sections_numbers ss 0) as [k ->]. apply seq_NoDup. Qed.
Lemma nodup_app {A} : forall (l m : list A), NoDup (l ++ m) -> NoDup l /\ NoDup m /\ forall x, In x l -> In x m -> False.
Proof.
  induction l as [|a l IH]; intros m H; cbn in *; [repeat split; [constructor|exact H|intros ? []]|].
  inversion H as [|? ? N H']; subst. destruct (IH m H') as (A1 & A2 & A3). repeat split.
  - constructor; [intros F; apply N, in_app_iff; auto|exact A1].
  - exact A2.
  - intros x [->|Hx] Hm; [apply N, in_app_iff; auto|eauto].
Qed.
Lemma flat_owner {A B} (f : A -> list B) : forall l x y k, NoDup (flat_map f l) -> In x l -> In y l -> In k (f x) -> In k (f y) -> x = y.
Proof.
  induction l as [|a l IH]; intros x y k H Hx Hy Kx Ky; [destruct Hx|]. cbn in H. apply nodup_app in H as (H1 & H2 & H3).
  destruct Hx as [->|Hx], Hy as [->|Hy]; [reflexivity| | |eauto].
  - destruct (H3 k Kx). apply in_flat_map. eauto.
  - destruct (H3 k Ky). apply in_flat_map. eauto.
Qed.

(** ** Tables *)
Lemma add_new : forall t c, ~ In (e_label c) (map e_label t) -> add_contract t c = t ++ [c].
Proof.
  induction t as [|x t IH]; intros c H; cbn in *; [reflexivity|]. destruct (String.eqb_spec (e_label x) (e_label c)) as [E|E]; [tauto|].
  rewrite IH by tauto. reflexivity.
Qed.
Lemma add_all : forall cs t, NoDup (map e_label (t ++ cs)) -> fold_left add_contract cs t = t ++ cs.
Proof.
  induction cs as [|c cs IH]; intros t H; cbn; [rewrite app_nil_r; reflexivity|].
  rewrite add_new.
  - rewrite IH; rewrite <- app_assoc; [reflexivity|exact H].
  - rewrite map_app in H. apply nodup_app in H as (_ & _ & H). intros F. apply (H _ F). left; reflexivity.
Qed.
Lemma parse_specs_entries : forall ds n, map e_label (flat_map contract_entry (fst (parse_specs n ds))) =
  flat_map (fun d => match d with DContract l _ _ => [l] | _ => [] end) ds.
Proof.
  induction ds as [|d ds IH]; intros n; [reflexivity|]. destruct d as [[l|] e|l a g]; cbn;
    match goal with |- context [parse_specs ?m ds] => specialize (IH m); destruct (parse_specs m ds) as [r k] end; cbn in *; congruence.
Qed.
Lemma parse_sections_entries : forall ss n, map e_label (flat_map contract_entry (flat_map snd (parse_sections n ss))) = contract_labels ss.
Proof.
  unfold contract_labels. induction ss as [|[ft ds] ss IH]; intros n; [reflexivity|]. cbn [parse_sections flat_map snd].
  pose proof (parse_specs_entries ds n) as E. destruct (parse_specs n ds) as [l n1]. cbn [flat_map snd fst] in *.
  rewrite flat_map_app, map_app, E, IH. reflexivity.
Qed.
Lemma declared_parsed l a g : forall ss n, declared ss l a g ->
  exists k, In (Contract l k (k + 1) (k + 2) a g) (flat_map snd (parse_sections n ss)).
Proof.
  assert (P : forall ds n, In (DContract l a g) ds -> exists k, In (Contract l k (k + 1) (k + 2) a g) (fst (parse_specs n ds))).
  { induction ds as [|d ds IH]; intros n H; [destruct H|]. cbn. destruct (parse_spec n d) as [s n1] eqn:E.
    destruct (parse_specs n1 ds) as [r k] eqn:E2. cbn. destruct H as [->|H].
    - injection E as <- <-. exists n. left; reflexivity.
    - destruct (IH n1 H) as [j Hj]. rewrite E2 in Hj. exists j. right; exact Hj. }
  induction ss as [|[ft ds] ss IH]; intros n (f & d & H1 & H2); [destruct H1|]. cbn.
  destruct (parse_specs n ds) as [r n1] eqn:E. cbn. destruct H1 as [H1|H1].
  - injection H1 as -> ->. destruct (P d n H2) as [k Hk]. rewrite E in Hk. exists k. apply in_app_iff. left; exact Hk.
  - destruct (IH n1) as [k Hk]; [exists f, d; auto|]. exists k. apply in_app_iff. right; exact Hk.
Qed.

(** ** Lines *)
Definition concerns (e : entry) (num : nat) : Prop := num = e_0 e \/ num = e_1 e \/ num = e_2 e.
Lemma line_inv : forall t num b u l s v, In (l, s, v) (contract_line t (num, (b, u))) ->
  v = u /\ exists e, In e t /\ e_label e = l /\
    match s with Inactive => num = e_0 e /\ b = false | Invalid => num = e_1 e /\ b = false | Verified => num = e_2 e /\ b = true end.
Proof.
  induction t as [|e t IH]; intros num b u l s v H; [destruct H|]. cbn in H.
  destruct (Nat.eqb_spec num (e_0 e)) as [E0|E0]; destruct (Nat.eqb_spec num (e_1 e)) as [E1|E1];
    destruct (Nat.eqb_spec num (e_2 e)) as [E2|E2]; destruct b; cbn in H;
    try (destruct H as [H|[]]; injection H as <- <- <-; split; [reflexivity|]; exists e; cbn; auto; fail);
    (apply IH in H as (-> & e' & He' & R); split; [reflexivity|]; exists e'; split; [right; exact He'|exact R]).
Qed.
Lemma line_own : forall t num b u e s, In e t -> (forall e', In e' t -> concerns e' num -> e' = e) ->
  e_0 e <> e_1 e -> e_0 e <> e_2 e -> e_1 e <> e_2 e ->
  match s with Inactive => num = e_0 e /\ b = false | Invalid => num = e_1 e /\ b = false | Verified => num = e_2 e /\ b = true end ->
  In (e_label e, s, u) (contract_line t (num, (b, u))).
Proof.
  induction t as [|x t IH]; intros num b u e s H U D1 D2 D3 S; [destruct H|].
  assert (C : x = e \/ ~ concerns x num /\ In e t).
  { destruct H as [H|H]; [left; exact H|]. unfold concerns in *.
    destruct (Nat.eq_dec num (e_0 x)); [left; apply U; cbn; auto|]. destruct (Nat.eq_dec num (e_1 x)); [left; apply U; cbn; auto|].
    destruct (Nat.eq_dec num (e_2 x)); [left; apply U; cbn; auto|]. right; split; [tauto|exact H]. }
  cbn [contract_line]. destruct C as [->|[C H']].
  - destruct s, S as [-> ->]; rewrite ?Nat.eqb_refl; cbn [andb negb]; try (left; reflexivity).
    + destruct (Nat.eqb_spec (e_1 e) (e_0 e)); [congruence|]. left; reflexivity.
    + destruct (Nat.eqb_spec (e_2 e) (e_0 e)); [congruence|]. destruct (Nat.eqb_spec (e_2 e) (e_1 e)); [congruence|]. left; reflexivity.
  - unfold concerns in C. destruct (Nat.eqb_spec num (e_0 x)); [tauto|]. destruct (Nat.eqb_spec num (e_1 x)); [tauto|].
    destruct (Nat.eqb_spec num (e_2 x)); [tauto|]. cbn [andb]. apply IH; auto. intros e' He'. apply U. right; exact He'.
Qed.

(** ** Reports *)
Lemma increasing_before : forall rs before v after, increasing rs -> rs = before ++ v :: after -> forall w, In w before -> snd w < snd v.
Proof.
  induction rs as [|x rs IH]; intros before v after H E w Hw; [destruct before; discriminate|].
  destruct before as [|y before]; [destruct Hw|]. injection E as -> E.
  assert (I : increasing rs) by (destruct rs; [exact I|apply H]).
  assert (first : forall z, In z rs -> snd y < snd z).
  { clear -H. revert y H. induction rs as [|a rs IH]; intros y H z Hz; [destruct Hz|]. destruct H as [H1 H2].
    destruct Hz as [->|Hz]; [exact H1|]. specialize (IH a H2 z Hz). lia. }
  destruct Hw as [->|Hw]; [apply first; subst rs; apply in_app_iff; right; left; reflexivity|].
  eapply IH; eauto.
Qed.
Lemma report_at_itself rs b u : increasing rs -> In (b, u) rs -> reported rs u b.
Proof.
  intros H Hin. apply in_split in Hin as (be & af & E). exists be, u, af. split; [exact E|]. split; [lia|].
  intros v Hv. change u with (snd (b, u)). eapply increasing_before; eauto.
Qed.
Lemma in_out_of n out v : In v (out_of n out) <-> In (n, v) out.
Proof.
  unfold out_of. rewrite in_map_iff. split.
  - intros ([m w] & <- & H). apply filter_In in H as [H E]. cbn in *. apply Nat.eqb_eq in E as ->. exact H.
  - intros H. exists (n, v). split; [reflexivity|]. apply filter_In. cbn. rewrite Nat.eqb_refl. auto.
Qed.

Lemma formulas_flat p p' : resolve_contracts p = Some p' ->
  formulas p' = flat_map (fun s => match s with Formula _ n e => [(n, e)] | Contract _ n0 n1 n2 a g => [(n0, a); (n1, EImpl a g); (n2, EAnd [a; g])] end) (get_specs p).
Proof.
  rewrite resolve_all. intros H. injection H as <-. unfold formulas, get_specs. cbn [ft_specs pt_specs].
  rewrite <- flat_map_app. induction (ft_specs p ++ pt_specs p) as [|s l IH]; [reflexivity|].
  cbn [flat_map]. rewrite flat_map_app, IH. destruct s; reflexivity.
Qed.

Lemma sat_choice tr e t : sat tr e t \/ ~ sat tr e t.
Proof. destruct (den tr e t) eqn:E; [left; apply den_sat, E|right; apply den_false_sat, E]. Qed.
Lemma one_status tr a g t : exists s, has_status tr a g t s /\ forall s', has_status tr a g t s' -> s' = s.
Proof.
  destruct (sat_choice tr a t) as [A|A]; [destruct (sat_choice tr g t) as [G|G]|].
  - exists Verified. split; [split; assumption|]. intros []; cbn; tauto.
  - exists Invalid. split; [split; assumption|]. intros []; cbn; tauto.
  - exists Inactive. split; [exact A|]. intros []; cbn; tauto.
Qed.

Section Monitored.
  Variables (ss : list section) (tr : trace) (out : list (nat * verdict)) (bound : nat) (p' : program).
  Notation secs := (parse_sections 0 ss).
  Hypothesis Res : resolve_contracts (program_of secs) = Some p'.
  Hypothesis Out : forall n e, In (n, e) (formulas p') -> true_reports tr out n e.
  Hypothesis Labels : NoDup (contract_labels ss).
  Hypothesis Room : List.length (contract_labels ss) < bound.

  Notation entries := (flat_map contract_entry (flat_map snd secs)).
  Lemma table_all : loaded_contracts bound (contract_table secs) = entries.
  Proof.
    assert (E : contract_table secs = entries).
    { unfold contract_table. rewrite add_all; [reflexivity|]. cbn [app]. rewrite parse_sections_entries. exact Labels. }
    rewrite E. unfold loaded_contracts. apply firstn_all2.
    rewrite <- (map_length e_label), parse_sections_entries. lia.
  Qed.
  Lemma entry_owner e e' n : In e entries -> In e' entries -> concerns e n -> concerns e' n -> e' = e.
  Proof.
    intros H H' C C'. apply in_flat_map in H as (s & Hs & He). apply in_flat_map in H' as (s' & Hs' & He').
    assert (Q : forall s e, In e (contract_entry s) -> concerns e n -> In n (numbers s)).
    { intros [|] x []; [subst x; intros [->|[->| ->]]; cbn; auto|contradiction]. }
    assert (Es : s = s') by (eapply flat_owner; [apply numbers_nodup|exact Hs|exact Hs'|eapply Q; eassumption|eapply Q; eassumption]).
    subst s'. destruct s; [destruct He|]. destruct He as [<-|[]], He' as [<-|[]]. reflexivity.
  Qed.
  Lemma same_label e e' : In e entries -> In e' entries -> e_label e = e_label e' -> e = e'.
  Proof.
    pose proof Labels as L. rewrite <- (parse_sections_entries ss 0) in L. revert L. generalize entries. clear.
    induction l as [|x l IH]; intros N H H' E; [destruct H|]. inversion N; subst. destruct H as [->|H], H' as [->|H']; auto.
    - destruct H2. rewrite E. apply in_map, H'.
    - destruct H2. rewrite <- E. apply in_map, H.
  Qed.
  Lemma in_specs s : In s (flat_map snd secs) -> In s (get_specs (program_of secs)).
  Proof. apply Permutation_in, Permutation_sym, program_permutation. Qed.

  Variables (l : string) (a g : expr).
  Hypothesis Decl : declared ss l a g.

  Lemma own_entry : exists k, In (Entry l k (k + 1) (k + 2)) entries /\
    In (k, a) (formulas p') /\ In (k + 1, EImpl a g) (formulas p') /\ In (k + 2, EAnd [a; g]) (formulas p').
  Proof.
    destruct (declared_parsed l a g ss 0 Decl) as [k Hk]. exists k. split.
    - apply in_flat_map. exists (Contract l k (k + 1) (k + 2) a g). split; [exact Hk|left; reflexivity].
    - rewrite (formulas_flat _ _ Res). apply in_specs in Hk. repeat split; apply in_flat_map;
        (exists (Contract l k (k + 1) (k + 2) a g); split; [exact Hk|cbn; auto]).
  Qed.
  Lemma sat_impl t : sat tr (EImpl a g) t <-> (sat tr a t -> sat tr g t).
  Proof. reflexivity. Qed.
  Lemma sat_and t : sat tr (EAnd [a; g]) t <-> sat tr a t /\ sat tr g t.
  Proof. cbn. tauto. Qed.

  Lemma lines_sound s t : In (l, s, t) (contract_lines (loaded_contracts bound (contract_table secs)) out) -> has_status tr a g t s.
  Proof.
    rewrite table_all. unfold contract_lines. intros H. apply in_flat_map in H as ([num [b u]] & Ho & H).
    apply line_inv in H as (-> & e & He & El & S). destruct own_entry as (k & Hk & F0 & F1 & F2).
    assert (e = Entry l k (k + 1) (k + 2)) by (apply same_label; auto). subst e. cbn in S.
    assert (V : forall n f, In (n, f) (formulas p') -> num = n -> (b = true <-> sat tr f u)).
    { intros n f Hf ->. destruct (Out n f Hf) as [I R]. apply R, report_at_itself; [exact I|]. apply in_out_of, Ho. }
    destruct s, S as [S1 S2]; cbn.
    - rewrite <- (V k a F0 S1). congruence.
    - pose proof (V _ _ F1 S1) as W. rewrite sat_impl in W. subst b.
      destruct (sat_choice tr a u) as [A|A]; [|exfalso; destruct W as [_ W]; discriminate W; tauto].
      split; [exact A|]. intros G. destruct W as [_ W]. discriminate W. tauto.
    - pose proof (V _ _ F2 S1) as W. rewrite sat_and in W. apply W, S2.
  Qed.

  Lemma lines_complete s t :
    (forall n e, In (n, e) (formulas p') -> exists b, reported (out_of n out) t b) -> has_status tr a g t s ->
    exists u, t <= u /\ In (l, s, u) (contract_lines (loaded_contracts bound (contract_table secs)) out) /\
      forall t', t <= t' <= u -> has_status tr a g t' s.
  Proof.
    rewrite table_all. intros All S. destruct own_entry as (k & Hk & F0 & F1 & F2).
    assert (P : forall n f b, In (n, f) (formulas p') -> concerns (Entry l k (k + 1) (k + 2)) n -> (b = true <-> sat tr f t) ->
      match s with Inactive => n = k /\ b = false | Invalid => n = k + 1 /\ b = false | Verified => n = k + 2 /\ b = true end ->
      exists u, t <= u /\ In (l, s, u) (contract_lines entries out) /\ forall t', t <= t' <= u -> (b = true <-> sat tr f t')).
    { intros n f b Hf Hc Hb Hs. destruct (All n f Hf) as [b' R]. destruct (Out n f Hf) as [I So].
      assert (b' = b).
      { apply So in R as R'. destruct b, b'; try reflexivity; [symmetry|]; intuition. }
      subst b'. destruct R as (be & u & af & E & Hu & Hbe). exists u. split; [exact Hu|]. split.
      - unfold contract_lines. apply in_flat_map. exists (n, (b, u)). split.
        + apply in_out_of. rewrite E. apply in_app_iff. right; left; reflexivity.
        + change l with (e_label (Entry l k (k + 1) (k + 2))). apply line_own; try (cbn; lia); try exact Hk.
          * intros e' He' C. eapply entry_owner; eassumption.
          * destruct s; exact Hs.
      - intros t' Ht'. apply So. exists be, u, af. split; [exact E|]. split; [lia|]. intros v Hv. specialize (Hbe v Hv). lia. }
    destruct s; cbn in S.
    - destruct (P k a false F0) as (u & U1 & U2 & U3); [left; reflexivity|split; [discriminate|tauto]|auto|].
      exists u. repeat split; auto. intros t' Ht'. cbn. rewrite <- (U3 t' Ht'). discriminate.
    - destruct (P (k + 1) (EImpl a g) false F1) as (u & U1 & U2 & U3); [right; left; reflexivity|rewrite sat_impl; split; [discriminate|tauto]|auto|].
      exists u. split; [exact U1|]. split; [exact U2|]. intros t' Ht'. specialize (U3 t' Ht'). rewrite sat_impl in U3. cbn.
      destruct (sat_choice tr a t') as [A|A]; [|exfalso; destruct U3 as [_ U3]; discriminate U3; tauto].
      split; [exact A|]. intros G. destruct U3 as [_ U3]. discriminate U3. tauto.
    - destruct (P (k + 2) (EAnd [a; g]) true F2) as (u & U1 & U2 & U3); [right; right; reflexivity|rewrite sat_and; tauto|auto|].
      exists u. split; [exact U1|]. split; [exact U2|]. intros t' Ht'. apply sat_and, (U3 t' Ht'). reflexivity.
  Qed.
End Monitored.

(** ** Names *)
Lemma resolved_numbers l : flat_map (fun s => match s with Formula _ n _ => [n] | _ => [] end) (flat_map expand l) = flat_map numbers l.
Proof. induction l as [|s l IH]; [reflexivity|]. cbn [flat_map]. rewrite flat_map_app, IH. destruct s; reflexivity. Qed.
Lemma future_first_order : forall ss n, future_first ss -> get_specs (program_of (parse_sections n ss)) = flat_map snd (parse_sections n ss).
Proof.
  assert (P : forall ss n, Forall (fun s : section => fst s = false) ss ->
    flat_map (fun s : bool * list spec => if fst s then snd s else []) (parse_sections n ss) = [] /\
    flat_map (fun s : bool * list spec => if fst s then [] else snd s) (parse_sections n ss) = flat_map snd (parse_sections n ss)).
  { induction ss as [|[ft ds] ss IH]; intros n H; [auto|]. inversion H; subst. cbn in *. subst ft.
    destruct (parse_specs n ds) as [l n1]. cbn. destruct (IH n1 H3) as [-> ->]. auto. }
  unfold get_specs, program_of. cbn [ft_specs pt_specs].
  induction ss as [|[[|] ds] ss IH]; intros n H; [reflexivity| |]; cbn in *; destruct (parse_specs n ds) as [l n1]; cbn.
  - rewrite <- app_assoc, IH by exact H. reflexivity.
  - destruct (P ss n1 H) as [-> ->]. reflexivity.
Qed.
Lemma names_match ss p' : future_first ss -> resolve_contracts (program_of (parse_sections 0 ss)) = Some p' ->
  forall l n e, In (Formula l n e) (get_specs p') -> printed_name (formula_names p') n = Some l.
Proof.
  intros F R. pose proof (future_first_order ss 0 F) as O. revert R O. generalize (program_of (parse_sections 0 ss)). intros p R O.
  rewrite resolve_all in R. injection R as <-. unfold formula_names, get_specs in *. cbn [ft_specs pt_specs].
  rewrite <- flat_map_app, O. clear O.
  destruct (parse_sections_numbers ss 0) as [k E]. revert E. set (all := flat_map snd _). clearbody all. intros E.
  pose proof (resolved_numbers all) as N. rewrite E in N. revert N. pose proof (flat_no_contract all) as C. revert C.
  generalize (flat_map expand all). clear. intros l0. unfold printed_name.
  assert (G : forall l0 j k, no_contract l0 -> flat_map (fun s => match s with Formula _ n _ => [n] | _ => [] end) l0 = seq j k ->
    forall l n e, In (Formula l n e) l0 -> j <= n /\ nth_error (flat_map (fun s => match s with Formula l _ _ => [l] | _ => [] end) l0) (n - j) = Some l).
  { clear. induction l0 as [|s l0 IH]; intros j k C N l n e H; [destruct H|]. inversion C; subst. destruct s as [l' n' e'|]; [|discriminate].
    cbn in N. destruct k as [|k]; [discriminate|]. cbn in N. injection N as -> N. destruct H as [H|H].
    - injection H as -> -> ->. rewrite Nat.sub_diag. auto.
    - destruct (IH (S j) k H3 N l n e H) as [L Q]. split; [lia|]. replace (n - j) with (S (n - S j)) by lia. exact Q. }
  intros C N l n e H. destruct (G l0 0 k C N l n e H) as [_ Q]. rewrite Nat.sub_0_r in Q. exact Q.
Qed.

(** ** Through the monitor *)
From Coq Require Import ZArith.
Require Import Verif.MltlShape Verif.Transform Verif.Pipeline Verif.Graph Verif.GraphSpec.
Require Import Verif.Binary Verif.BinarySpec Verif.Assembly Verif.Layout Verif.AssemblySpec Verif.LayoutSpec.
Require Import Verif.EndToEnd Verif.EndToEndProofs.

Lemma contract_end_to_end ss p' bound h T cls wpd_of bpd_of const ft pt specs aux :
  let secs := parse_sections 0 ss in
  resolve_contracts (program_of secs) = Some p' -> NoDup (contract_labels ss) -> (List.length (contract_labels ss) < bound)%nat ->
  specs = map (fun f => (Z.of_nat (fst f), snd f)) (formulas p') ->
  denotes h T -> well_shaped h -> nkind (h ft) = KSet -> nkind (h pt) = KSet ->
  named_apart h cls -> cls ft = CSet -> cls pt = CSet -> nchildren (h pt) = [] ->
  tl_shaped h cls -> (forall n, reachable h [ft] n -> assemblable h cls ft_code n) ->
  Forall2 (spec_of compile_expr h cls) (nchildren (h ft)) specs ->
  Forall (fun s => legal (snd s) /\ all_nodes rewrite_source_op (snd s) /\
                   monitorable (compile_expr (snd s)) /\ (wpd (compile_expr (snd s)) < const)%Z) specs ->
  (0 <= const)%Z ->
  exists depth0, forall depth, (depth0 <= depth)%nat -> exists fuel0 h' asm,
    (forall fuel, (fuel0 <= fuel)%nat -> optimize_cse depth fuel h ft pt = Some h' /\
                                         gen_assembly fuel h' cls wpd_of bpd_of const ft pt = Some asm) /\
    forall bytes, Forall fits asm -> (arena_slots asm < 2 ^ 32)%Z -> assemble_binary asm aux = Some bytes ->
    exists prog confs passes0, boot bytes = Some (prog, confs) /\
      forall tr n passes, (passes0 <= passes)%nat ->
      exists m, run passes (rows tr n) prog (init prog confs) = Some m /\
        forall l a g, declared ss l a g ->
          let lines := contract_lines (loaded_contracts bound (contract_table secs)) (m_out m) in
          (forall s t, In (l, s, t) lines -> has_status tr a g t s) /\
          (forall s t, (Z.of_nat t + const <= Z.of_nat n)%Z -> has_status tr a g t s ->
             exists u, (t <= u)%nat /\ In (l, s, u) lines /\ forall t', (t <= t' <= u)%nat -> has_status tr a g t' s).
Proof.
  intros secs Res Labels Room -> D W Kf Kp Na Cf Cp Np Sh As Sp Ok C0.
  assert (Nd : NoDup (map fst (map (fun f => (Z.of_nat (fst f), snd f)) (formulas p')))).
  { rewrite map_map. cbn [fst]. rewrite <- (map_map fst Z.of_nat). apply FinFun.Injective_map_NoDup; [intros x y; apply Nat2Z.inj|].
    rewrite (formulas_flat _ _ Res). eapply Permutation_NoDup; [apply Permutation_sym, Permutation_map, flat_permutation, program_permutation|].
    pose proof (numbers_nodup ss) as N. fold secs in N. revert N. generalize (flat_map snd secs). clear.
    intros l N. match goal with |- NoDup ?x => replace x with (flat_map numbers l); [exact N|] end. clear N.
    induction l as [|s l IH]; [reflexivity|]. cbn. rewrite map_app, IH. destruct s; reflexivity. }
  destruct (end_to_end h T cls wpd_of bpd_of const ft pt _ aux D W Kf Kp Na Cf Cp Np Sh As Sp Nd Ok C0) as [d0 E].
  exists d0. intros depth Hd. destruct (E depth Hd) as (f0 & h' & asm & A & B). exists f0, h', asm. split; [exact A|].
  intros bytes H1 H2 H3. destruct (B bytes H1 H2 H3) as (prog & confs & p0 & Bo & R). exists prog, confs, p0. split; [exact Bo|].
  intros tr n passes Hp. destruct (R tr n passes Hp) as (m & Rm & S). exists m. split; [exact Rm|].
  assert (Q : forall k e, In (k, e) (formulas p') -> increasing (out_of k (m_out m)) /\
     (forall t b, reported (out_of k (m_out m)) t b -> (b = true <-> sat tr e t)) /\
     (forall t, (Z.of_nat t + const <= Z.of_nat n)%Z -> exists b, reported (out_of k (m_out m)) t b)).
  { intros k e H. assert (H' : In (Z.of_nat k, e) (map (fun f => (Z.of_nat (fst f), snd f)) (formulas p')))
      by (apply in_map_iff; exists (k, e); auto).
    destruct (S _ _ H') as (S1 & S2 & S3). rewrite Nat2Z.id in *. split; [exact S1|]. split; [intros t b Hr; apply (S2 t b Hr)|].
    intros t Ht. apply S3. rewrite Forall_forall in Ok. destruct (Ok _ H') as (_ & _ & _ & Hw). cbn [snd] in Hw. lia. }
  assert (F : forall k e, In (k, e) (formulas p') -> true_reports tr (m_out m) k e).
  { intros k e H. destruct (Q k e H) as (Q1 & Q2 & _). split; assumption. }
  intros l a g Decl lines. split.
  - intros s t. exact (lines_sound ss tr (m_out m) bound p' Res F Labels Room l a g Decl s t).
  - intros s t Ht. apply (lines_complete ss tr (m_out m) bound p' Res F Labels Room l a g Decl s t).
    intros k e H. apply (Q k e H), Ht.
Qed.
