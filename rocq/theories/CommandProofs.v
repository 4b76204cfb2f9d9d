(** * Commands (proofs) *)
From Coq Require Import List Arith ZArith Bool Lia.
Require Import Verif.Commands Verif.CommandSpec.
Import ListNotations.

Lemma command_ind' (P : command -> Prop) :
  (forall n gs f, P (Simple n gs f)) ->
  (forall n c cs, P c -> Forall P cs -> P (Composite n c cs)) ->
  forall c, P c.
Proof.
  intros H1 H2. fix IH 1. intros [n gs f|n c cs]; [apply H1|]. apply H2; [apply IH|].
  induction cs as [|d cs IHcs]; constructor; [apply IH|exact IHcs].
Qed.

(** The loop of a composite command. *)
Fixpoint parts (cs : list command) (s : state) : state * cresult * list call :=
  match cs with
  | [] => (s, RCode SUCCESS, [])
  | c :: cs =>
      match check_guards s c with
      | Some g => (s, RGuard (command_name c) g, [])
      | None =>
          let '(s', r, l) := execute c s in
          match r with
          | RCode SUCCESS => let '(s'', r', l') := parts cs s' in (s'', r', l ++ l')
          | r => (s', r, l)
          end
      end
  end.
Lemma execute_parts n c cs s : execute (Composite n c cs) s = parts (c :: cs) s.
Proof. reflexivity. Qed.

Lemma code_dec (r : cresult) : r = RCode SUCCESS \/ r <> RCode SUCCESS.
Proof. destruct r as [[]| | |]; first [left; reflexivity|right; discriminate]. Qed.
Lemma not_success_match {A} (r : cresult) (a : A) (b : cresult -> A) : r <> RCode SUCCESS ->
  match r with RCode SUCCESS => a | r => b r end = b r.
Proof. destruct r as [[]| | |]; intros H; try reflexivity. destruct H; reflexivity. Qed.

Lemma parts_order : forall cs s s' r calls, parts cs s = (s', r, calls) <->
  (r = RCode SUCCESS /\ parts_succeed cs s s' calls) \/
  (exists done c rest s1 l1 l2, cs = done ++ c :: rest /\ parts_succeed done s s1 l1 /\
     part_fails c s1 s' r l2 /\ calls = l1 ++ l2).
Proof.
  induction cs as [|c cs IH]; intros s s' r calls; cbn [parts].
  - split.
    + intros H. injection H as <- <- <-. left. split; [reflexivity|constructor].
    + intros [[-> H]|(d & x & rest & s1 & l1 & l2 & E & _)]; [inversion H; reflexivity|destruct d; discriminate].
  - destruct (check_guards s c) as [g|] eqn:Eg.
    + split.
      * intros H. injection H as <- <- <-. right. exists [], c, cs, s, [], []. repeat split; [constructor|].
        left. exists g. auto.
      * intros [[-> H]|(d & x & rest & s1 & l1 & l2 & E & Hd & Hf & ->)].
        { inversion H; subst. congruence. }
        destruct d as [|y d].
        { injection E as <- <-. inversion Hd; subst. destruct Hf as [(g' & Eg' & -> & -> & ->)|[F _]]; [|congruence].
          rewrite Eg in Eg'. injection Eg' as <-. reflexivity. }
        injection E as <- ->. inversion Hd; subst. congruence.
    + destruct (execute c s) as [[s1 r1] l1] eqn:Ex. destruct (code_dec r1) as [->|Nr].
      * destruct (parts cs s1) as [[s2 r2] l2] eqn:Ep. split.
        { intros H. injection H as <- <- <-. apply IH in Ep as [[-> Hs]|(d & x & rest & t & m1 & m2 & -> & Hd & Hf & ->)].
          - left. split; [reflexivity|]. econstructor; eassumption.
          - right. exists (c :: d), x, rest, t, (l1 ++ m1), m2. rewrite app_assoc. repeat split; auto.
            econstructor; eassumption. }
        { intros [[-> H]|(d & x & rest & t & m1 & m2 & E & Hd & Hf & ->)].
          - inversion H as [|? ? ? u ? k1 k2 G1 G2 G3]; subst. rewrite Ex in G2. injection G2 as <- <-.
            assert (Q : parts cs s1 = (s', RCode SUCCESS, k2)) by (apply IH; auto).
            rewrite Ep in Q. injection Q as -> -> ->. reflexivity.
          - destruct d as [|y d].
            + injection E as <- <-. inversion Hd; subst. destruct Hf as [(g & Eg' & _)|(_ & Ex' & Nr)]; [congruence|].
              rewrite Ex in Ex'. injection Ex' as _ <- _. congruence.
            + injection E as <- ->. inversion Hd as [|? ? ? u ? k1 k2 G1 G2 G3]; subst.
              rewrite Ex in G2. injection G2 as <- <-.
              assert (Q : parts (d ++ x :: rest) s1 = (s', r, k2 ++ m2)).
              { apply IH. right. exists d, x, rest, t, k2, m2. auto. }
              rewrite Ep in Q. injection Q as -> -> ->. rewrite app_assoc. reflexivity. }
      * rewrite (not_success_match r1 _ (fun r => (s1, r, l1)) Nr). split.
        { intros H. injection H as <- <- <-. right. exists [], c, cs, s, [], l1. repeat split; [constructor|]. right. auto. }
        { intros [[-> H]|(d & x & rest & t & m1 & m2 & E & Hd & Hf & ->)].
          - inversion H as [|? ? ? u ? k1 k2 G1 G2 G3]; subst. rewrite Ex in G2. injection G2 as <- -> <-. congruence.
          - destruct d as [|y d].
            + injection E as <- <-. inversion Hd; subst. destruct Hf as [(g & Eg' & _)|(_ & Ex' & _)]; [congruence|].
              rewrite Ex in Ex'. injection Ex' as -> -> ->. reflexivity.
            + injection E as <- ->. inversion Hd as [|? ? ? u ? k1 k2 G1 G2 G3]; subst.
              rewrite Ex in G2. injection G2 as <- -> <-. congruence. }
Qed.

(** ** Guards *)
Lemma check_list_none s : forall gs, check_list s gs = None <->
  forall g, In g gs -> holds (fst s) (snd s) g = true /\
    forall d, In d (dependencies g) -> holds (fst s) (snd s) d = true.
Proof.
  induction gs as [|g gs IH]; cbn [check_list].
  - split; [intros _ g []|reflexivity].
  - destruct (holds (fst s) (snd s) g) eqn:E; cbn [negb].
    + destruct (find _ (dependencies g)) as [d|] eqn:F.
      * apply find_some in F as [Hd Fd]. split; [discriminate|]. intros H.
        destruct (H g (or_introl eq_refl)) as [_ H']. rewrite (H' d Hd) in Fd. discriminate.
      * rewrite IH. split.
        { intros H g' [<-|Hg]; [|apply H, Hg]. split; [exact E|]. intros d Hd.
          apply (find_none _ _ F) in Hd. apply negb_false_iff in Hd. exact Hd. }
        { intros H g' Hg. apply H. right. exact Hg. }
    + split; [discriminate|]. intros H. destruct (H g (or_introl eq_refl)). congruence.
Qed.

Lemma execute_allowed : forall c s s' r calls, check_guards s c = None -> execute c s = (s', r, calls) -> Forall allowed calls.
Proof.
  induction c as [n gs f|n c cs IHc IHcs] using command_ind'; intros s s' r calls G E.
  - cbn in E. destruct (f s) as [t o]. injection E as <- <- <-. constructor; [|constructor].
    intros g Hg. cbn in *. apply (proj1 (check_list_none s gs) G g Hg).
  - rewrite execute_parts in E. assert (A : Forall (fun c => forall s s' r calls, check_guards s c = None ->
      execute c s = (s', r, calls) -> Forall allowed calls) (c :: cs)) by (constructor; assumption).
    clear -A E. revert s s' r calls E. induction A as [|d l Hd Hl IH]; intros s s' r calls E; cbn [parts] in E.
    + injection E as <- <- <-. constructor.
    + destruct (check_guards s d) as [g|] eqn:Eg; [injection E as <- <- <-; constructor|].
      destruct (execute d s) as [[s1 r1] l1] eqn:Ex. pose proof (Hd _ _ _ _ Eg Ex) as A1.
      destruct (code_dec r1) as [->|Nr].
      * destruct (parts l s1) as [[s2 r2] l2] eqn:Ep. injection E as <- <- <-. apply Forall_app; split; [exact A1|].
        exact (IH _ _ _ _ Ep).
      * rewrite (not_success_match r1 _ (fun r => (s1, r, l1)) Nr) in E. injection E as <- <- <-. exact A1.
Qed.
Lemma script_allowed copy : forall ls k final codes calls,
  script copy k ls = (final, codes, calls) -> Forall allowed calls.
Proof.
  induction ls as [|l ls IH]; intros k final codes calls E; cbn [script] in E; [injection E as <- <- <-; constructor|].
  destruct (run_line copy k l) as [[k' c] calls1] eqn:R.
  assert (A : Forall allowed calls1).
  { destruct l; cbn [run_line] in R; try (injection R as <- <- <-; constructor).
    - destruct (stack k); injection R as <- <- <-; constructor.
    - destruct (check_guards (cstate k) c0) eqn:G; [injection R as <- <- <-; constructor|].
      destruct (execute c0 (cstate k)) as [[s r] l] eqn:X. injection R as <- <- <-. eapply execute_allowed; eassumption. }
  destruct k' as [k'|]; [|injection E as <- <- <-; exact A].
  destruct (script copy k' ls) as [[f cs] calls2] eqn:S1. injection E as <- <- <-. apply Forall_app; split; [exact A|].
  eapply IH; eassumption.
Qed.
(** A command whose guard fails leaves everything as it was. *)
Lemma guard_blocks copy k c g : check_guards (cstate k) c = Some g ->
  exists k', run_line copy k (LCommand c) = (Some k', GUARD_CONDITION_NOT_MET, []) /\
    cstate k' = cstate k /\ stack k' = stack k /\ return_code k' = GUARD_CONDITION_NOT_MET.
Proof. intros H. eexists. cbn. rewrite H. repeat split. Qed.

(** Guards whose check covers everything they require. *)
Lemma requires_cases g d : requires g d ->
  g = d \/ In d (dependencies g) \/ In d [VALID_PROGRAM; WELL_TYPED; DESUGARED; VALID_SIGNAL_MAPPING; COMPUTED_ATOMICS].
Proof.
  induction 1 as [g|g x d Hx _ IH]; [auto|]. destruct IH as [->|[IH|IH]]; [auto| |auto].
  right; right. destruct g; cbn in Hx; repeat (destruct Hx as [<-|Hx]); try destruct Hx; cbn in IH; cbn; intuition.
Qed.
Lemma assemble_requirements s gs : check_list s gs = None -> In WELL_TYPED gs -> In DESUGARED gs ->
  In VALID_SIGNAL_MAPPING gs -> In COMPUTED_ATOMICS gs ->
  forall g d, In g gs -> requires g d -> holds (fst s) (snd s) d = true.
Proof.
  intros C W De V A g d Hg R. pose proof (proj1 (check_list_none s gs) C) as H.
  destruct (requires_cases g d R) as [<-|[Hd|Hd]]; [apply H, Hg|apply (proj2 (H g Hg)), Hd|].
  cbn in Hd. repeat (destruct Hd as [<-|Hd]); try (apply H; assumption); [|destruct Hd].
  apply (proj2 (H _ W)). left; reflexivity.
Qed.

(** ** The final return code *)
Lemma run_line_code copy k l k' c calls : run_line copy k l = (Some k', c, calls) ->
  return_code k' = if is_error c then c else return_code k.
Proof.
  destruct l; cbn [run_line]; try (intros E; injection E as <- <- <-; reflexivity); try discriminate.
  - destruct (stack k); intros E; injection E as <- <- <-; reflexivity.
  - destruct (check_guards (cstate k) c0); [intros E; injection E as <- <- <-; reflexivity|].
    destruct (execute c0 (cstate k)) as [[s r] l]. intros E. injection E as <- <- <-. unfold set_code.
    destruct (is_error (result_code r)); reflexivity.
Qed.
Lemma run_line_exit copy k l c calls : run_line copy k l = (None, c, calls) -> is_error c = false.
Proof.
  destruct l; cbn [run_line]; try discriminate; try (intros E; injection E as <- <-; reflexivity).
  - destruct (stack k); discriminate.
  - destruct (check_guards (cstate k) c0); [discriminate|]. destruct (execute c0 (cstate k)) as [[s r] l]. discriminate.
Qed.
Lemma script_code copy : forall ls k final codes calls, script copy k ls = (final, codes, calls) ->
  final = fold_left (fun a c => if is_error c then c else a) codes (return_code k).
Proof.
  induction ls as [|l ls IH]; intros k final codes calls E; cbn [script] in E; [injection E as <- <- <-; reflexivity|].
  destruct (run_line copy k l) as [[k' c] calls1] eqn:R. destruct k' as [k'|].
  - destruct (script copy k' ls) as [[f cs] calls2] eqn:S1. injection E as <- <- <-. cbn [fold_left].
    rewrite <- (run_line_code copy k l k' c calls1 R). eapply IH; eassumption.
  - injection E as <- <- <-. cbn [fold_left]. rewrite (run_line_exit _ _ _ _ _ R). reflexivity.
Qed.
Lemma fold_error : forall codes a, is_error (fold_left (fun a c => if is_error c then c else a) codes a) = true <->
  is_error a = true \/ Exists (fun c => is_error c = true) codes.
Proof.
  induction codes as [|c codes IH]; intros a; cbn [fold_left].
  - rewrite Exists_nil. tauto.
  - rewrite IH, Exists_cons. destruct (is_error c) eqn:E; [rewrite E; tauto|]. intuition discriminate.
Qed.
Lemma script_reports copy k ls final codes calls : return_code k = SUCCESS -> script copy k ls = (final, codes, calls) ->
  (final <> SUCCESS <-> Exists (fun c => c <> SUCCESS) codes).
Proof.
  intros K E. apply script_code in E. rewrite K in E. subst final.
  assert (D : forall c, c <> SUCCESS <-> is_error c = true) by (intros []; split; intros; try reflexivity; try discriminate; congruence).
  rewrite D, fold_error. split.
  - intros [F|H]; [discriminate|]. eapply Exists_impl; [|exact H]. intros c Hc. apply D, Hc.
  - intros H. right. eapply Exists_impl; [|exact H]. intros c Hc. apply D, Hc.
Qed.
(** One code for each line that was run: all of them, up to an [exit]. *)
Lemma script_lines copy : forall ls k final codes calls, script copy k ls = (final, codes, calls) ->
  length codes = length ls \/ exists l1 l2, ls = l1 ++ LExit :: l2 /\ length codes = S (length l1).
Proof.
  induction ls as [|l ls IH]; intros k final codes calls E; cbn [script] in E.
  - injection E as <- <- <-. auto.
  - destruct (run_line copy k l) as [[k' c] calls1] eqn:R. destruct k' as [k'|].
    + destruct (script copy k' ls) as [[f cs] calls2] eqn:S1. injection E as <- <- <-.
      destruct (IH _ _ _ _ S1) as [H|(l1 & l2 & -> & H)]; [left; cbn; congruence|].
      right. exists (l :: l1), l2. cbn. auto.
    + injection E as <- <- <-. right. exists [], ls. split; [|reflexivity]. cbn [app]. f_equal.
      destruct l; cbn [run_line] in R; try discriminate; try reflexivity.
      * destruct (stack k); discriminate.
      * destruct (check_guards (cstate k) c0); [discriminate|]. destruct (execute c0 (cstate k)) as [[s r] l]. discriminate.
Qed.

(** ** What the assembler gets *)
Lemma guards_assemblable p c : (forall g, In g assemble_guards -> holds p c g = true) -> assemblable p c.
Proof.
  intros H.
  assert (H1 := H VALID_PROGRAM ltac:(cbn; tauto)). assert (H2 := H VALID_SIGNAL_MAPPING ltac:(cbn; tauto)).
  assert (H3 := H WELL_TYPED ltac:(cbn; tauto)). assert (H4 := H DESUGARED ltac:(cbn; tauto)).
  assert (H5 := H VALID_SCQ_SIZES ltac:(cbn; tauto)). assert (H6 := H COMPUTED_ATOMICS ltac:(cbn; tauto)).
  assert (H7 := H ONLY_BINARY_OPERATORS ltac:(cbn; tauto)).
  assert (H8 := H ATOMIC_CONSISTENT_SIGNAL_MAPPING ltac:(cbn; tauto)). clear H. cbn [holds] in *.
  rewrite forallb_forall in H2, H4, H5, H6, H7. constructor.
  - apply negb_true_iff. assumption.
  - apply andb_true_iff in H3. apply H3.
  - intros n Hn. apply negb_true_iff. apply H4. assumption.
  - intros n id m Hn E. specialize (H2 n Hn). rewrite E in H2. destruct m as [m|]; [|discriminate].
    apply Z.eqb_eq in H2. congruence.
  - intros n Hn Hc. specialize (H5 n Hn).
    assert (E : p_temporal n || is_some (p_aid n) = true).
    { destruct Hc as [->|Hc]; [reflexivity|]. destruct (p_aid n); [apply orb_true_r|congruence]. }
    rewrite E in H5. apply Z.leb_le. assumption.
  - intros n Hn E. specialize (H6 n Hn). rewrite E in H6. destruct (p_aid n); discriminate.
  - intros n Hn E. specialize (H7 n Hn). rewrite E in H7. apply Nat.leb_le. assumption.
  - intros Eb n id m Hn E. rewrite Eb in H8. cbn [orb] in H8. rewrite forallb_forall in H8. specialize (H8 n Hn).
    rewrite E in H8. destruct (p_aid n) as [a|]; [|discriminate]. apply Z.eqb_eq in H8. congruence.
Qed.

Lemma assembler_input copy k ls final codes calls : script copy k ls = (final, codes, calls) ->
  forall c, In c calls -> call_guards c = assemble_guards -> assemblable (fst (call_state c)) (snd (call_state c)).
Proof.
  intros E c Hc Eg. apply script_allowed in E. rewrite Forall_forall in E. apply guards_assemblable.
  intros g Hg. apply (E c Hc). rewrite Eg. exact Hg.
Qed.

(** ** One command *)
Lemma simple_line copy k n gs f :
  let s := cstate k in
  let r := snd (f s) in
  exists k' c calls, run_line copy k (LCommand (Simple n gs f)) = (Some k', c, calls) /\
    (c = SUCCESS <->
     allowed (Call n gs s) /\ (r = Some (RCode SUCCESS) \/ exists p, r = Some (RProgram p))) /\
    (allowed (Call n gs s) -> calls = [Call n gs s] /\ stack k' = stack k /\ snd (cstate k') = snd (fst (f s)) /\
       fst (cstate k') = match r with Some (RProgram p) => p | _ => fst (fst (f s)) end) /\
    (~ allowed (Call n gs s) -> calls = [] /\ cstate k' = s /\ stack k' = stack k).
Proof.
  cbv zeta. cbn [run_line check_guards execute].
  pose proof (check_list_none (cstate k) gs) as A.
  destruct (check_list (cstate k) gs) as [g|].
  - assert (N : ~ allowed (Call n gs (cstate k))).
    { intros H. assert (D : Some g = None) by exact (proj2 A H). discriminate. }
    do 3 eexists. split; [reflexivity|]. split; [split; [discriminate|intros [H _]; contradiction]|].
    split; [contradiction|]. auto.
  - assert (Y : allowed (Call n gs (cstate k))) by exact (proj1 A eq_refl). clear A.
    destruct (f (cstate k)) as [s r]. cbn [fst snd].
    assert (K : forall k c, cstate (set_code k c) = cstate k /\ stack (set_code k c) = stack k)
      by (intros k0 c0; unfold set_code; destruct (is_error c0); auto).
    do 3 eexists. split; [reflexivity|]. split; [|split; [|contradiction]].
    + destruct r as [[c|p| |x g]|]; cbn [result_code].
      * split; [intros ->; auto|]. intros [_ [E|(p & E)]]; congruence.
      * split; [eauto|auto].
      * split; [discriminate|]. intros [_ [E|(p & E)]]; discriminate.
      * split; [discriminate|]. intros [_ [E|(p & E)]]; discriminate.
      * split; [discriminate|]. intros [_ [E|(p & E)]]; discriminate.
    + intros _. split; [reflexivity|].
      rewrite (proj1 (K _ _)), (proj2 (K _ _)). cbn [cstate stack].
      destruct r as [[c|p| |x g]|]; cbn; auto.
Qed.

(** ** Push and pop *)
Lemma run_line_stack copy k l k' c calls :
  l <> LPush -> l <> LPop -> run_line copy k l = (Some k', c, calls) -> stack k' = stack k.
Proof.
  assert (K : forall k c, stack (set_code k c) = stack k) by (intros k0 c0; unfold set_code; destruct (is_error c0); auto).
  intros N1 N2. destruct l; cbn [run_line]; try (intros E; injection E as <- <- <-; rewrite ?K; reflexivity);
    try discriminate; try contradiction.
  destruct (check_guards (cstate k) c0); [intros E; injection E as <- <- <-; rewrite ?K; reflexivity|].
  destruct (execute c0 (cstate k)) as [[s r] l]. intros E; injection E as <- <- <-; rewrite ?K; reflexivity.
Qed.
Lemma runs_app copy a : forall b k k2, runs copy k (a ++ b) k2 -> exists k1, runs copy k a k1 /\ runs copy k1 b k2.
Proof.
  induction a as [|l a IH]; intros b k k2 H; cbn in *; [exists k; split; [constructor|assumption]|].
  inversion H as [|? ? ? k0 ? c calls E R]; subst. destruct (IH _ _ _ R) as (k1 & R1 & R2).
  exists k1. split; [econstructor; eassumption|assumption].
Qed.
Lemma balanced_stack copy ls : balanced ls -> forall k k', runs copy k ls k' -> stack k' = stack k.
Proof.
  induction 1 as [|l ls N1 N2 _ IH|ls ls' _ IH1 _ IH2]; intros k k' R.
  - inversion R; reflexivity.
  - inversion R as [|? ? ? k0 ? c calls E R']; subst. rewrite (IH _ _ R'). eapply run_line_stack; eassumption.
  - inversion R as [|? ? ? k0 ? c calls E R']; subst. cbn in E. injection E as <- <- <-.
    apply runs_app in R' as (k1 & R1 & R2). pose proof (IH1 _ _ R1) as S1. cbn in S1.
    inversion R2 as [|? ? ? k3 ? c calls E R3]; subst. rewrite (IH2 _ _ R3). cbn in E. rewrite S1 in E.
    injection E as <- <- <-. reflexivity.
Qed.
Lemma push_pop copy ls k k' : balanced ls -> runs copy k (LPush :: ls ++ [LPop]) k' ->
  cstate k' = copy (cstate k) /\ stack k' = stack k.
Proof.
  intros B R. inversion R as [|? ? ? k0 ? c calls E R']; subst. cbn in E. injection E as <- <- <-.
  apply runs_app in R' as (k1 & R1 & R2). pose proof (balanced_stack _ _ B _ _ R1) as S1. cbn in S1.
  inversion R2 as [|? ? ? k3 ? c calls E R3]; subst. inversion R3; subst. cbn in E. rewrite S1 in E.
  injection E as <- <- <-. auto.
Qed.
