(** * Proofs about the "check_sat" command *)
From Coq Require Import List Arith ZArith NArith Bool String Ascii Lia.
From Verif Require Import Mltl MltlShape Transform Decompose Smt SmtSpec SmtQueries SmtFunctions.
From Verif Require Import SatCommand SatCommandSpec.
Import ListNotations.
Local Open Scope nat_scope.

Lemma read_honest q p : honest q p -> right q (read_result p).
Proof.
  destruct p as [| |[|c|c] out]; cbn [honest]; try (intros _; exact Logic.I).
  intros [[-> H]|[[-> H]| ->]]; cbn; auto.
Qed.
Lemma right_ext P Q r : (P <-> Q) -> right P r -> right Q r.
Proof. destruct r; cbn; tauto. Qed.
Lemma together_and es : satisfiable (EAnd es) <-> together es.
Proof.
  unfold satisfiable, together. split; intros [tr H]; exists tr; cbn [sat] in *; rewrite conj_in in *; exact H.
Qed.
Lemma usable_answers p : usable (read_result p) = true <-> answers p.
Proof.
  unfold answers. destruct p as [| |[|c|c] out]; cbn; try (split; [discriminate|intros [o H]; discriminate H]).
  split; [eauto|]. intros _. destruct (found "unsat" out); [reflexivity|]. now destruct (found "sat" out).
Qed.
Lemma tell_says print who r m : In m (tell print who r) ->
  m = Unexpected who r \/ m = Warned who r \/ m = Shown who r.
Proof.
  unfold tell. destruct (usable r), print, r; cbn; intuition.
Qed.

Section Fixed.
Variables (th : theory) (strict print : bool) (solve : expr -> process).

Lemma each_bodies specs ms es : each th strict print solve specs = (ms, Some es) -> es = bodies specs.
Proof.
  revert ms es. induction specs as [|[n [e|]] specs IH]; cbn [each bodies]; intros ms es.
  - intros H. injection H as _ <-. reflexivity.
  - destruct (to_smt th strict e); [|discriminate]. destruct (usable _); [|discriminate].
    destruct (each th strict print solve specs) as [ms' [es'|]]; [|discriminate].
    intros H. injection H as _ <-. f_equal. eapply IH. reflexivity.
  - destruct (each th strict print solve specs) as [ms' es'] eqn:E. intros H. injection H as _ ->.
    eapply IH. reflexivity.
Qed.

(** Each message of the loop is about a formula and gives the solver's answer. *)
Lemma each_message specs ms es m who r : each th strict print solve specs = (ms, es) -> In m ms -> says m who r ->
  exists n e q, who = Some n /\ In (n, Some e) specs /\ In e (bodies specs) /\
    to_smt th strict e = Some q /\ r = read_result (solve e).
Proof.
  revert ms es. induction specs as [|[n [e|]] specs IH]; cbn [each bodies]; intros ms es.
  - intros H. injection H as <- _. intros [].
  - destruct (to_smt th strict e) as [q|] eqn:Eq.
    2:{ intros H. injection H as <- _. intros [<-|[]] [Hs|Hs]; discriminate Hs. }
    assert (Htell : In m (tell print (Some n) (read_result (solve e))) -> says m who r ->
      who = Some n /\ r = read_result (solve e)).
    { intros Hin Hs. apply tell_says in Hin.
      destruct Hin as [-> |[-> | ->]]; destruct Hs as [Hs|Hs]; try discriminate Hs; injection Hs as <- <-; auto. }
    destruct (usable (read_result (solve e))).
    + destruct (each th strict print solve specs) as [ms' es'] eqn:E. intros H. injection H as <- _.
      intros Hin Hs. apply in_app_or in Hin. destruct Hin as [Hin|Hin].
      * destruct (Htell Hin Hs) as [-> ->]. exists n, e, q. cbn; auto.
      * destruct (IH _ _ eq_refl Hin Hs) as (n' & e' & q' & H1 & H2 & H3 & H4 & H5).
        exists n', e', q'. cbn; auto 6.
    + intros H. injection H as <- _. intros Hin Hs.
      destruct (Htell Hin Hs) as [-> ->]. exists n, e, q. cbn; auto.
  - destruct (each th strict print solve specs) as [ms' es'] eqn:E. intros H. injection H as <- _.
    intros [<-|Hin] Hs; [destruct Hs as [Hs|Hs]; discriminate Hs|].
    destruct (IH _ _ eq_refl Hin Hs) as (n' & e' & q' & H1 & H2 & H3 & H4 & H5).
    exists n', e', q'. cbn; auto 6.
Qed.

Lemma check_message specs m who r : In m (fst (check_sat th strict print solve specs)) -> says m who r ->
  (exists n e q, who = Some n /\ In (n, Some e) specs /\ In e (bodies specs) /\
     to_smt th strict e = Some q /\ r = read_result (solve e)) \/
  (exists q, who = None /\ to_smt th strict (EAnd (bodies specs)) = Some q /\
     r = read_result (solve (EAnd (bodies specs)))).
Proof.
  unfold check_sat. destruct (each th strict print solve specs) as [ms [es|]] eqn:E; cbn [fst].
  2:{ intros Hin Hs. left. eapply each_message; eauto. }
  pose proof (each_bodies _ _ _ E) as ->.
  destruct (List.length (bodies specs) <=? 1).
  { intros Hin Hs. left. eapply each_message; eauto. }
  destruct (to_smt th strict (EAnd (bodies specs))) as [q|] eqn:Eq; cbn [fst]; intros Hin Hs;
    apply in_app_or in Hin; (destruct Hin as [Hin|Hin]; [left; eapply each_message; eauto|]).
  - right. exists q. apply tell_says in Hin.
    destruct Hin as [-> |[-> | ->]]; destruct Hs as [Hs|Hs]; try discriminate Hs; injection Hs as <- <-; auto.
  - destruct Hin as [<-|[]]. destruct Hs as [Hs|Hs]; discriminate Hs.
Qed.

(** Where the queries are exact, the messages are right. *)
Lemma messages_right specs :
  (forall e q, asked specs e -> to_smt th strict e = Some q -> (q <-> satisfiable e)) ->
  honest_for th strict solve specs ->
  forall m, In m (fst (check_sat th strict print solve specs)) -> right_message specs m.
Proof.
  intros Hx Hh m Hin. split.
  - intros n r Hs. destruct (check_message _ _ _ _ Hin Hs) as [(n' & e & q & H1 & H2 & H3 & H4 & H5)|(q & H1 & _)];
      [|discriminate H1].
    injection H1 as <-. exists e. split; [exact H2|]. rewrite H5.
    eapply right_ext; [apply (Hx e q); [left|]; eassumption|]. apply read_honest, Hh; [left|]; assumption.
  - intros r Hs. destruct (check_message _ _ _ _ Hin Hs) as [(n' & e & q & H1 & _)|(q & H1 & H2 & H3)];
      [discriminate H1|].
    rewrite H3. eapply right_ext; [apply together_and|].
    eapply right_ext; [apply (Hx _ q); [right; reflexivity|exact H2]|].
    apply read_honest, Hh; [right; reflexivity|exact H2].
Qed.

Lemma each_success specs ms : each th strict print solve specs = (ms, Some (bodies specs)) ->
  forall n e, In (n, Some e) specs -> (exists q, to_smt th strict e = Some q) /\ usable (read_result (solve e)) = true /\
    forall m, In m (tell print (Some n) (read_result (solve e))) -> In m ms.
Proof.
  revert ms. induction specs as [|[n [e|]] specs IH]; cbn [each bodies]; intros ms; [intros _ ? ? []| |].
  - destruct (to_smt th strict e) as [q|] eqn:Eq; [|discriminate].
    destruct (usable (read_result (solve e))) eqn:U; [|discriminate].
    destruct (each th strict print solve specs) as [ms' [es'|]] eqn:E; [|discriminate].
    pose proof (each_bodies _ _ _ E) as ->. intros H. injection H as <-.
    intros n' e' [Hin|Hin].
    + injection Hin as <- <-. split; [eauto|]. split; [exact U|]. intros m Hm. apply in_or_app; auto.
    + destruct (IH _ eq_refl n' e' Hin) as (H1 & H2 & H3). split; [exact H1|]. split; [exact H2|].
      intros m Hm. apply in_or_app; auto.
  - destruct (each th strict print solve specs) as [ms' es'] eqn:E. intros H. injection H as <- ->.
    intros n' e' [Hin|Hin]; [discriminate Hin|].
    destruct (IH _ eq_refl n' e' Hin) as (H1 & H2 & H3). split; [exact H1|]. split; [exact H2|].
    intros m Hm. right. auto.
Qed.
Lemma bodies_in specs e : In e (bodies specs) <-> exists n, In (n, Some e) specs.
Proof.
  induction specs as [|[n [e'|]] specs IH]; cbn; [split; [intros []|intros [? []]]| |]; rewrite IH.
  - split.
    + intros [-> |[n' H]]; [exists n|exists n']; auto.
    + intros [n' [H|H]]; [injection H as <- <-; auto|eauto].
  - split; [intros [n' H]; eauto|]. intros [n' [H|H]]; [discriminate H|eauto].
Qed.
Lemma each_total specs :
  (forall e, In e (bodies specs) -> (exists q, to_smt th strict e = Some q) /\ usable (read_result (solve e)) = true) ->
  exists ms, each th strict print solve specs = (ms, Some (bodies specs)).
Proof.
  induction specs as [|[n [e|]] specs IH]; cbn [each bodies]; intros H; [eauto| |].
  - destruct (H e (or_introl eq_refl)) as [[q ->] ->]. destruct IH as [ms ->]; [intros; apply H; right; assumption|].
    cbn. eauto.
  - destruct (IH H) as [ms ->]. eauto.
Qed.

(** Success. *)
Lemma success_iff specs : snd (check_sat th strict print solve specs) = true <->
  (forall e, In e (bodies specs) -> to_smt th strict e <> None /\ answers (solve e)) /\
  (2 <= List.length (bodies specs) ->
   to_smt th strict (EAnd (bodies specs)) <> None /\ answers (solve (EAnd (bodies specs)))).
Proof.
  assert (Hsome : forall e, to_smt th strict e <> None <-> exists q, to_smt th strict e = Some q).
  { intros e. destruct (to_smt th strict e); split; try congruence; eauto. intros [q H]. discriminate H. }
  unfold check_sat. split.
  - destruct (each th strict print solve specs) as [ms [es|]] eqn:E; [|discriminate].
    pose proof (each_bodies _ _ _ E) as ->. intros H. split.
    + intros e He. apply bodies_in in He. destruct He as [n He].
      destruct (each_success _ _ E n e He) as (H1 & H2 & _). rewrite Hsome, <- usable_answers. auto.
    + intros Hn. destruct (Nat.leb_spec (List.length (bodies specs)) 1); [lia|].
      destruct (to_smt th strict (EAnd (bodies specs))); [|discriminate H].
      rewrite <- usable_answers. split; [discriminate|exact H].
  - intros [H1 H2]. destruct (each_total specs) as [ms ->].
    { intros e He. destruct (H1 e He). rewrite <- Hsome, usable_answers. auto. }
    destruct (Nat.leb_spec (List.length (bodies specs)) 1); [reflexivity|].
    destruct (H2 ltac:(lia)) as [H3 H4]. destruct (to_smt th strict (EAnd (bodies specs))); [|congruence].
    cbn. now apply usable_answers.
Qed.
End Fixed.

(** With "print" every formula has its line, in order, and the program last. *)
Lemma shown_app a b : shown (a ++ b) = shown a ++ shown b.
Proof. induction a as [|[] a IH]; cbn; congruence. Qed.
Lemma tell_shown who r : usable r = true -> shown (tell true who r) = [who].
Proof. destruct r; cbn; congruence. Qed.
Lemma each_shown th strict solve specs ms es : each th strict true solve specs = (ms, Some es) ->
  shown ms = map Some (labels specs).
Proof.
  revert ms es. induction specs as [|[n [e|]] specs IH]; cbn [each labels]; intros ms es.
  - intros H. injection H as <- _. reflexivity.
  - destruct (to_smt th strict e); [|discriminate]. destruct (usable _) eqn:U; [|discriminate].
    destruct (each th strict true solve specs) as [ms' [es'|]] eqn:E; [|discriminate].
    intros H. injection H as <- _. rewrite shown_app, tell_shown by exact U. cbn. f_equal. eapply IH. reflexivity.
  - destruct (each th strict true solve specs) as [ms' es'] eqn:E. intros H. injection H as <- ->.
    cbn. eapply IH. reflexivity.
Qed.
Lemma all_shown th strict solve specs ms : check_sat th strict true solve specs = (ms, true) ->
  shown ms = map Some (labels specs) ++ (if 2 <=? List.length (bodies specs) then [None] else []).
Proof.
  unfold check_sat. destruct (each th strict true solve specs) as [ms' [es|]] eqn:E; [|discriminate].
  pose proof (each_bodies _ _ _ _ _ _ _ E) as ->. pose proof (each_shown _ _ _ _ _ _ E) as Hs.
  destruct (Nat.leb_spec (List.length (bodies specs)) 1), (Nat.leb_spec 2 (List.length (bodies specs))); try lia.
  - intros H1. injection H1 as <-. now rewrite app_nil_r.
  - destruct (to_smt th strict (EAnd (bodies specs))); [|discriminate].
    intros H1. injection H1 as <- U. rewrite shown_app, tell_shown by exact U. now rewrite Hs.
Qed.

(** ** Without "print" *)
Section Silent.
Variables (th : theory) (strict : bool) (solve : expr -> process) (specs : list spec).
Hypothesis Hexact : forall e q, asked specs e -> to_smt th strict e = Some q -> (q <-> satisfiable e).
Hypothesis Hhonest : honest_for th strict solve specs.

Lemma quiet who r : usable r = true -> ~ In (Warned who r) (tell false who r) -> r = Sat.
Proof. intros U H. destruct r; cbn in *; try reflexivity; try discriminate U; exfalso; apply H; auto. Qed.

(** The formula that settles the program. *)
Lemma silent ms : check_sat th strict false solve specs = (ms, true) ->
  (forall who r, ~ In (Warned who r) ms) -> together (bodies specs).
Proof.
  unfold check_sat. destruct (each th strict false solve specs) as [ms' [es|]] eqn:E; [|discriminate].
  pose proof (each_bodies _ _ _ _ _ _ _ E) as ->.
  destruct (Nat.leb_spec (List.length (bodies specs)) 1) as [Hlen|Hlen].
  - intros H. injection H as <-. intros Hq. destruct (bodies specs) as [|e [|]] eqn:Eb; cbn in Hlen; try lia.
    + exists (fun _ _ => false). intros e [].
    + assert (He : In e (bodies specs)) by (rewrite Eb; left; reflexivity).
      rewrite <- Eb in E. pose proof He as Hn. apply bodies_in in Hn. destruct Hn as [n Hn].
      destruct (each_success _ _ _ _ _ _ E n e Hn) as ([q H1] & H2 & H3).
      assert (Hr : read_result (solve e) = Sat).
      { apply (quiet (Some n)); [exact H2|]. intros Hw. apply (Hq (Some n) (read_result (solve e))). apply H3, Hw. }
      assert (Hs : satisfiable e).
      { apply (Hexact e q (or_introl He) H1). pose proof (read_honest _ _ (Hhonest e q (or_introl He) H1)) as R.
        rewrite Hr in R. exact R. }
      destruct Hs as [tr Hs]. exists tr. intros x [<-|[]]. exact Hs.
  - destruct (to_smt th strict (EAnd (bodies specs))) as [q|] eqn:Eq; [|discriminate].
    intros H. injection H as <- U. intros Hq.
    assert (Hr : read_result (solve (EAnd (bodies specs))) = Sat).
    { apply (quiet None); [exact U|]. intros Hw. eapply Hq. apply in_or_app. right. exact Hw. }
    apply together_and. apply (Hexact _ q (or_intror eq_refl) Eq).
    pose proof (read_honest _ _ (Hhonest _ q (or_intror eq_refl) Eq)) as R. rewrite Hr in R. exact R.
Qed.
(** The solver never says "unknown": a warning means that they exclude each other. *)
Lemma warned ms who r : check_sat th strict false solve specs = (ms, true) ->
  (forall e, asked specs e -> decides (solve e)) -> In (Warned who r) ms -> ~ together (bodies specs).
Proof.
  intros H Hd Hin. assert (Hin' : In (Warned who r) (fst (check_sat th strict false solve specs))) by (rewrite H; exact Hin).
  assert (Hr : r = Unsat).
  { assert (Hor : r = Unsat \/ r = Unknown).
    { clear - H Hin. revert Hin. unfold check_sat in H.
      assert (Ht : forall w r', In (Warned who r) (tell false w r') -> r = Unsat \/ r = Unknown).
      { intros w [] Hx; cbn in Hx; try contradiction; destruct Hx as [Hx|[]]; try discriminate Hx; injection Hx as _ <-; auto. }
      assert (He : forall l ms' es, each th strict false solve l = (ms', es) -> In (Warned who r) ms' -> r = Unsat \/ r = Unknown).
      { induction l as [|[n [e|]] l IH]; cbn [each]; intros ms' es.
        - intros X. injection X as <- _. intros [].
        - destruct (to_smt th strict e).
          2:{ intros X. injection X as <- _. intros [X|[]]. discriminate X. }
          destruct (usable _).
          + destruct (each th strict false solve l) as [m' e'] eqn:E. intros X. injection X as <- _.
            intros X. apply in_app_or in X. destruct X as [X|X]; [eapply Ht; exact X|]. eapply IH; [reflexivity|exact X].
          + intros X. injection X as <- _. apply Ht.
        - destruct (each th strict false solve l) as [m' e'] eqn:E. intros X. injection X as <- _.
          intros [X|X]; [discriminate X|]. eapply IH; [reflexivity|exact X]. }
      destruct (each th strict false solve specs) as [ms' [es|]] eqn:E; [|discriminate H].
      destruct (List.length es <=? 1).
      - injection H as <-. eapply He; exact E.
      - destruct (to_smt th strict (EAnd es)); [|discriminate H]. injection H as <- _.
        intros X. apply in_app_or in X. destruct X as [X|X]; [eapply He; [exact E|exact X]|eapply Ht; exact X]. }
    destruct Hor as [->| ->]; [reflexivity|].
    assert (Hdr : forall e, asked specs e -> read_result (solve e) <> Unknown).
    { intros e He. destruct (Hd e He) as [->| ->]; discriminate. }
    destruct (check_message _ _ _ _ _ _ _ _ Hin' (or_intror eq_refl)) as [(n & e & q & _ & _ & H3 & _ & H5)|(q & _ & _ & H3)].
    - exfalso. apply (Hdr e (or_introl H3)). congruence.
    - exfalso. apply (Hdr _ (or_intror eq_refl)). congruence. }
  subst r. pose proof (messages_right _ _ _ _ specs Hexact Hhonest _ Hin') as [R1 R2]. destruct who as [n|].
  - destruct (R1 n Unsat (or_intror eq_refl)) as (e & He & Hu). cbn in Hu. intros [tr Ht]. apply Hu. exists tr.
    apply Ht. apply bodies_in. eauto.
  - exact (R2 Unsat (or_intror eq_refl)).
Qed.
Lemma silent_iff ms : check_sat th strict false solve specs = (ms, true) ->
  (forall e, asked specs e -> decides (solve e)) ->
  ((forall who r, ~ In (Warned who r) ms) <-> together (bodies specs)).
Proof.
  intros H Hd. split; [apply silent, H|]. intros Ht who r Hin. exact (warned _ _ _ H Hd Hin Ht).
Qed.
End Silent.

(** ** The theories *)
Lemma bv_asked_exact specs : (forall e, In e (bodies specs) -> legal e) ->
  forall e q, asked specs e -> to_smt QfBv false e = Some q -> (q <-> satisfiable e).
Proof.
  intros Hl e q Ha E. assert (Hle : legal e).
  { destruct Ha as [Ha| ->]; [auto|]. cbn [legal]. rewrite conj_in. exact Hl. }
  cbn in E. destruct (bv_query false e) as [b|] eqn:Eb; [|discriminate E]. injection E as <-.
  apply bv_exact; assumption.
Qed.
Lemma bv_success print strict solve specs : (forall e, In e (bodies specs) -> legal e) ->
  (snd (check_sat QfBv strict print solve specs) = true <->
   (forall e, In e (bodies specs) -> all_nodes bit_vector_op e /\ answers (solve e)) /\
   (2 <= List.length (bodies specs) -> answers (solve (EAnd (bodies specs))))).
Proof.
  intros Hl. rewrite success_iff.
  assert (Hq : forall e, legal e -> (to_smt QfBv strict e <> None <-> all_nodes bit_vector_op e)).
  { intros e He. rewrite <- (bv_query_supported strict e He). cbn. destruct (bv_query strict e); cbn; split; congruence. }
  split.
  - intros [H1 H2]. split.
    + intros e He. destruct (H1 e He). split; [apply Hq; auto|assumption].
    + intros Hn. apply H2, Hn.
  - intros [H1 H2]. split.
    + intros e He. destruct (H1 e He). split; [apply Hq; auto|assumption].
    + intros Hn. split; [|apply H2, Hn]. apply Hq.
      * cbn [legal]. rewrite conj_in. exact Hl.
      * cbn [all_nodes bit_vector_op]. split; [exact Hn|]. rewrite conj_in. intros e He. apply H1, He.
Qed.
(** At most two formulas. *)
Lemma uf_asked_exact specs : List.length (bodies specs) <= 2 ->
  (forall e, In e (bodies specs) -> legal e /\ all_nodes measured_op e) ->
  forall e q, asked specs e -> to_smt Uflia false e = Some q -> (q <-> satisfiable e).
Proof.
  intros Hn Hl e q Ha E. cbn in E. destruct (uf_query false e) as [b|] eqn:Eb; [|discriminate E]. injection E as <-.
  assert (Hle : legal e /\ all_nodes measured_op e).
  { destruct Ha as [Ha| ->]; [auto|].
    assert (H2 : 2 <= List.length (bodies specs)).
    { unfold uf_query in Eb. cbn [uf_supported] in Eb. destruct (Nat.leb_spec 2 (List.length (bodies specs))); [assumption|].
      discriminate Eb. }
    cbn [legal all_nodes measured_op]. rewrite !conj_in.
    split; [intros e He; apply Hl, He|]. split; [lia|]. intros e He; apply Hl, He. }
  apply uf_exact; tauto.
Qed.

(** ** Strict queries: "unsat" is right in every theory *)
Lemma strict_complete th e q : legal e -> to_smt th true e = Some q -> satisfiable e -> q.
Proof.
  intros Hl E Hs. destruct th; cbn in E.
  - destruct (uf_query true e) as [b|] eqn:Eb; [|discriminate E]. injection E as <-. eapply uf_strict_complete; eassumption.
  - destruct (qf_query true e) as [b|] eqn:Eb; [|discriminate E]. injection E as <-. eapply qf_strict_complete; eassumption.
  - destruct (bv_query true e) as [b|] eqn:Eb; [|discriminate E]. injection E as <-. eapply bv_strict_complete; eassumption.
Qed.
Lemma strict_unsat th print solve specs :
  (forall e, In e (bodies specs) -> legal e) -> honest_for th true solve specs ->
  forall m, In m (fst (check_sat th true print solve specs)) ->
  (forall n, says m (Some n) Unsat -> exists e, In (n, Some e) specs /\ ~ satisfiable e) /\
  (says m None Unsat -> ~ together (bodies specs)).
Proof.
  intros Hl Hh m Hin. split.
  - intros n Hs. destruct (check_message _ _ _ _ _ _ _ _ Hin Hs) as [(n' & e & q & H1 & H2 & H3 & H4 & H5)|(q & H1 & _)];
      [|discriminate H1].
    injection H1 as <-. exists e. split; [exact H2|].
    pose proof (read_honest _ _ (Hh e q (or_introl H3) H4)) as R. rewrite <- H5 in R. cbn in R.
    intros Hsat. apply R. eapply strict_complete; eauto.
  - intros Hs. destruct (check_message _ _ _ _ _ _ _ _ Hin Hs) as [(n' & e & q & H1 & _)|(q & H1 & H2 & H3)];
      [discriminate H1|].
    pose proof (read_honest _ _ (Hh _ q (or_intror eq_refl) H2)) as R. rewrite <- H3 in R. cbn in R.
    intros Ht. apply R. eapply strict_complete; [|eassumption|apply together_and, Ht].
    cbn [legal]. rewrite conj_in. exact Hl.
Qed.

(** ** Refutations *)
(** p; q; G[1,2] r; G[1,2] !r: all four can be met, not together, and the
    program is shown to be satisfiable. *)
Definition four : list spec :=
  [(1, Some (EAtom 0)); (2, Some (EAtom 1)); (3, Some (EG 1 2 (EAtom 2))); (4, Some (EG 1 2 (ENot (EAtom 2))))].
Definition sat_solver (e : expr) : process := Ended 0 (line "sat").
Lemma four_honest : honest_for Uflia false sat_solver four.
Proof.
  intros e q Ha E. cbn [honest sat_solver]. left. split; [reflexivity|].
  unfold asked in Ha. cbn [bodies four In] in Ha.
  destruct Ha as [[<-|[<-|[<-|[<-|[]]]]]| ->]; injection E as <-.
  1-3: exists (fun _ _ => true); cbn; repeat split; try lia.
  - right. intros i Hi. split; [lia|reflexivity].
  - exists (fun _ _ => false). cbn. right. intros i Hi [_ H]. discriminate H.
  - exists (fun _ _ => true). cbn. repeat split; try lia; left; lia.
Qed.
Lemma four_apart : ~ together (bodies four).
Proof.
  intros [tr H]. cbn [bodies four] in H.
  pose proof (H (EG 1 2 (EAtom 2)) ltac:(cbn; auto) 1 ltac:(lia)) as H1.
  pose proof (H (EG 1 2 (ENot (EAtom 2))) ltac:(cbn; auto) 1 ltac:(lia)) as H2.
  exact (H2 H1).
Qed.
Lemma uf_program_sat : exists solve specs ms,
  (forall e, In e (bodies specs) -> legal e /\ all_nodes measured_op e /\ satisfiable e) /\
  honest_for Uflia false solve specs /\ check_sat Uflia false true solve specs = (ms, true) /\
  In (Shown None Sat) ms /\ ~ together (bodies specs).
Proof.
  exists sat_solver, four, [Shown (Some 1) Sat; Shown (Some 2) Sat; Shown (Some 3) Sat; Shown (Some 4) Sat; Shown None Sat].
  split.
  { cbn [bodies four In]. intros e [<-|[<-|[<-|[<-|[]]]]]; cbn [legal all_nodes measured_op]; repeat split; try lia.
    1-3: exists (fun _ _ => true); cbn; auto.
    exists (fun _ _ => false); cbn; intros j _ H; discriminate H. }
  split; [exact four_honest|]. split; [reflexivity|]. split; [cbn; auto 6|exact four_apart].
Qed.
(** The same without "print": no warning. *)
Lemma uf_program_silent : exists solve specs,
  (forall e, In e (bodies specs) -> legal e /\ all_nodes measured_op e) /\
  honest_for Uflia false solve specs /\ check_sat Uflia false false solve specs = ([], true) /\
  ~ together (bodies specs).
Proof.
  exists sat_solver, four. split.
  { cbn [bodies four In]. intros e [<-|[<-|[<-|[<-|[]]]]]; cbn [legal all_nodes measured_op]; repeat split; lia. }
  split; [exact four_honest|]. split; [reflexivity|exact four_apart].
Qed.
(** p; O[0,3] q; false: with every theory the command ends at the second, the
    third and the program are not mentioned. *)
Lemma past_stops : exists specs, (forall e, In e (bodies specs) -> legal e) /\ ~ together (bodies specs) /\
  forall th strict print solve, answers (solve (EAtom 0)) ->
  exists ms, check_sat th strict print solve specs = (ms, false) /\
    (forall m who r, In m ms -> says m who r -> who = Some 1).
Proof.
  exists [(1, Some (EAtom 0)); (2, Some (EO 0 3 (EAtom 1))); (3, Some (EConst false))]. split.
  { cbn [bodies In]. intros e [<-|[<-|[<-|[]]]]; cbn; repeat split; lia. }
  split.
  { intros [tr H]. specialize (H (EConst false) ltac:(cbn; auto)). discriminate H. }
  intros th strict print solve Ha. apply usable_answers in Ha.
  exists (tell print (Some 1) (read_result (solve (EAtom 0))) ++ [NotEncoded (Some 2)]). split.
  - unfold check_sat. cbn [each].
    assert (Hs : exists q, to_smt th strict (EAtom 0) = Some q) by (destruct th; eexists; reflexivity).
    destruct Hs as [q ->]. rewrite Ha.
    assert (Hn : to_smt th strict (EO 0 3 (EAtom 1)) = None) by (destruct th; reflexivity).
    rewrite Hn. reflexivity.
  - intros m who r Hin Hs. apply in_app_or in Hin. destruct Hin as [Hin|[<-|[]]].
    + apply tell_says in Hin.
      destruct Hin as [-> |[-> | ->]]; destruct Hs as [Hs|Hs]; try discriminate Hs; injection Hs as <- _; auto.
    + destruct Hs as [Hs|Hs]; discriminate Hs.
Qed.
