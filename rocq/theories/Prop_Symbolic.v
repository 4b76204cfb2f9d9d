(** * C58: checking formulas with symbolic interval bounds for equivalence *)
From Coq Require Import List Arith ZArith Bool Lia.
From Verif Require Import Mltl SmtSpec SymSmt SymSmtSpec SymSmtQueries.
Import ListNotations.

(** For formulas whose lower bounds cannot be negative, and no mission time, the
    query is unsatisfiable exactly if the formulas are equivalent for all values
    of the bounds.  Missing from the full claim: the other files, see below. *)
Theorem C58_pair_partial fl p q : In p (formulas fl) -> In q (formulas fl) ->
  starts_later fl p -> starts_later fl q -> no_mission fl p -> no_mission fl q ->
  (~ squery false fl (sdiffer p q) <-> always_equivalent fl p q).
Proof. exact (fun Hp Hq Lp Lq => symbolic_equivalent fl p q Hp Hq Lp Lq). Qed.

(** With a mission time the formulas are compared on traces that last the mission. *)
Theorem C58_mission_partial fl p q : In p (formulas fl) -> In q (formulas fl) ->
  starts_later fl p -> starts_later fl q -> plain_eventually p -> plain_eventually q ->
  ~ (no_mission fl p /\ no_mission fl q) ->
  (squery false fl (sdiffer p q) <-> exists M v, admits fl p q M v /\ differ_on (M + 1) M v p q).
Proof. exact (fun Hp Hq Lp Lq => symbolic_mission fl p q Hp Hq Lp Lq). Qed.

(** With --strict they are compared on finite traces of every length. *)
Theorem C58_strict_partial fl p q : In p (formulas fl) -> In q (formulas fl) ->
  starts_later fl p -> starts_later fl q -> plain_eventually p -> plain_eventually q ->
  (squery true fl (sdiffer p q) <-> exists M v, admits fl p q M v /\ exists len, differ_on len M v p q).
Proof. exact (fun Hp Hq Lp Lq => symbolic_strict fl p q Hp Hq Lp Lq). Qed.

(** The word printed for a file, given a solver that errs in no answer. *)
Theorem C58_file_partial fl answers :
  (forall p, In p (formulas fl) -> no_mission fl p) -> (forall p, In p (formulas fl) -> starts_later fl p) ->
  Forall2 (fun pq a => exists s, a = Answered s /\ right (squery false fl (sdiffer (fst pq) (snd pq))) s)
          (adjacent (formulas fl)) answers ->
  (fst (check_equiv answers) = Equiv -> all_equivalent fl) /\
  (fst (check_equiv answers) = NotEquiv ->
   exists M v p q, In (p, q) (adjacent (formulas fl)) /\ admits fl p q M v /\
                   ~ equivalent (instance M v p) (instance M v q)).
Proof. exact (fun H1 H2 H3 => conj (file_equivalent fl answers H1 H2 H3) (file_different fl answers H1 H2 H3)). Qed.

(** The word and the success of the command, answer by answer. *)
Theorem C58_verdict answers :
  (fst (check_equiv answers) = NotEquiv <-> In (Answered Sat) answers) /\
  (fst (check_equiv answers) = Equiv <->
   forall a, In a answers -> a = Skipped \/ a = Unencoded \/ a = Answered Unsat) /\
  (snd (check_equiv answers) = true <-> forall a, In a answers -> a <> Unencoded /\ a <> Answered Other).
Proof. exact (verdict_spec answers). Qed.

(** ** The example of compiler/docs/user/equiv.md *)
Definition b1 := BVar 1.
Definition doc1 : sform := SG n0 b0 a0.
Definition doc2 : sform := SNot (SF n0 b0 (SNot a0)).
Definition doc3 : sform := SU n0 b1 a0 (SAtom 1).
Definition doc_file := File [Constr Rge b0 n0; Constr Rge b1 b0] [doc1; doc2; doc3].
Lemma doc_later p : In p (formulas doc_file) -> starts_later doc_file p.
Proof. intros [<-|[<-|[<-|[]]]] M v lb ub _ [E|[]]; injection E as <- <-; cbn; lia. Qed.
Lemma doc_mission p : In p (formulas doc_file) -> no_mission doc_file p.
Proof.
  intros H. split; [intros c [<-|[<-|[]]]; cbn; tauto|].
  destruct H as [<-|[<-|[<-|[]]]]; intros lb ub [E|[]]; injection E as <- <-; cbn; tauto.
Qed.
(** "G[0,b0] a0" and "!F[0,b0] !a0" are equivalent for all bounds ... *)
Example C58_doc_equivalent : ~ squery false doc_file (sdiffer doc1 doc2).
Proof.
  apply C58_pair_partial; try (apply doc_later || apply doc_mission); try (cbn; tauto).
  intros M v _ tr i. cbn. split.
  - intros H (j & Hj & Hn). exact (Hn (H j Hj)).
  - intros H j Hj. destruct (tr j 0) eqn:E; [reflexivity|]. exfalso. apply H. exists j. split; [exact Hj|congruence].
Qed.
(** ... and "(a0 U[0,b1] a1)" is not equivalent to them: for b0 = b1 = 0 the first
    needs a0 and the second a1. *)
Example C58_doc_different : squery false doc_file (sdiffer doc2 doc3).
Proof.
  exists 0%Z, (fun _ => 0%Z), (fun a _ => (a =? 0)%nat). cbn.
  split; [lia|]. split; [repeat (constructor; [lia|]); constructor|].
  split; [constructor; [cbn; lia|constructor; [cbn; lia|constructor]]|]. split; [cbn; lia|].
  intros H. destruct (proj1 H) as (_ & i & _ & _ & [_ E] & _); [|discriminate E].
  intros (_ & i & Hi & Hi' & Hn). apply Hn. split; [lia|reflexivity].
Qed.
Example C58_doc_verdict : check_equiv [Answered Unsat; Answered Sat] = (NotEquiv, true) /\
  exists M v p q, In (p, q) (adjacent (formulas doc_file)) /\ admits doc_file p q M v /\
                  ~ equivalent (instance M v p) (instance M v q).
Proof.
  split; [reflexivity|].
  apply (proj2 (C58_file_partial doc_file [Answered Unsat; Answered Sat] doc_mission doc_later
           (Forall2_cons (doc1, doc2) (Answered Unsat) (ex_intro _ Unsat (conj eq_refl C58_doc_equivalent))
              (Forall2_cons (doc2, doc3) (Answered Sat) (ex_intro _ Sat (conj eq_refl C58_doc_different)) (Forall2_nil _))))).
  reflexivity.
Qed.

(** "a0 U[0,M] a1" and "F[0,M] a1" on traces of M + 1 steps: they differ. *)
Example C58_mission_example :
  let p := SU n0 BMission a0 (SAtom 1) in let q := SF n0 BMission (SAtom 1) in let fl := File [] [p; q] in
  squery false fl (sdiffer p q).
Proof.
  intros p q fl. apply C58_mission_partial; try (cbn; tauto).
  - intros M v lb ub _ [E|[]]. injection E as <- <-. cbn. lia.
  - intros M v lb ub _ [E|[]]. injection E as <- <-. cbn. lia.
  - cbn. split; [|tauto]. intros [H _]. discriminate H.
  - intros [[_ H] _]. destruct (H n0 BMission (or_introl eq_refl)) as [_ []].
  - exists 1, (fun _ => 0). split.
    + split; [intros c []|]. split; intros lb ub [E|[]]; injection E as <- <-; cbn; lia.
    + exists (fun t a => (t =? 1) && (a =? 1))%nat. intros H. cbn in H. apply proj2 in H.
      destruct H as (_ & j & Hj & [_ H] & HA).
      * split; [lia|]. exists 1. split; [lia|]. split; [lia|reflexivity].
      * destruct (j =? 1)%nat eqn:E; [|discriminate H]. apply Nat.eqb_eq in E. subst j.
        destruct (HA 0 ltac:(lia)) as [_ X]. discriminate X.
Qed.

(** ** Where the answer is not about the formulas *)
(** A lower bound may come out negative: the query then looks at times before 0,
    and formulas equivalent for all proper bounds are called different. *)
Theorem C58_negative_refuted :
  exists fl p q, In p (formulas fl) /\ In q (formulas fl) /\ no_mission fl p /\ no_mission fl q /\
                 always_equivalent fl p q /\ squery false fl (sdiffer p q).
Proof. exact negative_refuted. Qed.
(** With a mission time formulas are called equivalent that are not: whatever
    happens after the mission is disregarded. *)
Theorem C58_mission_refuted :
  exists fl p q, In p (formulas fl) /\ In q (formulas fl) /\ starts_later fl p /\ starts_later fl q /\
                 ~ squery false fl (sdiffer p q) /\ ~ always_equivalent fl p q.
Proof. exact mission_refuted. Qed.
(** An interval that ends before it starts makes its formula equivalent to any
    other: nothing rejects it. *)
Theorem C58_backwards_refuted :
  exists fl p q, In p (formulas fl) /\ In q (formulas fl) /\ ~ squery false fl (sdiffer p q) /\
                 (forall M v, ~ admits fl p q M v) /\ forall M v, ~ equivalent (instance M v p) (instance M v q).
Proof. exact backwards_refuted. Qed.
(** A pair that cannot be encoded does not keep "equiv" from being printed. *)
Theorem C58_unencoded_refuted : exists answers, In Unencoded answers /\ fst (check_equiv answers) = Equiv.
Proof. exact unencoded_refuted. Qed.

Print Assumptions C58_pair_partial.
Print Assumptions C58_mission_partial.
Print Assumptions C58_strict_partial.
Print Assumptions C58_file_partial.
Print Assumptions C58_verdict.
Print Assumptions C58_negative_refuted.
Print Assumptions C58_mission_refuted.
Print Assumptions C58_backwards_refuted.
Print Assumptions C58_unencoded_refuted.
