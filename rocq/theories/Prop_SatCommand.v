(** * C61: the satisfiability command's words about each specification and the program *)
From Coq Require Import List Arith ZArith NArith Bool String Ascii Lia.
From Verif Require Import Mltl MltlShape Smt SmtSpec SatCommand SatCommandSpec SatCommandProofs.
Import ListNotations.
Local Open Scope nat_scope.

(** ** Bit-vectors *)
(** Whatever is printed or warned is right, also if the command fails later. *)
Theorem C61_right_words print solve specs :
  (forall e, In e (bodies specs) -> legal e) -> honest_for QfBv false solve specs ->
  forall m, In m (fst (check_sat QfBv false print solve specs)) -> right_message specs m.
Proof. intros Hl. exact (messages_right QfBv false print solve specs (bv_asked_exact specs Hl)). Qed.
Print Assumptions C61_right_words.

(** It succeeds exactly if all formulas are in the fragment and the solver
    answers, with any word. *)
Theorem C61_success print strict solve specs : (forall e, In e (bodies specs) -> legal e) ->
  (snd (check_sat QfBv strict print solve specs) = true <->
   (forall e, In e (bodies specs) -> all_nodes bit_vector_op e /\ answers (solve e)) /\
   (2 <= List.length (bodies specs) -> answers (solve (EAnd (bodies specs))))).
Proof. exact (bv_success print strict solve specs). Qed.
Print Assumptions C61_success.

(** Success without a warning: one trace meets all formulas. *)
Theorem C61_silent solve specs ms :
  (forall e, In e (bodies specs) -> legal e) -> honest_for QfBv false solve specs ->
  check_sat QfBv false false solve specs = (ms, true) ->
  (forall who r, ~ In (Warned who r) ms) -> together (bodies specs).
Proof. intros Hl Hh. exact (silent QfBv false solve specs (bv_asked_exact specs Hl) Hh ms). Qed.
Print Assumptions C61_silent.

(** With a solver that decides, a warning appears exactly if there is no such
    trace. *)
Theorem C61_warned solve specs ms :
  (forall e, In e (bodies specs) -> legal e) -> honest_for QfBv false solve specs ->
  (forall e, asked specs e -> decides (solve e)) ->
  check_sat QfBv false false solve specs = (ms, true) ->
  ((forall who r, ~ In (Warned who r) ms) <-> together (bodies specs)).
Proof. intros Hl Hh Hd H. exact (silent_iff QfBv false solve specs (bv_asked_exact specs Hl) Hh ms H Hd). Qed.
Print Assumptions C61_warned.

(** ** Every theory: one line for each formula, in order, and one for the program *)
Theorem C61_every_line th strict solve specs ms : check_sat th strict true solve specs = (ms, true) ->
  shown ms = map Some (labels specs) ++ (if 2 <=? List.length (bodies specs) then [None] else []).
Proof. exact (all_shown th strict solve specs ms). Qed.
Print Assumptions C61_every_line.

(** With --strict, whatever is said to be unsatisfiable is, in every theory. *)
Theorem C61_strict_unsat th print solve specs :
  (forall e, In e (bodies specs) -> legal e) -> honest_for th true solve specs ->
  forall m, In m (fst (check_sat th true print solve specs)) ->
  (forall n, says m (Some n) Unsat -> exists e, In (n, Some e) specs /\ ~ satisfiable e) /\
  (says m None Unsat -> ~ together (bodies specs)).
Proof. exact (strict_unsat th print solve specs). Qed.
Print Assumptions C61_strict_unsat.

(** ** Uninterpreted functions
    Missing: programs of three and more formulas (refuted below); the operators
    C33 misses. *)
Theorem C61_uflia_right_words_partial print solve specs :
  List.length (bodies specs) <= 2 ->
  (forall e, In e (bodies specs) -> legal e /\ all_nodes measured_op e) -> honest_for Uflia false solve specs ->
  forall m, In m (fst (check_sat Uflia false print solve specs)) -> right_message specs m.
Proof. intros Hn Hl. exact (messages_right Uflia false print solve specs (uf_asked_exact specs Hn Hl)). Qed.
Print Assumptions C61_uflia_right_words_partial.

Theorem C61_uflia_silent_partial solve specs ms :
  List.length (bodies specs) <= 2 ->
  (forall e, In e (bodies specs) -> legal e /\ all_nodes measured_op e) -> honest_for Uflia false solve specs ->
  check_sat Uflia false false solve specs = (ms, true) ->
  (forall who r, ~ In (Warned who r) ms) -> together (bodies specs).
Proof. intros Hn Hl Hh. exact (silent Uflia false solve specs (uf_asked_exact specs Hn Hl) Hh ms). Qed.
Print Assumptions C61_uflia_silent_partial.

(** ** Refutations *)
(** Four specifications, each satisfiable, excluding each other, and a right
    solver: "program : sat". *)
Theorem C61_uflia_program_refuted : exists solve specs ms,
  (forall e, In e (bodies specs) -> legal e /\ all_nodes measured_op e /\ satisfiable e) /\
  honest_for Uflia false solve specs /\ check_sat Uflia false true solve specs = (ms, true) /\
  In (Shown None Sat) ms /\ ~ together (bodies specs).
Proof. exact uf_program_sat. Qed.
Print Assumptions C61_uflia_program_refuted.
Theorem C61_uflia_silent_refuted : exists solve specs,
  (forall e, In e (bodies specs) -> legal e /\ all_nodes measured_op e) /\
  honest_for Uflia false solve specs /\ check_sat Uflia false false solve specs = ([], true) /\
  ~ together (bodies specs).
Proof. exact uf_program_silent. Qed.
Print Assumptions C61_uflia_silent_refuted.
(** A past-time specification ends the command; nothing is said about those
    after it, nor about the program. *)
Theorem C61_past_stops_refuted : exists specs, (forall e, In e (bodies specs) -> legal e) /\ ~ together (bodies specs) /\
  forall th strict print solve, answers (solve (EAtom 0)) ->
  exists ms, check_sat th strict print solve specs = (ms, false) /\
    (forall m who r, In m ms -> says m who r -> who = Some 1).
Proof. exact past_stops. Qed.
Print Assumptions C61_past_stops_refuted.

(** ** Examples *)
(** G[0,2] p, a contract, F[0,2] !p: each can be met, together they cannot. *)
Definition two : list spec :=
  [(7, Some (EG 0 2 (EAtom 0))); (8, None); (9, Some (EF 0 2 (ENot (EAtom 0))))].
Definition two_solver (e : expr) : process := Ended 0 (line (match e with EAnd _ => "unsat" | _ => "sat" end)).
Example two_legal : (forall e, In e (bodies two) -> legal e /\ all_nodes bit_vector_op e) /\
  (forall e, asked two e -> decides (two_solver e)) /\ answers (two_solver (EAnd (bodies two))).
Proof.
  split; [cbn [bodies two In]; intros e [<-|[<-|[]]]; cbn; repeat split; lia|].
  split; [|eexists; reflexivity]. intros e [[<-|[<-|[]]]| ->]; unfold decides, two_solver; auto.
Qed.
Example two_apart : ~ together (bodies two).
Proof.
  intros [tr H]. destruct (H (EF 0 2 (ENot (EAtom 0))) ltac:(cbn; auto)) as (j & Hj & Hn).
  apply Hn. exact (H (EG 0 2 (EAtom 0)) ltac:(cbn; auto) j Hj).
Qed.
Example two_honest : honest_for QfBv false two_solver two.
Proof.
  intros e q Ha E.
  assert (Hl : forall e, In e (bodies two) -> legal e) by (intros; apply two_legal; assumption).
  pose proof (bv_asked_exact two Hl e q Ha E) as Hq. destruct Ha as [[<-|[<-|[]]]| ->]; cbn [honest two_solver].
  - left. split; [reflexivity|]. apply Hq. exists (fun _ _ => true). cbn. auto.
  - left. split; [reflexivity|]. apply Hq. exists (fun _ _ => false). exists 0. cbn. split; [lia|discriminate].
  - right; left. split; [reflexivity|]. rewrite Hq, together_and. exact two_apart.
Qed.
Example two_printed : check_sat QfBv false true two_solver two =
  ([Shown (Some 7) Sat; SkippedContract 8; Shown (Some 9) Sat; Shown None Unsat], true).
Proof. reflexivity. Qed.
Example two_warned : check_sat QfBv false false two_solver two = ([SkippedContract 8; Warned None Unsat], true).
Proof. reflexivity. Qed.
(** p and F[1,2] q: silent, for both theories. *)
Definition pair : list spec := [(1, Some (EAtom 0)); (2, Some (EF 1 2 (EAtom 1)))].
Example pair_silent : check_sat QfBv false false sat_solver pair = ([], true) /\
  check_sat Uflia false false sat_solver pair = ([], true) /\
  (forall e, In e (bodies pair) -> legal e /\ all_nodes measured_op e).
Proof.
  split; [reflexivity|]. split; [reflexivity|]. cbn [bodies pair In]. intros e [<-|[<-|[]]]; cbn; repeat split; lia.
Qed.
Example pair_honest : honest_for QfBv false sat_solver pair /\ honest_for Uflia false sat_solver pair.
Proof.
  assert (Hl : forall e, In e (bodies pair) -> legal e) by (intros; apply pair_silent; assumption).
  assert (Hm : forall e, In e (bodies pair) -> legal e /\ all_nodes measured_op e) by apply pair_silent.
  assert (Hs : forall e, asked pair e -> satisfiable e).
  { intros e [[<-|[<-|[]]]| ->]; exists (fun _ _ => true); cbn; repeat split; exists 1; split; reflexivity || lia. }
  split; intros e q Ha E; left; (split; [reflexivity|]).
  - apply (bv_asked_exact pair Hl e q Ha E), Hs, Ha.
  - apply (uf_asked_exact pair ltac:(cbn; lia) Hm e q Ha E), Hs, Ha.
Qed.
(** p, q and !p with --strict. *)
Definition clash : list spec := [(1, Some (EAtom 0)); (2, Some (EAtom 1)); (3, Some (ENot (EAtom 0)))].
Example clash_strict : (forall e, In e (bodies clash) -> legal e) /\ honest_for QfUflia true two_solver clash /\
  check_sat QfUflia true false two_solver clash = ([Warned None Unsat], true).
Proof.
  split; [cbn [bodies clash In]; intros e [<-|[<-|[<-|[]]]]; exact I|]. split; [|reflexivity].
  intros e q Ha E. destruct Ha as [[<-|[<-|[<-|[]]]]| ->]; injection E as <-; cbn [honest two_solver].
  1-2: left; split; [reflexivity|]; exists (fun _ _ => true), 1%Z; cbn; split; [lia|reflexivity].
  - left. split; [reflexivity|]. exists (fun _ _ => false), 1%Z. cbn. split; [lia|]. intros [_ H]. discriminate H.
  - right; left. split; [reflexivity|]. intros (f & len & H). cbn in H. tauto.
Qed.
(** Failures: a formula with implication, a solver out of time, a crash. *)
Example implication_fails : check_sat QfBv false true sat_solver [(1, Some (EImpl (EAtom 0) (EAtom 1))); (2, Some (EAtom 0))] =
  ([NotEncoded (Some 1)], false).
Proof. reflexivity. Qed.
Example time_out : check_sat QfBv false true (fun e => match e with EAnd _ => TimedOut | _ => sat_solver e end) pair =
  ([Shown (Some 1) Sat; Shown (Some 2) Sat; Unexpected None Other], false).
Proof. reflexivity. Qed.
Example crash : check_sat QfBv false true (fun _ => Ended 101 (line "sat")) pair = ([Unexpected (Some 1) Other], false).
Proof. reflexivity. Qed.
Example unknown : check_sat QfBv false false (fun _ => Ended 0 (line "unknown")) pair =
  ([Warned (Some 1) Unknown; Warned (Some 2) Unknown; Warned None Unknown], true).
Proof. reflexivity. Qed.
