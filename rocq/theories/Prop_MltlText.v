(** * MLTL standard files *)
From Coq Require Import List Arith NArith Bool Ascii String Lia.
Require Import Verif.Mltl Verif.MapFile Verif.MltlText Verif.MltlTextSpec Verif.MltlTextProofs.
Import ListNotations.
Local Open Scope list_scope.

Definition line (s : string) : str := quoted s ++ ["010"%char].

(** ** C43: what the compiler writes in the standard format it reads back *)
(** Formulas of the standard, of any number and size, not both with future and
    with past operators: the file is written, it is accepted, and the formulas
    read are equivalent to the ones written, in the same order and with the same
    signals.  Conjunctions of more than two come back as nested ones. *)
Theorem C43_round_trip_partial mission es :
  Forall standard es -> es <> [] -> ~ (Exists has_future es /\ Exists has_past es) ->
  exists txt past es', write_mltl es = Some txt /\ parse_mltl mission txt = Some (past, es') /\
    Forall2 equivalent es es' /\ (past = true <-> Exists has_past es).
Proof. exact (round_trip mission es). Qed.
Print Assumptions C43_round_trip_partial.
Example C43_ex_round_trip :
  let es := [EImpl (EAnd [EAtom 0; ENot (EG 2 30 (EAtom 11)); EConst true]) (EU 0 5 (EAtom 1) (EConst false)); EAtom 7] in
  Forall standard es /\ ~ Exists has_past es /\
  write_mltl es = Some (line "((a0 & (! (G[2,30] a11)) & true ) -> (a1 U[0,5] false ))" ++ line "a7") /\
  parse_mltl None (line "((a0 & (! (G[2,30] a11)) & true ) -> (a1 U[0,5] false ))" ++ line "a7") =
    Some (false, [EImpl (EAnd [EAnd [EAtom 0; ENot (EG 2 30 (EAtom 11))]; EConst true]) (EU 0 5 (EAtom 1) (EConst false)); EAtom 7]).
Proof.
  intros es. split; [repeat constructor|]. split.
  - intros H. apply pasts_iff in H. vm_compute in H. discriminate.
  - split; vm_compute; reflexivity.
Qed.

(** Every formula without == between formulas is written, but three kinds of
    files are refused on reading: with xor, with both future and past operators,
    with a conjunction of one. *)
Theorem C43_xor_refuted : exists e txt, write_mltl [e] = Some txt /\ forall mission, parse_mltl mission txt = None.
Proof. exists (EXor (EAtom 0) (EAtom 1)). eexists. split; [reflexivity|]. intros [m|]; vm_compute; reflexivity. Qed.
Print Assumptions C43_xor_refuted.
Theorem C43_mixed_refuted : exists es txt, Forall standard es /\ write_mltl es = Some txt /\ forall mission, parse_mltl mission txt = None.
Proof.
  exists [EG 0 3 (EAtom 0); EO 0 3 (EAtom 1)]. eexists. split; [repeat constructor|]. split; [reflexivity|]. intros [m|]; vm_compute; reflexivity.
Qed.
Print Assumptions C43_mixed_refuted.
Theorem C43_single_operand_refuted : exists e txt, write_mltl [EAnd [e]] = Some txt /\ standard e /\ forall mission, parse_mltl mission txt = None.
Proof. exists (EAtom 0). eexists. split; [reflexivity|]. split; [exact I|]. intros [m|]; vm_compute; reflexivity. Qed.
Print Assumptions C43_single_operand_refuted.

(** ** C44: files are read by their grammar *)
(** For every text that spells tokens: it is accepted with formulas [es] exactly
    when the grammar derives them - prefix operators bind tightest, then until,
    release, since and trigger, then and, then or, then implication and
    equivalence, each grouping to the left - and future and past operators are not
    mixed. *)
Theorem C44_grammar_partial mission s ts past es : spells s ts ->
  (parse_mltl mission s = Some (past, es) <->
   formulas mission ts es /\ ~ (Exists has_future es /\ Exists has_past es) /\ (past = true <-> Exists has_past es)).
Proof. exact (parse_mltl_iff mission s ts past es). Qed.
Print Assumptions C44_grammar_partial.
Example C44_ex_spells : spells (quoted "G[3] a0 # c" ++ ["010"%char]) [TUnary UG; TLBrack; TNum 3; TRBrack; TAtom 0].
Proof.
  apply (sp_token (TUnary UG) (quoted "[3] a0 # c" ++ ["010"%char])); [|exact I].
  apply (sp_token TLBrack (quoted "3] a0 # c" ++ ["010"%char])); [|exact I].
  apply (sp_token (TNum 3) (quoted "] a0 # c" ++ ["010"%char])); [|reflexivity].
  apply (sp_token TRBrack (quoted " a0 # c" ++ ["010"%char])); [|exact I].
  apply sp_blank; [left; reflexivity|]. apply (sp_token (TAtom 0) (quoted " # c" ++ ["010"%char])); [|reflexivity].
  apply sp_blank; [left; reflexivity|]. apply (sp_comment (quoted " c") []); [|constructor].
  intros [H|[H|[]]]; discriminate H.
Qed.
Example C44_ex_documentation :
  parse_mltl None (line "G[0,5] a0 & (a1 U[5,10] a4)" ++ line "(a0 | a53) R[0,153] a2") =
  Some (false, [EAnd [EG 0 5 (EAtom 0); EU 5 10 (EAtom 1) (EAtom 4)]; ER 0 153 (EOr [EAtom 0; EAtom 53]) (EAtom 2)]).
Proof. vm_compute. reflexivity. Qed.
Example C44_ex_levels :
  parse_mltl (Some 9) (line "!a0 U[M] a1 & a2 | a3 -> a4 -> F[2,M] a5 S[3] a6") = None /\
  parse_mltl (Some 9) (line "!a0 U[M] a1 & a2 | a3 -> a4 -> F[2,M] a5") =
  Some (false, [EImpl (EImpl (EOr [EAnd [EU 0 9 (ENot (EAtom 0)) (EAtom 1); EAtom 2]; EAtom 3]) (EAtom 4)) (EF 2 9 (EAtom 5))]).
Proof. vm_compute. auto. Qed.

(** A file has at most one reading. *)
Theorem C44_unambiguous mission ts es es' : formulas mission ts es -> formulas mission ts es' -> es = es'.
Proof. exact (formulas_unique mission ts es es'). Qed.
Print Assumptions C44_unambiguous.
Example C44_ex_unambiguous : formulas None [TAtom 0; TNewline] [EAtom 0].
Proof. apply (fs_cons None [TAtom 0] (EAtom 0) [] []); [|constructor]. do 4 apply f_higher. apply (f_atom None 0). Qed.

(** Characters outside the standard are skipped, so texts that are no formulas
    are accepted: a misspelt negation disappears. *)
Theorem C44_illegal_characters_refuted : exists s es,
  parse_mltl None s = Some (false, es) /\ (forall ts, ~ spells s ts).
Proof. exists (line "~a0"), [EAtom 0]. split; [vm_compute; reflexivity|exact tilde_spells_nothing]. Qed.
Print Assumptions C44_illegal_characters_refuted.

(** A comment behind a formula hides the end of the line: two good lines are
    refused. *)
Theorem C44_trailing_comment_refuted : exists s body es,
  parse_mltl None (s ++ ["010"%char]) = Some (false, es) /\ ~ In "010"%char body /\
  parse_mltl None (s ++ "#"%char :: body ++ ["010"%char]) = None.
Proof.
  exists (quoted "a0 "), (quoted " c"), [EAtom 0]. split; [reflexivity|]. split; [|reflexivity].
  intros [H|[H|[]]]; discriminate H.
Qed.
Print Assumptions C44_trailing_comment_refuted.

(** The precedences of the reference manual are not those of the reader. *)
Theorem C44_documented_precedence_refuted : exists s ts e e',
  spells s (ts ++ [TNewline]) /\ documented 1 ts e /\ parse_mltl None s = Some (false, [e']) /\ ~ equivalent e e'.
Proof.
  exists (line "a0|a1&a2"), [TAtom 0; TOr; TAtom 1; TAnd; TAtom 2], (EAnd [EOr [EAtom 0; EAtom 1]; EAtom 2]),
    (EOr [EAtom 0; EAnd [EAtom 1; EAtom 2]]).
  split; [exact documented_spells|]. split; [exact documented_reading|]. split; [vm_compute; reflexivity|].
  exact documented_differs.
Qed.
Print Assumptions C44_documented_precedence_refuted.
