(** * C60: reading equivalence files *)
From Coq Require Import List Arith NArith ZArith Bool Ascii String Lia.
From Verif Require Import Mltl MapFile SmtSpec SymSmt SymSmtSpec EquivText EquivTextSpec EquivTextProofs EquivTextChecks.
Import ListNotations.
Local Open Scope list_scope.
Local Open Scope nat_scope.

(** A text that spells tokens is accepted exactly if the grammar derives them, and
    read as the grammar says.  Missing from the full claim: other texts, see below. *)
Theorem C60_grammar_partial s ts cs fs : spells s ts -> (read_equiv s = Some (cs, fs) <-> file_lines ts cs fs).
Proof. exact (read_iff s ts cs fs). Qed.

(** There is one reading. *)
Theorem C60_unambiguous ts cs fs cs' fs' : file_lines ts cs fs -> file_lines ts cs' fs' -> cs = cs' /\ fs = fs'.
Proof. exact (derivations_unique ts cs fs cs' fs'). Qed.

(** Every file C58 speaks about has a text, and a text stands for one file. *)
Theorem C60_every_file name fl : exists s, written name s fl.
Proof. exact (file_written name fl). Qed.
Theorem C60_one_file name s fl fl' : (forall a b, name a = name b -> a = b) ->
  written name s fl -> written name s fl' -> fl = fl'.
Proof. exact (written_unique name s fl fl'). Qed.

(** From the text to the word printed, for a solver that errs in no answer. *)
Theorem C60_verdict_partial name s fl fl' answers : (forall a b, name a = name b -> a = b) -> written name s fl ->
  (forall p, In p (formulas fl) -> no_mission fl p) -> (forall p, In p (formulas fl) -> starts_later fl p) ->
  read_equiv s = Some (as_trees name fl') ->
  Forall2 (fun pq a => exists r, a = Answered r /\ SymSmtSpec.right (squery false fl' (sdiffer (fst pq) (snd pq))) r)
          (adjacent (formulas fl')) answers ->
  (fst (check_equiv answers) = Equiv -> all_equivalent fl) /\
  (fst (check_equiv answers) = NotEquiv ->
   exists M v p q, In (p, q) (adjacent (formulas fl)) /\ admits fl p q M v /\ ~ equivalent (instance M v p) (instance M v q)).
Proof. exact (text_verdict name s fl fl' answers). Qed.

(** "b0 + b1 * 2" is read as "(b0 + b1) * 2": a constraint that b0 = 2 and b1 = 1
    meet in C is not met as read. *)
Theorem C60_precedence_refuted : exists s ts c c' M v, spells s (TConstraint :: ts ++ [TNewline]) /\
  c_term 5 ts (constraint_tree c) /\ read_equiv s = Some ([constraint_tree c'], []) /\ meets M v c /\ ~ meets M v c'.
Proof. exact product_refuted. Qed.
(** A text with a character that belongs to no token is accepted without it. *)
Theorem C60_illegal_characters_refuted : exists s p, (forall ts, ~ spells s ts) /\ read_equiv s = Some ([], [p]).
Proof. exact illegal_refuted. Qed.
(** A comment behind a formula makes the file unreadable. *)
Theorem C60_trailing_comment_refuted : exists s s', read_equiv (s ++ ["010"%char]) <> None /\
  (exists body, s' = s ++ quoted " #" ++ body /\ ~ In "010"%char body) /\
  read_equiv (s' ++ ["010"%char]) = None.
Proof. exact comment_refuted. Qed.
(** So does an empty line. *)
Theorem C60_empty_line_refuted : exists s s', read_equiv (s ++ s') <> None /\ read_equiv (s ++ "010"%char :: s') = None.
Proof. exact empty_line_refuted. Qed.

(** ** The example of compiler/docs/user/equiv.md *)
Definition newline : str := ["010"%char].
Definition doc_text : str :=
  quoted "c: b0 >= 0" ++ newline ++ quoted "c: b1 >= b0" ++ newline ++ quoted "G[0,b0] a0" ++ newline ++
  quoted "!F[0,b0] !a0" ++ newline ++ quoted "(a0 U[0,b1] a1)" ++ newline.
Definition doc_file : equiv_file :=
  File [Constr Rge (BVar 0) (BNum 0); Constr Rge (BVar 1) (BVar 0)]
       [SG (BNum 0) (BVar 0) (SAtom 0); SNot (SF (BNum 0) (BVar 0) (SNot (SAtom 0))); SU (BNum 0) (BVar 1) (SAtom 0) (SAtom 1)].
Definition signals : nat -> bool * N := fun a => (true, N.of_nat a).
Example C60_doc : read_equiv doc_text = Some (as_trees signals doc_file).
Proof. vm_compute. reflexivity. Qed.
Definition doc_tokens : list token :=
  [TConstraint; TBound 0; TOp OGe; TNum 0; TNewline; TConstraint; TBound 1; TOp OGe; TBound 0; TNewline;
   TUnary UG; TLBrack; TNum 0; TComma; TBound 0; TRBrack; TAtom 0; TNewline;
   TNot; TUnary UF; TLBrack; TNum 0; TComma; TBound 0; TRBrack; TNot; TAtom 0; TNewline;
   TLParen; TAtom 0; TBinary BU; TLBrack; TNum 0; TComma; TBound 1; TRBrack; TAtom 1; TRParen; TNewline].
Example C60_doc_tokens : spells doc_text doc_tokens.
Proof.
  assert (B : forall t s ts, spells s ts -> apart t (" "%char :: s) -> spells (spelling t ++ " "%char :: s) (t :: ts)).
  { intros t s ts H A. apply sp_token; [apply sp_blank; auto|exact A]. }
  unfold doc_tokens.
  repeat match goal with
  | |- spells _ (?t :: _) => first
      [ refine (B t _ _ _ _); [|cbn; (exact Logic.I || reflexivity || discriminate)]
      | refine (sp_token t _ _ _ _); [|cbn; (exact Logic.I || reflexivity || discriminate)] ]
  | |- spells _ [] => exact sp_nil
  end.
Qed.
Example C60_doc_written : written signals doc_text doc_file.
Proof. exists doc_tokens. split; [exact C60_doc_tokens|]. apply (C60_grammar_partial doc_text); [exact C60_doc_tokens|]. exact C60_doc. Qed.
(** Grouping: "a0 & a1 U[0,1] a2 -> !a0 | a1" *)
Example C60_grouping : read_equiv (quoted "a0 & a1 U[0,1] a2 -> !a0 | a1" ++ newline) =
  Some ([], [Op OImpl (Op OAnd (Atom 0) (Bin BU (Num 0) (Num 1) (Atom 1) (Atom 2))) (Op OOr (Not (Atom 0)) (Atom 1))]).
Proof. vm_compute. reflexivity. Qed.
Example C60_bounds_read : read_equiv (quoted "c: min(b0, b1 - 1) < max(M, 2 * b0)" ++ newline ++ quoted "# bounds" ++ newline ++ quoted "a0 R[b0-1,b1] p0" ++ newline) =
  Some ([Op OLt (Call CMin (Bound 0) (Op OSub (Bound 1) (Num 1))) (Call CMax Mission (Op OMul (Num 2) (Bound 0)))],
        [Bin BR (Op OSub (Bound 0) (Num 1)) (Bound 1) (Atom 0) (Prop_ 0)]).
Proof. vm_compute. reflexivity. Qed.

Print Assumptions C60_grammar_partial.
Print Assumptions C60_unambiguous.
Print Assumptions C60_every_file.
Print Assumptions C60_one_file.
Print Assumptions C60_verdict_partial.
Print Assumptions C60_precedence_refuted.
Print Assumptions C60_illegal_characters_refuted.
Print Assumptions C60_trailing_comment_refuted.
Print Assumptions C60_empty_line_refuted.
