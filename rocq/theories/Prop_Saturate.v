(** * C54: equality saturation gives back an equivalent formula *)
From Coq Require Import List NArith ZArith Bool Ascii String.
Require Import Verif.Mltl Verif.MapFile Verif.Egglog Verif.Saturate Verif.SaturateSpec Verif.SaturateProofs Verif.SaturateChain Verif.SaturateEncode.
Import ListNotations.
Local Open Scope nat_scope.
Local Open Scope list_scope.

(** The commands written for a formula make egglog bind the extracted name to
    that formula: whatever is written, if egglog accepts it. *)
Theorem C54_encoding_sound :
  forall g cs k t e,
    to_egglog g = Some (cs, k) -> root_term cs k = Some t -> stands g (pred (List.length g)) e -> of_eterm t = e.
Proof. exact encoding_sound. Qed.
Print Assumptions C54_encoding_sound.

(** It does accept them for formulas over the operators it has constructors for. *)
Theorem C54_encoding_total :
  forall g e,
    in_order g -> all_expressible g -> stands g (pred (List.length g)) e ->
    exists cs k t, to_egglog g = Some (cs, k) /\ root_term cs k = Some t /\ of_eterm t = e.
Proof. exact encoding. Qed.
Print Assumptions C54_encoding_total.

(** The reader accepts the phrases of its grammar, and reads each in one way. *)
Theorem C54_reader_grammar :
  forall ts r, parse ts [] = Some r <-> phrase ts r.
Proof. exact reader_grammar. Qed.
Print Assumptions C54_reader_grammar.

(** From a formula to egglog, through saturation, and back: the new formula is
    equivalent, has legal intervals and reads no other atomic.  Not so if the
    extracted term is one atomic, or if it is timed and the last section of the
    program is a past-time one (below). *)
Theorem C54_eqsat_equivalent_partial :
  forall g e cs k t t' text c,
    stands g (pred (List.length g)) e -> legal e ->
    to_egglog g = Some (cs, k) -> root_term cs k = Some t -> egraph all_rules t t t' ->
    laid_out (printed t') text -> (forall a, reads e a -> known_atomic c a = true) ->
    ~ bare t' -> (timed t' -> is_ft c = true) ->
    exists e', read_output c text = Formula e' /\ equivalent e' e /\ legal e' /\ (forall a, reads e' a -> reads e a).
Proof. exact eqsat_equivalent. Qed.
Print Assumptions C54_eqsat_equivalent_partial.

(** [(a0 && a7) && G[1,4] (a0 || true)] with one node for a0; the atomic a7 is
    computed by the Booleanizer from an operand of its own. *)
Definition shared : list gnode :=
  [GNode (NAtomic 0) []; GNode NBool []; GNode (NAtomic 7) [1]; GNode NAnd [0; 2];
   GNode (NConst true) []; GNode NOr [0; 4]; GNode (NGlobal 1 4) [5]; GNode NAnd [3; 6]].
Definition shared_formula : expr :=
  EAnd [EAnd [EAtom 0; EAtom 7]; EG 1 4 (EOr [EAtom 0; EConst true])].
Ltac standing :=
  eapply stands_node; [reflexivity | cbn [gop gargs]; standings | cbn; reflexivity]
with standings := first [apply all_none | eapply all_more; [standing | standings]].
Example C54_commands :
  stands shared (pred (List.length shared)) shared_formula /\ in_order shared /\ all_expressible shared /\
  to_egglog shared =
    Some ([(0, LVar 0); (1, LVar 7); (2, LAnd [0; 1]); (3, LBool true); (4, LOr [0; 3]); (5, LGlobal 1 4 4); (6, LAnd [2; 5])], 6) /\
  root_term [(0, LVar 0); (1, LVar 7); (2, LAnd [0; 1]); (3, LBool true); (4, LOr [0; 3]); (5, LGlobal 1 4 4); (6, LAnd [2; 5])] 6 =
    Some (TAnd2 (TAnd2 (TVar 0) (TVar 7)) (TGlobal 1 4 (TOr2 (TVar 0) (TBool true)))).
Proof.
  split; [standing|]. split.
  { intros p n q E I. do 8 (destruct p as [|p]; [injection E as <-; cbn in I; repeat (destruct I as [<-|I]; [auto with arith|]); contradiction|]).
    destruct p; discriminate. }
  split; [|split; vm_compute; reflexivity].
  intros p n E.
  do 8 (destruct p as [|p]; [injection E as <-; first [left; reflexivity|right; eexists; split; [standing|cbn; auto 10 with arith]]|]).
  destruct p; discriminate.
Qed.
(** Saturation makes [a0 || true] the constant [true]; egglog may print this. *)
Definition root : eterm := TAnd2 (TAnd2 (TVar 0) (TVar 7)) (TGlobal 1 4 (TOr2 (TVar 0) (TBool true))).
Definition result : eterm := TAnd2 (TAnd2 (TVar 0) (TVar 7)) (TGlobal 1 4 (TBool true)).
Definition result_text : str :=
  word "(And2 (And2 (Var ""a0"") (Var ""a7"")) (Global (Interval 1 4) (Bool true)))".
Definition two_atomics : context := Context (fun a => Nat.eqb a 0 || Nat.eqb a 7) [] true.
Ltac blank := first [apply Forall_nil | apply Forall_cons; [cbn; tauto|blank]].
Ltac laying :=
  lazymatch goal with
  | |- laid_out [] _ => apply (out_end []); blank
  | |- laid_out (Open :: _) _ => first [apply (out_open []) | apply (out_open [" "%char])]; [blank|laying]
  | |- laid_out (Close :: _) _ => apply (out_close []); [blank|laying]
  | |- laid_out (Word ?w :: ?ls) _ =>
      first [apply (out_word [] w ls) | apply (out_word [" "%char] w ls)];
      [ blank | laying
      | let E := fresh in intros ? ? E; first [discriminate E | eexists; eexists; split; [reflexivity|blank]] ]
  end.
Example C54_read_back :
  legal shared_formula /\ egraph all_rules root root result /\ laid_out (printed result) result_text /\
  (forall a, reads shared_formula a -> known_atomic two_atomics a = true) /\ ~ bare result /\ is_ft two_atomics = true /\
  read_output two_atomics result_text = Formula (EAnd [EAnd [EAtom 0; EAtom 7]; EG 1 4 (EConst true)]).
Proof.
  split; [cbn; auto 10 with arith|]. split.
  { assert (R : egraph all_rules root root root) by constructor.
    assert (A : egraph all_rules root (TAnd2 (TVar 0) (TVar 7)) (TAnd2 (TVar 0) (TVar 7)))
      by (refine (eg_sub _ _ _ _ R _); cbn; auto).
    assert (G : egraph all_rules root (TGlobal 1 4 (TOr2 (TVar 0) (TBool true))) (TGlobal 1 4 (TOr2 (TVar 0) (TBool true))))
      by (refine (eg_sub _ _ _ _ R _); cbn; auto).
    assert (O : egraph all_rules root (TOr2 (TVar 0) (TBool true)) (TOr2 (TVar 0) (TBool true)))
      by (refine (eg_sub _ _ _ _ G _); cbn; auto).
    apply eg_and2; [exact A| |exact R]. apply eg_global; [|exact G].
    exact (eg_fire all_rules root (Rule false (POr2 (PV 0) (PBool true)) (PBool true) []) (fun _ => 0%Z) (fun _ => TVar 0)
             ltac:(cbn; tauto) ltac:(constructor) O). }
  split; [|split; [|split; [|split; vm_compute; reflexivity]]].
  - vm_compute. laying.
  - intros a H. cbn in H. repeat (destruct H as [H|H]); subst; try contradiction; reflexivity.
  - intros [a E]. discriminate.
Qed.

(** A result that is one atomic is taken for the input named a<number>; without
    such an input the compiler ends with a KeyError. *)
Theorem C54_bare_atomic :
  forall a text c,
    laid_out (printed (TVar a)) text -> known_atomic c a = true ->
    read_output c text =
      if existsb (str_eqb ("a"%char :: dec (N.of_nat a))) (inputs c) then Input ("a"%char :: dec (N.of_nat a)) else Crashed.
Proof. intros a text c. exact (reads_bare a text c). Qed.
Print Assumptions C54_bare_atomic.

(** [x && true], [x] being atomic 0 and egglog's answer [x]: an exception, or
    another input if one is called a0. *)
Theorem C54_bare_atomic_refuted :
  exists g e cs k t t' text,
    stands g (pred (List.length g)) e /\ legal e /\ to_egglog g = Some (cs, k) /\ root_term cs k = Some t /\
    egraph all_rules t t t' /\ laid_out (printed t') text /\
    read_output (Context (Nat.eqb 0) [word "x"] true) text = Crashed /\
    read_output (Context (Nat.eqb 0) [word "x"; word "a0"] true) text = Input (word "a0").
Proof.
  exists [GNode (NAtomic 0) []; GNode (NConst true) []; GNode NAnd [0; 1]], (EAnd [EAtom 0; EConst true]),
    [(0, LVar 0); (1, LBool true); (2, LAnd [0; 1])], 2, (TAnd2 (TVar 0) (TBool true)), (TVar 0), (word "(Var ""a0"")").
  split; [standing|]. split; [cbn; auto|]. split; [reflexivity|]. split; [reflexivity|].
  split; [|split; [vm_compute; laying|split; vm_compute; reflexivity]].
  exact (eg_fire all_rules (TAnd2 (TVar 0) (TBool true)) (Rule false (PAnd2 (PV 0) (PBool true)) (PV 0) []) (fun _ => 0%Z) (fun _ => TVar 0)
           ltac:(cbn; tauto) ltac:(constructor) (eg_root _ _)).
Qed.
Print Assumptions C54_bare_atomic_refuted.

(** After a program whose last section is a past-time one, no result with a
    temporal operator is accepted. *)
Theorem C54_past_section :
  forall t text c sections,
    laid_out (printed t) text -> timed t -> (forall a, reads (of_eterm t) a -> known_atomic c a = true) ->
    is_ft c = after_type_check (sections ++ [false]) -> read_output c text = Failed.
Proof. exact past_section. Qed.
Print Assumptions C54_past_section.

(** [G[0,2] a0] in an FTSPEC section followed by a PTSPEC section. *)
Theorem C54_past_section_refuted :
  exists g e cs k t text,
    stands g (pred (List.length g)) e /\ legal e /\ to_egglog g = Some (cs, k) /\ root_term cs k = Some t /\
    egraph all_rules t t t /\ laid_out (printed t) text /\
    read_output (Context (Nat.eqb 0) [] (after_type_check [true])) text = Formula e /\
    read_output (Context (Nat.eqb 0) [] (after_type_check [true; false])) text = Failed.
Proof.
  exists [GNode (NAtomic 0) []; GNode (NGlobal 0 2) [0]], (EG 0 2 (EAtom 0)),
    [(0, LVar 0); (1, LGlobal 0 2 0)], 1, (TGlobal 0 2 (TVar 0)), (word "(Global (Interval 0 2) (Var ""a0""))").
  split; [standing|]. split; [cbn; auto|]. split; [reflexivity|]. split; [reflexivity|].
  split; [constructor|]. split; [vm_compute; laying|split; vm_compute; reflexivity].
Qed.
Print Assumptions C54_past_section_refuted.
