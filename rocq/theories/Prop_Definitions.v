(** * C14: expanding definitions is substitution *)
From Coq Require Import List Arith.
Require Import Verif.Mltl Verif.MltlShape Verif.Scope Verif.Window.
Require Import Verif.Transform Verif.Definitions Verif.DefinitionsProofs.
Import ListNotations.

(** In a trace where every name has the value of its body, expansion changes
    no formula's verdict. *)
Theorem C14_expand_meaning : forall tr ds fs, respects tr (ds ++ fs) ->
  Forall2 (fun f g => fst f = fst g /\ forall i, sat tr (snd g) i <-> sat tr (snd f) i) fs (expand ds fs).
Proof. exact expand_meaning. Qed.
Print Assumptions C14_expand_meaning.

(** Such a trace exists over every assignment of the signals. *)
Theorem C14_meaning_exists : forall ds tr, ordered [] ds ->
  exists tr', respects tr' ds /\ forall i s, ~ In s (names ds) -> tr' i s = tr i s.
Proof. exact extension_exists. Qed.
Print Assumptions C14_meaning_exists.

(** Full statement: the same without the condition on bodies that are a bare
    name.  It is false ([C14_alias_refuted]). *)
Theorem C14_no_names_left_partial : forall ds fs, ordered [] (ds ++ fs) ->
  (forall x b, In (x, b) ds -> ~ is_alias (names ds) b) ->
  Forall (fun g => avoids (fun s => In s (names (ds ++ fs))) (snd g)) (expand ds fs).
Proof. exact expand_no_names. Qed.
Print Assumptions C14_no_names_left_partial.

(** The expanded formulas, read over the signals alone, have the meaning of
    the source formulas. *)
Theorem C14_macro_semantics_partial : forall ds fs tr tr', ordered [] (ds ++ fs) ->
  (forall x b, In (x, b) ds -> ~ is_alias (names ds) b) ->
  respects tr' (ds ++ fs) -> (forall i s, ~ In s (names (ds ++ fs)) -> tr' i s = tr i s) ->
  Forall2 (fun f g => fst f = fst g /\ forall i, sat tr (snd g) i <-> sat tr' (snd f) i) fs (expand ds fs).
Proof. exact expand_macro. Qed.
Print Assumptions C14_macro_semantics_partial.

Theorem C14_alias_refuted : exists ds fs, ordered [] (ds ++ fs) /\
  ~ Forall (fun g => avoids (fun s => In s (names (ds ++ fs))) (snd g)) (expand ds fs).
Proof. exact alias_refuted. Qed.
Print Assumptions C14_alias_refuted.

(** C08: the delays recorded before expansion are kept and are wrong after it. *)
Theorem C08_delay_after_expansion_refuted : exists ds lbl e g,
  ordered [] (ds ++ [(lbl, e)]) /\ expand ds [(lbl, e)] = [(lbl, g)] /\
  all_nodes future_op g /\ ~ depends_only_on (bpd e) (wpd e) g.
Proof. exact stale_delay_refuted. Qed.
Print Assumptions C08_delay_after_expansion_refuted.

(** Chained definitions, and a formula that names an earlier formula. *)
Example C14_case :
  let ds := [(10, EAnd [EAtom 0; EAtom 1]); (11, EF 0 2 (EAtom 10))] in
  let fs := [(20, EAtom 11); (21, ENot (EAtom 20))] in
  ordered [] (ds ++ fs) /\
  expand ds fs = [(20, EF 0 2 (EAnd [EAtom 0; EAtom 1])); (21, ENot (EF 0 2 (EAnd [EAtom 0; EAtom 1])))].
Proof. cbn. repeat split; auto; intuition discriminate. Qed.
