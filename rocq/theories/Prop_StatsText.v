(** * C63: statistics are printed as the format string says *)
From Coq Require Import List Arith Bool Ascii String Lia.
From Verif Require Import StatsText StatsTextSpec StatsTextProofs.
Import ListNotations.
Local Open Scope nat_scope.
Local Open Scope list_scope.

(** Every placeholder is replaced by its statistic, every escape by its character,
    and the rest is kept, for any number of pieces in any order.
    Missing: values with "%" or "\", and values that continue a placeholder
    (refuted below). *)
Theorem C63_format_partial values ps :
  (forall a, plain (values a)) -> Forall proper ps -> unambiguous values ps ->
  format values (template ps) = output values ps.
Proof. exact (format_output values ps). Qed.
Print Assumptions C63_format_partial.

(** The only placeholder that can be continued is %asmtl: without it the format
    string alone decides. *)
Theorem C63_format_simple_partial values ps :
  (forall a, plain (values a)) -> Forall proper ps -> ~ In (Stat "asmtl") ps ->
  format values (template ps) = output values ps.
Proof. exact (format_simple values ps). Qed.
Print Assumptions C63_format_simple_partial.

(** ** Refutations *)
Definition sample (name : string) (a : string) : str :=
  if String.eqb a "spec_filename" then s_ name
  else if String.eqb a "total_scq_size" then s_ "12"
  else if String.eqb a "asm_num_tl_temporal_instructions" then s_ "3"
  else if String.eqb a "asm_num_tl_instructions" then s_ "8"
  else s_ "0".
(** A file name with "%": "a%scq.c2po" is printed as "a12.c2po". *)
Theorem C63_percent_refuted : exists values ps, Forall proper ps /\ unambiguous values ps /\
  format values (template ps) <> output values ps.
Proof.
  exists (sample "a%scq.c2po"), [Stat "F"]. split; [repeat constructor; cbn; discriminate|]. split; [|vm_compute; discriminate].
  intros before key rest E longer more Hl El Hm. destruct before as [|p [|]]; [|discriminate E|discriminate E].
  injection E as <- <-. intros [r H]. destruct more; [contradiction|discriminate H].
Qed.
Print Assumptions C63_percent_refuted.
(** A file name with "\": "C:\new" is printed on two lines. *)
Theorem C63_backslash_refuted : exists values ps, Forall proper ps /\ unambiguous values ps /\
  (forall a, ~ In "%"%char (values a)) /\ format values (template ps) <> output values ps.
Proof.
  exists (sample "C:\new"), [Stat "F"]. split; [repeat constructor; cbn; discriminate|]. split; [|split; [|vm_compute; discriminate]].
  - intros before key rest E longer more Hl El Hm. destruct before as [|p [|]]; [|discriminate E|discriminate E].
    injection E as <- <-. intros [r H]. destruct more; [contradiction|discriminate H].
  - intros a. unfold sample.
    destruct (String.eqb a "spec_filename"); [cbn; intuition discriminate|].
    destruct (String.eqb a "total_scq_size"); [cbn; intuition discriminate|].
    destruct (String.eqb a "asm_num_tl_temporal_instructions"); [cbn; intuition discriminate|].
    destruct (String.eqb a "asm_num_tl_instructions"); cbn; intuition discriminate.
Qed.
Print Assumptions C63_backslash_refuted.
(** "%asmtl%F" with a file name that starts with "temp": the name continues the
    placeholder before it. *)
Theorem C63_continued_refuted : exists values ps, Forall proper ps /\ (forall a, plain (values a)) /\
  (forall s, ~ In (Plain s) ps) /\ format values (template ps) <> output values ps.
Proof.
  exists (sample "temp.c2po"), [Stat "asmtl"; Stat "F"]. split; [repeat constructor; cbn; discriminate|]. split.
  - intros a. unfold sample, plain.
    destruct (String.eqb a "spec_filename"); [cbn; intuition discriminate|].
    destruct (String.eqb a "total_scq_size"); [cbn; intuition discriminate|].
    destruct (String.eqb a "asm_num_tl_temporal_instructions"); [cbn; intuition discriminate|].
    destruct (String.eqb a "asm_num_tl_instructions"); cbn; intuition discriminate.
  - split; [cbn; intuition discriminate|vm_compute; discriminate].
Qed.
Print Assumptions C63_continued_refuted.

(** ** Examples *)
(** "%F: %asmtltemp/%asmtl\n" *)
Definition usual : list piece := [Stat "F"; Plain (s_ ": "); Stat "asmtltemp"; Plain (s_ "/"); Stat "asmtl"; Newline].
Example usual_text : template usual = s_ "%F: %asmtltemp/%asmtl\n" /\
  format (sample "a.c2po") (template usual) = s_ "a.c2po: 3/8" ++ ["010"%char].
Proof. split; vm_compute; reflexivity. Qed.
Example usual_proper : Forall proper usual.
Proof. repeat constructor; cbn; try discriminate; intuition discriminate. Qed.
Example values_plain : forall a, plain (sample "a.c2po" a).
Proof.
  intros a. unfold sample, plain.
  destruct (String.eqb a "spec_filename"); [cbn; intuition discriminate|].
  destruct (String.eqb a "total_scq_size"); [cbn; intuition discriminate|].
  destruct (String.eqb a "asm_num_tl_temporal_instructions"); [cbn; intuition discriminate|].
  destruct (String.eqb a "asm_num_tl_instructions"); cbn; intuition discriminate.
Qed.
Definition simple : list piece := [Quote; Stat "F"; Quote; Tab; Stat "asmtltemp"; Stat "scq"; Plain (s_ "temp"); Newline].
Example simple_text : Forall proper simple /\ ~ In (Stat "asmtl") simple /\
  format (sample "a.c2po") (template simple) =
    """"%char :: s_ "a.c2po" ++ """"%char :: "009"%char :: s_ "312temp" ++ ["010"%char].
Proof.
  split; [repeat constructor; cbn; try discriminate; intuition discriminate|].
  split; [cbn; intuition discriminate|vm_compute; reflexivity].
Qed.
(** Only "asmtl" can be continued, and here a newline follows. *)
Example usual_unambiguous : unambiguous (sample "a.c2po") usual.
Proof.
  intros before key rest E longer more Hl El Hm.
  assert (Hk : attribute key <> None).
  { assert (Hin : In (Stat key) usual) by (rewrite E; apply in_or_app; right; left; reflexivity).
    pose proof usual_proper as Hp. rewrite Forall_forall in Hp. exact (Hp _ Hin). }
  destruct (continued key longer more Hk Hl El Hm) as [-> ->]. intros [r H].
  do 6 (destruct before as [|? before]; [try discriminate E; injection E as <-; discriminate H|injection E as <- E]).
  destruct before; discriminate E.
Qed.
