(** * C62: the files written by the "write_smt_encoding" command *)
From Coq Require Import List Arith ZArith NArith Bool Lia.
From Verif Require Import Mltl Smt SmtFiles SmtFilesSpec SmtFilesProofs.
Import ListNotations.
Local Open Scope nat_scope.

(** Whatever is at the location, no exception; success exactly if every
    future-time formula has a query, and then each is found under its name.
    Missing: past-time formulas (refuted below). *)
Theorem C62_all_partial (expr text : Type) (to_smt : expr -> option text) ft pt location :
  NoDup (map fst ft) -> exists place ok,
  write_smt_encoding to_smt ft pt None location = Some (place, ok) /\
  (ok = true <-> forall n e, In (n, Some e) ft -> to_smt e <> None) /\
  (ok = true -> forall n e, In (n, Some e) ft -> written to_smt place n e).
Proof. exact (all_written expr text to_smt ft pt location). Qed.
Print Assumptions C62_all_partial.

(** A chosen formula, future or past time. *)
Theorem C62_one (expr text : Type) (to_smt : expr -> option text) ft pt location n :
  NoDup (map fst (ft ++ pt)) -> exists place ok,
  write_smt_encoding to_smt ft pt (Some n) location = Some (place, ok) /\
  (ok = true <-> exists e, In (n, Some e) (ft ++ pt) /\ to_smt e <> None) /\
  (ok = true -> forall e, In (n, Some e) (ft ++ pt) -> written to_smt place n e).
Proof. exact (one_written expr text to_smt ft pt location n). Qed.
Print Assumptions C62_one.

(** Other files of the directory keep their contents, also if the command fails. *)
Theorem C62_others_kept (expr text : Type) (to_smt : expr -> option text) ft pt formula files place ok m :
  write_smt_encoding to_smt ft pt formula (Directory files) = Some (place, ok) ->
  match formula with Some n => m <> n | None => forall e, ~ In (m, Some e) ft end ->
  found place m = content files m.
Proof. exact (others_kept expr text to_smt ft pt formula files place ok m). Qed.
Print Assumptions C62_others_kept.

(** ** Refutations *)
(** "If not provided, all formulas will be written": not those in PTSPEC, and
    the command succeeds. *)
Theorem C62_past_refuted (expr text : Type) (to_smt : expr -> option text) e t :
  to_smt e = Some t -> exists ft pt place,
  NoDup (map fst (ft ++ pt)) /\ In (3, Some e) pt /\
  write_smt_encoding to_smt ft pt None Absent = Some (place, true) /\ found place 3 = None.
Proof. exact (past_omitted expr text to_smt e t). Qed.
Print Assumptions C62_past_refuted.
(** Asked for an unknown formula, the command fails and an existing file is gone. *)
Theorem C62_file_lost_refuted (expr text : Type) (to_smt : expr -> option text) ft pt n t :
  (forall o, ~ In (n, o) (ft ++ pt)) ->
  write_smt_encoding to_smt ft pt (Some n) (File t) = Some (Absent, false).
Proof. exact (file_lost expr text to_smt ft pt n t). Qed.
Print Assumptions C62_file_lost_refuted.

(** ** Examples *)
(** The bit-vector queries; the text is stood for by the formula. *)
Definition bv_text (e : Mltl.expr) : option Mltl.expr := if bv_query false e then Some e else None.
Definition f1 : Mltl.expr := EG 0 2 (EAtom 0).
Definition f2 : Mltl.expr := EU 1 4 (EAtom 0) (EAtom 1).
Definition f3 : Mltl.expr := ENot (EAtom 2).
Definition ft : list (nat * option Mltl.expr) := [(1, Some f1); (2, None); (4, Some f2)].
Definition pt : list (nat * option Mltl.expr) := [(5, Some f3); (6, Some (EO 0 2 (EAtom 0)))].
Example names_distinct : NoDup (map fst (ft ++ pt)) /\ NoDup (map fst ft).
Proof. split; repeat constructor; cbn; intuition discriminate. Qed.
Example new_directory : write_smt_encoding bv_text ft pt None Absent = Some (Directory [(1, f1); (4, f2)], true).
Proof. reflexivity. Qed.
Example old_directory : write_smt_encoding bv_text ft pt None (Directory [(9, f3); (4, f3)]) =
  Some (Directory [(9, f3); (4, f2); (1, f1)], true).
Proof. reflexivity. Qed.
Example one_file : write_smt_encoding bv_text [(1, Some f1)] pt None (File f3) = Some (File f1, true) /\
  write_smt_encoding bv_text ft pt (Some 5) Absent = Some (File f3, true).
Proof. split; reflexivity. Qed.
Example failures : write_smt_encoding bv_text ft pt (Some 2) Absent = Some (Absent, false) /\
  write_smt_encoding bv_text ft pt (Some 6) (Directory [(6, f1)]) = Some (Directory [(6, f1)], false) /\
  write_smt_encoding bv_text [(1, Some f1); (2, Some (EImpl f1 f2)); (3, Some f3)] [] None Absent =
    Some (Directory [(1, f1)], false).
Proof. repeat split; reflexivity. Qed.
Example unknown_name : (forall o, ~ In (7, o) (ft ++ pt)) /\ bv_text f3 = Some f3.
Proof. split; [|reflexivity]. intros o H. cbn in H. intuition discriminate. Qed.
