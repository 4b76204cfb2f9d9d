(** * What is found after the "write_smt_encoding" command *)
From Coq Require Import List Arith Bool.
From Verif Require Import SmtFiles.
Import ListNotations.

Fixpoint content {text} (files : list (nat * text)) (n : nat) : option text :=
  match files with
  | [] => None
  | (m, t) :: rest => if n =? m then Some t else content rest n
  end.
(** The text a user finds for the formula [n]. *)
Definition found {text} (p : @place text) (n : nat) : option text :=
  match p with
  | Absent => None
  | File t => Some t
  | Directory files => content files n
  end.
(** A query was written for the formula and is there. *)
Definition written {expr text} (to_smt : expr -> option text) (p : @place text) (n : nat) (e : expr) : Prop :=
  exists t, to_smt e = Some t /\ found p n = Some t.
