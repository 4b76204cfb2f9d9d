(** * Meaning of named definitions (specification)

    A trace gives a value to every symbol.  It respects a list of named
    expressions when each name always has the value of the expression it
    names, read in the same trace. *)
From Coq Require Import List.
Require Import Verif.Mltl Verif.MltlShape.
Import ListNotations.

Definition respects (tr : trace) (ds : list (nat * expr)) : Prop :=
  forall x b, In (x, b) ds -> forall i, tr i x = true <-> sat tr b i.

Definition names (ds : list (nat * expr)) : list nat := map fst ds.

(** No symbol of [e] satisfies [P]. *)
Definition avoids (P : nat -> Prop) (e : expr) : Prop :=
  all_nodes (fun n => match n with EAtom s => ~ P s | _ => True end) e.

(** Distinct names; a body refers only to names that come before it. *)
Fixpoint ordered (seen : list nat) (ds : list (nat * expr)) : Prop :=
  match ds with
  | [] => True
  | (x, b) :: r =>
      ~ In x seen /\ avoids (fun s => In s (x :: names r)) b /\ ordered (x :: seen) r
  end.

(** A definition body that is itself one of the names. *)
Definition is_alias (all : list nat) (b : expr) : Prop := exists s, b = EAtom s /\ In s all.
