(** * Contracts (specification) *)
From Coq Require Import List Arith String.
Require Import Verif.Mltl Verif.Scq Verif.Engine Verif.Monitoring Verif.Contracts.
Import ListNotations.

(** language.md 208: inactive if the assumption is false, invalid if it is true
    and the guarantee false, verified if both are true. *)
Definition has_status (tr : trace) (a g : expr) (t : nat) (s : status) : Prop :=
  match s with
  | Inactive => ~ sat tr a t
  | Invalid => sat tr a t /\ ~ sat tr g t
  | Verified => sat tr a t /\ sat tr g t
  end.

(** The formulas that stand for a specification. *)
Definition monitored_as (s : spec) : list spec :=
  match s with
  | Contract l n0 n1 n2 a g =>
      [Formula ("__" ++ l ++ "_active__") n0 a; Formula ("__" ++ l ++ "_valid__") n1 (EImpl a g);
       Formula ("__" ++ l ++ "_verified__") n2 (EAnd [a; g])]
  | Formula l n e => [Formula l n e]
  end%string.

(** The contracts of a file, and the labels of its formulas. *)
Definition declared (ss : list section) (l : string) (a g : expr) : Prop :=
  exists ft ds, In (ft, ds) ss /\ In (DContract l a g) ds.
Definition contract_labels (ss : list section) : list string :=
  flat_map (fun s => flat_map (fun d => match d with DContract l _ _ => [l] | _ => [] end) (snd s)) ss.

(** Formulas handed to the rest of the compiler. *)
Definition formulas (p : program) : list (nat * expr) :=
  flat_map (fun s => match s with Formula _ n e => [(n, e)] | _ => [] end) (get_specs p).

(** The reports of formula [n] in [out]. *)
Definition out_of (n : nat) (out : list (nat * verdict)) : list verdict := map snd (filter (fun r => fst r =? n) out).
(** Reports in order and true of the formula: what C39 establishes. *)
Definition true_reports (tr : trace) (out : list (nat * verdict)) (n : nat) (e : expr) : Prop :=
  increasing (out_of n out) /\ forall t b, reported (out_of n out) t b -> (b = true <-> sat tr e t).

(** All future-time sections before all past-time sections. *)
Fixpoint future_first (ss : list section) : Prop :=
  match ss with
  | [] => True
  | (true, _) :: ss => future_first ss
  | (false, _) :: ss => Forall (fun s => fst s = false) ss
  end.
