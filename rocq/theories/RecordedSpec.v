(** * Files whose names stand for formulas of the present time (specification) *)
From Coq Require Import List Bool.
Require Import Verif.MapFile Verif.C2poText.
Import ListNotations.
Local Open Scope list_scope.

(** No temporal operator: the formula speaks of the present only. *)
Fixpoint instant (e : cx) : bool :=
  match e with
  | CT1 _ _ _ _ | CT2 _ _ _ _ _ => false
  | CPre _ e => instant e
  | COp _ es => forallb instant es
  | _ => true
  end.
(** The names that an expression mentions. *)
Fixpoint mentions (e : cx) : list str :=
  match e with
  | CVar s => [s]
  | CPre _ e | CT1 _ _ _ e => mentions e
  | COp _ es => flat_map mentions es
  | CT2 _ _ _ a b => mentions a ++ mentions b
  | _ => []
  end.
(** What the names of a file stand for: definitions and labelled specifications. *)
Definition entries (p : list section) : list (str * cx) :=
  flat_map (fun s => match s with
                     | SDefine l => l
                     | SSpec _ l => flat_map (fun s => match s with Formula x _ e => [(x, e)] | Contract _ _ _ _ => [] end) l
                     | _ => [] end) p.
(** Every name that is mentioned stands for a formula without temporal operators. *)
Definition instant_names (p : list section) : Prop :=
  forall x e, In (x, e) (entries p) -> In x (flat_map (fun d => mentions (snd d)) (entries p)) -> instant e = true.
(** Future-time specifications only. *)
Definition future_only (p : list section) : Prop := forall l, ~ In (SSpec false l) p.
