(** * From a program graph to the formulas monitored (specification) *)
From Coq Require Import List Arith ZArith Bool.
Require Import Verif.Mltl Verif.Graph Verif.GraphSpec Verif.Assembly.
Import ListNotations.
Local Open Scope Z_scope.

(** Node [n] of the graph stands for expression [e] over the atomics (core
    operators only). *)
Inductive means (h : heap) (cls : nat -> nclass) : nat -> expr -> Prop :=
| means_signal n a : cls n = CSignal a -> 0 <= a -> means h cls n (EAtom (Z.to_nat a))
| means_atomic n a : cls n = CAtomic a -> 0 <= a -> means h cls n (EAtom (Z.to_nat a))
| means_const n b : cls n = CBool b -> means h cls n (EConst b)
| means_not n x p : cls n = COp OpNot -> nchildren (h n) = [x] -> means h cls x p -> means h cls n (ENot p)
| means_and n x y p q : cls n = COp OpAnd -> nchildren (h n) = [x; y] ->
    means h cls x p -> means h cls y q -> means h cls n (EAnd [p; q])
| means_or n x y p q : cls n = COp OpOr -> nchildren (h n) = [x; y] ->
    means h cls x p -> means h cls y q -> means h cls n (EOr [p; q])
| means_equiv n x y p q : cls n = COp OpEquiv -> nchildren (h n) = [x; y] ->
    means h cls x p -> means h cls y q -> means h cls n (EEquiv p q)
| means_until n x y lb ub p q : cls n = CTemporal OpUntil lb ub -> 0 <= lb <= ub -> nchildren (h n) = [x; y] ->
    means h cls x p -> means h cls y q -> means h cls n (EU (Z.to_nat lb) (Z.to_nat ub) p q)
| means_release n x y lb ub p q : cls n = CTemporal OpRelease lb ub -> 0 <= lb <= ub -> nchildren (h n) = [x; y] ->
    means h cls x p -> means h cls y q -> means h cls n (ER (Z.to_nat lb) (Z.to_nat ub) p q)
| means_since n x y lb ub p q : cls n = CTemporal OpSince lb ub -> 0 <= lb <= ub -> nchildren (h n) = [x; y] ->
    means h cls x p -> means h cls y q -> means h cls n (ES (Z.to_nat lb) (Z.to_nat ub) p q)
| means_trigger n x y lb ub p q : cls n = CTemporal OpTrigger lb ub -> 0 <= lb <= ub -> nchildren (h n) = [x; y] ->
    means h cls x p -> means h cls y q -> means h cls n (ET (Z.to_nat lb) (Z.to_nat ub) p q).

(** Formula node [f] reports [e] under [number]. *)
Definition formula_means (h : heap) (cls : nat -> nclass) (f : nat) (number : Z) (e : expr) : Prop :=
  cls f = CFormula number /\ 0 <= number /\ exists c, nchildren (h f) = [c] /\ means h cls c e.

(** Nodes that print alike (kind and symbol) are of the same class: names,
    constants, operators with their bounds, formula labels. *)
Definition named_apart (h : heap) (cls : nat -> nclass) : Prop :=
  forall n m, nkind (h n) = nkind (h m) -> nsym (h n) = nsym (h m) -> cls n = cls m.

(** Future-time expressions whose constants do not decide an operator on their
    own (see C25_absorbing_constant_refuted): any left operand of until and
    release, the neutral operand of and/or, one side of an equivalence. *)
Fixpoint monitorable (e : expr) : Prop :=
  match e with
  | EAtom _ => True
  | ENot p => monitorable p
  | EAnd [p; q] => (monitorable p /\ (monitorable q \/ q = EConst true)) \/ (p = EConst true /\ monitorable q)
  | EOr [p; q] => (monitorable p /\ (monitorable q \/ q = EConst false)) \/ (p = EConst false /\ monitorable q)
  | EEquiv p q => (monitorable p /\ (monitorable q \/ exists b, q = EConst b)) \/ ((exists b, p = EConst b) /\ monitorable q)
  | EU _ _ p q | ER _ _ p q => (monitorable p \/ exists b, p = EConst b) /\ monitorable q
  | _ => False
  end.

(** Past-time expressions without constants, except those the compiler puts next
    to since and trigger for once and historically (C25_past_neutral_constant_refuted). *)
Fixpoint pt_monitorable (e : expr) : Prop :=
  match e with
  | EAtom _ => True
  | ENot p => pt_monitorable p
  | EAnd [p; q] | EOr [p; q] | EEquiv p q => pt_monitorable p /\ pt_monitorable q
  | ES _ _ p q => p = EConst true /\ pt_monitorable q
  | ET _ _ p q => p = EConst false /\ pt_monitorable q
  | _ => False
  end.

(** Source formulas without constants, over future-time operators and binary
    connectives. *)
Definition simple_op (e : expr) : Prop :=
  match e with
  | EAnd es | EOr es => length es = 2%nat
  | EConst _ | EBeq _ _ | EO _ _ _ | EH _ _ _ | ES _ _ _ _ | ET _ _ _ _ => False
  | _ => True
  end.
(** Source formulas without constants, over once, historically and binary
    connectives. *)
Definition pt_simple_op (e : expr) : Prop :=
  match e with
  | EAnd es | EOr es => length es = 2%nat
  | EConst _ | EBeq _ _ | EF _ _ _ | EG _ _ _ | EU _ _ _ _ | ER _ _ _ _ | ES _ _ _ _ | ET _ _ _ _ => False
  | _ => True
  end.
(** Formula node [f] carries the compiled form of specification [s], a report
    number and an MLTL formula. *)
Definition spec_of (compile : expr -> expr) (h : heap) (cls : nat -> nclass) (f : nat) (s : Z * expr) : Prop :=
  formula_means h cls f (fst s) (compile (snd s)).
