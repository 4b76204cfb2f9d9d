(** * Unrolling and interval decomposition: cpt.py 1794-1942 (model)

    Both work on a deep copy (cpt.py 1671-1771; a tree copy here) in one
    post-order pass ([Transform.expr_map]). *)
From Coq Require Import List Arith.
Require Import Verif.Mltl Verif.Transform.
Import ListNotations.

(** ** unroll_temporal_operators: cpt.py 1794-1854 *)
(** [range(lb, ub + 1)]. *)
Definition steps (lb ub : nat) : list nat := seq lb (S ub - lb).

(** Lines 1826-1844: [for b in range(ub-1, lb-1, -1)]; [k] is the number of
    remaining iterations, [b] the lower end. *)
Fixpoint unroll_until (p q : expr) (lb k : nat) : expr :=
  match k with
  | 0 => EF lb lb q
  | S k => EOr [EF lb lb q; EAnd [EF lb lb p; unroll_until p q (S lb) k]]
  end.

(** Lines 1798-1849, one node; [ER] is handled in [unroll]. *)
Definition unroll_node (e : expr) : expr :=
  match e with
  | EF lb ub p => if lb =? ub then e else EOr (map (fun b => EF b b p) (steps lb ub))
  | EG lb ub p => if lb =? ub then e else EAnd (map (fun b => EG b b p) (steps lb ub))
  | EU lb ub p q => unroll_until p q lb (ub - lb)
  | _ => e
  end.

Fixpoint has_release (e : expr) : bool :=
  match e with
  | EConst _ | EAtom _ => false
  | ENot p | EF _ _ p | EG _ _ p | EO _ _ p | EH _ _ p => has_release p
  | EAnd es | EOr es => existsb has_release es
  | EXor p q | EImpl p q | EEquiv p q | EBeq p q
  | EU _ _ p q | ES _ _ p q | ET _ _ p q => has_release p || has_release q
  | ER _ _ _ _ => true
  end.

(** [None]: NotImplementedError (lines 1843-1846). *)
Definition unroll (e : expr) : option expr :=
  if has_release e then None else Some (expr_map unroll_node e).

(** ** decompose_intervals: cpt.py 1856-1942 *)
(** [while s >= a: amounts.append(a); s -= a] (lines 1872-1874); [fuel] bounds
    the iterations by the initial [s] (each removes a >= 1). *)
Fixpoint take_amounts (fuel a s : nat) : list nat * nat :=
  match fuel with
  | 0 => ([], s)
  | S fuel =>
      if a <=? s then let (l, s') := take_amounts fuel a (s - a) in (a :: l, s')
      else ([], s)
  end.

(** [for n in reversed(range(1, m + 1))] (line 1871). *)
Fixpoint amounts (m s : nat) : list nat :=
  match m with
  | 0 => []
  | S m' => let (l, s') := take_amounts s (2 ^ m - 1) s in l ++ amounts m' s'
  end.

(** [(ub-lb+1).bit_length()] is [log2 (ub-lb+1) + 1]. *)
Definition interval_amounts (lb ub : nat) : list nat :=
  amounts (Nat.log2 (ub - lb + 1)) (ub - lb).

(** Lines 1876-1882: [repl] is built from the innermost amount outwards. *)
Definition decompose_node (e : expr) : expr :=
  match e with
  | EF lb ub p =>
      if lb =? ub then e else
      let r := fold_right (fun a r => EF 0 a r) p (interval_amounts lb ub) in
      if 0 <? lb then EF lb lb r else r
  | EG lb ub p =>
      if lb =? ub then e else
      let r := fold_right (fun a r => EG 0 a r) p (interval_amounts lb ub) in
      if 0 <? lb then EG lb lb r else r
  | EU lb ub p q =>
      if lb =? ub then e else
      let r := fold_right (fun a r => EU 0 a p r) q (interval_amounts lb ub) in
      if 0 <? lb then EU lb lb p r else r
  | _ => e
  end.
Definition decompose (e : expr) : expr := expr_map decompose_node e.
