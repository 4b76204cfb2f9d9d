(** * The equality-saturation rule set (model)

    compiler/c2po/egglog/rewrites/*.egg, the files named in eqsat.py 38-46;
    the term language is egglog/greedy/mltl.egg 4-24.  [i64] arithmetic is modelled by [Z]
    (a bound that overflows 63 bits is out of scope); [:subsume] only hides
    terms from later matching, so it is not modelled. *)
From Coq Require Import List ZArith Bool.
Require Import Verif.Mltl.
Import ListNotations.
Open Scope Z_scope.

(** Ground terms: mltl.egg 4-24. *)
Inductive eterm : Type :=
| TBool (b : bool) | TVar (a : nat) | TNot (p : eterm)
| TImplies (p q : eterm) | TEquiv (p q : eterm)
| TAnd2 (p q : eterm) | TAnd3 (p q r : eterm) | TAnd4 (p q r s : eterm)
| TOr2 (p q : eterm) | TOr3 (p q r : eterm) | TOr4 (p q r s : eterm)
| TGlobal (lb ub : Z) (p : eterm) | TFuture (lb ub : Z) (p : eterm)
| TUntil (lb ub : Z) (p q : eterm) | TRelease (lb ub : Z) (p q : eterm).

(** Bound and term patterns, guards ([:when]) and rules. *)
Inductive bpat : Type :=
| BV (v : nat) | BZ (z : Z) | BAdd (a b : bpat) | BSub (a b : bpat)
| BMin (a b : bpat) | BMax (a b : bpat).
Inductive tpat : Type :=
| PV (v : nat) | PBool (b : bool) | PNot (p : tpat)
| PImplies (p q : tpat) | PEquiv (p q : tpat)
| PAnd2 (p q : tpat) | PAnd3 (p q r : tpat) | PAnd4 (p q r s : tpat)
| POr2 (p q : tpat) | POr3 (p q r : tpat) | POr4 (p q r s : tpat)
| PGlobal (lb ub : bpat) (p : tpat) | PFuture (lb ub : bpat) (p : tpat)
| PUntil (lb ub : bpat) (p q : tpat) | PRelease (lb ub : bpat) (p q : tpat).
Inductive guard : Type := GLe (a b : bpat) | GLt (a b : bpat) | GEq (a b : bpat).

(** [bidirectional]: [birewrite] instead of [rewrite]. *)
Record rule : Type := Rule
  { bidirectional : bool; lhs : tpat; rhs : tpat; guards : list guard }.

(** egglog/rewrites/associative.egg, in file order; the line of each rule is in its comment. *)
Definition rules_associative : list rule :=
  [ (* 1 *) Rule true
      (PAnd2 (PAnd2 (PV 0) (PV 1)) (PV 2))
      (PAnd2 (PV 0) (PAnd2 (PV 1) (PV 2)))
      []
  ; (* 7 *) Rule true
      (POr2 (POr2 (PV 0) (PV 1)) (PV 2))
      (POr2 (PV 0) (POr2 (PV 1) (PV 2)))
      [] ].

(** egglog/rewrites/commutative.egg, in file order; the line of each rule is in its comment. *)
Definition rules_commutative : list rule :=
  [ (* 1 *) Rule true
      (PAnd2 (PV 0) (PV 1))
      (PAnd2 (PV 1) (PV 0))
      []
  ; (* 7 *) Rule true
      (POr2 (PV 0) (PV 1))
      (POr2 (PV 1) (PV 0))
      [] ].

(** egglog/rewrites/multi_arity.egg, in file order; the line of each rule is in its comment. *)
Definition rules_multi_arity : list rule :=
  [ (* 1 *) Rule true
      (PAnd2 (PAnd2 (PV 0) (PV 1)) (PV 2))
      (PAnd3 (PV 0) (PV 1) (PV 2))
      []
  ; (* 7 *) Rule true
      (PAnd2 (PAnd3 (PV 0) (PV 1) (PV 2)) (PV 3))
      (PAnd4 (PV 0) (PV 1) (PV 2) (PV 3))
      []
  ; (* 13 *) Rule true
      (PAnd3 (PAnd2 (PV 0) (PV 1)) (PV 2) (PV 3))
      (PAnd4 (PV 0) (PV 1) (PV 2) (PV 3))
      []
  ; (* 19 *) Rule false
      (PAnd3 (PV 0) (PV 0) (PV 1))
      (PAnd2 (PV 0) (PV 1))
      []
  ; (* 26 *) Rule false
      (PAnd3 (PV 1) (PV 0) (PV 0))
      (PAnd2 (PV 1) (PV 0))
      []
  ; (* 33 *) Rule false
      (PAnd3 (PV 0) (PV 1) (PV 0))
      (PAnd2 (PV 1) (PV 0))
      []
  ; (* 40 *) Rule false
      (PAnd4 (PV 0) (PV 0) (PV 1) (PV 2))
      (PAnd3 (PV 0) (PV 1) (PV 2))
      []
  ; (* 47 *) Rule false
      (PAnd4 (PV 0) (PV 1) (PV 0) (PV 2))
      (PAnd3 (PV 0) (PV 1) (PV 2))
      []
  ; (* 54 *) Rule false
      (PAnd4 (PV 0) (PV 1) (PV 2) (PV 0))
      (PAnd3 (PV 0) (PV 1) (PV 2))
      []
  ; (* 61 *) Rule false
      (PAnd4 (PV 0) (PV 0) (PV 0) (PV 1))
      (PAnd2 (PV 0) (PV 1))
      []
  ; (* 68 *) Rule false
      (PAnd4 (PV 1) (PV 0) (PV 0) (PV 0))
      (PAnd2 (PV 1) (PV 0))
      []
  ; (* 75 *) Rule false
      (PAnd4 (PV 0) (PV 0) (PV 0) (PV 0))
      (PV 0)
      []
  ; (* 82 *) Rule true
      (POr2 (POr2 (PV 0) (PV 1)) (PV 2))
      (POr3 (PV 0) (PV 1) (PV 2))
      []
  ; (* 88 *) Rule true
      (POr3 (POr2 (PV 0) (PV 1)) (PV 2) (PV 3))
      (POr4 (PV 0) (PV 1) (PV 2) (PV 3))
      []
  ; (* 94 *) Rule false
      (POr3 (PV 0) (PV 0) (PV 1))
      (POr2 (PV 0) (PV 1))
      []
  ; (* 101 *) Rule false
      (POr3 (PV 1) (PV 0) (PV 0))
      (POr2 (PV 1) (PV 0))
      []
  ; (* 108 *) Rule false
      (POr3 (PV 0) (PV 1) (PV 0))
      (POr2 (PV 1) (PV 0))
      []
  ; (* 115 *) Rule false
      (POr4 (PV 0) (PV 0) (PV 1) (PV 2))
      (POr3 (PV 0) (PV 1) (PV 2))
      []
  ; (* 122 *) Rule false
      (POr4 (PV 0) (PV 1) (PV 0) (PV 2))
      (POr3 (PV 0) (PV 1) (PV 2))
      []
  ; (* 129 *) Rule false
      (POr4 (PV 0) (PV 1) (PV 2) (PV 0))
      (POr3 (PV 0) (PV 1) (PV 2))
      []
  ; (* 136 *) Rule false
      (POr4 (PV 0) (PV 0) (PV 0) (PV 1))
      (POr2 (PV 0) (PV 1))
      []
  ; (* 143 *) Rule false
      (POr4 (PV 1) (PV 0) (PV 0) (PV 0))
      (POr2 (PV 1) (PV 0))
      []
  ; (* 150 *) Rule false
      (POr4 (PV 0) (PV 0) (PV 0) (PV 0))
      (PV 0)
      [] ].

(** egglog/rewrites/const_folding.egg, in file order; the line of each rule is in its comment. *)
Definition rules_const_folding : list rule :=
  [ (* 1 *) Rule false
      (PNot (PBool true))
      (PBool false)
      []
  ; (* 7 *) Rule false
      (PNot (PBool false))
      (PBool true)
      []
  ; (* 13 *) Rule false
      (PAnd2 (PV 0) (PBool false))
      (PBool false)
      []
  ; (* 20 *) Rule false
      (POr2 (PV 0) (PBool true))
      (PBool true)
      []
  ; (* 27 *) Rule false
      (PAnd2 (PV 0) (PNot (PV 0)))
      (PBool false)
      []
  ; (* 33 *) Rule false
      (POr2 (PV 0) (PNot (PV 0)))
      (PBool true)
      []
  ; (* 39 *) Rule false
      (PGlobal (BV 0) (BV 1) (PBool false))
      (PBool false)
      []
  ; (* 46 *) Rule false
      (PGlobal (BV 0) (BV 1) (PBool true))
      (PBool true)
      []
  ; (* 53 *) Rule false
      (PFuture (BV 0) (BV 1) (PBool false))
      (PBool false)
      []
  ; (* 60 *) Rule false
      (PFuture (BV 0) (BV 1) (PBool true))
      (PBool true)
      []
  ; (* 67 *) Rule false
      (POr2 (PFuture (BV 0) (BV 1) (PV 0)) (PGlobal (BV 0) (BV 1) (PNot (PV 0))))
      (PBool true)
      []
  ; (* 73 *) Rule false
      (PAnd2 (PGlobal (BV 0) (BV 1) (PNot (PV 0))) (PFuture (BV 2) (BV 3) (PV 0)))
      (PBool false)
      [GLe (BV 0) (BV 2); GLe (BV 3) (BV 1)]
  ; (* 80 *) Rule false
      (PAnd2 (PGlobal (BV 0) (BV 1) (PV 0)) (PFuture (BV 2) (BV 3) (PNot (PV 0))))
      (PBool false)
      [GLe (BV 0) (BV 2); GLe (BV 3) (BV 1)] ].

(** egglog/rewrites/temporal.egg, in file order; the line of each rule is in its comment. *)
Definition rules_temporal : list rule :=
  [ (* 1 *) Rule false
      (PAnd2 (PV 0) (PBool true))
      (PV 0)
      []
  ; (* 8 *) Rule false
      (POr2 (PV 0) (PBool false))
      (PV 0)
      []
  ; (* 15 *) Rule false
      (PNot (PNot (PV 0)))
      (PV 0)
      []
  ; (* 22 *) Rule false
      (POr2 (PV 0) (PV 0))
      (PV 0)
      []
  ; (* 29 *) Rule false
      (PAnd2 (PV 0) (PV 0))
      (PV 0)
      []
  ; (* 36 *) Rule true
      (PEquiv (PV 0) (PV 1))
      (POr2 (PAnd2 (PV 0) (PV 1)) (PAnd2 (PNot (PV 0)) (PNot (PV 1))))
      []
  ; (* 42 *) Rule true
      (PNot (PAnd2 (PV 0) (PV 1)))
      (POr2 (PNot (PV 0)) (PNot (PV 1)))
      []
  ; (* 48 *) Rule true
      (PNot (POr2 (PV 0) (PV 1)))
      (PAnd2 (PNot (PV 0)) (PNot (PV 1)))
      []
  ; (* 54 *) Rule true
      (PNot (PUntil (BV 0) (BV 1) (PV 0) (PV 1)))
      (PRelease (BV 0) (BV 1) (PNot (PV 0)) (PNot (PV 1)))
      []
  ; (* 60 *) Rule true
      (PNot (PRelease (BV 0) (BV 1) (PV 0) (PV 1)))
      (PUntil (BV 0) (BV 1) (PNot (PV 0)) (PNot (PV 1)))
      []
  ; (* 66 *) Rule true
      (PUntil (BV 0) (BV 1) (PBool true) (PV 0))
      (PFuture (BV 0) (BV 1) (PV 0))
      []
  ; (* 72 *) Rule true
      (PRelease (BV 0) (BV 1) (PBool false) (PV 0))
      (PGlobal (BV 0) (BV 1) (PV 0))
      []
  ; (* 78 *) Rule false
      (PAnd2 (PUntil (BV 0) (BV 1) (PV 0) (PV 1)) (PUntil (BV 0) (BV 2) (PV 2) (PV 1)))
      (PUntil (BV 0) (BV 1) (PAnd2 (PV 0) (PV 2)) (PV 1))
      [GLe (BV 1) (BV 2)]
  ; (* 85 *) Rule false
      (PUntil (BV 0) (BV 0) (PV 0) (PV 1))
      (PFuture (BV 0) (BV 0) (PV 1))
      []
  ; (* 91 *) Rule false
      (PUntil (BZ 0) (BZ 0) (PV 0) (PV 1))
      (PV 1)
      []
  ; (* 98 *) Rule false
      (PRelease (BZ 0) (BZ 0) (PV 0) (PV 1))
      (PV 1)
      []
  ; (* 105 *) Rule true
      (PImplies (PV 0) (PV 1))
      (POr2 (PNot (PV 0)) (PV 1))
      []
  ; (* 111 *) Rule true
      (PNot (PFuture (BV 0) (BV 1) (PV 0)))
      (PGlobal (BV 0) (BV 1) (PNot (PV 0)))
      []
  ; (* 117 *) Rule true
      (PNot (PGlobal (BV 0) (BV 1) (PV 0)))
      (PFuture (BV 0) (BV 1) (PNot (PV 0)))
      []
  ; (* 123 *) Rule false
      (PGlobal (BV 0) (BV 1) (PGlobal (BV 2) (BV 3) (PV 0)))
      (PGlobal (BAdd (BV 0) (BV 2)) (BAdd (BV 1) (BV 3)) (PV 0))
      []
  ; (* 129 *) Rule false
      (PFuture (BV 0) (BV 1) (PFuture (BV 2) (BV 3) (PV 0)))
      (PFuture (BAdd (BV 0) (BV 2)) (BAdd (BV 1) (BV 3)) (PV 0))
      []
  ; (* 135 *) Rule false
      (PAnd2 (PGlobal (BV 0) (BV 1) (PV 0)) (PGlobal (BV 2) (BV 3) (PV 1)))
      (PGlobal (BV 4) (BV 5) (PAnd2 (PGlobal (BSub (BV 0) (BV 4)) (BSub (BV 1) (BV 5)) (PV 0)) (PGlobal (BSub (BV 2) (BV 4)) (BSub (BV 3) (BV 5)) (PV 1))))
      [GEq (BV 4) (BMin (BV 0) (BV 2)); GEq (BV 5) (BAdd (BV 4) (BMin (BSub (BV 1) (BV 0)) (BSub (BV 3) (BV 2))))]
  ; (* 142 *) Rule false
      (POr2 (PFuture (BV 0) (BV 1) (PV 0)) (PFuture (BV 2) (BV 3) (PV 1)))
      (PFuture (BV 4) (BV 5) (POr2 (PFuture (BSub (BV 0) (BV 4)) (BSub (BV 1) (BV 5)) (PV 0)) (PFuture (BSub (BV 2) (BV 4)) (BSub (BV 3) (BV 5)) (PV 1))))
      [GEq (BV 4) (BMin (BV 0) (BV 2)); GEq (BV 5) (BAdd (BV 4) (BMin (BSub (BV 1) (BV 0)) (BSub (BV 3) (BV 2))))]
  ; (* 149 *) Rule false
      (PGlobal (BV 0) (BV 1) (PFuture (BV 2) (BV 2) (PV 0)))
      (PGlobal (BAdd (BV 2) (BV 0)) (BAdd (BV 2) (BV 1)) (PV 0))
      []
  ; (* 155 *) Rule false
      (PFuture (BV 0) (BV 1) (PGlobal (BV 2) (BV 2) (PV 0)))
      (PFuture (BAdd (BV 2) (BV 0)) (BAdd (BV 2) (BV 1)) (PV 0))
      []
  ; (* 161 *) Rule false
      (PGlobal (BV 0) (BV 0) (PFuture (BV 1) (BV 2) (PV 0)))
      (PFuture (BAdd (BV 0) (BV 1)) (BAdd (BV 0) (BV 2)) (PV 0))
      []
  ; (* 167 *) Rule false
      (PFuture (BV 0) (BV 0) (PGlobal (BV 1) (BV 2) (PV 0)))
      (PGlobal (BAdd (BV 0) (BV 1)) (BAdd (BV 0) (BV 2)) (PV 0))
      []
  ; (* 173 *) Rule false
      (PAnd2 (PGlobal (BV 0) (BV 1) (PV 0)) (PGlobal (BV 2) (BV 3) (PV 0)))
      (PGlobal (BV 0) (BMax (BV 1) (BV 3)) (PV 0))
      [GLe (BV 0) (BV 2); GLe (BV 2) (BAdd (BV 1) (BZ 1))]
  ; (* 180 *) Rule false
      (POr2 (PFuture (BV 0) (BV 1) (PV 0)) (PFuture (BV 2) (BV 3) (PV 0)))
      (PFuture (BV 0) (BMax (BV 1) (BV 3)) (PV 0))
      [GLe (BV 0) (BV 2); GLe (BV 2) (BAdd (BV 1) (BZ 1))]
  ; (* 187 *) Rule false
      (POr2 (PGlobal (BV 0) (BV 1) (PV 0)) (PGlobal (BV 2) (BV 3) (PV 0)))
      (PGlobal (BV 2) (BV 3) (PV 0))
      [GLe (BV 0) (BV 2); GLe (BV 3) (BV 1)]
  ; (* 195 *) Rule false
      (PAnd2 (PFuture (BV 0) (BV 1) (PV 0)) (PFuture (BV 2) (BV 3) (PV 0)))
      (PFuture (BV 2) (BV 3) (PV 0))
      [GLe (BV 0) (BV 2); GLe (BV 3) (BV 1)]
  ; (* 203 *) Rule false
      (PFuture (BV 0) (BV 0) (PUntil (BV 1) (BV 2) (PV 0) (PV 1)))
      (PUntil (BAdd (BV 1) (BV 0)) (BAdd (BV 2) (BV 0)) (PV 0) (PV 1))
      []
  ; (* 209 *) Rule false
      (PUntil (BV 0) (BV 1) (PFuture (BV 2) (BV 2) (PV 0)) (PFuture (BV 2) (BV 2) (PV 1)))
      (PUntil (BAdd (BV 0) (BV 2)) (BAdd (BV 1) (BV 2)) (PV 0) (PV 1))
      []
  ; (* 215 *) Rule false
      (PUntil (BV 0) (BV 1) (PV 0) (PGlobal (BZ 0) (BV 2) (PV 0)))
      (PGlobal (BV 0) (BAdd (BV 0) (BV 2)) (PV 0))
      []
  ; (* 221 *) Rule false
      (PUntil (BV 0) (BV 1) (PV 0) (PFuture (BZ 0) (BV 2) (PV 0)))
      (PFuture (BV 0) (BAdd (BV 0) (BV 2)) (PV 0))
      []
  ; (* 227 *) Rule false
      (PGlobal (BZ 0) (BZ 0) (PV 0))
      (PV 0)
      []
  ; (* 234 *) Rule false
      (PFuture (BZ 0) (BZ 0) (PV 0))
      (PV 0)
      []
  ; (* 241 *) Rule true
      (PFuture (BV 0) (BV 0) (PV 0))
      (PGlobal (BV 0) (BV 0) (PV 0))
      []
  ; (* 247 *) Rule false
      (PAnd2 (PFuture (BV 0) (BV 1) (PV 0)) (PFuture (BV 2) (BV 3) (PV 1)))
      (PFuture (BV 0) (BV 0) (PAnd2 (PFuture (BZ 0) (BSub (BV 1) (BV 0)) (PV 0)) (PFuture (BSub (BV 2) (BV 0)) (BSub (BV 3) (BV 0)) (PV 1))))
      [GLe (BV 0) (BV 2)]
  ; (* 254 *) Rule false
      (POr2 (PGlobal (BV 0) (BV 1) (PV 0)) (PGlobal (BV 2) (BV 3) (PV 1)))
      (PGlobal (BV 0) (BV 0) (POr2 (PGlobal (BZ 0) (BSub (BV 1) (BV 0)) (PV 0)) (PGlobal (BSub (BV 2) (BV 0)) (BSub (BV 3) (BV 0)) (PV 1))))
      [GLe (BV 0) (BV 2)]
  ; (* 261 *) Rule false
      (POr2 (PGlobal (BV 0) (BV 1) (PV 0)) (PRelease (BV 2) (BV 3) (PV 1) (PV 0)))
      (POr2 (PGlobal (BV 0) (BV 1) (PV 0)) (PRelease (BV 2) (BV 1) (PV 1) (PV 0)))
      [GLe (BV 1) (BV 3); GLe (BV 2) (BV 0)]
  ; (* 268 *) Rule false
      (PAnd2 (PUntil (BV 0) (BV 1) (PV 0) (PV 1)) (PFuture (BV 2) (BV 3) (PV 1)))
      (PUntil (BV 0) (BV 1) (PV 0) (PV 1))
      [GLe (BV 1) (BV 3); GLe (BV 2) (BV 0)]
  ; (* 276 *) Rule false
      (PAnd2 (PGlobal (BV 0) (BV 1) (PNot (PV 0))) (PFuture (BV 2) (BV 3) (PV 0)))
      (PAnd2 (PGlobal (BV 0) (BV 1) (PNot (PV 0))) (PFuture (BAdd (BV 1) (BZ 1)) (BV 3) (PV 0)))
      [GLe (BV 0) (BV 2); GLe (BV 2) (BAdd (BV 1) (BZ 1)); GLt (BV 1) (BV 3)]
  ; (* 283 *) Rule false
      (PAnd2 (PGlobal (BV 0) (BV 1) (PNot (PV 0))) (PFuture (BV 2) (BV 3) (PV 0)))
      (PAnd2 (PGlobal (BV 0) (BV 1) (PNot (PV 0))) (PFuture (BV 2) (BSub (BV 0) (BZ 1)) (PV 0)))
      [GLt (BV 2) (BV 0); GLe (BV 0) (BV 3); GLe (BV 3) (BV 1)]
  ; (* 290 *) Rule false
      (PImplies (PAnd2 (PV 0) (PFuture (BV 0) (BV 1) (PV 1))) (POr2 (PUntil (BV 0) (BV 1) (PV 2) (PV 1)) (PGlobal (BV 0) (BV 1) (PV 2))))
      (PImplies (PAnd2 (PV 0) (PFuture (BV 0) (BV 1) (PV 1))) (PUntil (BV 0) (BV 1) (PV 2) (PV 1)))
      [] ].
Definition all_rules : list rule :=
  rules_associative ++ rules_commutative ++ rules_multi_arity ++
  rules_const_folding ++ rules_temporal.

(** ** Matching: instantiation of patterns *)
Section Inst.
  Variable sb : nat -> Z.
  Variable st : nat -> eterm.
  Fixpoint binst (b : bpat) : Z :=
    match b with
    | BV v => sb v
    | BZ z => z
    | BAdd a b => binst a + binst b
    | BSub a b => binst a - binst b
    | BMin a b => Z.min (binst a) (binst b)
    | BMax a b => Z.max (binst a) (binst b)
    end.
  Fixpoint tinst (p : tpat) : eterm :=
    match p with
    | PV v => st v
    | PBool b => TBool b
    | PNot p => TNot (tinst p)
    | PImplies p q => TImplies (tinst p) (tinst q)
    | PEquiv p q => TEquiv (tinst p) (tinst q)
    | PAnd2 p q => TAnd2 (tinst p) (tinst q)
    | PAnd3 p q r => TAnd3 (tinst p) (tinst q) (tinst r)
    | PAnd4 p q r s => TAnd4 (tinst p) (tinst q) (tinst r) (tinst s)
    | POr2 p q => TOr2 (tinst p) (tinst q)
    | POr3 p q r => TOr3 (tinst p) (tinst q) (tinst r)
    | POr4 p q r s => TOr4 (tinst p) (tinst q) (tinst r) (tinst s)
    | PGlobal l u p => TGlobal (binst l) (binst u) (tinst p)
    | PFuture l u p => TFuture (binst l) (binst u) (tinst p)
    | PUntil l u p q => TUntil (binst l) (binst u) (tinst p) (tinst q)
    | PRelease l u p q => TRelease (binst l) (binst u) (tinst p) (tinst q)
    end.
  Definition gholds (g : guard) : Prop :=
    match g with
    | GLe a b => binst a <= binst b
    | GLt a b => binst a < binst b
    | GEq a b => binst a = binst b
    end.
End Inst.

(** Immediate subterms. *)
Definition subterms (t : eterm) : list eterm :=
  match t with
  | TBool _ | TVar _ => []
  | TNot p | TGlobal _ _ p | TFuture _ _ p => [p]
  | TImplies p q | TEquiv p q | TAnd2 p q | TOr2 p q
  | TUntil _ _ p q | TRelease _ _ p q => [p; q]
  | TAnd3 p q r | TOr3 p q r => [p; q; r]
  | TAnd4 p q r s | TOr4 p q r s => [p; q; r; s]
  end.

(** ** The e-graph

    [egraph rules root s t]: in some e-graph reachable by running the rules from
    [root], terms [s] and [t] are both represented and lie in one e-class
    (an over-approximation of every schedule: rules may fire on any represented
    instance, equal terms may replace each other in any context). *)
Inductive egraph (rules : list rule) (root : eterm) : eterm -> eterm -> Prop :=
| eg_root : egraph rules root root root
| eg_sub t s : egraph rules root t t -> In s (subterms t) -> egraph rules root s s
| eg_fire r sb st :
    In r rules -> Forall (gholds sb) (guards r) ->
    egraph rules root (tinst sb st (lhs r)) (tinst sb st (lhs r)) ->
    egraph rules root (tinst sb st (lhs r)) (tinst sb st (rhs r))
| eg_fire_back r sb st :
    In r rules -> bidirectional r = true -> Forall (gholds sb) (guards r) ->
    egraph rules root (tinst sb st (rhs r)) (tinst sb st (rhs r)) ->
    egraph rules root (tinst sb st (rhs r)) (tinst sb st (lhs r))
| eg_sym s t : egraph rules root s t -> egraph rules root t s
| eg_trans s t u : egraph rules root s t -> egraph rules root t u -> egraph rules root s u
| eg_not p p' : egraph rules root p p' -> egraph rules root (TNot p) (TNot p) ->
    egraph rules root (TNot p) (TNot p')
| eg_implies p p' q q' : egraph rules root p p' -> egraph rules root q q' ->
    egraph rules root (TImplies p q) (TImplies p q) ->
    egraph rules root (TImplies p q) (TImplies p' q')
| eg_equiv p p' q q' : egraph rules root p p' -> egraph rules root q q' ->
    egraph rules root (TEquiv p q) (TEquiv p q) ->
    egraph rules root (TEquiv p q) (TEquiv p' q')
| eg_and2 p p' q q' : egraph rules root p p' -> egraph rules root q q' ->
    egraph rules root (TAnd2 p q) (TAnd2 p q) ->
    egraph rules root (TAnd2 p q) (TAnd2 p' q')
| eg_and3 p p' q q' r r' : egraph rules root p p' -> egraph rules root q q' -> egraph rules root r r' ->
    egraph rules root (TAnd3 p q r) (TAnd3 p q r) ->
    egraph rules root (TAnd3 p q r) (TAnd3 p' q' r')
| eg_and4 p p' q q' r r' s s' : egraph rules root p p' -> egraph rules root q q' ->
    egraph rules root r r' -> egraph rules root s s' ->
    egraph rules root (TAnd4 p q r s) (TAnd4 p q r s) ->
    egraph rules root (TAnd4 p q r s) (TAnd4 p' q' r' s')
| eg_or2 p p' q q' : egraph rules root p p' -> egraph rules root q q' ->
    egraph rules root (TOr2 p q) (TOr2 p q) ->
    egraph rules root (TOr2 p q) (TOr2 p' q')
| eg_or3 p p' q q' r r' : egraph rules root p p' -> egraph rules root q q' -> egraph rules root r r' ->
    egraph rules root (TOr3 p q r) (TOr3 p q r) ->
    egraph rules root (TOr3 p q r) (TOr3 p' q' r')
| eg_or4 p p' q q' r r' s s' : egraph rules root p p' -> egraph rules root q q' ->
    egraph rules root r r' -> egraph rules root s s' ->
    egraph rules root (TOr4 p q r s) (TOr4 p q r s) ->
    egraph rules root (TOr4 p q r s) (TOr4 p' q' r' s')
| eg_global l u p p' : egraph rules root p p' ->
    egraph rules root (TGlobal l u p) (TGlobal l u p) ->
    egraph rules root (TGlobal l u p) (TGlobal l u p')
| eg_future l u p p' : egraph rules root p p' ->
    egraph rules root (TFuture l u p) (TFuture l u p) ->
    egraph rules root (TFuture l u p) (TFuture l u p')
| eg_until l u p p' q q' : egraph rules root p p' -> egraph rules root q q' ->
    egraph rules root (TUntil l u p q) (TUntil l u p q) ->
    egraph rules root (TUntil l u p q) (TUntil l u p' q')
| eg_release l u p p' q q' : egraph rules root p p' -> egraph rules root q q' ->
    egraph rules root (TRelease l u p q) (TRelease l u p q) ->
    egraph rules root (TRelease l u p q) (TRelease l u p' q').

(** ** Encoding: eqsat.py 126-172.  [None]: the emitted [let] names a constructor
    that does not exist, or none is emitted (xor, [==], past-time operators). *)
Fixpoint to_eterm (e : expr) : option eterm :=
  match e with
  | EConst b => Some (TBool b)
  | EAtom a => Some (TVar a)
  | ENot p => option_map TNot (to_eterm p)
  | EAnd [p; q] =>
      match to_eterm p, to_eterm q with Some p, Some q => Some (TAnd2 p q) | _, _ => None end
  | EAnd [p; q; r] =>
      match to_eterm p, to_eterm q, to_eterm r with
      | Some p, Some q, Some r => Some (TAnd3 p q r) | _, _, _ => None end
  | EAnd [p; q; r; s] =>
      match to_eterm p, to_eterm q, to_eterm r, to_eterm s with
      | Some p, Some q, Some r, Some s => Some (TAnd4 p q r s) | _, _, _, _ => None end
  | EOr [p; q] =>
      match to_eterm p, to_eterm q with Some p, Some q => Some (TOr2 p q) | _, _ => None end
  | EOr [p; q; r] =>
      match to_eterm p, to_eterm q, to_eterm r with
      | Some p, Some q, Some r => Some (TOr3 p q r) | _, _, _ => None end
  | EOr [p; q; r; s] =>
      match to_eterm p, to_eterm q, to_eterm r, to_eterm s with
      | Some p, Some q, Some r, Some s => Some (TOr4 p q r s) | _, _, _, _ => None end
  | EImpl p q =>
      match to_eterm p, to_eterm q with Some p, Some q => Some (TImplies p q) | _, _ => None end
  | EEquiv p q =>
      match to_eterm p, to_eterm q with Some p, Some q => Some (TEquiv p q) | _, _ => None end
  | EG l u p => option_map (TGlobal (Z.of_nat l) (Z.of_nat u)) (to_eterm p)
  | EF l u p => option_map (TFuture (Z.of_nat l) (Z.of_nat u)) (to_eterm p)
  | EU l u p q =>
      match to_eterm p, to_eterm q with
      | Some p, Some q => Some (TUntil (Z.of_nat l) (Z.of_nat u) p q) | _, _ => None end
  | ER l u p q =>
      match to_eterm p, to_eterm q with
      | Some p, Some q => Some (TRelease (Z.of_nat l) (Z.of_nat u) p q) | _, _ => None end
  | _ => None
  end.

(** Decoding of the extracted term (constructor by constructor). *)
Fixpoint of_eterm (t : eterm) : expr :=
  match t with
  | TBool b => EConst b
  | TVar a => EAtom a
  | TNot p => ENot (of_eterm p)
  | TImplies p q => EImpl (of_eterm p) (of_eterm q)
  | TEquiv p q => EEquiv (of_eterm p) (of_eterm q)
  | TAnd2 p q => EAnd [of_eterm p; of_eterm q]
  | TAnd3 p q r => EAnd [of_eterm p; of_eterm q; of_eterm r]
  | TAnd4 p q r s => EAnd [of_eterm p; of_eterm q; of_eterm r; of_eterm s]
  | TOr2 p q => EOr [of_eterm p; of_eterm q]
  | TOr3 p q r => EOr [of_eterm p; of_eterm q; of_eterm r]
  | TOr4 p q r s => EOr [of_eterm p; of_eterm q; of_eterm r; of_eterm s]
  | TGlobal l u p => EG (Z.to_nat l) (Z.to_nat u) (of_eterm p)
  | TFuture l u p => EF (Z.to_nat l) (Z.to_nat u) (of_eterm p)
  | TUntil l u p q => EU (Z.to_nat l) (Z.to_nat u) (of_eterm p) (of_eterm q)
  | TRelease l u p q => ER (Z.to_nat l) (Z.to_nat u) (of_eterm p) (of_eterm q)
  end.
