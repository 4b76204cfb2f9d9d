(** * Equivalence files with symbolic interval bounds (model)
    compiler/c2po/parse_equiv.py (what a file holds), sat.py to_uflia_smtlib2
    (lines 612-1000) on symbolic intervals, to_smt_equiv and check_equiv
    (lines 1260-1280, 1363-1425).

    Simplifications: formulas are trees, whereas expr_to_smt shares functions of
    equal text (lines 697-699), which have equal meanings; a constraint compares
    two arithmetic expressions, whereas the grammar would let an arithmetic
    expression stand alone; "/" is left out, since its encoding divides integers
    as reals (line 666). *)
From Coq Require Import List Arith ZArith Bool.
Import ListNotations.
Local Open Scope Z_scope.

(** ** What parse_equiv returns: parse_equiv.py 137-310 *)
(** constraint_expr: lines 189-240; [BVar n] is the bound "bn", [BMission] "M". *)
Inductive bexpr :=
| BVar (n : nat) | BNum (v : N) | BMission
| BAdd (a b : bexpr) | BSub (a b : bexpr) | BMul (a b : bexpr)
| BMin (a b : bexpr) | BMax (a b : bexpr).
(** lines 165-187 *)
Inductive relation := Req | Rne | Rge | Rle | Rgt | Rlt.
Record constr := Constr { rel : relation; left_side : bexpr; right_side : bexpr }.
(** expr: lines 260-305; [SAtom] stands for signals and propositions. *)
Inductive sform :=
| SConst (b : bool) | SAtom (a : nat)
| SNot (p : sform) | SImpl (p q : sform) | SIff (p q : sform) | SOr (p q : sform) | SAnd (p q : sform)
| SG (lb ub : bexpr) (p : sform) | SF (lb ub : bexpr) (p : sform)
| SU (lb ub : bexpr) (p q : sform) | SR (lb ub : bexpr) (p q : sform).
(** program: lines 137-150 *)
Record equiv_file := File { constraints : list constr; formulas : list sform }.

(** parser.bounds: lines 229-234, every bound that occurs anywhere. *)
Fixpoint bvars (b : bexpr) : list nat :=
  match b with
  | BVar n => [n]
  | BNum _ | BMission => []
  | BAdd a b | BSub a b | BMul a b | BMin a b | BMax a b => bvars a ++ bvars b
  end.
Fixpoint svars (p : sform) : list nat :=
  match p with
  | SConst _ | SAtom _ => []
  | SNot p => svars p
  | SImpl p q | SIff p q | SOr p q | SAnd p q => svars p ++ svars q
  | SG lb ub p | SF lb ub p => bvars lb ++ bvars ub ++ svars p
  | SU lb ub p q | SR lb ub p q => bvars lb ++ bvars ub ++ svars p ++ svars q
  end.
Definition cvars (c : constr) : list nat := bvars (left_side c) ++ bvars (right_side c).
Definition bounds (fl : equiv_file) : list nat := flat_map cvars (constraints fl) ++ flat_map svars (formulas fl).

(** ** The solver's reading of the terms
    [M] and [rho] interpret the integer constants, [f] the functions. *)
Section Query.
Variables (M : Z) (rho : nat -> Z) (f : nat -> Z -> bool).

(** interval_constraint_to_smt with smt_min_expr and smt_max_expr: lines 625-682 *)
Fixpoint bterm (b : bexpr) : Z :=
  match b with
  | BVar n => rho n
  | BNum v => Z.of_N v
  | BMission => M
  | BAdd a b => bterm a + bterm b
  | BSub a b => bterm a - bterm b
  | BMul a b => bterm a * bterm b
  | BMin a b => if bterm a <=? bterm b then bterm a else bterm b
  | BMax a b => if bterm b <=? bterm a then bterm a else bterm b
  end.
Definition cterm (c : constr) : Prop :=
  let a := bterm (left_side c) in let b := bterm (right_side c) in
  match rel c with
  | Req => a = b | Rne => ~ a = b | Rge => a >= b | Rle => a <= b | Rgt => a > b | Rlt => a < b
  end.

(** The tests on the text of the bounds: lines 774-777 and 801-804 *)
Definition is_num (v : N) (b : bexpr) : bool := match b with BNum w => (w =? v)%N | _ => false end.

(** expr_to_smt, the functions f_e: lines 684-852 *)
Fixpoint sterm (len : Z) (p : sform) (k : Z) : Prop :=
  match p with
  | SConst b => b = true
  | SAtom a => len > k /\ f a k = true
  | SNot p => ~ sterm len p k
  | SImpl p q => sterm len p k -> sterm len q k
  | SIff p q => sterm len p k <-> sterm len q k
  | SOr p q => sterm len p k \/ sterm len q k
  | SAnd p q => sterm len p k /\ sterm len q k
  | SG lb ub p =>
      if is_num 0 lb && is_num 0 ub then len <= k \/ sterm len p k
      else if is_num 1 lb && is_num 1 ub then len <= 1 + k \/ sterm len p (1 + k)
      else len <= bterm lb + k \/ forall i, bterm lb + k <= i /\ i <= bterm ub + k -> sterm len p i
  | SF lb ub p =>
      if is_num 0 lb && is_num 0 ub then len <= k \/ sterm len p k
      else if is_num 1 lb && is_num 1 ub then len <= 1 + k \/ sterm len p (1 + k)
      else len > bterm lb + k /\ exists i, bterm lb + k <= i /\ i <= bterm ub + k /\ sterm len p i
  | SU lb ub p q =>
      len > bterm lb + k /\
      exists i, bterm lb + k <= i /\ i <= bterm ub + k /\ sterm len q i /\
                forall j, bterm lb + k <= j /\ j < i -> sterm len p j
  | SR lb ub p q =>
      len <= bterm lb + k \/
      forall i, bterm lb + k <= i /\ i <= bterm ub + k ->
        sterm len q i \/ exists j, bterm lb + k <= j /\ j < i /\ sterm len p j
  end.

(** The assertions "lb <= ub" that go with the functions: lines 779, 806, 826, 841 *)
Fixpoint sasserts (p : sform) : Prop :=
  match p with
  | SConst _ | SAtom _ => True
  | SNot p => sasserts p
  | SImpl p q | SIff p q | SOr p q | SAnd p q => sasserts p /\ sasserts q
  | SG lb ub p | SF lb ub p =>
      (if (is_num 0 lb && is_num 0 ub) || (is_num 1 lb && is_num 1 ub) then True else bterm lb <= bterm ub)
      /\ sasserts p
  | SU lb ub p q | SR lb ub p q => bterm lb <= bterm ub /\ sasserts p /\ sasserts q
  end.

(** expr_to_cplen: lines 854-937 *)
Fixpoint slen (p : sform) : Z :=
  match p with
  | SConst _ | SAtom _ => 1
  | SNot p => slen p
  | SImpl p q | SIff p q | SOr p q | SAnd p q => if slen q <=? slen p then slen p else slen q
  | SG _ ub p | SF _ ub p => slen p + bterm ub
  | SU _ ub p q | SR _ ub p q => (if slen q <? slen p - 1 then slen p else slen q) + bterm ub
  end.
End Query.

(** has_mission_time: set on lines 640-642 by any constraint or interval *)
Fixpoint bmission (b : bexpr) : bool :=
  match b with
  | BMission => true
  | BVar _ | BNum _ => false
  | BAdd a b | BSub a b | BMul a b | BMin a b | BMax a b => bmission a || bmission b
  end.
Fixpoint smission (p : sform) : bool :=
  match p with
  | SConst _ | SAtom _ => false
  | SNot p => smission p
  | SImpl p q | SIff p q | SOr p q | SAnd p q => smission p || smission q
  | SG lb ub p | SF lb ub p => bmission lb || bmission ub || smission p
  | SU lb ub p q | SR lb ub p q => bmission lb || bmission ub || smission p || smission q
  end.
Definition cmission (c : constr) : bool := bmission (left_side c) || bmission (right_side c).

(** to_uflia_smtlib2 on a formula of the file: the commands on lines 939-991.
    The query is satisfiable if some interpretation makes every assertion true. *)
Definition squery (strict : bool) (fl : equiv_file) (p : sform) : Prop :=
  exists (M : Z) (rho : nat -> Z) (f : nat -> Z -> bool),
    M >= 0 /\
    Forall (fun n => rho n >= 0) (bounds fl) /\
    Forall (cterm M rho) (constraints fl) /\
    sasserts M rho p /\
    if strict then exists len, sterm M rho f len p 0
    else sterm M rho f (if existsb cmission (constraints fl) || smission p then M + 1 else slen M rho p) p 0.

(** to_smt_equiv: lines 1260-1280 *)
Definition sdiffer (p q : sform) : sform := SNot (SIff p q).

(** ** check_equiv: lines 1363-1425
    [answer] is what becomes of a pair: it holds a contract, has no encoding, or
    the solver answers (SatResult, lines 14-20, [Other] for time-out, memory-out
    and failure). *)
Inductive solver := Sat | Unsat | Unknown | Other.
Inductive answer := Skipped | Unencoded | Answered (s : solver).
Inductive verdict := Equiv | NotEquiv | Undecided.
Definition check_pair (st : verdict * bool) (a : answer) : verdict * bool :=
  let (v, ok) := st in
  match a with
  | Skipped => (v, ok)
  | Unencoded => (v, false)
  | Answered s =>
      (match s with
       | Sat => NotEquiv
       | Unsat => v
       | _ => match v with NotEquiv => NotEquiv | _ => Undecided end
       end,
       ok && match s with Other => false | _ => true end)
  end.
(** The printed word, and whether the command reports success. *)
Definition check_equiv (answers : list answer) : verdict * bool := fold_left check_pair answers (Equiv, true).
(** zip(specs, specs[1:]): line 1385 *)
Fixpoint adjacent {A} (l : list A) : list (A * A) :=
  match l with x :: ((y :: _) as r) => (x, y) :: adjacent r | _ => [] end.
