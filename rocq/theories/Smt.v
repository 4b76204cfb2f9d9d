(** * Satisfiability queries: compiler/c2po/sat.py 171-1001 (model)

    Each encoder emits declarations of uninterpreted symbols, one "define-fun"
    per subexpression and one assertion; the query is satisfiable when some
    interpretation of the declared symbols makes the assertion true.  A
    "define-fun" only abbreviates its body, so the model gives the value of the
    emitted term for an interpretation of the declared symbols.  Formulas are over
    Boolean signals; arithmetic, relational operators, symbolic bounds and mission
    times are left out.  [supported] tells whether an encoder returns a query at
    all (an unsupported or ill-sized operator makes it return None or raise). *)
From Coq Require Import List Arith ZArith NArith Bool.
From Verif Require Import Mltl Transform Decompose.
Import ListNotations.

(** ** to_qf_bv_smtlib2: lines 171-406 *)
Section BitVectors.
(** Line 181: the width is wpd + 1. *)
Variable W : nat.
Definition width : N := N.of_nat (W + 1).
(** Interpretation of the declared symbols (lines 206-213): bit-vectors. *)
Variable f : nat -> N.

(** Lines 188-190, 192-194. *)
Definition to_bv (v : N) : N := N.min v (2 ^ width - 1).
Definition ones : N := (2 ^ width - 1)%N.
(** The bit-vector operators of SMT-LIB. *)
Definition bvnot (x : N) : N := N.lnot x width.
Definition bvxnor (x y : N) : N := bvnot (N.lxor x y).
Definition bvshl (x s : N) : N := ((N.shiftl x s) mod 2 ^ width)%N.

(** Lines 277-281 and 286-290; the mask fills with ones. *)
Definition global_shift (x : N) (s : N) : N := N.lor (bvshl x (to_bv s)) (to_bv (2 ^ s - 1)).
Fixpoint global_rounds (n j : nat) (x : N) : N :=
  match n with
  | O => x
  | S n => global_rounds n (S j) (N.land (global_shift x (2 ^ N.of_nat j)) x)
  end.
(** Lines 320-329. *)
Fixpoint future_rounds (n j : nat) (x : N) : N :=
  match n with
  | O => x
  | S n => future_rounds n (S j) (N.lor (bvshl x (to_bv (2 ^ N.of_nat j))) x)
  end.
(** Lines 359-384: the two chains L and R; the result is R. *)
Fixpoint until_rounds (n k : nat) (l r : N) : N :=
  match n with
  | O => r
  | S n =>
      let s := to_bv (2 ^ N.of_nat k) in
      until_rounds n (S k) (N.land (bvshl l s) l) (N.lor (N.land (bvshl r s) l) r)
  end.
(** [int(math.log2(ub+1))]. *)
Definition log2_floor (ub : nat) : nat := Nat.log2 (ub + 1).

(** Lines 262-299, 300-333 and 334-388. *)
Definition bv_global (lb ub : nat) (x : N) : N :=
  if ub =? 0 then x
  else if 0 <? lb then global_rounds (log2_floor (ub - lb)) 0 (global_shift x (N.of_nat lb))
  else global_rounds (log2_floor ub) 0 x.
Definition bv_future (lb ub : nat) (x : N) : N :=
  if ub =? 0 then x
  else if 0 <? lb then future_rounds (log2_floor (ub - lb)) 0 (bvshl x (to_bv (N.of_nat lb)))
  else future_rounds (log2_floor ub) 0 x.
Definition bv_until (lb ub : nat) (l r : N) : N :=
  if ub =? 0 then r
  else if 0 <? lb
  then until_rounds (log2_floor (ub - lb)) 0 (bvshl l (to_bv (N.of_nat lb))) (bvshl r (to_bv (N.of_nat lb)))
  else until_rounds (log2_floor ub) 0 l r.
(** Lines 238-388, one subexpression after the other. *)
Fixpoint bv_term (e : expr) : N :=
  match e with
  | EConst b => if b then ones else 0%N
  | EAtom a => f a
  | ENot p => bvnot (bv_term p)
  | EAnd es => match map bv_term es with [] => 0%N | x :: xs => fold_left N.land xs x end
  | EOr es => match map bv_term es with [] => 0%N | x :: xs => fold_left N.lor xs x end
  | EEquiv p q => bvxnor (bv_term p) (bv_term q)
  | EG lb ub p => bv_global lb ub (bv_term p)
  | EF lb ub p => bv_future lb ub (bv_term p)
  | EU lb ub p q => bv_until lb ub (bv_term p) (bv_term q)
  | _ => 0%N
  end.
End BitVectors.

(** Lines 389-395, and [expr.children[1]] of lines 249 and 254. *)
Fixpoint bv_supported (e : expr) : bool :=
  match e with
  | EConst _ | EAtom _ => true
  | ENot p | EG _ _ p | EF _ _ p => bv_supported p
  | EAnd es | EOr es => (2 <=? length es) && forallb bv_supported es
  | EEquiv p q | EU _ _ p q => bv_supported p && bv_supported q
  | _ => false
  end.
(** The query for an interpretation; lines 397-400.  [start.wpd] is the attribute
    of the formula before its intervals are decomposed (lines 181, 216, 400). *)
Definition bv_query (strict : bool) (e : expr) : option ((nat -> N) -> bool) :=
  let W := Z.to_nat (wpd e) in
  let e' := decompose e in
  if bv_supported e' then
    Some (fun f => if strict then (0 <? bv_term W f e')%N else N.testbit (bv_term W f e') (N.of_nat W))
  else None.
(** Interpretations of symbols of sort (_ BitVec wpd+1). *)
Definition bv_interpretation (e : expr) (f : nat -> N) : Prop :=
  forall a, (f a < 2 ^ N.of_nat (Z.to_nat (wpd e) + 1))%N.

(** The solver's answer "sat". *)
Definition bv_satisfiable (q : (nat -> N) -> bool) (e : expr) : Prop :=
  exists f, bv_interpretation e f /\ q f = true.

(** ** to_qf_uflia_smtlib2: lines 408-610
    A symbol of sort Int -> Bool per signal; a function of [k] and [len] per
    subexpression. *)
Local Open Scope Z_scope.
Section Functions.
Variable f : nat -> Z -> bool.

(** Lines 574-576: [unroll] from [i] on, [n] = ub - i. *)
Fixpoint qf_unroll (p q : Z -> Prop) (k : Z) (i n : nat) : Prop :=
  match n with
  | O => q (Z.of_nat i + k)
  | S n => q (Z.of_nat i + k) \/ (p (Z.of_nat i + k) /\ qf_unroll p q k (S i) n)
  end.
(** Lines 456-580. *)
Fixpoint qf_term (len : Z) (e : expr) (k : Z) : Prop :=
  match e with
  | EConst b => b = true
  | EAtom a => len > k /\ f a k = true
  | ENot p => len > k /\ ~ qf_term len p k
  | EAnd es => len > k /\ fold_right (fun p P => qf_term len p k /\ P) True es
  | EOr es => len > k /\ fold_right (fun p P => qf_term len p k \/ P) False es
  | EImpl p q => len > k /\ (qf_term len p k -> qf_term len q k)
  | EEquiv p q | EBeq p q => len > k /\ (qf_term len p k <-> qf_term len q k)
  | EG lb ub p =>
      len > k /\ (len <= Z.of_nat lb + k \/
                  forall i, (lb <= i <= ub)%nat -> len > k + Z.of_nat i -> qf_term len p (k + Z.of_nat i))
  | EF lb ub p => len > Z.of_nat lb + k /\ exists i, (lb <= i <= ub)%nat /\ qf_term len p (k + Z.of_nat i)
  | EU lb ub p q => len > Z.of_nat lb + k /\ qf_unroll (qf_term len p) (qf_term len q) k lb (ub - lb)
  | _ => False
  end.

(** ** to_uflia_smtlib2, expr_to_smt: lines 681-852
    Lines 786-789 and 813-816 treat [0,0] and [1,1] specially. *)
Fixpoint uf_term (len : Z) (e : expr) (k : Z) : Prop :=
  match e with
  | EConst b => b = true
  | EAtom a => len > k /\ f a k = true
  | ENot p => ~ uf_term len p k
  | EAnd es => fold_right (fun p P => uf_term len p k /\ P) True es
  | EOr es => fold_right (fun p P => uf_term len p k \/ P) False es
  | EImpl p q => uf_term len p k -> uf_term len q k
  | EEquiv p q | EBeq p q => uf_term len p k <-> uf_term len q k
  | EG lb ub p =>
      if ((lb =? 0) && (ub =? 0))%nat then len <= k \/ uf_term len p k
      else if ((lb =? 1) && (ub =? 1))%nat then len <= 1 + k \/ uf_term len p (1 + k)
      else len <= Z.of_nat lb + k \/ forall i, Z.of_nat lb + k <= i <= Z.of_nat ub + k -> uf_term len p i
  | EF lb ub p =>
      if ((lb =? 0) && (ub =? 0))%nat then len <= k \/ uf_term len p k
      else if ((lb =? 1) && (ub =? 1))%nat then len <= 1 + k \/ uf_term len p (1 + k)
      else len > Z.of_nat lb + k /\ exists i, Z.of_nat lb + k <= i <= Z.of_nat ub + k /\ uf_term len p i
  | EU lb ub p q =>
      len > Z.of_nat lb + k /\
      exists i, Z.of_nat lb + k <= i <= Z.of_nat ub + k /\ uf_term len q i /\
                forall j, Z.of_nat lb + k <= j < i -> uf_term len p j
  | ER lb ub p q =>
      len <= Z.of_nat lb + k \/
      forall i, Z.of_nat lb + k <= i <= Z.of_nat ub + k ->
        uf_term len q i \/ exists j, Z.of_nat lb + k <= j < i /\ uf_term len p j
  | _ => False
  end.
End Functions.

(** expr_to_cplen: lines 854-937; "and" and "or" look at two operands. *)
Fixpoint cplen (e : expr) : Z :=
  match e with
  | ENot p => cplen p
  | EAnd es | EOr es => match map cplen es with x :: y :: _ => if y <=? x then x else y | _ => 1 end
  | EImpl p q | EEquiv p q => if cplen q <=? cplen p then cplen p else cplen q
  | EG _ ub p | EF _ ub p => cplen p + Z.of_nat ub
  | EU _ ub p q | ER _ ub p q => (if cplen q <? cplen p - 1 then cplen p else cplen q) + Z.of_nat ub
  | _ => 1
  end.

(** The final "else" branches: lines 581-593 and 849-852, 990-991. *)
Fixpoint qf_supported (e : expr) : bool :=
  match e with
  | EConst _ | EAtom _ => true
  | ENot p | EG _ _ p | EF _ _ p => qf_supported p
  | EAnd es | EOr es => forallb qf_supported es
  | EImpl p q | EEquiv p q | EBeq p q | EU _ _ p q => qf_supported p && qf_supported q
  | _ => false
  end.
(** A comparison of Booleans has computation length 1 (line 886: it is a
    relational operator); "and" and "or" need two operands (lines 890-893). *)
Fixpoint uf_supported (e : expr) : bool :=
  match e with
  | EConst _ | EAtom _ => true
  | ENot p | EG _ _ p | EF _ _ p => uf_supported p
  | EAnd es | EOr es => (2 <=? length es)%nat && forallb uf_supported es
  | EImpl p q | EEquiv p q | EBeq p q | EU _ _ p q | ER _ _ p q => uf_supported p && uf_supported q
  | _ => false
  end.

(** The assertions: lines 595-600 and 981-988.  With [strict], [len] is one more
    declared symbol. *)
Definition qf_query (strict : bool) (e : expr) : option ((nat -> Z -> bool) -> Prop) :=
  if qf_supported e then
    Some (fun f => if strict then exists len, qf_term f len e 0 else qf_term f (wpd e) e 0)
  else None.
Definition uf_query (strict : bool) (e : expr) : option ((nat -> Z -> bool) -> Prop) :=
  if uf_supported e then
    Some (fun f => if strict then exists len, uf_term f len e 0 else uf_term f (cplen e) e 0)
  else None.

(** ** to_smt_equiv: lines 1260-1277 *)
Definition differ (e1 e2 : expr) : expr := ENot (EEquiv e1 e2).
