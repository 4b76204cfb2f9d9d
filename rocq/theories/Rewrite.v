(** * The rewrite optimiser: compiler/c2po/rewrite.py 4-302 (model)

    One post-order pass (Transform.expr_map); [rw_node] is the body of the loop.
    [str(p) == str(q)] (fully parenthesised infix text, cpt.py 1961-2087) is
    modelled as structural equality [expr_eqb]. *)
From Coq Require Import List Arith Bool.
Require Import Verif.Mltl Verif.Transform.
Import ListNotations.

Fixpoint expr_eqb (e1 e2 : expr) {struct e1} : bool :=
  let fix list_eqb (l1 l2 : list expr) {struct l1} : bool :=
    match l1, l2 with
    | [], [] => true
    | x :: l1, y :: l2 => expr_eqb x y && list_eqb l1 l2
    | _, _ => false
    end in
  match e1, e2 with
  | EConst a, EConst b => Bool.eqb a b
  | EAtom a, EAtom b => Nat.eqb a b
  | ENot p, ENot q => expr_eqb p q
  | EAnd l, EAnd l' => list_eqb l l'
  | EOr l, EOr l' => list_eqb l l'
  | EXor p q, EXor p' q' => expr_eqb p p' && expr_eqb q q'
  | EImpl p q, EImpl p' q' => expr_eqb p p' && expr_eqb q q'
  | EEquiv p q, EEquiv p' q' => expr_eqb p p' && expr_eqb q q'
  | EBeq p q, EBeq p' q' => expr_eqb p p' && expr_eqb q q'
  | EF a b p, EF a' b' p' => Nat.eqb a a' && Nat.eqb b b' && expr_eqb p p'
  | EG a b p, EG a' b' p' => Nat.eqb a a' && Nat.eqb b b' && expr_eqb p p'
  | EU a b p q, EU a' b' p' q' => Nat.eqb a a' && Nat.eqb b b' && expr_eqb p p' && expr_eqb q q'
  | ER a b p q, ER a' b' p' q' => Nat.eqb a a' && Nat.eqb b b' && expr_eqb p p' && expr_eqb q q'
  | EO a b p, EO a' b' p' => Nat.eqb a a' && Nat.eqb b b' && expr_eqb p p'
  | EH a b p, EH a' b' p' => Nat.eqb a a' && Nat.eqb b b' && expr_eqb p p'
  | ES a b p q, ES a' b' p' q' => Nat.eqb a a' && Nat.eqb b b' && expr_eqb p p' && expr_eqb q q'
  | ET a b p q, ET a' b' p' q' => Nat.eqb a a' && Nat.eqb b b' && expr_eqb p p' && expr_eqb q q'
  | _, _ => false
  end.

Definition is_const (e : expr) : bool := match e with EConst _ => true | _ => false end.

(** rewrite.py 13-48 *)
Definition rw_not (opnd1 : expr) : option expr :=
  match opnd1 with
  | EConst true => Some (EConst false)
  | EConst false => Some (EConst true)
  | ENot p => Some p
  | EG lb ub (ENot p) => Some (EF lb ub p)
  | EF lb ub (ENot p) => Some (EG lb ub p)
  | _ => None
  end.

(** rewrite.py 49-59: a Boolean constant on one side is dropped, whatever its value *)
Definition rw_eq (lhs rhs : expr) : option expr :=
  if is_const lhs && is_const rhs then None
  else if is_const lhs then Some rhs
  else if is_const rhs then Some lhs
  else None.

(** rewrite.py 60-95 *)
Definition rw_global (lb ub : nat) (opnd1 : expr) : option expr :=
  let new := if (lb =? 0) && (ub =? 0) then Some opnd1 else None in
  match opnd1 with
  | EConst true => Some (EConst true)
  | EConst false => new
  | EG lb2 ub2 opnd2 => Some (EG (lb + lb2) (ub + ub2) opnd2)
  | EF lb2 ub2 opnd2 =>
      if lb =? ub then Some (EF (lb + lb2) (ub + ub2) opnd2)
      else if lb2 =? ub2 then Some (EG (lb + lb2) (ub + ub2) opnd2)
      else new
  | _ => new
  end.

(** rewrite.py 96-131 *)
Definition rw_future (lb ub : nat) (opnd1 : expr) : option expr :=
  let new := if (lb =? 0) && (ub =? 0) then Some opnd1 else None in
  match opnd1 with
  | EConst true => new
  | EConst false => Some (EConst false)
  | EF lb2 ub2 opnd2 => Some (EF (lb + lb2) (ub + ub2) opnd2)
  | EG lb2 ub2 opnd2 =>
      if lb =? ub then Some (EG (lb + lb2) (ub + ub2) opnd2)
      else if lb2 =? ub2 then Some (EF (lb + lb2) (ub + ub2) opnd2)
      else new
  | _ => new
  end.

(** rewrite.py 149-163 and 243-255: merging two windows over one operand *)
Definition rw_merge (mk : nat -> nat -> expr -> expr) (lb1 ub1 lb2 ub2 : nat) (p : expr)
    : option expr :=
  if (lb1 <=? lb2) && (ub2 <=? ub1) then Some (mk lb1 ub1 p)
  else if (lb2 <=? lb1) && (ub1 <=? ub2) then Some (mk lb2 ub2 p)
  else if (lb1 <=? lb2) && (lb2 <=? ub1 + 1) then Some (mk lb1 (Nat.max ub1 ub2) p)
  else if (lb2 <=? lb1) && (lb1 <=? ub2 + 1) then Some (mk lb2 (Nat.max ub1 ub2) p)
  else None.

(** rewrite.py 132-222; only the first two operands are looked at ("Assume
    binary for now"), and the whole node is replaced.  With fewer than two
    operands the code raises IndexError; the parser never builds such a node. *)
Definition rw_and (es : list expr) : option expr :=
  match es with
  | lhs :: rhs :: _ =>
      match lhs, rhs with
      | EG lb1 ub1 p, EG lb2 ub2 q =>
          if expr_eqb p q then rw_merge EG lb1 ub1 lb2 ub2 p
          else
            let lb3 := Nat.min lb1 lb2 in
            let ub3 := lb3 + Nat.min (ub1 - lb1) (ub2 - lb2) in
            Some (EG lb3 ub3 (EAnd [EG (lb1 - lb3) (ub1 - ub3) p;
                                    EG (lb2 - lb3) (ub2 - ub3) q]))
      | EF lb1 ub1 p, EF lb2 ub2 q =>
          if expr_eqb p q then
            if (lb1 <=? lb2) && (ub2 <=? ub1) then Some (EF lb2 ub2 p)
            else if (lb2 <=? lb1) && (ub1 <=? ub2) then Some (EF lb1 ub1 p)
            else None
          else None
      | EU lb1 ub1 p1 q1, EU lb2 ub2 p2 q2 =>
          if expr_eqb q1 q2 && (lb1 =? lb2)
          then Some (EU lb1 (Nat.min ub1 ub2) (EAnd [p1; p2]) q1)
          else None
      | _, _ => None
      end
  | _ => None
  end.

(** rewrite.py 223-293 *)
Definition rw_or (es : list expr) : option expr :=
  match es with
  | lhs :: rhs :: _ =>
      match lhs, rhs with
      | EF lb1 ub1 p, EF lb2 ub2 q =>
          if expr_eqb p q then rw_merge EF lb1 ub1 lb2 ub2 p
          else
            let lb3 := Nat.min lb1 lb2 in
            let ub3 := lb3 + Nat.min (ub1 - lb1) (ub2 - lb2) in
            Some (EF lb3 ub3 (EOr [EF (lb1 - lb3) (ub1 - ub3) p;
                                   EF (lb2 - lb3) (ub2 - ub3) q]))
      | EG lb1 ub1 p, EG lb2 ub2 q =>
          if expr_eqb p q then
            if (lb2 <=? lb1) && (ub1 <=? ub2) then Some (EG lb1 ub1 p)
            else if (lb1 <=? lb2) && (ub2 <=? ub1) then Some (EG lb2 ub2 p)
            else None
          else None
      | _, _ => None
      end
  | _ => None
  end.

(** rewrite.py 11-299 *)
Definition rw_node (e : expr) : expr :=
  let new :=
    match e with
    | ENot p => rw_not p
    | EBeq p q => rw_eq p q
    | EG lb ub p => rw_global lb ub p
    | EF lb ub p => rw_future lb ub p
    | EAnd es => rw_and es
    | EOr es => rw_or es
    | _ => None
    end in
  match new with Some n => n | None => e end.

Definition optimize_rewrites (e : expr) : expr := expr_map rw_node e.
