(** * N-ary arithmetic operators under the binarise and flatten passes (model)

    [+] and [*] are the arithmetic multi-arity operators (cpt.py 956-962); both
    passes (transform.py 313-336 and 347-368) treat them exactly as [&&], [||].
    Values are integers; real-valued [+]/[*] are not associative in floating
    point and are not covered. *)
From Coq Require Import List ZArith Arith.
Require Import Verif.Transform.
Import ListNotations.

Inductive aexpr : Type :=
| AInt (z : Z)
| AVar (x : nat)
| ANeg (e : aexpr)
| ASub (e1 e2 : aexpr)
| AAdd (es : list aexpr)
| AMul (es : list aexpr).

(** Value (specification): sums and products over the operand lists. *)
Fixpoint aval (rho : nat -> Z) (e : aexpr) : Z :=
  match e with
  | AInt z => z
  | AVar x => rho x
  | ANeg e => - aval rho e
  | ASub p q => aval rho p - aval rho q
  | AAdd es => fold_right (fun e s => aval rho e + s) 0 es
  | AMul es => fold_right (fun e s => aval rho e * s) 1 es
  end%Z.

Fixpoint aexpr_map (f : aexpr -> aexpr) (e : aexpr) : aexpr :=
  match e with
  | AInt z => f (AInt z)
  | AVar x => f (AVar x)
  | ANeg p => f (ANeg (aexpr_map f p))
  | ASub p q => f (ASub (aexpr_map f p) (aexpr_map f q))
  | AAdd es => f (AAdd (map (aexpr_map f) es))
  | AMul es => f (AMul (map (aexpr_map f) es))
  end.

(** transform.py 318-331 *)
Definition achain (mk : list aexpr -> aexpr) (es : list aexpr) : aexpr :=
  match es with
  | c0 :: c1 :: c2 :: rest =>
      fold_left (fun acc c => mk [acc; c]) (c2 :: rest) (mk [c0; c1])
  | _ => mk es
  end.
Definition abinary_node (e : aexpr) : aexpr :=
  match e with AAdd es => achain AAdd es | AMul es => achain AMul es | _ => e end.
Definition arith_to_binary : aexpr -> aexpr := aexpr_map abinary_node.

(** transform.py 351-364 *)
Fixpoint aflatten_children (same : aexpr -> option (list aexpr))
    (acc cs : list aexpr) : list aexpr :=
  match cs with
  | [] => acc
  | c :: cs =>
      match same c with
      | Some ccs =>
          if length acc <? MAX_ARITY then aflatten_children same (acc ++ ccs) cs
          else aflatten_children same (acc ++ [c]) cs
      | None => aflatten_children same (acc ++ [c]) cs
      end
  end.
Definition same_add (e : aexpr) := match e with AAdd es => Some es | _ => None end.
Definition same_mul (e : aexpr) := match e with AMul es => Some es | _ => None end.
Definition aflatten_node (e : aexpr) : aexpr :=
  match e with
  | AAdd es => AAdd (aflatten_children same_add [] es)
  | AMul es => AMul (aflatten_children same_mul [] es)
  | _ => e
  end.
Definition arith_flatten : aexpr -> aexpr := aexpr_map aflatten_node.

(** Shape: at most two operands everywhere. *)
Fixpoint abinary (e : aexpr) : Prop :=
  match e with
  | AInt _ | AVar _ => True
  | ANeg p => abinary p
  | ASub p q => abinary p /\ abinary q
  | AAdd es | AMul es => length es <= 2 /\ fold_right (fun e Q => abinary e /\ Q) True es
  end.
