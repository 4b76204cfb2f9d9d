(** * The tree passes of compiler/c2po/transform.py (model)

    A pass that iterates over [program.postorder] (cpt.py 1609-1641) and calls
    [expr.replace(new)] (cpt.py 87-104) is a bottom-up map: all operands are
    yielded (and already replaced in [expr.children]) before [expr]; the
    replacement is not yielded again.  A pass over [program.preorder]
    (cpt.py 1643-1669) yields a node, then goes down the children of its
    replacement, without yielding the replacement itself.

    Simplification: expressions are trees here.  [replace] rewrites the child
    slot of every parent alike, so a shared node is rewritten once for all its
    occurrences and the unfolded tree is what the map computes. *)
From Coq Require Import List Arith Bool.
Require Import Verif.Mltl.
Import ListNotations.

(** Bottom-up map: [expr_map f e] = post-order traversal calling [f] on each
    node once its operands have been replaced. *)
Fixpoint expr_map (f : expr -> expr) (e : expr) : expr :=
  match e with
  | EConst b => f (EConst b)
  | EAtom a => f (EAtom a)
  | ENot p => f (ENot (expr_map f p))
  | EAnd es => f (EAnd (map (expr_map f) es))
  | EOr es => f (EOr (map (expr_map f) es))
  | EXor p q => f (EXor (expr_map f p) (expr_map f q))
  | EImpl p q => f (EImpl (expr_map f p) (expr_map f q))
  | EEquiv p q => f (EEquiv (expr_map f p) (expr_map f q))
  | EBeq p q => f (EBeq (expr_map f p) (expr_map f q))
  | EF lb ub p => f (EF lb ub (expr_map f p))
  | EG lb ub p => f (EG lb ub (expr_map f p))
  | EU lb ub p q => f (EU lb ub (expr_map f p) (expr_map f q))
  | ER lb ub p q => f (ER lb ub (expr_map f p) (expr_map f q))
  | EO lb ub p => f (EO lb ub (expr_map f p))
  | EH lb ub p => f (EH lb ub (expr_map f p))
  | ES lb ub p q => f (ES lb ub (expr_map f p) (expr_map f q))
  | ET lb ub p q => f (ET lb ub (expr_map f p) (expr_map f q))
  end.

(** ** multi_operators_to_binary: transform.py 313-336 *)
(** Lines 318-331: arity < 3 is left alone; otherwise
    [new = op(c0, c1)], then [new = op(new, ci)] for i = 2 .. n-1. *)
Definition chain (mk : list expr -> expr) (es : list expr) : expr :=
  match es with
  | c0 :: c1 :: c2 :: rest =>
      fold_left (fun acc c => mk [acc; c]) (c2 :: rest) (mk [c0; c1])
  | _ => mk es
  end.

Definition binary_node (e : expr) : expr :=
  match e with
  | EAnd es => chain EAnd es
  | EOr es => chain EOr es
  | _ => e
  end.
Definition to_binary (e : expr) : expr := expr_map binary_node e.

(** ** flatten_multi_operators: transform.py 347-368 *)
(** Line 351. *)
Definition MAX_ARITY := 4.
(** Lines 359-364; [same c] = [Some children] iff [c] has the operator of the
    node being flattened; [acc] is [new_children]. *)
Fixpoint flatten_children (same : expr -> option (list expr))
    (acc cs : list expr) : list expr :=
  match cs with
  | [] => acc
  | c :: cs =>
      match same c with
      | Some ccs =>
          if length acc <? MAX_ARITY then flatten_children same (acc ++ ccs) cs
          else flatten_children same (acc ++ [c]) cs
      | None => flatten_children same (acc ++ [c]) cs
      end
  end.
Definition same_and (e : expr) := match e with EAnd es => Some es | _ => None end.
Definition same_or (e : expr) := match e with EOr es => Some es | _ => None end.
Definition flatten_node (e : expr) : expr :=
  match e with
  | EAnd es => EAnd (flatten_children same_and [] es)
  | EOr es => EOr (flatten_children same_or [] es)
  | _ => e
  end.
Definition flatten (e : expr) : expr := expr_map flatten_node e.

(** ** remove_extended_operators: transform.py 381-478 *)
(** One iteration of the loop at lines 395-476. *)
Definition core_node (e : expr) : expr :=
  match e with
  | EXor p q => ENot (EEquiv p q)                  (* 399-412 *)
  | EImpl p q => EOr [ENot p; q]                   (* 413-421 *)
  | EF lb ub p => EU lb ub (EConst true) p         (* 422-436 *)
  | EG lb ub p => ER lb ub (EConst false) p        (* 437-451 *)
  | EO lb ub p => ES lb ub (EConst true) p         (* 452-466 *)
  | EH lb ub p => ET lb ub (EConst false) p        (* 467-481 *)
  | _ => e
  end.
(** Line 392 runs the binarisation first. *)
Definition remove_extended (e : expr) : expr := expr_map core_node (to_binary e).

(** ** to_bnf: transform.py 5-114 *)
Definition bnf_node (e : expr) : expr :=
  match e with
  | EOr es => ENot (EAnd (map ENot es))                                (* 16-26 *)
  | EImpl p q => ENot (EAnd [p; ENot q])                               (* 27-38 *)
  | EXor p q => EAnd [ENot (EAnd [ENot p; ENot q]); ENot (EAnd [p; q])](* 39-61 *)
  | EF lb ub p => EU lb ub (EConst true) p                             (* 62-75 *)
  | EG lb ub p => ENot (EU lb ub (EConst true) (ENot p))               (* 76-92 *)
  | ER lb ub p q => ENot (EU lb ub (ENot p) (ENot q))                  (* 93-110 *)
  | _ => e
  end.
Definition to_bnf (e : expr) : expr := expr_map bnf_node e.

(** ** to_nnf: transform.py 125-302, a pre-order pass

    [Visit]: the node is yielded.  [Neg]: the node is the operand of a negation
    that is being yielded (so the whole is [!e]).  [Kids]: the node is itself a
    replacement: not yielded, but its operands are (cpt.py 1660-1668). *)
Inductive nnf_mode := Visit | Neg | Kids.

Fixpoint nnf (m : nnf_mode) (e : expr) {struct e} : expr :=
  match m with
  | Neg =>
      match e with
      | ENot p => nnf Kids p                                           (* 139-141 *)
      | EOr es => EAnd (map (nnf Neg) es)                              (* 142-152 *)
      | EAnd es => EOr (map (nnf Neg) es)                              (* 153-163 *)
      | EImpl p q => EAnd [nnf Visit p; nnf Neg q]                     (* 164-173 *)
      | EXor p q => EAnd [EAnd [nnf Neg p; nnf Visit q];
                          EAnd [nnf Visit p; nnf Neg q]]               (* 174-191 *)
      | EEquiv p q => EOr [EAnd [nnf Visit p; nnf Neg q];
                           EAnd [nnf Neg p; nnf Visit q]]              (* 192-209 *)
      | EF lb ub p => EG lb ub (nnf Neg p)                             (* 210-222 *)
      | EG lb ub p => EF lb ub (nnf Neg p)                             (* 223-235 *)
      | EU lb ub p q => ER lb ub (nnf Neg p) (nnf Neg q)               (* 236-253 *)
      | ER lb ub p q => EU lb ub (nnf Neg p) (nnf Neg q)               (* 254-271 *)
      (* no rule: the negation stays and its operand is yielded next *)
      | EConst _ | EAtom _ => ENot e
      | EBeq p q => ENot (EBeq (nnf Visit p) (nnf Visit q))
      | EO lb ub p => ENot (EO lb ub (nnf Visit p))
      | EH lb ub p => ENot (EH lb ub (nnf Visit p))
      | ES lb ub p q => ENot (ES lb ub (nnf Visit p) (nnf Visit q))
      | ET lb ub p q => ENot (ET lb ub (nnf Visit p) (nnf Visit q))
      end
  | Visit | Kids =>
      match e with
      | ENot p => match m with Visit => nnf Neg p | _ => ENot (nnf Visit p) end
      | EImpl p q =>
          match m with
          | Visit => EOr [nnf Neg p; nnf Visit q]                      (* 272-281 *)
          | _ => EImpl (nnf Visit p) (nnf Visit q)
          end
      | EXor p q =>
          match m with
          | Visit => EOr [EAnd [nnf Visit p; nnf Neg q];
                          EAnd [nnf Neg p; nnf Visit q]]               (* 282-299 *)
          | _ => EXor (nnf Visit p) (nnf Visit q)
          end
      | EConst _ | EAtom _ => e
      | EAnd es => EAnd (map (nnf Visit) es)
      | EOr es => EOr (map (nnf Visit) es)
      | EEquiv p q => EEquiv (nnf Visit p) (nnf Visit q)
      | EBeq p q => EBeq (nnf Visit p) (nnf Visit q)
      | EF lb ub p => EF lb ub (nnf Visit p)
      | EG lb ub p => EG lb ub (nnf Visit p)
      | EU lb ub p q => EU lb ub (nnf Visit p) (nnf Visit q)
      | ER lb ub p q => ER lb ub (nnf Visit p) (nnf Visit q)
      | EO lb ub p => EO lb ub (nnf Visit p)
      | EH lb ub p => EH lb ub (nnf Visit p)
      | ES lb ub p q => ES lb ub (nnf Visit p) (nnf Visit q)
      | ET lb ub p q => ET lb ub (nnf Visit p) (nnf Visit q)
      end
  end.
Definition to_nnf (e : expr) : expr := nnf Visit e.

(** ** remove_release_operators: transform.py 521-546 *)
Definition release_node (e : expr) : expr :=
  match e with
  | ER lb ub p q => ENot (EU lb ub (ENot p) (ENot q))
  | _ => e
  end.
Definition remove_release (e : expr) : expr := expr_map release_node e.

(** ** Propagation delays: cpt.py 513-532 and 770-855

    [Operator.__init__] takes max/min over the operands (0 for leaves);
    [TemporalOperator] adds the interval.  Past-time operators subtract, hence
    [Z]; the shapes are those of the constructors: Future/Global/Until/Release
    787-812, Historical/Once/Since/Trigger 813-855. *)
From Coq Require Import ZArith.
Definition zmax_list (l : list Z) : Z :=
  match l with [] => 0%Z | x :: l => fold_left Z.max l x end.
Definition zmin_list (l : list Z) : Z :=
  match l with [] => 0%Z | x :: l => fold_left Z.min l x end.

Fixpoint wpd (e : expr) : Z :=
  match e with
  | EConst _ | EAtom _ => 0
  | ENot p => wpd p
  | EAnd es | EOr es => zmax_list (map wpd es)
  | EXor p q | EImpl p q | EEquiv p q | EBeq p q => Z.max (wpd p) (wpd q)
  | EF _ ub p | EG _ ub p => wpd p + Z.of_nat ub
  | EU _ ub p q | ER _ ub p q => Z.max (wpd p) (wpd q) + Z.of_nat ub
  | EO lb ub p | EH lb ub p => bpd p - Z.of_nat lb
  | ES lb ub p q | ET lb ub p q => Z.max (wpd p) (wpd q) - Z.of_nat lb
  end%Z
with bpd (e : expr) : Z :=
  match e with
  | EConst _ | EAtom _ => 0
  | ENot p => bpd p
  | EAnd es | EOr es => zmin_list (map bpd es)
  | EXor p q | EImpl p q | EEquiv p q | EBeq p q => Z.min (bpd p) (bpd q)
  | EF lb _ p | EG lb _ p => bpd p + Z.of_nat lb
  | EU lb _ p q | ER lb _ p q => Z.min (bpd p) (bpd q) + Z.of_nat lb
  | EO lb ub p | EH lb ub p => bpd p - Z.of_nat ub
  | ES lb ub p q | ET lb ub p q => Z.min (bpd p) (bpd q) - Z.of_nat lb
  end%Z.

(** ** sort_operands_by_pd: transform.py 499-509

    Python's [list.sort] is stable; insertion sort is the same function.  The
    key of each operand is its [wpd] attribute, set when it was constructed;
    sorting does not change it. *)
Fixpoint insert_pd (e : expr) (l : list expr) : list expr :=
  match l with
  | [] => [e]
  | x :: l' => if (wpd e <=? wpd x)%Z then e :: l else x :: insert_pd e l'
  end.
Definition sort_pd (l : list expr) : list expr := fold_right insert_pd [] l.
Definition sort2 (mk : expr -> expr -> expr) (p q : expr) : expr :=
  if (wpd p <=? wpd q)%Z then mk p q else mk q p.
(** commutative operators: cpt.py 941-954 (the Boolean ones) *)
Definition sort_node (e : expr) : expr :=
  match e with
  | EAnd es => EAnd (sort_pd es)
  | EOr es => EOr (sort_pd es)
  | EXor p q => sort2 EXor p q
  | EEquiv p q => sort2 EEquiv p q
  | EBeq p q => sort2 EBeq p q
  | _ => e
  end.
Definition sort_operands (e : expr) : expr := expr_map sort_node e.
