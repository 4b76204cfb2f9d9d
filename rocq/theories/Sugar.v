(** * Arrays, structs and set aggregation (model)

    desugar.py 149-418 with cpt.rename (cpt.py 1778-1792), on trees: sharing of
    nodes between places is not represented here. *)
From Coq Require Import List Arith ZArith Bool.
Import ListNotations.

Inductive rel := REq | RNe | RGt | RLt | RGe | RLe.
Inductive head :=
| HLeaf (k : nat)              (* Signal, Constant, CurrentTimestamp *)
| HOp (o : nat)                (* every other operator, temporal ones included *)
| HAnd | HOr
| HAdd                         (* the sum built for counting *)
| HRel (r : rel)
| HArray
| HIndex (i : nat) | HSlice (i j : nat)
| HStruct (names : list nat)   (* members in the order of the children, desugar.py 48-57 *)
| HAccess (m : nat).
Inductive quantifier := ForEach | ForSome.
Inductive counting := Exactly | AtLeast | AtMost.
Inductive term :=
| Var (x : nat)
| Node (h : head) (children : list term)
| Quant (k : quantifier) (x : nat) (set body : term)
| Count (k : counting) (x : nat) (set num body : term).

(** Exceptions and error returns are [None]. *)
Definition bind {A B} (o : option A) (f : A -> option B) : option B := match o with Some a => f a | None => None end.
Notation "x <- o ;; r" := (bind o (fun x => r)) (at level 60, right associativity).
Fixpoint all_some {A} (l : list (option A)) : option (list A) :=
  match l with
  | [] => Some []
  | o :: l => x <- o ;; r <- all_some l ;; Some (x :: r)
  end.
Definition kids (t : term) : list term := match t with Node _ l => l | _ => [] end.

(** ** Bound variables in cpt.postorder (cpt.py 1621-1630)
    The keys of context.bound_vars; leaving an aggregation deletes its variable,
    a KeyError if it is not there. *)
Definition unbind (b : list nat) (x : nat) : option (list nat) :=
  if existsb (Nat.eqb x) b then Some (filter (fun y => negb (Nat.eqb x y)) b) else None.
Fixpoint walk (t : term) (b : list nat) : option (list nat) :=
  match t with
  | Var _ => Some b
  | Node _ l => (fix go l b := match l with [] => Some b | t :: l => b1 <- walk t b ;; go l b1 end) l b
  | Quant _ x set body => b1 <- walk set b ;; b2 <- walk body (x :: b1) ;; unbind b2 x
  | Count _ x set num body => b1 <- walk set b ;; b2 <- walk num b1 ;; b3 <- walk body (x :: b2) ;; unbind b3 x
  end.
Definition traversed {A} (t : term) (o : option A) : option A := _ <- walk t [] ;; o.

(** ** resolve_struct_accesses (lines 304-328, and 155-171) *)
Fixpoint member (names : list nat) (l : list term) (m : nat) : option term :=
  match names, l with
  | n :: names, e :: l => if n =? m then Some e else member names l m
  | _, _ => None
  end.
Fixpoint resolve_structs (t : term) : option term :=
  match t with
  | Var _ => Some t
  | Node h l =>
      l <- all_some (map resolve_structs l) ;;
      match h, l with
      | HAccess m, [Node (HStruct names) es] => member names es m
      | _, _ => Some (Node h l)
      end
  | Quant k x set body => set <- resolve_structs set ;; body <- resolve_structs body ;; Some (Quant k x set body)
  | Count k x set num body =>
      set <- resolve_structs set ;; num <- resolve_structs num ;; body <- resolve_structs body ;; Some (Count k x set num body)
  end.

(** ** resolve_array_accesses (lines 340-386)
    Simplification: the size in the type of an array expression is its number of
    children.  Anything else of array type passes the size test, and then its
    children are taken. *)
Fixpoint resolve_arrays (t : term) : option term :=
  match t with
  | Var _ => Some t
  | Node h l =>
      l <- all_some (map resolve_arrays l) ;;
      match h, l with
      | HIndex i, [a] => nth_error (kids a) i
      | HSlice i j, [a] =>
          let n := length (kids a) in
          match a with
          | Node HArray es =>
              if (n <=? i) || (n <=? j) then Some (Node h l)      (* logged, left in place *)
              else Some (Node HArray (firstn (j + 1 - i) (skipn i es)))
          | _ => if (i <=? j) && (n <=? j) then None else Some (Node HArray (firstn (j + 1 - i) (skipn i (kids a))))
          end
      | _, _ => Some (Node h l)
      end
  | Quant k x set body => set <- resolve_arrays set ;; body <- resolve_arrays body ;; Some (Quant k x set body)
  | Count k x set num body =>
      set <- resolve_arrays set ;; num <- resolve_arrays num ;; body <- resolve_arrays body ;; Some (Count k x set num body)
  end.

(** ** rename (cpt.py 1778-1792): every variable of that name, binders or not *)
Fixpoint subst (x : nat) (e t : term) : term :=
  match t with
  | Var y => if y =? x then e else t
  | Node h l => Node h (map (subst x e) l)
  | Quant k y set body => Quant k y (subst x e set) (subst x e body)
  | Count k y set num body => Count k y (subst x e set) (subst x e num) (subst x e body)
  end.
(** deepcopy_expr has no case for ArraySlice (cpt.py 1671-1771). *)
Fixpoint has_slice (t : term) : bool :=
  match t with
  | Var _ => false
  | Node h l => match h with HSlice _ _ => true | _ => existsb has_slice l end
  | Quant _ _ set body => has_slice set || has_slice body
  | Count _ _ set num body => has_slice set || has_slice num || has_slice body
  end.
Definition rename (x : nat) (e t : term) : option term :=
  match t with
  | Var y => Some (if y =? x then e else t)
  | _ => _ <- walk t [] ;; if has_slice t then None else Some (subst x e t)
  end.

(** ** unroll_set_aggregation (lines 149-292), in pre-order *)
Definition count_op (k : counting) : rel := match k with Exactly => REq | AtLeast => RGe | AtMost => RLe end.
Definition quant_op (k : quantifier) : head := match k with ForEach => HAnd | ForSome => HOr end.
(** Operator.__init__ takes the max of its children (cpt.py 524). *)
Definition operator (h : head) (l : list term) : option term := match l with [] => None | _ => Some (Node h l) end.
Fixpoint unroll (fuel : nat) (t : term) : option term :=
  match fuel with
  | O => None
  | S fuel =>
      let bodies x set body :=
        set <- traversed set (resolve_structs set) ;; all_some (map (fun e => rename x e body) (kids set)) in
      match t with
      | Var _ => Some t
      | Node h l => l <- all_some (map (unroll fuel) l) ;; Some (Node h l)
      | Quant k x set body =>
          l <- bodies x set body ;; new <- operator (quant_op k) l ;;
          new <- traversed new (resolve_structs new) ;; unroll fuel new
      | Count k x set num body =>
          l <- bodies x set body ;; sum <- operator HAdd l ;;
          let new := Node (HRel (count_op k)) [sum; num] in
          new <- traversed new (resolve_structs new) ;; unroll fuel new
      end
  end.

(** ** unroll_array_accesses (lines 397-418), in pre-order *)
Fixpoint pair_up (r : rel) (l m : list term) : option (list term) :=
  match l, m with
  | [], _ => Some []
  | x :: l, y :: m => ps <- pair_up r l m ;; Some (Node (HRel r) [x; y] :: ps)
  | _ :: _, [] => None
  end.
Fixpoint unroll_arrays (fuel : nat) (t : term) : option term :=
  match fuel with
  | O => None
  | S fuel =>
      match t with
      | Var _ => Some t
      | Node (HRel r) [Node HArray l; Node HArray m] =>
          ps <- pair_up r l m ;; new <- operator HAnd ps ;;
          l <- all_some (map (unroll_arrays fuel) (kids new)) ;; Some (Node HAnd l)
      | Node h l => l <- all_some (map (unroll_arrays fuel) l) ;; Some (Node h l)
      | Quant k x set body => set <- unroll_arrays fuel set ;; body <- unroll_arrays fuel body ;; Some (Quant k x set body)
      | Count k x set num body =>
          set <- unroll_arrays fuel set ;; num <- unroll_arrays fuel num ;; body <- unroll_arrays fuel body ;;
          Some (Count k x set num body)
      end
  end.

(** ** desugar (lines 429-447), from the struct accesses on *)
Definition desugar (fuel : nat) (t : term) : option term :=
  t <- traversed t (resolve_structs t) ;;
  t <- traversed t (resolve_arrays t) ;;
  t <- unroll fuel t ;;
  t <- traversed t (resolve_structs t) ;;
  t <- unroll_arrays fuel t ;;
  traversed t (resolve_structs t).

(** ** Indices in the type checker (type_check.py 181-187, 154-168)
    [size] of the array type, negative when unknown. *)
Definition check_index (size i : Z) : option Z :=
  if ((size <? Z.abs i) && (-1 <? size))%Z then None else Some (Z.abs i).

(** ** Names in the parser and in expand_definitions
    parse_c2po.py 633-638: the name of an input is that input, bound or not. *)
Definition parse_symbol (inputs : list nat) (s : nat) : term :=
  if existsb (Nat.eqb s) inputs then Node (HLeaf s) [] else Var s.
(** desugar.py 14-20: every variable that a definition has the name of. *)
Definition expand_symbols (defs : nat -> option term) : term -> term :=
  fix go t :=
    match t with
    | Var s => match defs s with Some b => b | None => t end
    | Node h l => Node h (map go l)
    | Quant k x set body => Quant k x (go set) (go body)
    | Count k x set num body => Count k x (go set) (go num) (go body)
    end.
