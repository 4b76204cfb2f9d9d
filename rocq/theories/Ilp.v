(** * Equality saturation: extraction by integer programming (model)

    compiler/c2po/egraph.py: the e-graph 84-324, the Gurobi model 326-529, the
    map of representatives 548-568 and the expression 570-658.

    An e-class is a position of [classes], an e-node a position in its class.
    Gurobi is not modelled: a solution is any assignment that meets the
    constraints.  Variables that the constraints define from others
    (wpd_active, wpd_active_sibling, max_sib_wpd, wpb_bpd_diff, cost,
    cost_active and the temporaries) are written as functions of them; their
    bounds are kept.  Values are exact integers ([.X] is a float). *)
From Coq Require Import List Arith ZArith Bool.
Require Import Verif.Mltl.
Import ListNotations.
Local Open Scope list_scope.
Local Open Scope nat_scope.

(** ENode, 84-95; the arity in And2..And4, Or2..Or4 is the number of children. *)
Inductive eop :=
| OBool (b : bool) | OVar (a : nat) | ONot | OImplies | OEquiv | OAnd | OOr
| OGlobal (l u : Z) | OFuture (l u : Z) | OUntil (l u : Z) | ORelease (l u : Z).
Record enode := Node { op_of : eop; kids : list nat }.
Record graph := Graph { classes : list (list enode); root : nat }.
Definition members (g : graph) (c : nat) : list enode := nth c (classes g) [].
Definition node_at (g : graph) (c i : nat) : option enode := nth_error (members g c) i.
(** get_enodes, 303-304 (the order does not matter here). *)
Definition graph_nodes (g : graph) : list (nat * nat * enode) :=
  flat_map (fun c => map (fun p => (c, fst p, snd p)) (combine (seq 0 (length (members g c))) (members g c)))
           (seq 0 (length (classes g))).
(** is_extended_operator, 94-95. *)
Definition is_extended (o : eop) : bool :=
  match o with OImplies | OGlobal _ _ | OFuture _ _ => true | _ => false end.
Definition interval_of (o : eop) : option (Z * Z) :=
  match o with
  | OGlobal l u | OFuture l u | OUntil l u | ORelease l u => Some (l, u)
  | _ => None
  end.
Definition is_bool (o : eop) : bool := match o with OBool _ => true | _ => false end.
Definition is_leaf (o : eop) : bool := match o with OBool _ | OVar _ => true | _ => false end.

(** ** The values of the variables, 350-385 *)
Record values := Values {
  eclass : nat -> Z; chosen : nat -> nat -> Z; rank : nat -> Z;
  wpd_class : nat -> Z; bpd_class : nat -> Z; wpd_node : nat -> nat -> Z; bpd_node : nat -> nat -> Z }.
Definition zsum (l : list Z) : Z := fold_right Z.add 0%Z l.
(** gp.max_ with constant=0. *)
Definition zmax (l : list Z) : Z := fold_right Z.max 0%Z l.
Definition zmin (l : list Z) : Z := fold_right Z.min 0%Z l.
Definition over (g : graph) (c : nat) (f : nat -> Z) : list Z := map f (seq 0 (length (members g c))).

(** get_parents and get_siblings_with_parent, 312-324. *)
Definition siblings (g : graph) (c : nat) : list (nat * (nat * nat)) :=
  flat_map (fun '(pc, pi, n) =>
              if existsb (Nat.eqb c) (kids n)
              then map (fun s => (s, (pc, pi))) (filter (fun s => negb (s =? c)) (kids n))
              else [])
           (graph_nodes g).
(** wpd_active, 470-487. *)
Definition active_wpd (g : graph) (v : values) (c i : nat) : Z :=
  match node_at g c i with
  | Some n => if is_bool (op_of n) then 0 else chosen v c i * wpd_node v c i
  | None => 0
  end%Z.
(** max_sib_wpd, 489-513. *)
Definition max_sib (g : graph) (v : values) (c : nat) : Z :=
  zmax (flat_map (fun '(s, (pc, pi)) => over g s (fun j => chosen v pc pi * active_wpd g v s j)%Z) (siblings g c)).
(** cost_active, 478-517. *)
Definition active_cost (g : graph) (v : values) (c i : nat) (n : enode) : Z :=
  if is_bool (op_of n) then 0 else chosen v c i * (Z.max 0 (max_sib g v c - bpd_node v c i) + 1).
(** The objective, 527. *)
Definition objective (g : graph) (v : values) : Z :=
  zsum (map (fun '(c, i, n) => active_cost g v c i n) (graph_nodes g)).

(** ** The constraints; [wpd0] is the wpd of the formula before *)
Definition binary (z : Z) : Prop := (z = 0 \/ z = 1)%Z.
Record feasible (g : graph) (extended : bool) (wpd0 : Z) (v : values) : Prop := {
  (* 350-385: kinds and bounds of the variables *)
  f_class : forall c, c < length (classes g) -> binary (eclass v c) /\ (0 <= rank v c /\ 0 <= wpd_class v c /\ 0 <= bpd_class v c)%Z;
  f_node : forall c i n, node_at g c i = Some n -> binary (chosen v c i) /\ (0 <= wpd_node v c i /\ 0 <= bpd_node v c i)%Z;
  (* 387-389 *)
  f_root : eclass v (root g) = 1%Z;
  (* 391-394 *)
  f_extended : extended = false -> forall c i n, node_at g c i = Some n -> is_extended (op_of n) = true -> chosen v c i = 0%Z;
  (* 396-403 *)
  f_kids : forall c i n, node_at g c i = Some n ->
    (chosen v c i * Z.of_nat (length (kids n)) = chosen v c i * zsum (map (eclass v) (kids n)))%Z;
  (* 405-411 *)
  f_one : forall c, c < length (classes g) -> eclass v c = zsum (over g c (chosen v c));
  (* 413-457 *)
  f_delays : forall c i n, node_at g c i = Some n ->
    (wpd_node v c i = if existsb (fun m => is_leaf (op_of m)) (members g c) then 0
                      else zmax (map (wpd_class v) (kids n)) + match interval_of (op_of n) with Some (_, u) => u | None => 0 end)%Z /\
    (bpd_node v c i = if existsb (fun m => is_leaf (op_of m)) (members g c) then 0
                      else match interval_of (op_of n) with
                           | Some (l, _) => zmin (map (bpd_class v) (kids n)) + l
                           | None => zmax (map (bpd_class v) (kids n))
                           end)%Z;
  (* 459-468 *)
  f_class_delays : forall c, c < length (classes g) ->
    wpd_class v c = zsum (over g c (fun i => chosen v c i * wpd_node v c i)%Z) /\
    bpd_class v c = zsum (over g c (fun i => chosen v c i * bpd_node v c i)%Z);
  (* 383, 515: the lower bound of wpb_bpd_diff *)
  f_diff : forall c i n, node_at g c i = Some n -> is_bool (op_of n) = false -> (- wpd0 <= max_sib g v c - bpd_node v c i)%Z;
  (* 519-525 *)
  f_order : forall c i n k, node_at g c i = Some n -> In k (kids n) -> (chosen v c i * rank v k <= rank v c - 1)%Z }.

(** What is returned when the status is OPTIMAL. *)
Definition optimal (g : graph) (extended : bool) (wpd0 : Z) (v : values) : Prop :=
  feasible g extended wpd0 v /\ forall v', feasible g extended wpd0 v' -> (objective g v <= objective g v')%Z.

(** ** build_repr_map_, 548-568 *)
Fixpoint first_chosen (f : nat -> Z) (i : nat) (ns : list enode) : option enode :=
  match ns with
  | [] => None
  | n :: ns => if (f i =? 1)%Z then Some n else first_chosen f (S i) ns
  end.
Definition representative (g : graph) (v : values) (c : nat) : option enode :=
  if (c <? length (classes g)) && (eclass v c =? 1)%Z then first_chosen (chosen v c) 0 (members g c) else None.

(** ** build_expr_, 570-658; [None]: an exception; [fuel] bounds the recursion.
    [known]: the numbers of the atomics in context.atomic_id_map. *)
Fixpoint collect {A} (l : list (option A)) : option (list A) :=
  match l with
  | [] => Some []
  | None :: _ => None
  | Some x :: l => option_map (cons x) (collect l)
  end.
Fixpoint build (known : nat -> bool) (rep : nat -> option enode) (fuel : nat) (n : enode) : option expr :=
  match fuel with
  | 0 => None
  | S fuel =>
      let child i :=
        match nth_error (kids n) i with
        | Some c => match rep c with Some m => build known rep fuel m | None => None end
        | None => None
        end in
      let all := collect (map (fun c => match rep c with Some m => build known rep fuel m | None => None end) (kids n)) in
      match op_of n with
      | OBool b => Some (EConst b)
      | OVar a => if known a then Some (EAtom a) else None
      | ONot => option_map ENot (child 0)
      | OAnd => option_map EAnd all
      | OOr => option_map EOr all
      | OEquiv => match child 0, child 1 with Some p, Some q => Some (EEquiv p q) | _, _ => None end
      | OImplies => match child 0, child 1 with Some p, Some q => Some (EImpl p q) | _, _ => None end
      | OGlobal l u => option_map (EG (Z.to_nat l) (Z.to_nat u)) (child 0)
      | OFuture l u => option_map (EF (Z.to_nat l) (Z.to_nat u)) (child 0)
      | OUntil l u => match child 0, child 1 with Some p, Some q => Some (EU (Z.to_nat l) (Z.to_nat u) p q) | _, _ => None end
      | ORelease l u => match child 0, child 1 with Some p, Some q => Some (ER (Z.to_nat l) (Z.to_nat u) p q) | _, _ => None end
      end
  end.
(** The end of extract, 801-803. *)
Definition extract (known : nat -> bool) (g : graph) (v : values) (fuel : nat) : option expr :=
  match representative g v (root g) with
  | Some n => build known (representative g v) fuel n
  | None => None
  end.
