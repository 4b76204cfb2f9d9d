(** * Equality saturation: reading the e-graph that egglog writes (model)

    compiler/c2po/egraph.py: ENode.from_json 97-225, EGraph.__init__ 248-262
    and EGraph.from_json 264-301; the operator names of build_expr_ 578-656.
    A JSON object is the list of its members in order.  Memory and time limits
    are not modelled. *)
From Coq Require Import List Arith NArith ZArith Bool Ascii String.
Require Import Verif.MapFile Verif.Ilp.
Import ListNotations.
Local Open Scope list_scope.
Local Open Scope nat_scope.

Definition txt (s : string) : str := list_ascii_of_string s.

(** The members of the "nodes" object: "op", "children", "eclass". *)
Record jnode := JNode { j_op : str; j_children : list str; j_eclass : str }.
Definition document := list (str * jnode).
(** content[id]; [None]: KeyError. *)
Fixpoint lookup {A} (d : list (str * A)) (id : str) : option A :=
  match d with
  | [] => None
  | (k, v) :: d => if str_eqb k id then Some v else lookup d id
  end.

(** Python's [sub in s], [s.startswith(p)]. *)
Fixpoint starts (p s : str) : bool :=
  match p, s with
  | [], _ => true
  | a :: p, b :: s => Ascii.eqb a b && starts p s
  | _ :: _, [] => false
  end.
Fixpoint contains (sub s : str) : bool :=
  starts sub s || match s with [] => false | _ :: s => contains sub s end.
(** int(s) of a JSON string: an optional sign and digits, see [int_of]. *)
Definition int_z (s : str) : option Z :=
  match s with
  | "-"%char :: r => option_map (fun n => (- Z.of_N n)%Z) (int_of r)
  | _ => option_map Z.of_N (int_of s)
  end.
(** s.strip with a quotation mark, and s.replace of quotation marks by nothing. *)
Definition quote : ascii := """"%char.
Definition strip (s : str) : str := rev (drop_while (Ascii.eqb quote) (rev (drop_while (Ascii.eqb quote) s))).
Definition unquote (s : str) : str := filter (fun c => negb (Ascii.eqb quote c)) s.

(** ENode, 84-92. *)
Record rnode := RNode {
  r_id : str; r_op : str; r_interval : option (Z * Z); r_string : option str; r_value : option bool;
  r_kids : list str; r_class : str }.

Definition has (s : string) (id : str) : bool := contains (txt s) id.
(** 101-105. *)
Definition operand_classes (d : document) (n : jnode) : option (list str) :=
  collect (map (fun c => option_map j_eclass (lookup d c))
               (filter (fun c => negb (has "Interval" c) && negb (has "String" c) && negb (has "bool" c)) (j_children n))).
(** 127-137; [None]: ValueError or KeyError. *)
Definition read_interval (d : document) (n : jnode) : option (Z * Z) :=
  match filter (has "Interval") (j_children n) with
  | [id] =>
      match lookup d id with
      | Some i =>
          match j_children i with
          | [lb; ub] =>
              match lookup d lb, lookup d ub with
              | Some lb, Some ub =>
                  match int_z (j_op lb), int_z (j_op ub) with
                  | Some lb, Some ub => Some (lb, ub)
                  | _, _ => None
                  end
              | _, _ => None
              end
          | _ => None
          end
      | None => None
      end
  | _ => None
  end.
Definition is_temporal (op : str) : bool := existsb (str_eqb op) [txt "Global"; txt "Future"; txt "Until"; txt "Release"].
(** ENode.from_json, 97-225. *)
Definition node_from_json (d : document) (id : str) : option rnode :=
  match lookup d id with
  | None => None
  | Some n =>
      match operand_classes d n with
      | None => None
      | Some kids =>
          if is_temporal (j_op n) then                                               (* 107-146 *)
            match read_interval d n with
            | Some i => Some (RNode id (j_op n) (Some i) None None kids (j_eclass n))
            | None => None
            end
          else if str_eqb (j_op n) (txt "Var") then                                  (* 147-178 *)
            match filter (has "String") (j_children n) with
            | [s] => option_map (fun v => RNode id (j_op n) None (Some (strip (j_op v))) None kids (j_eclass n)) (lookup d s)
            | _ => None
            end
          else if str_eqb (firstn 4 (j_op n)) (txt "Bool") then                      (* 179-205 *)
            match filter (has "bool") (j_children n) with
            | [b] => option_map (fun v => RNode id (j_op n) None None (Some (has "true" (j_op v))) kids (j_eclass n)) (lookup d b)
            | _ => None
            end
          else Some (RNode id (j_op n) None None None kids (j_eclass n))
      end
  end.

(** 280-287: nodes that are not formulas. *)
Definition skipped (id : str) : bool := has "Interval" id || has "String" id || has "i64" id || has "bool" id.
(** 291-293; the ids are the keys of a JSON object, so no node is equal to
    another and the set is a list. *)
Fixpoint add_node (n : rnode) (m : list (str * list rnode)) : list (str * list rnode) :=
  match m with
  | [] => [(r_class n, [n])]
  | (c, ns) :: m => if str_eqb c (r_class n) then (c, ns ++ [n]) :: m else (c, ns) :: add_node n m
  end.
(** The loop of EGraph.from_json, 279-295. *)
Fixpoint read_loop (d : document) (ids : list str) (m : list (str * list rnode)) : option (list (str * list rnode)) :=
  match ids with
  | [] => Some m
  | id :: ids =>
      if skipped id then read_loop d ids m
      else match node_from_json d id with
           | Some n => read_loop d ids (add_node n m)
           | None => None
           end
  end.
Definition from_json (d : document) : option (list (str * list rnode)) := read_loop d (map fst d) [].

(** ** The e-graph of Ilp.v: classes by position, operators by the tests of
    build_expr_, 578-656 (there made only for the nodes chosen; [None]: an
    exception). *)
Fixpoint position (names : list str) (c : str) : option nat :=
  match names with
  | [] => None
  | x :: names => if str_eqb x c then Some 0 else option_map S (position names c)
  end.
Definition operator (n : rnode) : option eop :=
  if str_eqb (r_op n) (txt "Bool") then option_map OBool (r_value n)
  else if str_eqb (r_op n) (txt "Var") then
    match r_string n with
    | Some s => option_map (fun a => OVar (N.to_nat a)) (int_of (skipn 1 (unquote s)))
    | None => None
    end
  else if str_eqb (r_op n) (txt "Not") then Some ONot
  else if str_eqb (firstn 3 (r_op n)) (txt "And") then Some OAnd
  else if str_eqb (firstn 2 (r_op n)) (txt "Or") then Some OOr
  else if str_eqb (r_op n) (txt "Equiv") then Some OEquiv
  else if str_eqb (r_op n) (txt "Implies") then Some OImplies
  else match r_interval n with
       | Some (l, u) =>
           if str_eqb (r_op n) (txt "Global") then Some (OGlobal l u)
           else if str_eqb (r_op n) (txt "Future") then Some (OFuture l u)
           else if str_eqb (r_op n) (txt "Until") then Some (OUntil l u)
           else if str_eqb (r_op n) (txt "Release") then Some (ORelease l u)
           else None
       | None => None
       end.
Definition enode_of (names : list str) (n : rnode) : option enode :=
  match operator n, collect (map (position names) (r_kids n)) with
  | Some o, Some ks => Some (Node o ks)
  | _, _ => None
  end.
Definition graph_of (m : list (str * list rnode)) (root_class : str) : option graph :=
  match collect (map (fun p => collect (map (enode_of (map fst m)) (snd p))) m), position (map fst m) root_class with
  | Some cs, Some r => Some (Graph cs r)
  | _, _ => None
  end.
(** From the JSON document and root_eclasses[0] (eqsat.py 509) to the e-graph. *)
Definition read_egraph (d : document) (root_class : str) : option graph :=
  match from_json d with Some m => graph_of m root_class | None => None end.
