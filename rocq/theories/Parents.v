(** * The recorded parents of expressions (model)

    Every Expression (cpt.py 31-131) keeps, besides its children, the set of its
    parents.  Replacing an expression and computing queue sizes go by that record.
    An object graph is a [heap] (Graph.v) together with the recorded parents of
    each object; sets are lists, of which only the members matter. *)
From Coq Require Import List Arith ZArith Bool Ascii.
Require Import Verif.Graph Verif.GraphSpec Verif.Binary Verif.Assembly.
Import ListNotations.
Local Open Scope nat_scope.

Definition parents := nat -> list nat.
Definition graph : Type := heap * parents.
Definition mem (n : nat) (l : list nat) : bool := existsb (Nat.eqb n) l.
Definition without (n : nat) (l : list nat) : list nat := filter (fun m => negb (m =? n)) l.

(** The constructor, cpt.py 47-56 (with set_parents). *)
Definition construct (id : nat) (k : kind) (sym : list ascii) (children : list nat) (g : graph) : graph :=
  (fun n => if n =? id then Node k sym children else fst g n,
   fun n => if mem n children then id :: snd g n else snd g n).

(** cpt.py 87-104: [old.replace(new)].  Types and [replacement] are left out. *)
Definition replace (old new : nat) (g : graph) : graph :=
  if old =? new then g
  else
    let h := fun n => if mem n (snd g old)
                      then Node (nkind (fst g n)) (nsym (fst g n)) (map (fun c => if c =? old then new else c) (nchildren (fst g n)))
                      else fst g n in
    let ps := fun n => if n =? new then snd g old ++ snd g n else snd g n in
    (h, fun n => if mem n (nchildren (h old)) then without old (ps n) else ps n).

(** cse.py 13-29, as [cse_node], [cse_set] and [optimize_cse] in Graph.v, with the
    parents. *)
Definition cse_node_recorded (fuel e : nat) (h : heap) (a : parents * list (list ascii * nat))
  : heap * (parents * list (list ascii * nat)) :=
  match prefix_str fuel h e with
  | None => (h, a)
  | Some k =>
      match find_str (snd a) k with
      | Some e' => let g := replace e e' (h, fst a) in (fst g, (snd g, snd a))
      | None => (h, (fst a, (k, e) :: snd a))
      end
  end.
Definition cse_set_recorded (depth fuel : nat) (g : graph) (s : nat) : option graph :=
  option_map (fun r => (fst r, fst (snd r)))
    (traverse (cse_node_recorded depth) fuel (map (pair false) (nchildren (fst g s))) [] (fst g) (snd g, [])).
Definition optimize_cse_recorded (depth fuel : nat) (g : graph) (ft pt : nat) : option graph :=
  match cse_set_recorded depth fuel g ft with
  | None => None
  | Some g => cse_set_recorded depth fuel g pt
  end.

(** cpt.py 61-70: get_siblings. *)
Definition get_siblings (g : graph) (n : nat) : list nat :=
  flat_map (fun p => filter (fun c => negb (c =? n)) (nchildren (fst g p))) (snd g n).
(** cpt.py 106-113: has_only_tl_parents. *)
Definition has_only_tl_parents (g : graph) (cls : nat -> nclass) (n : nat) : bool :=
  forallb (fun p => match engine_of (cls p) with EngTl => true | _ => false end) (snd g n).
(** scq.py 14-48. *)
Local Open Scope Z_scope.
Definition recorded_size (g : graph) (cls : nat -> nclass) (wpd bpd : nat -> Z) (const : Z) (n : nat) : Z :=
  match cls n with
  | CFormula _ => 1 + const
  | CBool _ => 0
  | _ => Z.max (fold_right Z.max 0 (map wpd (get_siblings g n)) - bpd n) 0 + 1 + const
  end.
(** compute_scq_sizes followed by gen_assembly, as [gen_assembly] in Assembly.v. *)
Definition gen_assembly_recorded (fuel : nat) (g : graph) (cls : nat -> nclass) (wpd bpd : nat -> Z) (const : Z) (ft pt : nat)
  : option (list instruction) :=
  match postorder fuel (fst g) [ft], postorder fuel (fst g) [pt] with
  | Some fts, Some pts => gen_assembly_of (fst g) cls (recorded_size g cls wpd bpd const) fts pts
  | _, _ => None
  end.
Local Close Scope Z_scope.

(** ** Equality saturation *)
(** The result egglog prints is a [tree]; a leaf is an atomic if [atomic] (the
    context's atomic_expr_map) knows its name, otherwise a constant.  The parser's
    actions (parse_egglog_output.py 84-158) construct operands before operators,
    from left to right; [next] is the first unused reference. *)
Section Eqsat.
Variable atomic : list ascii -> option nat.
Fixpoint build (t : tree) (next : nat) (g : graph) {struct t} : nat * nat * graph :=
  match t with
  | Tree k s args =>
      let fix operands (ts : list tree) (next : nat) (g : graph) : list nat * nat * graph :=
        match ts with
        | [] => ([], next, g)
        | t :: ts =>
            let '(r, next, g) := build t next g in
            let '(rs, next, g) := operands ts next g in (r :: rs, next, g)
        end in
      let '(rs, next, g) := operands args next g in (next, S next, construct next k s rs g)
  end.

(** parse_egglog_output.py 183-197, for one node of the traversal. *)
Definition put_atomic (used : list nat) (e : nat) (h : heap) (ps : parents) : heap * parents :=
  match nkind (h e), atomic (nsym (h e)) with
  | KLeaf, Some x =>
      let g := replace e x (h, ps) in
      (fst g, fun n => if n =? x then filter (fun p => mem p used) (snd g n) else snd g n)
  | _, _ => (h, ps)
  end.
(** Lines 173-197; the result of the function is the root. *)
Definition read_back (fuel : nat) (t : tree) (next : nat) (g : graph) : option (nat * nat * graph) :=
  let '(root, next, g) := build t next g in
  match postorder fuel (fst g) [root] with
  | None => None
  | Some used =>
      match traverse (put_atomic used) fuel [(false, root)] [] (fst g) (snd g) with
      | None => None
      | Some g => Some (root, next, g)
      end
  end.
(** egraph.py 577-658: build_expr_, with the comment of lines 593-596. *)
Fixpoint build_ilp (t : tree) (next : nat) (g : graph) {struct t} : nat * nat * graph :=
  match t with
  | Tree k s args =>
      match k, atomic s with
      | KLeaf, Some x => (x, next, (fst g, fun n => if n =? x then [] else snd g n))
      | _, _ =>
          let fix operands (ts : list tree) (next : nat) (g : graph) : list nat * nat * graph :=
            match ts with
            | [] => ([], next, g)
            | t :: ts =>
                let '(r, next, g) := build_ilp t next g in
                let '(rs, next, g) := operands ts next g in (r :: rs, next, g)
            end in
          let '(rs, next, g) := operands args next g in (next, S next, construct next k s rs g)
      end
  end.
(** eqsat.py 426-608 without the equivalence check: one result per formula; [f]
    is a Formula node, [get_expr] its child. *)
Definition eqsat_formula (ilp : bool) (fuel f : nat) (t : tree) (next : nat) (g : graph) : option (nat * graph) :=
  match nchildren (fst g f) with
  | old :: _ =>
      match (if ilp then Some (build_ilp t next g) else read_back fuel t next g) with
      | Some (root, next, g) => Some (next, replace old root g)
      | None => None
      end
  | [] => None
  end.
Fixpoint eqsat_formulas (ilp : bool) (fuel : nat) (fs : list (nat * tree)) (next : nat) (g : graph) : option graph :=
  match fs with
  | [] => Some g
  | (f, t) :: fs =>
      match eqsat_formula ilp fuel f t next g with
      | Some (next, g) => eqsat_formulas ilp fuel fs next g
      | None => None
      end
  end.
End Eqsat.
