(** * The delays recorded on expressions, from the text of a file (model)

    Every expression object carries a worst-case and a best-case delay (cpt.py 42-43),
    computed once, when it is created, from those of its operands at that moment
    (cpt.py 526-527 and 782-783).  [replace] (cpt.py 93-110) puts a new operand into
    an object and leaves the object's own delays as they are.  The queue sizes are
    computed from the recorded delays (scq.py 5-65, Assembly.v). *)
From Coq Require Import List Arith NArith ZArith Bool Ascii String.
Require Import Verif.MapFile Verif.Mltl Verif.Transform Verif.Rewrite Verif.Definitions.
Require Import Verif.Binary Verif.Assembly Verif.CsvTrace Verif.C2poText Verif.Elaborate.
Import ListNotations.
Local Open Scope list_scope.
Local Open Scope nat_scope.

(** ** Expressions with their delays *)
(** Worst case and best case. *)
Notation delay := (Z * Z)%type.
Inductive op1 := DF (lb ub : nat) | DG (lb ub : nat) | DO (lb ub : nat) | DH (lb ub : nat) | DNot.
Inductive op2 :=
| DAnd | DOr | DXor | DImpl | DEquiv
| DU (lb ub : nat) | DR (lb ub : nat) | DS (lb ub : nat) | DT (lb ub : nat).
(** The objects of a file over Boolean inputs: connectives are binary, as parsed
    (parse_c2po.py 460-520).  Leaves keep their first delays, 0 and 0. *)
Inductive dx :=
| DConst (b : bool)
| DAtom (a : nat)
| D1 (o : op1) (d : delay) (p : dx)
| D2 (o : op2) (d : delay) (p q : dx).
Definition delay_of (e : dx) : delay :=
  match e with DConst _ | DAtom _ => (0, 0)%Z | D1 _ d _ | D2 _ d _ _ => d end.
(** New objects, cpt.py 526-527 (connectives), 782-783 (temporal operators), 824-825
    and 834-835 (once, historically), 844-845 and 853-854 (since, trigger). *)
Definition new1 (o : op1) (p : dx) : dx :=
  let (w, b) := delay_of p in
  D1 o (match o with
        | DNot => (w, b)
        | DF lb ub | DG lb ub => (w + Z.of_nat ub, b + Z.of_nat lb)
        | DO lb ub | DH lb ub => (b - Z.of_nat lb, b - Z.of_nat ub)
        end%Z) p.
Definition new2 (o : op2) (p q : dx) : dx :=
  let (w, b) := delay_of p in
  let (w', b') := delay_of q in
  D2 o (match o with
        | DAnd | DOr | DXor | DImpl | DEquiv => (Z.max w w', Z.min b b')
        | DU lb ub | DR lb ub => (Z.max w w' + Z.of_nat ub, Z.min b b' + Z.of_nat lb)
        | DS lb ub | DT lb ub => (Z.max w w' - Z.of_nat lb, Z.min b b' - Z.of_nat lb)
        end%Z) p q.
(** The expression without the delays. *)
Definition erase1 (o : op1) (p : expr) : expr :=
  match o with
  | DNot => ENot p
  | DF lb ub => EF lb ub p
  | DG lb ub => EG lb ub p
  | DO lb ub => EO lb ub p
  | DH lb ub => EH lb ub p
  end.
Definition erase2 (o : op2) (p q : expr) : expr :=
  match o with
  | DAnd => EAnd [p; q]
  | DOr => EOr [p; q]
  | DXor => EXor p q
  | DImpl => EImpl p q
  | DEquiv => EEquiv p q
  | DU lb ub => EU lb ub p q
  | DR lb ub => ER lb ub p q
  | DS lb ub => ES lb ub p q
  | DT lb ub => ET lb ub p q
  end.
Fixpoint erase (e : dx) : expr :=
  match e with
  | DConst b => EConst b
  | DAtom a => EAtom a
  | D1 o _ p => erase1 o (erase p)
  | D2 o _ p q => erase2 o (erase p) (erase q)
  end.
(** The objects the parser creates (parse_c2po.py 400-640), operands first.  Other
    connectives than binary ones do not come from the formulas of Elaborate.v. *)
Fixpoint parsed (e : expr) : dx :=
  match e with
  | EConst b => DConst b
  | EAtom a => DAtom a
  | ENot p => new1 DNot (parsed p)
  | EAnd [p; q] => new2 DAnd (parsed p) (parsed q)
  | EOr [p; q] => new2 DOr (parsed p) (parsed q)
  | EXor p q => new2 DXor (parsed p) (parsed q)
  | EImpl p q => new2 DImpl (parsed p) (parsed q)
  | EEquiv p q => new2 DEquiv (parsed p) (parsed q)
  | EF lb ub p => new1 (DF lb ub) (parsed p)
  | EG lb ub p => new1 (DG lb ub) (parsed p)
  | EO lb ub p => new1 (DO lb ub) (parsed p)
  | EH lb ub p => new1 (DH lb ub) (parsed p)
  | EU lb ub p q => new2 (DU lb ub) (parsed p) (parsed q)
  | ER lb ub p q => new2 (DR lb ub) (parsed p) (parsed q)
  | ES lb ub p q => new2 (DS lb ub) (parsed p) (parsed q)
  | ET lb ub p q => new2 (DT lb ub) (parsed p) (parsed q)
  | _ => DConst true
  end.

(** ** The passes *)
(** A post-order pass (Transform.v [expr_map]): an object whose operands were replaced
    keeps its delays. *)
Fixpoint dmap (f : dx -> dx) (e : dx) : dx :=
  match e with
  | DConst _ | DAtom _ => f e
  | D1 o d p => f (D1 o d (dmap f p))
  | D2 o d p q => f (D2 o d (dmap f p) (dmap f q))
  end.

(** desugar.py 4-23 (Definitions.v): a name, with delays 0 and 0, is replaced by the
    object it stands for, with that object's delays. *)
Definition dtable := list (nat * dx).
Fixpoint dlookup (t : dtable) (s : nat) : option dx :=
  match t with
  | [] => None
  | (x, e) :: t => if x =? s then Some e else dlookup t s
  end.
Definition dexpand_node (t : dtable) (e : dx) : dx :=
  match e with
  | DAtom s => match dlookup t s with Some b => b | None => e end
  | _ => e
  end.
Definition dexpand_body (t : dtable) (b : dx) : dx :=
  match b with
  | DAtom s => DAtom s
  | _ => dmap (dexpand_node t) b
  end.
Definition dexpand_definitions (ds : dtable) : dtable :=
  fold_left (fun t d => t ++ [(fst d, dexpand_body t (snd d))]) ds [].
Definition dexpand_specs (ds fs : dtable) : dtable :=
  fold_left (fun t f => t ++ [(fst f, dmap (dexpand_node (ds ++ t)) (snd f))]) fs [].
Definition dexpand (ds fs : dtable) : dtable := dexpand_specs (dexpand_definitions ds) fs.

(** [str(p) == str(q)], see Rewrite.v. *)
Definition same (p q : dx) : bool := expr_eqb (erase p) (erase q).
(** rewrite.py 13-48 *)
Definition drw_not (opnd1 : dx) : option dx :=
  match opnd1 with
  | DConst true => Some (DConst false)
  | DConst false => Some (DConst true)
  | D1 DNot _ p => Some p
  | D1 (DG lb ub) _ (D1 DNot _ p) => Some (new1 (DF lb ub) p)
  | D1 (DF lb ub) _ (D1 DNot _ p) => Some (new1 (DG lb ub) p)
  | _ => None
  end.
(** rewrite.py 60-95 *)
Definition drw_global (lb ub : nat) (opnd1 : dx) : option dx :=
  let new := if (lb =? 0) && (ub =? 0) then Some opnd1 else None in
  match opnd1 with
  | DConst true => Some (DConst true)
  | DConst false => new
  | D1 (DG lb2 ub2) _ opnd2 => Some (new1 (DG (lb + lb2) (ub + ub2)) opnd2)
  | D1 (DF lb2 ub2) _ opnd2 =>
      if lb =? ub then Some (new1 (DF (lb + lb2) (ub + ub2)) opnd2)
      else if lb2 =? ub2 then Some (new1 (DG (lb + lb2) (ub + ub2)) opnd2)
      else new
  | _ => new
  end.
(** rewrite.py 96-131 *)
Definition drw_future (lb ub : nat) (opnd1 : dx) : option dx :=
  let new := if (lb =? 0) && (ub =? 0) then Some opnd1 else None in
  match opnd1 with
  | DConst true => new
  | DConst false => Some (DConst false)
  | D1 (DF lb2 ub2) _ opnd2 => Some (new1 (DF (lb + lb2) (ub + ub2)) opnd2)
  | D1 (DG lb2 ub2) _ opnd2 =>
      if lb =? ub then Some (new1 (DG (lb + lb2) (ub + ub2)) opnd2)
      else if lb2 =? ub2 then Some (new1 (DF (lb + lb2) (ub + ub2)) opnd2)
      else new
  | _ => new
  end.
(** rewrite.py 149-163 and 243-255 *)
Definition drw_merge (mk : nat -> nat -> op1) (lb1 ub1 lb2 ub2 : nat) (p : dx) : option dx :=
  if (lb1 <=? lb2) && (ub2 <=? ub1) then Some (new1 (mk lb1 ub1) p)
  else if (lb2 <=? lb1) && (ub1 <=? ub2) then Some (new1 (mk lb2 ub2) p)
  else if (lb1 <=? lb2) && (lb2 <=? ub1 + 1) then Some (new1 (mk lb1 (Nat.max ub1 ub2)) p)
  else if (lb2 <=? lb1) && (lb1 <=? ub2 + 1) then Some (new1 (mk lb2 (Nat.max ub1 ub2)) p)
  else None.
(** rewrite.py 132-222 *)
Definition drw_and (lhs rhs : dx) : option dx :=
  match lhs, rhs with
  | D1 (DG lb1 ub1) _ p, D1 (DG lb2 ub2) _ q =>
      if same p q then drw_merge DG lb1 ub1 lb2 ub2 p
      else
        let lb3 := Nat.min lb1 lb2 in
        let ub3 := lb3 + Nat.min (ub1 - lb1) (ub2 - lb2) in
        Some (new1 (DG lb3 ub3) (new2 DAnd (new1 (DG (lb1 - lb3) (ub1 - ub3)) p)
                                           (new1 (DG (lb2 - lb3) (ub2 - ub3)) q)))
  | D1 (DF lb1 ub1) _ p, D1 (DF lb2 ub2) _ q =>
      if same p q then
        if (lb1 <=? lb2) && (ub2 <=? ub1) then Some (new1 (DF lb2 ub2) p)
        else if (lb2 <=? lb1) && (ub1 <=? ub2) then Some (new1 (DF lb1 ub1) p)
        else None
      else None
  | D2 (DU lb1 ub1) _ p1 q1, D2 (DU lb2 ub2) _ p2 q2 =>
      if same q1 q2 && (lb1 =? lb2)
      then Some (new2 (DU lb1 (Nat.min ub1 ub2)) (new2 DAnd p1 p2) q1)
      else None
  | _, _ => None
  end.
(** rewrite.py 223-293 *)
Definition drw_or (lhs rhs : dx) : option dx :=
  match lhs, rhs with
  | D1 (DF lb1 ub1) _ p, D1 (DF lb2 ub2) _ q =>
      if same p q then drw_merge DF lb1 ub1 lb2 ub2 p
      else
        let lb3 := Nat.min lb1 lb2 in
        let ub3 := lb3 + Nat.min (ub1 - lb1) (ub2 - lb2) in
        Some (new1 (DF lb3 ub3) (new2 DOr (new1 (DF (lb1 - lb3) (ub1 - ub3)) p)
                                          (new1 (DF (lb2 - lb3) (ub2 - ub3)) q)))
  | D1 (DG lb1 ub1) _ p, D1 (DG lb2 ub2) _ q =>
      if same p q then
        if (lb2 <=? lb1) && (ub1 <=? ub2) then Some (new1 (DG lb1 ub1) p)
        else if (lb1 <=? lb2) && (ub2 <=? ub1) then Some (new1 (DG lb2 ub2) p)
        else None
      else None
  | _, _ => None
  end.
(** rewrite.py 11-299 *)
Definition drw_node (e : dx) : dx :=
  let new :=
    match e with
    | D1 DNot _ p => drw_not p
    | D1 (DG lb ub) _ p => drw_global lb ub p
    | D1 (DF lb ub) _ p => drw_future lb ub p
    | D2 DAnd _ p q => drw_and p q
    | D2 DOr _ p q => drw_or p q
    | _ => None
    end in
  match new with Some n => n | None => e end.

(** transform.py 395-481 (Transform.v [core_node]); the binarisation that comes before
    and after it (transform.py 305-345) leaves binary connectives alone. *)
Definition dcore_node (e : dx) : dx :=
  match e with
  | D2 DXor _ p q => new1 DNot (new2 DEquiv p q)
  | D2 DImpl _ p q => new2 DOr (new1 DNot p) q
  | D1 (DF lb ub) _ p => new2 (DU lb ub) (DConst true) p
  | D1 (DG lb ub) _ p => new2 (DR lb ub) (DConst false) p
  | D1 (DO lb ub) _ p => new2 (DS lb ub) (DConst true) p
  | D1 (DH lb ub) _ p => new2 (DT lb ub) (DConst false) p
  | _ => e
  end.
Definition dcompile (e : dx) : dx := dmap dcore_node (dmap drw_node e).

(** ** The delays of the objects of a program *)
(** In the order of Elaborate.v [objects]. *)
Fixpoint delays (e : dx) : list delay :=
  match e with
  | DConst _ | DAtom _ => [delay_of e]
  | D1 _ d p => delays p ++ [d]
  | D2 _ d p q => delays p ++ delays q ++ [d]
  end.
(** Formulas and the sets of specifications keep 0 and 0 (cpt.py 42-43, 1036-1071,
    1310-1338). *)
Definition formula_delays (l : list dx) : list delay := flat_map (fun e => delays (dcompile e) ++ [(0, 0)%Z]) l.
Definition dpart (kind : bool) (l : list (bool * dx)) : list dx :=
  map snd (filter (fun s => Bool.eqb (fst s) kind) l).
Definition recorded (m : mapping) (p : list section) : list delay :=
  match sections (column_of m) (width_of m) (definition_count p) false [] [] p with
  | Some (ds, fs) =>
      let read := map (fun d => (fst d, parsed (snd d))) in
      let specs := combine (kinds p) (map snd (dexpand (read ds) (read fs))) in
      formula_delays (dpart true specs) ++ formula_delays (dpart false specs) ++ [(0, 0)%Z; (0, 0)%Z]
  | None => []
  end.

(** ** The compiler with its own delays *)
(** main.py 47-60 and 257-360; the default of --scq-constant is 0 (main.py 412). *)
Definition compile_recorded (mission : option nat) (py : str -> str) (const : Z) (depth fuel : nat)
    (content trace : str) : option (list instruction) :=
  match parse_c2po mission py content with
  | None => None
  | Some p =>
      match parse_trace (used p) trace with
      | Mapped m _ =>
          let d n := nth n (recorded m p) (0, 0)%Z in
          compile_files mission py (fun n => fst (d n)) (fun n => snd (d n)) const depth fuel content trace
      | _ => None
      end
  end.
