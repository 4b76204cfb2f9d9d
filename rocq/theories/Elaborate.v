(** * From the text of a C2PO file to an assembled program (model)

    main.py 47-60 and 257-345 for files over Boolean inputs without the
    booleanizer: reading the file (C2poText.v) and the header of the trace
    (CsvTrace.v), type checking, expansion of definitions (Definitions.v), the
    default passes (Pipeline.v), the graph of objects, common subexpression
    elimination (Graph.v) and assembly (Assembly.v).

    Files with other inputs, structs, enums or contracts are answered by [None], as
    are files that use one name twice (the type checker accepts some of these,
    type_check.py 588-598 and 625-637: its set of names starts anew with every
    section) or name a definition by another definition (C14_alias_refuted). *)
From Coq Require Import List Arith NArith ZArith Bool Ascii String.
Require Import Verif.MapFile Verif.Mltl Verif.Transform Verif.Definitions Verif.Pipeline.
Require Import Verif.Graph Verif.Binary Verif.Assembly Verif.CsvTrace Verif.C2poText.
Import ListNotations.
Local Open Scope list_scope.
Local Open Scope nat_scope.

(** ** Names *)
(** cpt.py 1944-1960 (assign_signal_ids): the signals that occur in the definitions
    and specifications. *)
Fixpoint signals (e : cx) : list str :=
  match e with
  | CSig s => [s]
  | CArr es | CCall _ es | COp _ es => flat_map signals es
  | CIdx e _ | CSlice e _ _ | CAcc e _ | CPre _ e | CFun _ e | CT1 _ _ _ e => signals e
  | CQuant _ _ a b | CPrev a b | CT2 _ _ _ a b => signals a ++ signals b
  | CCount _ _ a b c => signals a ++ signals b ++ signals c
  | CBool _ | CInt _ | CFloat _ | CTime | CVar _ => []
  end.
Definition spec_signals (s : spec) : list str :=
  match s with Formula _ _ e => signals e | Contract _ _ a g => signals a ++ signals g end.
Definition section_signals (s : section) : list str :=
  match s with
  | SDefine l => flat_map (fun d => signals (snd d)) l
  | SSpec _ l => flat_map spec_signals l
  | _ => []
  end.
Definition used (p : list section) : list str := flat_map section_signals p.
Definition spec_label (s : spec) : str := match s with Formula l _ _ | Contract l _ _ _ => l end.
Definition declared_in (s : section) : list str :=
  match s with
  | SInput l => flat_map fst l
  | SDefine l => map fst l
  | SSpec _ l => map spec_label l
  | _ => []
  end.
Definition declared (p : list section) : list str := flat_map declared_in p.
Fixpoint distinct (l : list str) : bool :=
  match l with [] => true | s :: l => negb (mem s l) && distinct l end.
(** The place of a name in a list of names. *)
Fixpoint place (l : list str) (s : str) : option nat :=
  match l with [] => None | x :: l => if str_eqb x s then Some O else option_map S (place l s) end.

(** ** Type checking and expansion *)
(** Numbers of names in the expressions of the passes: a signal's is its column; the
    definitions and then the labels have numbers from [base] on. *)
Section Numbers.
Variable column : str -> option nat.
Variable base defs : nat.
(** [future]: the kind of operators allowed, see [sections].  [ds], [ls]: definitions and labels declared so far (type_check.py 82-110). *)
Definition variable (ds ls : list str) (s : str) : option nat :=
  match place ds s with
  | Some k => Some (base + k)
  | None => option_map (fun k => base + defs + k) (place ls s)
  end.
(** type_check.py 61-110, 292-334 and 512-525, for the Boolean and temporal operators. *)
Fixpoint formula (future : bool) (ds ls : list str) (e : cx) : option expr :=
  let formula := formula future in
  let two f a b := match formula ds ls a, formula ds ls b with Some p, Some q => Some (f p q) | _, _ => None end in
  let bounded (kind : bool) lb ub o := if Bool.eqb future kind && Nat.leb lb ub then o else None in
  match e with
  | CBool b => Some (EConst b)
  | CSig s => option_map EAtom (column s)
  | CVar s => option_map EAtom (variable ds ls s)
  | CPre PNot a => option_map ENot (formula ds ls a)
  | COp And [a; b] => two (fun p q => EAnd [p; q]) a b
  | COp Or [a; b] => two (fun p q => EOr [p; q]) a b
  | COp Impl [a; b] => two EImpl a b
  | COp Iff [a; b] => two EEquiv a b
  | COp Xor [a; b] => two EXor a b
  | CT1 UF lb ub a => bounded true lb ub (option_map (EF lb ub) (formula ds ls a))
  | CT1 UG lb ub a => bounded true lb ub (option_map (EG lb ub) (formula ds ls a))
  | CT1 UO lb ub a => bounded false lb ub (option_map (EO lb ub) (formula ds ls a))
  | CT1 UH lb ub a => bounded false lb ub (option_map (EH lb ub) (formula ds ls a))
  | CT2 BU lb ub a b => bounded true lb ub (two (EU lb ub) a b)
  | CT2 BR lb ub a b => bounded true lb ub (two (ER lb ub) a b)
  | CT2 BS lb ub a b => bounded false lb ub (two (ES lb ub) a b)
  | CT2 BT lb ub a b => bounded false lb ub (two (ET lb ub) a b)
  | _ => None
  end.
Definition is_bool (d : decl) : bool := match snd d with TyName t => str_eqb t (quoted "bool") | _ => false end.
(** A section's declarations, type_check.py 588-690: the definitions and the formulas
    (label, number, expression), and the names declared after it. *)
Fixpoint definitions (future : bool) (ds : list str) (l : list (str * cx)) : option (table * list str) :=
  match l with
  | [] => Some ([], ds)
  | (_, CVar _) :: _ => None
  | (x, e) :: l =>
      match formula future ds [] e with
      | Some b => option_map (fun r => ((base + List.length ds, b) :: fst r, snd r)) (definitions future (ds ++ [x]) l)
      | None => None
      end
  end.
Fixpoint formulas (future : bool) (ds ls : list str) (l : list spec) : option (table * list str) :=
  match l with
  | [] => Some ([], ls)
  | Formula x _ e :: l =>
      match formula future ds ls e with
      | Some b => option_map (fun r => ((base + defs + List.length ls, b) :: fst r, snd r)) (formulas future ds (ls ++ [x]) l)
      | None => None
      end
  | Contract _ _ _ _ :: _ => None
  end.
(** Definitions are checked in the mode the section before left (cpt.py 1463,
    1531-1541; C35_definition_place_refuted). *)
Fixpoint sections (future : bool) (ds ls : list str) (p : list section) : option (table * table) :=
  match p with
  | [] => Some ([], [])
  | SInput l :: p => if forallb is_bool l then sections future ds ls p else None
  | SDefine l :: p =>
      match definitions future ds l with
      | Some (t, ds) => option_map (fun r => (t ++ fst r, snd r)) (sections future ds ls p)
      | None => None
      end
  | SSpec kind l :: p =>
      match formulas kind ds ls l with
      | Some (t, ls) => option_map (fun r => (fst r, t ++ snd r)) (sections kind ds ls p)
      | None => None
      end
  | _ => None
  end.
End Numbers.
Definition definition_count (p : list section) : nat :=
  List.length (flat_map (fun s => match s with SDefine l => l | _ => [] end) p).
(** The columns of a mapping, and the first number that is none. *)
Definition column_of (m : mapping) (s : str) : option nat := option_map N.to_nat (map_get m s).
Definition width_of (m : mapping) : nat := fold_right (fun c w => Nat.max (S (N.to_nat (snd c))) w) 0 m.
(** Labels and numbers of the specifications, in order. *)
Definition titles (p : list section) : list (str * nat) :=
  flat_map (fun s => match s with
                     | SSpec _ l => map (fun s => match s with Formula x n _ | Contract x n _ _ => (x, n) end) l
                     | _ => [] end) p.
(** Their kinds: future-time or past-time. *)
Definition kinds (p : list section) : list bool :=
  flat_map (fun s => match s with SSpec kind l => map (fun _ => kind) l | _ => [] end) p.
(** The specifications: kind, label, number and formula over the columns. *)
Notation item := (str * nat * expr)%type.
Definition elaborate (m : mapping) (p : list section) : option (list (bool * item)) :=
  if distinct (declared p) then
    match sections (column_of m) (width_of m) (definition_count p) false [] [] p with
    | Some (ds, fs) => Some (combine (kinds p) (combine (titles p) (map snd (expand ds fs))))
    | None => None
    end
  else None.
(** cpt.py 1318-1338: the specifications of one kind. *)
Definition part (kind : bool) (specs : list (bool * item)) : list item :=
  map snd (filter (fun s => Bool.eqb (fst s) kind) specs).

(** ** The objects of the compiled formulas *)
(** cpt.py 148-219, 425-532 and 770-855: kind, symbol, operands and class, children
    first; the object numbers start at [base].  Simplification: without sharing (a
    definition's object is shared by its uses; elimination of common subexpressions
    follows, C06).  For names used by specifications of both kinds the sharing
    matters (C16_shared_node_refuted, C28_shared_definition_refuted): these files are
    not covered. *)
Section Objects.
Variable name : nat -> str.
Notation object := (node * nclass)%type.
Definition op1 (sym : str) (c : nclass) (base : nat) (l : list object) : list object :=
  l ++ [(Node KOp sym [base + pred (List.length l)], c)].
Definition op2 (sym : str) (c : nclass) (base : nat) (l1 l2 : list object) : list object :=
  l1 ++ l2 ++ [(Node KOp sym [base + pred (List.length l1); base + List.length l1 + pred (List.length l2)], c)].
Fixpoint objects (base : nat) (e : expr) : list object :=
  let two sym c p q := let l := objects base p in op2 sym c base l (objects (base + List.length l) q) in
  match e with
  | EConst b => [(Node KLeaf (quoted (if b then "true" else "false")) [], Assembly.CBool b)]
  | EAtom a => [(Node KLeaf (name a) [], CSignal (Z.of_nat a))]
  | ENot p => op1 (prefix_text PNot) (Assembly.COp OpNot) base (objects base p)
  | EAnd [p; q] => two (infix_text And) (Assembly.COp OpAnd) p q
  | EOr [p; q] => two (infix_text Or) (Assembly.COp OpOr) p q
  | EEquiv p q => two (infix_text Iff) (Assembly.COp OpEquiv) p q
  | EU lb ub p q => two (binary_text BU lb ub) (CTemporal OpUntil (Z.of_nat lb) (Z.of_nat ub)) p q
  | ER lb ub p q => two (binary_text BR lb ub) (CTemporal OpRelease (Z.of_nat lb) (Z.of_nat ub)) p q
  | ES lb ub p q => two (binary_text BS lb ub) (CTemporal OpSince (Z.of_nat lb) (Z.of_nat ub)) p q
  | ET lb ub p q => two (binary_text BT lb ub) (CTemporal OpTrigger (Z.of_nat lb) (Z.of_nat ub)) p q
  | _ => []
  end.
(** cpt.py 1036-1071: the formulas, and their object numbers. *)
Fixpoint formula_objects (base : nat) (l : list item) : list object * list nat :=
  match l with
  | [] => ([], [])
  | (x, n, e) :: l =>
      let o := objects base e in
      let f := base + List.length o in
      let (os, fs) := formula_objects (S f) l in
      (o ++ (Node KFormula x [pred f], CFormula (Z.of_nat n)) :: os, f :: fs)
  end.
(** cpt.py 1326-1327: the sets of the two kinds of specifications. *)
Definition program_objects (l l' : list item) : list object :=
  let (os, fs) := formula_objects 0 l in
  let (os', ps) := formula_objects (List.length os) l' in
  os ++ os' ++ [(Node KSet (quoted "FTSPEC") fs, CSet); (Node KSet (quoted "PTSPEC") ps, CSet)].
Definition future_set (l l' : list item) : nat :=
  let os := fst (formula_objects 0 l) in
  List.length os + List.length (fst (formula_objects (List.length os) l')).
End Objects.
Definition nothing : node * nclass := (Node KLeaf (quoted "true") [], Assembly.CBool true).
Definition heap_of (os : list (node * nclass)) : heap := fun n => fst (nth n os nothing).
Definition class_of (os : list (node * nclass)) (n : nat) : nclass := snd (nth n os nothing).

(** ** The compiler *)
(** The name of a column. *)
Definition named_column (m : mapping) (signals : list str) (a : nat) : str :=
  match find (fun s => match column_of m s with Some c => Nat.eqb c a | None => false end) signals with
  | Some s => s
  | None => []
  end.
Definition compiled (specs : list item) : list item := map (fun s => (fst s, compile_expr (snd s))) specs.
Definition build (m : mapping) (p : list section) (specs : list (bool * item)) : list (node * nclass) :=
  program_objects (named_column m (used p)) (compiled (part true specs)) (compiled (part false specs)).
(** From a specification file and a trace file to instructions; [mission], [py]: see
    C2poText.v; [wpd], [bpd]: the delays recorded on the objects; [const]:
    --scq-constant. *)
Definition compile_files (mission : option nat) (py : str -> str) (wpd bpd : nat -> Z) (const : Z) (depth fuel : nat)
    (content trace : str) : option (list instruction) :=
  match parse_c2po mission py content with
  | None => None
  | Some p =>
      match parse_trace (used p) trace with
      | Mapped m _ =>
          match elaborate m p with
          | None => None
          | Some specs =>
              let os := build m p specs in
              let ft := future_set (named_column m (used p)) (compiled (part true specs)) (compiled (part false specs)) in
              match optimize_cse depth fuel (heap_of os) ft (S ft) with
              | Some h => gen_assembly fuel h (class_of os) wpd bpd const ft (S ft)
              | None => None
              end
          end
      | _ => None
      end
  end.

(** The rows of the Rust monitor: entries of its atomic buffer that no cell sets are
    false (lib.rs; CsvTrace.v [rust_atoms]). *)
Definition rust_rows (l : list (list bool)) : list (nat -> bool) := map (fun r j => nth j r false) l.
