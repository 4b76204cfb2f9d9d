(** * What a specification file says about a trace (specification)

    For files over Boolean inputs with definitions and specifications:
    language.md and docs/Preliminaries/mltl.md 16-40. *)
From Coq Require Import List Arith NArith ZArith Bool Ascii String.
Require Import Verif.MapFile Verif.C2poText.
Import ListNotations.
Local Open Scope list_scope.
Local Open Scope nat_scope.

(** Formula [e] holds at time [t], when [v] tells which names hold. *)
Fixpoint holds (v : str -> nat -> Prop) (e : cx) (t : nat) : Prop :=
  match e with
  | CBool b => b = true
  | CSig s | CVar s => v s t
  | CPre PNot a => ~ holds v a t
  | COp And [a; b] => holds v a t /\ holds v b t
  | COp Or [a; b] => holds v a t \/ holds v b t
  | COp Impl [a; b] => holds v a t -> holds v b t
  | COp Iff [a; b] => holds v a t <-> holds v b t
  | COp Xor [a; b] => ~ (holds v a t <-> holds v b t)
  | CT1 UF lb ub a => exists i, t + lb <= i <= t + ub /\ holds v a i
  | CT1 UG lb ub a => forall i, t + lb <= i <= t + ub -> holds v a i
  | CT1 UO lb ub a => exists i, i + lb <= t <= i + ub /\ holds v a i
  | CT1 UH lb ub a => forall i, i + lb <= t <= i + ub -> holds v a i
  | CT2 BU lb ub a b => exists i, t + lb <= i <= t + ub /\ holds v b i /\ forall j, t + lb <= j < i -> holds v a j
  | CT2 BR lb ub a b => forall i, t + lb <= i <= t + ub -> ~ holds v b i -> exists j, t + lb <= j < i /\ holds v a j
  | _ => False
  end.
(** A name for a formula. *)
Definition define (v : str -> nat -> Prop) (x : str) (m : nat -> Prop) (s : str) (t : nat) : Prop :=
  (s = x /\ m t) \/ (s <> x /\ v s t).
(** The meanings of the specifications, by their ids.  Definitions and labels
    name formulas from where they stand on. *)
Definition with_definitions (v : str -> nat -> Prop) (l : list (str * cx)) : str -> nat -> Prop :=
  fold_left (fun v d => define v (fst d) (holds v (snd d))) l v.
Definition with_labels (v : str -> nat -> Prop) (l : list spec) : str -> nat -> Prop :=
  fold_left (fun v s => match s with Formula x _ e => define v x (holds v e) | Contract _ _ _ _ => v end) l v.
Fixpoint spec_meanings (v : str -> nat -> Prop) (l : list spec) : list (nat * (nat -> Prop)) :=
  match l with
  | Formula x n e :: l => (n, holds v e) :: spec_meanings (define v x (holds v e)) l
  | _ => []
  end.
Fixpoint meanings (v : str -> nat -> Prop) (p : list section) : list (nat * (nat -> Prop)) :=
  match p with
  | SDefine l :: p => meanings (with_definitions v l) p
  | SSpec _ l :: p => spec_meanings v l ++ meanings (with_labels v l) p
  | _ :: p => meanings v p
  | [] => []
  end.

(** ** The files meant *)
(** Boolean formulas without constants, of inputs that have a column and [known]
    names; the bounds of intervals are in order.  [times]: the kinds of temporal
    operators allowed, future or past.  Of the past-time operators, once and
    historically (C27_since_refuted). *)
Fixpoint boolean (times : bool -> Prop) (inputs known : str -> Prop) (e : cx) : Prop :=
  match e with
  | CSig s => inputs s
  | CVar s => known s
  | CPre PNot a => boolean times inputs known a
  | COp (And | Or | Impl | Iff | Xor) [a; b] => boolean times inputs known a /\ boolean times inputs known b
  | CT1 (UF | UG) lb ub a => times true /\ lb <= ub /\ boolean times inputs known a
  | CT1 (UO | UH) lb ub a => times false /\ lb <= ub /\ boolean times inputs known a
  | CT2 (BU | BR) lb ub a b => times true /\ lb <= ub /\ boolean times inputs known a /\ boolean times inputs known b
  | _ => False
  end.
(** The names belong to future-time or past-time specifications: [side] says which
    (a name used on both sides is refuted, C16_shared_node_refuted).  A formula uses
    names of its side declared before it. *)
Section Sides.
Variable side : str -> bool.
Variable inputs : str -> Prop.
(** [mode]: the kind of the last specifications (past-time at the start of the
    file), which a definition's operators must be of (C35_definition_place_refuted).
    A definition is not just another name for one (C14_alias_refuted). *)
Fixpoint boolean_definitions (mode : bool) (ds : list str) (l : list (str * cx)) : Prop :=
  match l with
  | [] => True
  | (x, e) :: l =>
      boolean (fun time => time = mode /\ time = side x) inputs (fun s => In s ds /\ side s = side x) e /\
      (forall s, e <> CVar s) /\ boolean_definitions mode (ds ++ [x]) l
  end.
Fixpoint boolean_specs (kind : bool) (ds ls : list str) (l : list spec) : Prop :=
  match l with
  | [] => True
  | Formula x _ e :: l =>
      side x = kind /\ boolean (fun time => time = kind) inputs (fun s => (In s ds \/ In s ls) /\ side s = kind) e /\
      boolean_specs kind ds (ls ++ [x]) l
  | Contract _ _ _ _ :: _ => False
  end.
Definition label_of (s : spec) : str := match s with Formula l _ _ | Contract l _ _ _ => l end.
Fixpoint boolean_sections (mode : bool) (ds ls : list str) (p : list section) : Prop :=
  match p with
  | [] => True
  | SInput l :: p => Forall (fun d => snd d = TyName (quoted "bool")) l /\ boolean_sections mode ds ls p
  | SDefine l :: p => boolean_definitions mode ds l /\ boolean_sections mode (ds ++ map fst l) ls p
  | SSpec kind l :: p => boolean_specs kind ds ls l /\ boolean_sections kind ds (ls ++ map label_of l) p
  | _ => False
  end.
End Sides.
(** No name is declared twice. *)
Definition declarations (p : list section) : list str :=
  flat_map (fun s => match s with
                     | SInput l => flat_map fst l
                     | SDefine l => map fst l
                     | SSpec _ l => map label_of l
                     | _ => [] end) p.
Definition inputs_of (p : list section) : list str :=
  flat_map (fun s => match s with SInput l => flat_map fst l | _ => [] end) p.
(** [columns]: the names in the header of the trace. *)
Definition boolean_file (columns : list str) (p : list section) : Prop :=
  NoDup (declarations p) /\
  exists side, boolean_sections side (fun s => In s (inputs_of p) /\ In s columns) false [] [] p.

(** ** Traces *)
(** [v] gives the names the truth values in the table: a cell other than 0 is true.
    After the last row it is arbitrary. *)
Definition agrees (names : list str) (table : list (list str)) (v : str -> nat -> bool) : Prop :=
  forall t row j cell s, nth_error table t = Some row -> nth_error row j = Some cell -> nth_error names j = Some s ->
    (v s t = true <-> cell <> ["0"%char]).
