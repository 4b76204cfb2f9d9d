(** * What a program means, and how it can go wrong (specification)

    An expression stands for a value that changes with time, or an array or
    record of such.  Evaluating it can meet an operation that its operands do not
    support. *)
From Coq Require Import List Arith ZArith Bool.
Require Import Verif.TypeCheck.
Import ListNotations.

(** The ways of going wrong that the checker overlooks; the rest is [Wrong]. *)
Inductive gap :=
| NotANumber          (* arithmetic, or a bitwise operation or a count, on something that is no number *)
| NotOrdered          (* a comparison that does not exist for values of that type *)
| OutOfRange          (* an array has no such element *)
| Arity               (* a struct built with too few or too many members *)
| OutOfScope          (* a name that means nothing here *)
| ZeroModulus         (* modulo the constant 0 *)
| NamedInitial.       (* [prev] starting from a definition that stands for an enum member *)
Inductive res A := Ok (a : A) | Gap (g : gap) | Wrong.
Arguments Ok {A} a. Arguments Gap {A} g. Arguments Wrong {A}.
Definition rbind {A B} (o : res A) (f : A -> res B) : res B :=
  match o with Ok a => f a | Gap g => Gap g | Wrong => Wrong end.
Notation "x <-- o ;; r" := (rbind o (fun x => r)) (at level 60, right associativity).
(** Both; [Wrong] wins over everything else. *)
Definition also {A B} (o : res A) (p : res B) : res (A * B) :=
  match o, p with
  | Wrong, _ | _, Wrong => Wrong
  | Gap g, _ | _, Gap g => Gap g
  | Ok a, Ok b => Ok (a, b)
  end.
Fixpoint all_ok {A} (l : list (res A)) : res (list A) :=
  match l with [] => Ok [] | o :: l => q <-- also o (all_ok l) ;; Ok (fst q :: snd q) end.
Definition ensure (b : bool) : res unit := if b then Ok tt else Wrong.
Definition ensure_or {A} (b : bool) (g : gap) (r : res A) : res A := if b then r else Gap g.

(** ** The declarations of a program *)
Definition inputs_of (p : list section) : list (nat * ty) := flat_map (fun x => match x with Input l => l | _ => [] end) p.
Definition defs_of (p : list section) : list (nat * tx) := flat_map (fun x => match x with Define l => l | _ => [] end) p.
Definition structs_of (p : list section) : list (nat * list (nat * ty)) :=
  flat_map (fun x => match x with Structs l => map (fun q => (fst q, dict (snd q))) l | _ => [] end) p.
Definition enums_of (p : list section) : list (nat * list nat) :=
  flat_map (fun x => match x with Enums l => map (fun q => (fst q, map fst (dict (snd q)))) l | _ => [] end) p.
Definition items_of (p : list section) : list item := flat_map (fun x => match x with Specs _ l => l | _ => [] end) p.
Definition members_of (p : list section) : list nat := flat_map snd (enums_of p).
Definition exprs_of (p : list section) : list tx :=
  map snd (defs_of p) ++ flat_map (fun i => match i with Formula _ e => [e] | Contract _ e1 e2 => [e1; e2] end) (items_of p).
Fixpoint binders (e : tx) : list nat :=
  match e with
  | XBool _ | XInt _ | XFloat _ _ | XTime | XSig _ | XVar _ => []
  | XArr es | XNew _ es => flat_map binders es
  | XIdx e _ | XSlice e _ _ | XAcc e _ | XT1 _ _ _ e | XNot e | XBit1 e | XAr1 _ e => binders e
  | XT2 _ _ _ a b | XLog _ a b | XBit2 _ a b | XAr2 _ a b | XRel _ a b | XPrev a b => binders a ++ binders b
  | XQuant _ x a b => x :: binders a ++ binders b
  | XCount _ x a b c => x :: binders a ++ binders b ++ binders c
  end.
Definition declared (p : list section) : list nat :=
  map fst (inputs_of p) ++ map fst (defs_of p) ++ map fst (structs_of p) ++ map fst (enums_of p) ++ map label (items_of p).
(** Every name has one meaning. *)
Record names_distinct (p : list section) : Prop := {
  nd_declared : NoDup (declared p);
  nd_members : forall m, In m (members_of p) -> ~ In m (declared p);
  nd_binders : forall e x, In e (exprs_of p) -> In x (binders e) -> ~ In x (declared p) /\ ~ In x (members_of p) }.

(** Real numbers, fixed-width arithmetic and the numbers of enum members: any. *)
Record arithmetic := Arithmetic {
  real : Type;
  real_of : Z -> nat -> real;                       (* the decimal m / 10^e *)
  real_rel : relation -> real -> real -> bool;
  real_arith1 : arith1 -> real -> real;
  real_arith2 : arith2 -> real -> real -> real;
  int_arith1 : arith1 -> Z -> Z;
  int_arith2 : arith2 -> Z -> Z -> Z;
  int_bit1 : Z -> Z;
  int_bit2 : bitwise2 -> Z -> Z -> Z;
  code : nat -> nat -> Z }.                         (* of an enum and its member *)

Section Meaning.
  Variable A : arithmetic.

  Inductive den :=
  | DBool (f : nat -> bool) | DInt (f : nat -> Z) | DReal (f : nat -> real A)
  | DEnum (s : nat) (f : nat -> Z)                    (* a value of enum [s] *)
  | DMember (m : nat)                                 (* a member's name *)
  | DArr (l : list den)
  | DRec (s : nat) (l : list (nat * den))             (* a value of struct [s] *)
  | DOpaque (s : nat).                                (* of a type that is nowhere declared *)

  Variable structs : list (nat * list (nat * ty)).
  Variable enums : list (nat * list nat).
  Definition members : list nat := flat_map snd enums.

  (** Values of a type; an array's length is not looked at. *)
  Fixpoint belongs (d : den) (t : ty) : bool :=
    match d, t with
    | DBool _, TBool | DInt _, TInt | DReal _, TFloat => true
    | DMember m, TEnum s => (m =? s) && mem m members
    | DEnum e _, TEnum s | DEnum e _, TStruct s => (e =? s) && bound_in enums e
    | DArr l, TArray t _ => forallb (fun d => belongs d t) l
    | DRec r l, TStruct s =>
        (r =? s) &&
        match lookup structs r with
        | Some ms =>
            (fix fields l ms :=
               match l, ms with
               | [], [] => true
               | (n, d) :: l, (m, t) :: ms => (n =? m) && belongs d t && fields l ms
               | _, _ => false
               end) l ms
        | None => false
        end
    | DOpaque r, TStruct s => (r =? s) && negb (bound_in structs r) && negb (bound_in enums r)
    | _, _ => false
    end.
  (** Values of the same sort. *)
  Definition same_sort (a b : den) : bool :=
    match a, b with
    | DBool _, DBool _ | DInt _, DInt _ | DReal _, DReal _ | DArr _, DArr _ => true
    | DEnum r _, DEnum s _ | DMember r, DMember s | DRec r _, DRec s _ | DOpaque r, DOpaque s => r =? s
    | _, _ => false
    end.

  Definition int_rel (k : relation) (x y : Z) : bool :=
    match k with
    | REq => x =? y | RNe => negb (x =? y) | RGt => y <? x | RLt => x <? y | RGe => y <=? x | RLe => x <=? y
    end%Z.
  Definition is_equality (k : relation) : bool := match k with REq | RNe => true | _ => false end.
  Definition bool_rel (k : relation) (x y : bool) : bool := match k with RNe => xorb x y | _ => eqb x y end.
  Definition member_number (s m : nat) : res Z :=
    match lookup enums s with Some l => if mem m l then Ok (code A s m) else Wrong | None => Wrong end.
  (** language.md 130-137; arrays element by element. *)
  Fixpoint related (k : relation) (a b : den) : res (nat -> bool) :=
    match a, b with
    | DInt f, DInt g => Ok (fun t => int_rel k (f t) (g t))
    | DReal f, DReal g => Ok (fun t => real_rel A k (f t) (g t))
    | DBool f, DBool g => ensure_or (is_equality k) NotOrdered (Ok (fun t => bool_rel k (f t) (g t)))
    | DEnum r f, DEnum s g => if r =? s then Ok (fun t => int_rel k (f t) (g t)) else Wrong
    | DEnum r f, DMember m => z <-- member_number r m ;; Ok (fun t => int_rel k (f t) z)
    | DMember m, DEnum s g => z <-- member_number s m ;; Ok (fun t => int_rel k z (g t))
    | DArr l, DArr m =>
        (fix go l m :=
           match l, m with
           | [], [] => Ok (fun _ => true)
           | x :: l, y :: m => f <-- related k x y ;; g <-- go l m ;; Ok (fun t => f t && g t)
           | _, _ => Gap NotOrdered
           end) l m
    | _, _ => if same_sort a b then Gap NotOrdered else Wrong
    end.

  Definition bits (d : den) : res (nat -> bool) := match d with DBool f => Ok f | _ => Wrong end.
  (** A number: other integer-like things are overlooked. *)
  Definition count_of (d : den) : res (nat -> Z) :=
    match d with
    | DInt f => Ok f
    | DBool _ | DEnum _ _ | DMember _ => Gap NotANumber
    | _ => Wrong
    end.
  Definition bit_op1 (d : den) : res den :=
    match d with
    | DInt f => Ok (DInt (fun t => int_bit1 A (f t)))
    | DBool _ | DEnum _ _ | DMember _ => Gap NotANumber
    | _ => Wrong
    end.
  Definition bit_op2 (k : bitwise2) (a b : den) : res den :=
    match a, b with
    | DInt f, DInt g => Ok (DInt (fun t => int_bit2 A k (f t) (g t)))
    | DBool _, _ | DEnum _ _, _ | DMember _, _ => if same_sort a b then Gap NotANumber else Wrong
    | _, _ => Wrong
    end.
  (** No square root of an integer. *)
  Definition arith_op1 (k : arith1) (d : den) : res den :=
    match d with
    | DInt f => match k with Sqrt => Wrong | _ => Ok (DInt (fun t => int_arith1 A k (f t))) end
    | DReal f => Ok (DReal (fun t => real_arith1 A k (f t)))
    | _ => Gap NotANumber
    end.
  (** No division by a zero that is written down, and no such negative power of an integer. *)
  Definition arith_op2 (k : arith2) (zero negative : bool) (a b : den) : res den :=
    _ <-- match k with Div => ensure (negb zero) | _ => Ok tt end ;;
    match a, b with
    | DInt f, DInt g =>
        _ <-- match k with Pow => ensure (negb negative) | _ => Ok tt end ;;
        ensure_or (negb (match k with Mod => zero | _ => false end)) ZeroModulus (Ok (DInt (fun t => int_arith2 A k (f t) (g t))))
    | DReal f, DReal g =>
        ensure_or (negb (match k with Mod => zero | _ => false end)) ZeroModulus (Ok (DReal (fun t => real_arith2 A k (f t) (g t))))
    | DInt _, _ | DReal _, _ => Wrong
    | _, _ => if same_sort a b then Gap NotANumber else Wrong
    end.

  (** mltl.md 16-40 *)
  Definition somewhere (lb ub : nat) (f : nat -> bool) : bool := existsb f (seq lb (ub + 1 - lb)).
  Definition everywhere (lb ub : nat) (f : nat -> bool) : bool := forallb f (seq lb (ub + 1 - lb)).
  Definition back (i : nat) (d : nat) (f : nat -> bool) (outside : bool) : bool := if d <=? i then f (i - d) else outside.
  Definition temporal_1 (k : temporal1) (lb ub : nat) (f : nat -> bool) (i : nat) : bool :=
    match k with
    | G => everywhere lb ub (fun d => f (i + d))
    | F => somewhere lb ub (fun d => f (i + d))
    | H => everywhere lb ub (fun d => back i d f true)
    | O => somewhere lb ub (fun d => back i d f false)
    end.
  Definition until (lb ub : nat) (f g : nat -> bool) (i : nat) : bool :=
    somewhere lb ub (fun d => g (i + d) && forallb (fun e => f (i + e)) (seq lb (d - lb))).
  Definition since (lb ub : nat) (f g : nat -> bool) (i : nat) : bool :=
    somewhere lb ub (fun d => back i d g false && forallb (fun e => back i e f true) (seq lb (d - lb))).
  Definition temporal_2 (k : temporal2) (lb ub : nat) (f g : nat -> bool) (i : nat) : bool :=
    match k with
    | U => until lb ub f g i
    | R => negb (until lb ub (fun i => negb (f i)) (fun i => negb (g i)) i)
    | S => since lb ub f g i
    | T => negb (since lb ub (fun i => negb (f i)) (fun i => negb (g i)) i)
    end.
  Definition logic (k : logical) (x y : bool) : bool :=
    match k with LAnd => x && y | LOr => x || y | LXor => xorb x y | LImplies => implb x y | LIff => eqb x y end.

  Definition before {B} (z : B) (f : nat -> B) (t : nat) : B := match t with 0 => z | Datatypes.S t => f t end.
  (** [named]: the initial value is the name of a definition. *)
  Definition previous (named : bool) (a b : den) : res den :=
    match a, b with
    | DBool f, DBool g => Ok (DBool (before (f 0) g))
    | DInt f, DInt g => Ok (DInt (before (f 0) g))
    | DReal f, DReal g => Ok (DReal (before (f 0) g))
    | DMember m, DEnum s g =>
        ensure_or (negb named) NamedInitial (z <-- member_number s m ;; Ok (DEnum s (before z g)))
    | _, _ => Wrong
    end.

  (** How many of the conditions hold at a time. *)
  Definition count (fs : list (nat -> bool)) (t : nat) : nat := length (filter (fun f => f t) fs).
  Definition quantify (k : quantifier) (fs : list (nat -> bool)) (t : nat) : bool :=
    match k with ForEach => count fs t =? length fs | ForSome => 1 <=? count fs t end.
  Definition compare_count (k : counting) (fs : list (nat -> bool)) (n : Z) (t : nat) : bool :=
    let c := Z.of_nat (count fs t) in
    match k with Exactly => c =? n | AtLeast => n <=? c | AtMost => c <=? n end%Z.

  (** What names mean. *)
  Record env := Env {
    e_sigs : list (nat * den);
    e_defs : list (nat * res den);
    e_specs : list (nat * res den);
    e_contracts : list (res den) }.
  Definition variable (v : env) (b : list (nat * den)) (x : nat) : res den :=
    match lookup b x with
    | Some d => Ok d
    | None =>
        match lookup (e_defs v) x with
        | Some r => r
        | None =>
            match lookup (e_specs v) x with
            | Some r => r
            | None => if mem x members then Ok (DMember x) else Gap OutOfScope
            end
        end
    end.
  Definition array (d : den) : res (list den) := match d with DArr l => Ok l | _ => Wrong end.
  Definition in_range (l : list den) (i : Z) : bool := ((0 <=? i) && (i <? Z.of_nat (length l)))%Z.
  Definition is_named (v : env) (b : list (nat * den)) (e : tx) : bool :=
    match e with XVar x => negb (bound_in b x) && bound_in (e_defs v) x | _ => false end.

  Fixpoint eval (v : env) (b : list (nat * den)) (e : tx) : res den :=
    match e with
    | XBool c => Ok (DBool (fun _ => c))
    | XInt z => _ <-- ensure ((- 2 ^ 31 <=? z) && (z <? 2 ^ 31))%Z ;; Ok (DInt (fun _ => z))
    | XFloat m e => Ok (DReal (fun _ => real_of A m e))
    | XTime => Ok (DInt Z.of_nat)
    | XSig x => match lookup (e_sigs v) x with Some d => Ok d | None => Wrong end
    | XVar x => variable v b x
    | XArr es =>
        ds <-- all_ok (map (eval v b) es) ;;
        match ds with
        | [] => Ok (DArr [])
        | d :: _ => _ <-- ensure (forallb (same_sort d) ds) ;; Ok (DArr ds)
        end
    | XIdx e i =>
        d <-- eval v b e ;; l <-- array d ;;
        ensure_or (in_range l i) OutOfRange (match nth_error l (Z.to_nat i) with Some d => Ok d | None => Wrong end)
    | XSlice e i j =>
        d <-- eval v b e ;; l <-- array d ;;
        ensure_or (in_range l i && in_range l j) OutOfRange
          (_ <-- ensure (i <=? j)%Z ;; Ok (DArr (firstn (Z.to_nat (j - i + 1)) (skipn (Z.to_nat i) l))))
    | XAcc e m =>
        d <-- eval v b e ;;
        match d with
        | DRec _ l => match lookup l m with Some d => Ok d | None => Wrong end
        | _ => Wrong
        end
    | XNew s es =>
        ds <-- all_ok (map (eval v b) es) ;;
        match lookup structs s with
        | None => Wrong
        | Some ms =>
            ensure_or (length es =? length ms) Arity
              (_ <-- ensure (forallb (fun q => belongs (fst q) (snd q)) (combine ds (map snd ms))) ;;
               Ok (DRec s (combine (map fst ms) ds)))
        end
    | XQuant k x set body =>
        d <-- eval v b set ;; l <-- array d ;;
        fs <-- all_ok (map (fun d => r <-- eval v ((x, d) :: b) body ;; bits r) l) ;;
        Ok (DBool (quantify k fs))
    | XCount k x set num body =>
        q <-- also (eval v b set) (eval v b num) ;; l <-- array (fst q) ;; n <-- count_of (snd q) ;;
        fs <-- all_ok (map (fun d => r <-- eval v ((x, d) :: b) body ;; bits r) l) ;;
        Ok (DBool (fun t => compare_count k fs (n t) t))
    | XT1 k lb ub e =>
        d <-- eval v b e ;; f <-- bits d ;; _ <-- ensure (lb <=? ub) ;; Ok (DBool (temporal_1 k lb ub f))
    | XT2 k lb ub e1 e2 =>
        q <-- also (eval v b e1) (eval v b e2) ;; f <-- bits (fst q) ;; g <-- bits (snd q) ;;
        _ <-- ensure (lb <=? ub) ;; Ok (DBool (temporal_2 k lb ub f g))
    | XNot e => d <-- eval v b e ;; f <-- bits d ;; Ok (DBool (fun t => negb (f t)))
    | XLog k e1 e2 =>
        q <-- also (eval v b e1) (eval v b e2) ;; f <-- bits (fst q) ;; g <-- bits (snd q) ;;
        Ok (DBool (fun t => logic k (f t) (g t)))
    | XBit1 e => d <-- eval v b e ;; bit_op1 d
    | XBit2 k e1 e2 => q <-- also (eval v b e1) (eval v b e2) ;; bit_op2 k (fst q) (snd q)
    | XAr1 k e => d <-- eval v b e ;; arith_op1 k d
    | XAr2 k e1 e2 => q <-- also (eval v b e1) (eval v b e2) ;; arith_op2 k (is_zero e2) (is_negative e2) (fst q) (snd q)
    | XRel k e1 e2 => q <-- also (eval v b e1) (eval v b e2) ;; f <-- related k (fst q) (snd q) ;; Ok (DBool f)
    | XPrev e1 e2 => q <-- also (eval v b e1) (eval v b e2) ;; previous (is_named v b e1) (fst q) (snd q)
    end.

  (** ** A whole program, section by section
      [inp] gives the values of the inputs.  A specification that is not Boolean
      is wrong. *)
  Variable inp : nat -> den.
  Definition truth (r : res den) : res den := d <-- r ;; f <-- bits d ;; Ok (DBool f).
  Definition run_input (v : env) (q : nat * ty) : env :=
    let '(x, t) := q in
    Env ((x, inp x) :: e_sigs v)
        (match t with TArray _ _ => (x, Ok (inp x)) :: e_defs v | _ => e_defs v end) (e_specs v) (e_contracts v).
  Definition run_def (v : env) (q : nat * tx) : env :=
    Env (e_sigs v) ((fst q, eval v [] (snd q)) :: e_defs v) (e_specs v) (e_contracts v).
  Definition run_item (v : env) (i : item) : env :=
    match i with
    | Formula x e => Env (e_sigs v) (e_defs v) ((x, truth (eval v [] e)) :: e_specs v) (e_contracts v)
    | Contract _ e1 e2 =>
        Env (e_sigs v) (e_defs v) (e_specs v) (truth (eval v [] e1) :: truth (eval v [] e2) :: e_contracts v)
    end.
  Definition run_section (v : env) (x : section) : env :=
    match x with
    | Input l => fold_left run_input l v
    | Define l => fold_left run_def l v
    | Structs _ | Enums _ => v
    | Specs _ l => fold_left run_item l v
    end.
  Definition run (p : list section) : env := fold_left run_section p (Env [] [] [] []).
  (** The outcome of everything that is defined or specified. *)
  Definition outcomes (v : env) : list (res den) := map snd (e_defs v) ++ map snd (e_specs v) ++ e_contracts v.
End Meaning.
Arguments DBool {A} f. Arguments DInt {A} f. Arguments DReal {A} f. Arguments DEnum {A} s f.
Arguments DMember {A} m. Arguments DArr {A} l. Arguments DRec {A} s l. Arguments DOpaque {A} s.
Arguments Env {A} e_sigs e_defs e_specs e_contracts.
Arguments e_sigs {A} e. Arguments e_defs {A} e. Arguments e_specs {A} e. Arguments e_contracts {A} e.

(** ** Future and past *)
Inductive time := Future | Past.
Definition time1 (k : temporal1) : time := match k with G | F => Future | H | O => Past end.
Definition time2 (k : temporal2) : time := match k with U | R => Future | S | T => Past end.
(** The kinds of the temporal operators written in an expression. *)
Fixpoint times (e : tx) : list time :=
  match e with
  | XBool _ | XInt _ | XFloat _ _ | XTime | XSig _ | XVar _ => []
  | XArr es | XNew _ es => flat_map times es
  | XIdx e _ | XSlice e _ _ | XAcc e _ | XNot e | XBit1 e | XAr1 _ e => times e
  | XT1 k _ _ e => time1 k :: times e
  | XT2 k _ _ a b => time2 k :: times a ++ times b
  | XLog _ a b | XBit2 _ a b | XAr2 _ a b | XRel _ a b | XPrev a b | XQuant _ _ a b => times a ++ times b
  | XCount _ _ a b c => times a ++ times b ++ times c
  end.
Definition item_times (i : item) : list time :=
  match i with Formula _ e => times e | Contract _ e1 e2 => times e1 ++ times e2 end.
Definition section_time (ft : bool) : time := if ft then Future else Past.

(** The names used in an expression. *)
Fixpoint uses (e : tx) : list nat :=
  match e with
  | XBool _ | XInt _ | XFloat _ _ | XTime | XSig _ => []
  | XVar x => [x]
  | XArr es | XNew _ es => flat_map uses es
  | XIdx e _ | XSlice e _ _ | XAcc e _ | XT1 _ _ _ e | XNot e | XBit1 e | XAr1 _ e => uses e
  | XT2 _ _ _ a b | XLog _ a b | XBit2 _ a b | XAr2 _ a b | XRel _ a b | XPrev a b | XQuant _ _ a b => uses a ++ uses b
  | XCount _ _ a b c => uses a ++ uses b ++ uses c
  end.

(** ** What needs the Booleanizer: arithmetic, bitwise operations, comparisons of
    size, counting. *)
Fixpoint computes (e : tx) : bool :=
  match e with
  | XBool _ | XInt _ | XFloat _ _ | XTime | XSig _ | XVar _ => false
  | XArr es | XNew _ es => existsb computes es
  | XIdx e _ | XSlice e _ _ | XAcc e _ | XT1 _ _ _ e | XNot e => computes e
  | XT2 _ _ _ a b | XLog _ a b | XPrev a b | XQuant _ _ a b => computes a || computes b
  | XRel k a b => negb (match k with REq | RNe => true | _ => false end) || (computes a || computes b)
  | XCount _ _ _ _ _ | XBit1 _ | XBit2 _ _ _ | XAr1 _ _ | XAr2 _ _ _ => true
  end.
(** Whether it talks about numbers at all. *)
Fixpoint numeric (e : tx) : bool :=
  match e with
  | XInt _ | XFloat _ _ | XTime => true
  | XBool _ | XSig _ | XVar _ => false
  | XArr es | XNew _ es => existsb numeric es
  | XIdx e _ | XSlice e _ _ | XAcc e _ | XT1 _ _ _ e | XNot e | XBit1 e | XAr1 _ e => numeric e
  | XT2 _ _ _ a b | XLog _ a b | XBit2 _ a b | XAr2 _ a b | XRel _ a b | XPrev a b | XQuant _ _ a b => numeric a || numeric b
  | XCount _ _ a b c => numeric a || numeric b || numeric c
  end.
