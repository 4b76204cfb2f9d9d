(** * The type checker (model)

    compiler/c2po/type_check.py with compiler/c2po/types.py, on what parse_c2po.py
    produces: operators of symbolic intervals (SymbolicIntervalVariable, MissionTime,
    SymbolicTemporalOperator, min and max) and Atomic nodes do not occur there.

    Names are numbers.  The names of the built-in types are not names of structs
    or enums.  [is_const] of a type is not represented: no test reads it. *)
From Coq Require Import List Arith ZArith Bool.
Import ListNotations.

(** types.py 45-115; the size is absent for [-1]. *)
Inductive ty :=
| TNo | TBool | TInt | TFloat
| TArray (t : ty) (size : option nat)
| TStruct (s : nat) | TEnum (s : nat).
(** [__eq__] (types.py 34-37, 78-81, 89-92, 108-115) *)
Fixpoint ty_eq (a b : ty) : bool :=
  match a, b with
  | TNo, TNo | TBool, TBool | TInt, TInt | TFloat, TFloat => true
  | TArray a n, TArray b m =>
      ty_eq a b && match n, m with Some n, Some m => n =? m | _, _ => true end
  | TStruct s, TStruct r | TEnum s, TEnum r => s =? r
  | _, _ => false
  end.
(** [symbol] as far as it can be the name of a struct or an enum *)
Definition symbol_of (t : ty) : option nat := match t with TStruct s | TEnum s => Some s | _ => None end.
(** types.py 125-126 *)
Definition is_integer (t : ty) : bool := match t with TInt | TBool | TEnum _ => true | _ => false end.
Definition is_bool (t : ty) : bool := match t with TBool => true | _ => false end.
(** The classes that define [__eq__] without [__hash__] are not hashable. *)
Definition hashable (t : ty) : bool := match t with TArray _ _ | TStruct _ | TEnum _ => false | _ => true end.

Inductive quantifier := ForEach | ForSome.
Inductive counting := Exactly | AtLeast | AtMost.
Inductive logical := LAnd | LOr | LXor | LImplies | LIff.
Inductive temporal1 := G | F | H | O.
Inductive temporal2 := U | R | S | T.
Inductive arith1 := Neg | Sqrt | Abs.
Inductive arith2 := Add | Sub | Mul | Div | Mod | Pow.
Inductive bitwise2 := BAnd | BOr | BXor | BShl | BShr.
Inductive relation := REq | RNe | RGt | RLt | RGe | RLe.

(** cpt.py 148-532, as parse_c2po.py 400-652 builds them.  [XFloat m e] is the
    decimal m / 10^e. *)
Inductive tx :=
| XBool (b : bool) | XInt (z : Z) | XFloat (m : Z) (e : nat)
| XTime
| XSig (s : nat)                                (* a name declared as a non-array input above *)
| XVar (s : nat)                                (* any other name *)
| XArr (es : list tx)
| XIdx (e : tx) (i : Z)
| XSlice (e : tx) (i j : Z)
| XAcc (e : tx) (m : nat)
| XNew (s : nat) (es : list tx)
| XQuant (k : quantifier) (x : nat) (set body : tx)
| XCount (k : counting) (x : nat) (set num body : tx)
| XT1 (k : temporal1) (lb ub : nat) (e : tx)
| XT2 (k : temporal2) (lb ub : nat) (e1 e2 : tx)
| XNot (e : tx) | XLog (k : logical) (e1 e2 : tx)
| XBit1 (e : tx) | XBit2 (k : bitwise2) (e1 e2 : tx)
| XAr1 (k : arith1) (e : tx) | XAr2 (k : arith2) (e1 e2 : tx)
| XRel (k : relation) (e1 e2 : tx)
| XPrev (e1 e2 : tx).

(** Dictionaries whose order does not matter: newest entry first. *)
Fixpoint lookup {A} (l : list (nat * A)) (x : nat) : option A :=
  match l with [] => None | (y, a) :: l => if x =? y then Some a else lookup l x end.
Definition bound_in {A} (l : list (nat * A)) (x : nat) : bool := match lookup l x with Some _ => true | None => false end.
Definition mem (x : nat) (l : list nat) : bool := existsb (Nat.eqb x) l.
(** A dictionary whose order does: a key keeps its first place. *)
Fixpoint dict_set {A} (l : list (nat * A)) (x : nat) (a : A) : list (nat * A) :=
  match l with
  | [] => [(x, a)]
  | (y, b) :: l => if x =? y then (y, a) :: l else (y, b) :: dict_set l x a
  end.
Definition dict {A} (l : list (nat * A)) : list (nat * A) := fold_left (fun d p => dict_set d (fst p) (snd p)) l [].

(** Context (cpt.py 1433-1607), the part the checker reads.  A definition carries
    the type its expression was given, and whether it is a Constant. *)
Record ctx := Ctx {
  c_bz : bool;                                  (* enable_booleanizer *)
  c_ft : bool;                                  (* is_ft *)
  c_defs : list (nat * (bool * ty));
  c_structs : list (nat * list (nat * ty));
  c_enums : list (nat * list nat);
  c_sigs : list (nat * ty);
  c_vars : list (nat * ty);
  c_specs : list nat;
  c_contracts : list nat }.

(** Every error return and every exception is [None]. *)
Definition bind {A B} (o : option A) (f : A -> option B) : option B := match o with Some a => f a | None => None end.
Notation "x <- o ;; r" := (bind o (fun x => r)) (at level 60, right associativity).
Notation "' p <- o ;; r" := (bind o (fun '(p) => r)) (at level 60, p pattern, right associativity).
Definition guard (b : bool) : option unit := if b then Some tt else None.

(** context.bound_vars, and the part of context.variables the traversal adds to *)
Record st := St { bound : list (nat * ty); vars : list (nat * ty) }.
(** cpt.py 1625-1627 *)
Definition unbind (s : st) (x : nat) : option st :=
  if bound_in (bound s) x then Some (St (filter (fun p => negb (x =? fst p)) (bound s)) (vars s)) else None.

Definition is_constant (e : tx) : bool := match e with XBool _ | XInt _ | XFloat _ _ => true | _ => false end.
(** [value == 0] and [value < 0]; False is 0. *)
Definition is_zero (e : tx) : bool :=
  match e with XBool b => negb b | XInt z => (z =? 0)%Z | XFloat m _ => (m =? 0)%Z | _ => false end.
Definition is_negative (e : tx) : bool :=
  match e with XInt z => (z <? 0)%Z | XFloat m _ => (m <? 0)%Z | _ => false end.
Definition is_array_node (e : tx) : bool := match e with XArr _ | XSlice _ _ _ => true | _ => false end.
(** The [symbol] of an expression as far as a definition can have that name *)
Definition name_of (e : tx) : option nat := match e with XSig s | XVar s | XNew s _ => Some s | _ => None end.
(** get_descendants (cpt.py 72-86) *)
Fixpoint has_prev (e : tx) : bool :=
  match e with
  | XBool _ | XInt _ | XFloat _ _ | XTime | XSig _ | XVar _ => false
  | XArr es | XNew _ es => existsb has_prev es
  | XIdx e _ | XSlice e _ _ | XAcc e _ | XT1 _ _ _ e | XNot e | XBit1 e | XAr1 _ e => has_prev e
  | XT2 _ _ _ a b | XLog _ a b | XBit2 _ a b | XAr2 _ a b | XRel _ a b | XQuant _ _ a b => has_prev a || has_prev b
  | XCount _ _ a b c => has_prev a || has_prev b || has_prev c
  | XPrev _ _ => true
  end.
Definition is_future1 (k : temporal1) : bool := match k with G | F => true | H | O => false end.
Definition is_future2 (k : temporal2) : bool := match k with U | R => true | S | T => false end.

(** [abs(i) > size and size > -1] (lines 158, 182) *)
Definition too_far (size : option nat) (i : Z) : bool :=
  match size with Some n => (Z.of_nat n <? Z.abs i)%Z | None => false end.

(** Lines 479-503: the enum that a member stands in for, and the comparison *)
Definition enum_of (c : ctx) (t : ty) : option (list nat) := s <- symbol_of t ;; lookup (c_enums c) s.
Definition loose_member (c : ctx) (t : ty) : option nat :=
  match t with TEnum s => match lookup (c_enums c) s with None => Some s | Some _ => None end | _ => None end.
Definition compare (c : ctx) (a b : ty) : option unit :=
  match loose_member c a, enum_of c b with
  | Some m, Some l => guard (mem m l)           (* then both have the type of the right operand *)
  | _, _ =>
      match loose_member c b, enum_of c a with
      | Some m, Some l => guard (mem m l)
      | _, _ =>
          match loose_member c a, loose_member c b with
          | Some _, Some _ => None
          | _, _ => guard (ty_eq a b)
          end
      end
  end.

(** Lines 81-123 *)
Definition variable_type (c : ctx) (s : st) (x : nat) : option ty :=
  match lookup (bound s) x with
  | Some t => Some t
  | None =>
      match lookup (vars s) x with
      | Some t => Some t
      | None =>
          match lookup (c_defs c) x with
          | Some d => Some (snd d)
          | None =>
              if bound_in (c_structs c) x || bound_in (c_enums c) x then None
              else if mem x (c_specs c) then Some TBool
              else if mem x (c_contracts c) then None
              else if existsb (fun p => mem x (snd p)) (c_enums c) then Some (TEnum x)
              else None
          end
      end
  end.

(** Lines 526-576, once both operands are checked: the type of [prev] *)
Definition prev_type (c : ctx) (e1 e2 : tx) (a b : ty) : option ty :=
  a <- match loose_member c a, enum_of c b with
       | Some m, Some l => _ <- guard (mem m l) ;; Some b
       | _, _ =>
           match enum_of c a with
           | Some _ => None
           | None =>
               match loose_member c a, loose_member c b with
               | Some _, Some _ => None
               | _, _ => _ <- guard (ty_eq a b) ;; Some a
               end
           end
       end ;;
  let '(k, a) :=
    match x <- name_of e1 ;; lookup (c_defs c) x with
    | Some d => d
    | None => (is_constant e1, a)
    end in
  _ <- guard (k || match a with TEnum _ => true | _ => false end) ;;
  _ <- guard (negb (has_prev e1) && negb (has_prev e2)) ;;
  Some a.

(** Lines 412-447 *)
Definition arith2_allowed (k : arith2) (e2 : tx) (a : ty) : bool :=
  match k with
  | Div => negb (is_zero e2)
  | Pow =>
      match a with
      | TInt => if is_constant e2 then negb (is_negative e2) else match e2 with XTime => true | _ => false end
      | _ => true
      end
  | _ => true
  end.

(** ** type_check_expr (lines 5-585)
    The nodes in post-order; Bind comes just before the body. *)
Fixpoint check (c : ctx) (e : tx) (s : st) : option (ty * st) :=
  let checks := fix checks es s : option (list ty * st) :=
    match es with
    | [] => Some ([], s)
    | e :: es => '(t, s) <- check c e s ;; '(ts, s) <- checks es s ;; Some (t :: ts, s)
    end in
  match e with
  | XBool _ => Some (TBool, s)
  | XInt z => _ <- guard (Z.abs z <? 2 ^ 31)%Z ;; Some (TInt, s)          (* 39-53: bit_length *)
  | XFloat _ _ => Some (TFloat, s)
  | XTime => Some (TInt, s)
  | XSig x =>                                                             (* 61-80 *)
      t <- lookup (c_sigs c) x ;;
      _ <- guard (c_bz c || match t with TInt | TFloat => false | _ => hashable t end) ;; Some (t, s)
  | XVar x => t <- variable_type c s x ;; Some (t, s)
  | XArr es =>                                                            (* 130-148 *)
      '(ts, s) <- checks es s ;;
      let t := last ts TNo in
      _ <- guard (forallb (fun u => ty_eq u t) ts) ;; Some (TArray t (Some (length es)), s)
  | XSlice e i j =>                                                       (* 149-172 *)
      '(t, s) <- check c e s ;;
      match t with
      | TArray t n =>
          _ <- guard (negb (too_far n i || too_far n j)) ;;
          _ <- guard (Z.abs i <=? Z.abs j)%Z ;;
          Some (TArray t (Some (Z.to_nat (Z.abs j - Z.abs i + 1))), s)
      | _ => None
      end
  | XIdx e i =>                                                           (* 173-199 *)
      '(t, s) <- check c e s ;;
      match t with
      | TArray t n => _ <- guard (negb (too_far n i)) ;; Some (t, s)
      | _ => None
      end
  | XAcc e m =>                                                           (* 200-219 *)
      '(t, s) <- check c e s ;;
      n <- symbol_of t ;; l <- lookup (c_structs c) n ;; u <- lookup l m ;; Some (u, s)
  | XNew n es =>                                                          (* 220-251 *)
      '(ts, s) <- checks es s ;;
      l <- lookup (c_structs c) n ;;
      _ <- guard (forallb (fun p => ty_eq (fst p) (snd p)) (combine (map snd l) ts)) ;; Some (TStruct n, s)
  | XQuant _ x set body =>                                                (* 252-294 *)
      '(t, s) <- check c set s ;;
      let u := match t with TArray u _ => u | _ => TNo end in
      '(b, s) <- check c body (St ((x, u) :: bound s) (vars s)) ;;
      s <- unbind s x ;;
      match t with
      | TArray u _ => _ <- guard (is_bool b) ;; Some (TBool, St (bound s) ((x, u) :: vars s))
      | _ => None
      end
  | XCount _ x set num body =>
      '(t, s) <- check c set s ;;
      '(n, s) <- check c num s ;;
      let u := match t with TArray u _ => u | _ => TNo end in
      '(b, s) <- check c body (St ((x, u) :: bound s) (vars s)) ;;
      s <- unbind s x ;;
      match t with
      | TArray u _ =>
          _ <- guard (c_bz c && is_integer n && is_bool b) ;; Some (TBool, St (bound s) ((x, u) :: vars s))
      | _ => None
      end
  | XT1 k lb ub e =>                                                      (* 295-337 *)
      '(t, s) <- check c e s ;;
      _ <- guard (is_bool t && eqb (is_future1 k) (c_ft c) && (lb <=? ub)) ;; Some (TBool, s)
  | XT2 k lb ub e1 e2 =>
      '(t, s) <- check c e1 s ;; '(u, s) <- check c e2 s ;;
      _ <- guard (is_bool t && is_bool u && eqb (is_future2 k) (c_ft c) && (lb <=? ub)) ;; Some (TBool, s)
  | XNot e => '(t, s) <- check c e s ;; _ <- guard (is_bool t) ;; Some (TBool, s)
  | XLog _ e1 e2 =>                                                       (* 512-525 *)
      '(t, s) <- check c e1 s ;; '(u, s) <- check c e2 s ;; _ <- guard (is_bool t && is_bool u) ;; Some (TBool, s)
  | XBit1 e =>                                                            (* 365-395 *)
      '(t, s) <- check c e s ;; _ <- guard (c_bz c && negb (is_array_node e) && is_integer t) ;; Some (t, s)
  | XBit2 _ e1 e2 =>
      '(t, s) <- check c e1 s ;; '(u, s) <- check c e2 s ;;
      _ <- guard (c_bz c && negb (is_array_node e1) && negb (is_array_node e2) && is_integer t && ty_eq u t) ;; Some (t, s)
  | XAr1 k e =>                                                           (* 396-464 *)
      '(t, s) <- check c e s ;;
      _ <- guard (c_bz c && negb (is_array_node e) &&
                  match k, t with Sqrt, TInt => false | _, _ => true end) ;; Some (t, s)
  | XAr2 k e1 e2 =>
      '(t, s) <- check c e1 s ;; '(u, s) <- check c e2 s ;;
      _ <- guard (c_bz c && negb (is_array_node e1) && negb (is_array_node e2) && ty_eq u t && arith2_allowed k e2 t) ;;
      Some (t, s)
  | XRel k e1 e2 =>                                                       (* 465-511 *)
      '(t, s) <- check c e1 s ;; '(u, s) <- check c e2 s ;;
      _ <- guard (c_bz c || match k with REq | RNe => true | _ => false end) ;;
      _ <- compare c t u ;; Some (TBool, s)
  | XPrev e1 e2 =>                                                        (* 526-576 *)
      '(t, s) <- check c e1 s ;; '(u, s) <- check c e2 s ;; a <- prev_type c e1 e2 t u ;; Some (a, s)
  end.
Definition checks (c : ctx) : list tx -> st -> option (list ty * st) :=
  fix checks es s :=
    match es with
    | [] => Some ([], s)
    | e :: es => '(t, s) <- check c e s ;; '(ts, s) <- checks es s ;; Some (t :: ts, s)
    end.

(** ** Sections (lines 588-691)
    Nothing can succeed any more once one test has failed, so the first failure
    is [None]. *)
Inductive item := Formula (label : nat) (e : tx) | Contract (label : nat) (e1 e2 : tx).
Inductive section :=
| Input (decls : list (nat * ty))               (* one entry per name, in order *)
| Define (defs : list (nat * tx))
| Structs (defs : list (nat * list (nat * ty)))
| Enums (defs : list (nat * list (nat * tx)))
| Specs (ft : bool) (items : list item).

Definition with_vars (c : ctx) (v : list (nat * ty)) : ctx :=
  Ctx (c_bz c) (c_ft c) (c_defs c) (c_structs c) (c_enums c) (c_sigs c) v (c_specs c) (c_contracts c).
(** One expression at the top: no variable is bound before or after. *)
Definition check_top (c : ctx) (e : tx) : option (ty * ctx) :=
  '(t, s) <- check c e (St [] (c_vars c)) ;; Some (t, with_vars c (vars s)).

(** Lines 591-625.  The status of the element signals is not used, but checking
    one whose type cannot be hashed is an exception (line 66). *)
Definition input_type (c : ctx) (t : ty) : ty :=
  match t with TStruct s => if bound_in (c_enums c) s then TEnum s else t | _ => t end.
Definition add_input (c : ctx) (x : nat) (t : ty) : option ctx :=
  let t := input_type c t in
  let c := Ctx (c_bz c) (c_ft c) (c_defs c) (c_structs c) (c_enums c) ((x, t) :: c_sigs c) (c_vars c) (c_specs c) (c_contracts c) in
  match t with
  | TArray u n =>
      _ <- guard (c_bz c || hashable u || match n with Some (Datatypes.S _) => false | _ => true end) ;;
      Some (Ctx (c_bz c) (c_ft c) ((x, (false, t)) :: c_defs c) (c_structs c) (c_enums c) (c_sigs c) (c_vars c) (c_specs c) (c_contracts c))
  | _ => Some c
  end.
(** Lines 626-639 *)
Definition add_def (c : ctx) (x : nat) (e : tx) : option ctx :=
  '(t, c) <- check_top c e ;;
  Some (Ctx (c_bz c) (c_ft c) ((x, (is_constant e, t)) :: c_defs c) (c_structs c) (c_enums c) (c_sigs c) (c_vars c) (c_specs c) (c_contracts c)).
(** Lines 640-650 *)
Definition add_struct (c : ctx) (x : nat) (l : list (nat * ty)) : ctx :=
  Ctx (c_bz c) (c_ft c) (c_defs c) ((x, dict l) :: c_structs c) (c_enums c) (c_sigs c) (c_vars c) (c_specs c) (c_contracts c).
(** get_symbols (cpt.py 1522-1531) *)
Definition in_symbols (c : ctx) (x : nat) : bool :=
  bound_in (c_defs c) x || bound_in (c_structs c) x || bound_in (c_enums c) x || bound_in (c_sigs c) x
  || bound_in (c_vars c) x || mem x (c_specs c) || mem x (c_contracts c).
(** Lines 651-672 *)
Definition add_enum (c : ctx) (x : nat) (l : list (nat * tx)) : option ctx :=
  _ <- guard (negb (in_symbols c x)) ;;
  _ <- guard (forallb (fun p => match snd p with XInt _ | XBool _ => true | _ => false end
                                && negb (in_symbols c (fst p)) && negb (fst p =? x)) (dict l)) ;;
  Some (Ctx (c_bz c) (c_ft c) (c_defs c) (c_structs c) ((x, map fst (dict l)) :: c_enums c) (c_sigs c) (c_vars c) (c_specs c) (c_contracts c)).
(** Lines 11-38 *)
Definition add_item (c : ctx) (i : item) : option ctx :=
  match i with
  | Formula x e =>
      '(t, c) <- check_top c e ;; _ <- guard (is_bool t) ;;
      Some (Ctx (c_bz c) (c_ft c) (c_defs c) (c_structs c) (c_enums c) (c_sigs c) (c_vars c) (x :: c_specs c) (c_contracts c))
  | Contract x e1 e2 =>
      '(t, c) <- check_top c e1 ;; '(u, c) <- check_top c e2 ;; _ <- guard (is_bool t && is_bool u) ;;
      Some (Ctx (c_bz c) (c_ft c) (c_defs c) (c_structs c) (c_enums c) (c_sigs c) (c_vars c) (c_specs c) (x :: c_contracts c))
  end.
Definition label (i : item) : nat := match i with Formula x _ | Contract x _ _ => x end.

(** A loop over declarations with the names met so far in this section. *)
Fixpoint each {A} (name : A -> nat) (step : ctx -> A -> option ctx) (l : list A) (seen : list nat) (c : ctx) : option ctx :=
  match l with
  | [] => Some c
  | a :: l => _ <- guard (negb (mem (name a) seen)) ;; c <- step c a ;; each name step l (name a :: seen) c
  end.
(** The enum section does not use that set. *)
Fixpoint each_enum (l : list (nat * list (nat * tx))) (c : ctx) : option ctx :=
  match l with [] => Some c | (x, m) :: l => c <- add_enum c x m ;; each_enum l c end.
Definition with_mode (c : ctx) (ft : bool) : ctx :=
  Ctx (c_bz c) ft (c_defs c) (c_structs c) (c_enums c) (c_sigs c) (c_vars c) (c_specs c) (c_contracts c).
Definition check_section (c : ctx) (x : section) : option ctx :=
  match x with
  | Input l => each fst (fun c p => add_input c (fst p) (snd p)) l [] c
  | Define l => each fst (fun c p => add_def c (fst p) (snd p)) l [] c
  | Structs l => each fst (fun c p => Some (add_struct c (fst p) (snd p))) l [] c
  | Enums l => each_enum l c
  | Specs ft l => each label add_item l [] (with_mode c ft)
  end.
(** type_check (lines 693-712) from a new context (cpt.py 1434-1468) *)
Fixpoint check_sections (c : ctx) (p : list section) : option ctx :=
  match p with [] => Some c | x :: p => c <- check_section c x ;; check_sections c p end.
Definition new_context (booleanizer : bool) : ctx := Ctx booleanizer false [] [] [] [] [] [] [].
Definition accepted (booleanizer : bool) (p : list section) : bool :=
  match check_sections (new_context booleanizer) p with Some _ => true | None => false end.
