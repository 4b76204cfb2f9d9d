(** * Arrays, structs and set aggregation (specification)

    An expression stands for a value that changes with time, or for an array or
    a record of such. *)
From Coq Require Import List Arith ZArith Bool.
Require Import Verif.Sugar.
Import ListNotations.

Section Meaning.
  Variable real : Type.
  Variable real_rel : rel -> real -> real -> bool.

  Inductive stream := Bits (f : nat -> bool) | Ints (f : nat -> Z) | Reals (f : nat -> real).
  Inductive den := Val (s : stream) | Arr (l : list den) | Rec (l : list (nat * den)).

  (** Values of the leaves, and what the other operators do. *)
  Variable leaf : nat -> stream.
  Variable ops : nat -> list stream -> option stream.

  Definition holds (r : rel) (x y : Z) : bool :=
    match r with
    | REq => x =? y | RNe => negb (x =? y) | RGt => y <? x | RLt => x <? y | RGe => y <=? x | RLe => x <=? y
    end%Z.
  Definition int_of_bit (b : bool) : Z := if b then 1%Z else 0%Z.
  (** Truth values count as 0 and 1. *)
  Definition ints (s : stream) : option (nat -> Z) :=
    match s with Bits f => Some (fun t => int_of_bit (f t)) | Ints f => Some f | Reals _ => None end.
  Definition rel_stream (r : rel) (a b : stream) : option (nat -> bool) :=
    match a, b with
    | Reals f, Reals g => Some (fun t => real_rel r (f t) (g t))
    | _, _ => f <- ints a ;; g <- ints b ;; Some (fun t => holds r (f t) (g t))
    end.
  (** On arrays: of every pair of elements. *)
  Fixpoint rel_den (r : rel) (d e : den) : option (nat -> bool) :=
    match d, e with
    | Val a, Val b => rel_stream r a b
    | Arr l, Arr m =>
        (fix go l m :=
           match l, m with
           | [], [] => Some (fun _ => true)
           | x :: l, y :: m => f <- rel_den r x y ;; g <- go l m ;; Some (fun t => f t && g t)
           | _, _ => None
           end) l m
    | _, _ => None
    end.
  (** Signed 32-bit arithmetic. *)
  Definition wrap32 (z : Z) : Z := ((z + 2 ^ 31) mod 2 ^ 32 - 2 ^ 31)%Z.
  Definition total (l : list Z) : Z := fold_right Z.add 0%Z l.

  Definition val (d : den) : option stream := match d with Val s => Some s | _ => None end.
  Definition bits (d : den) : option (nat -> bool) := match d with Val (Bits f) => Some f | _ => None end.
  Fixpoint field (l : list (nat * den)) (m : nat) : option den :=
    match l with [] => None | (n, d) :: l => if n =? m then Some d else field l m end.
  Definition apply (h : head) (ds : list den) : option den :=
    match h with
    | HLeaf k => Some (Val (leaf k))
    | HOp o => ss <- all_some (map val ds) ;; s <- ops o ss ;; Some (Val s)
    | HAnd => fs <- all_some (map bits ds) ;; Some (Val (Bits (fun t => forallb (fun f => f t) fs)))
    | HOr => fs <- all_some (map bits ds) ;; Some (Val (Bits (fun t => existsb (fun f => f t) fs)))
    | HAdd => ss <- all_some (map val ds) ;; fs <- all_some (map ints ss) ;;
              Some (Val (Ints (fun t => wrap32 (total (map (fun f => f t) fs)))))
    | HRel r => match ds with [d; e] => f <- rel_den r d e ;; Some (Val (Bits f)) | _ => None end
    | HArray => match ds with [] => None | _ => Some (Arr ds) end
    | HIndex i => match ds with [Arr l] => nth_error l i | _ => None end
    | HSlice i j =>
        match ds with
        | [Arr l] => if (i <=? j) && (j <? length l) then Some (Arr (firstn (j + 1 - i) (skipn i l))) else None
        | _ => None
        end
    | HStruct names => if length names =? length ds then Some (Rec (combine names ds)) else None
    | HAccess m => match ds with [Rec l] => field l m | _ => None end
    end.

  (** How many of the conditions hold at a time. *)
  Definition count (fs : list (nat -> bool)) (t : nat) : nat := length (filter (fun f => f t) fs).
  Definition quantify (k : quantifier) (fs : list (nat -> bool)) (t : nat) : bool :=
    match k with ForEach => count fs t =? length fs | ForSome => 1 <=? count fs t end.
  Definition compare_count (k : counting) (fs : list (nat -> bool)) (n : Z) (t : nat) : bool :=
    let c := Z.of_nat (count fs t) in
    match k with Exactly => c =? n | AtLeast => n <=? c | AtMost => c <=? n end%Z.

  Definition env := nat -> option den.
  Definition nothing : env := fun _ => None.
  Definition with_var (v : env) (x : nat) (d : den) : env := fun y => if y =? x then Some d else v y.
  (** Arrays have at least one element, counted sets fewer than 2^31. *)
  Fixpoint eval (t : term) (v : env) : option den :=
    match t with
    | Var x => v x
    | Node h l => ds <- all_some (map (fun t => eval t v) l) ;; apply h ds
    | Quant k x set body =>
        match eval set v with
        | Some (Arr ((_ :: _) as ds)) =>
            fs <- all_some (map (fun d => b <- eval body (with_var v x d) ;; bits b) ds) ;; Some (Val (Bits (quantify k fs)))
        | _ => None
        end
    | Count k x set num body =>
        match eval set v with
        | Some (Arr ((_ :: _) as ds)) =>
            n <- eval num v ;; n <- val n ;; n <- ints n ;;
            fs <- all_some (map (fun d => b <- eval body (with_var v x d) ;; bits b) ds) ;;
            if (Z.of_nat (length ds) <? 2 ^ 31)%Z then Some (Val (Bits (fun t => compare_count k fs (n t) t))) else None
        | _ => None
        end
    end.

  (** Same value at every time. *)
  Inductive same_stream : stream -> stream -> Prop :=
  | same_bits f g : (forall t, f t = g t) -> same_stream (Bits f) (Bits g)
  | same_ints f g : (forall t, f t = g t) -> same_stream (Ints f) (Ints g)
  | same_reals f g : (forall t, f t = g t) -> same_stream (Reals f) (Reals g).
  Inductive same : den -> den -> Prop :=
  | same_val a b : same_stream a b -> same (Val a) (Val b)
  | same_arr l m : Forall2 same l m -> same (Arr l) (Arr m)
  | same_rec l m : Forall2 (fun p q => fst p = fst q /\ same (snd p) (snd q)) l m -> same (Rec l) (Rec m).
  (** Operators depend on the values of their operands only. *)
  Definition extensional : Prop := forall o l l', Forall2 same_stream l l' ->
    match ops o l, ops o l' with
    | Some a, Some b => same_stream a b
    | None, None => True
    | _, _ => False
    end.
End Meaning.
Arguments Bits {real}. Arguments Ints {real}. Arguments Reals {real}.
Arguments Val {real}. Arguments Arr {real}. Arguments Rec {real}.
Arguments eval {real}. Arguments apply {real}. Arguments nothing {real}. Arguments with_var {real}.
Arguments same {real}. Arguments same_stream {real}. Arguments extensional {real}. Arguments rel_den {real}.
Arguments bits {real}. Arguments val {real}. Arguments ints {real}. Arguments rel_stream {real}. Arguments field {real}.

(** Expressions without variables, aggregation, element and member accesses, and
    without comparison of arrays. *)
Fixpoint plain (t : term) : Prop :=
  match t with
  | Var _ => False
  | Node h l =>
      match h, l with
      | HIndex _, _ | HSlice _ _, _ | HAccess _, _ => False
      | HRel _, [Node HArray _; Node HArray _] => False
      | _, _ => True
      end /\ fold_right (fun t P => plain t /\ P) True l
  | _ => False
  end.

(** Variables bound in a term; no aggregation binds a variable again inside its
    body. *)
Fixpoint bound (t : term) : list nat :=
  match t with
  | Var _ => []
  | Node _ l => flat_map bound l
  | Quant _ x set body => x :: bound set ++ bound body
  | Count _ x set num body => x :: bound set ++ bound num ++ bound body
  end.
Fixpoint unshadowed (t : term) : Prop :=
  match t with
  | Var _ => True
  | Node _ l => fold_right (fun t P => unshadowed t /\ P) True l
  | Quant _ x set body => ~ In x (bound body) /\ unshadowed set /\ unshadowed body
  | Count _ x set num body => ~ In x (bound body) /\ unshadowed set /\ unshadowed num /\ unshadowed body
  end.
(** The sets of aggregations contain no aggregation. *)
Fixpoint flat_sets (t : term) : Prop :=
  match t with
  | Var _ => True
  | Node _ l => fold_right (fun t P => flat_sets t /\ P) True l
  | Quant _ _ set body => bound set = [] /\ flat_sets body
  | Count _ _ set num body => bound set = [] /\ flat_sets num /\ flat_sets body
  end.

(** Arrays that are indexed are written out: what is left after following
    indices is neither a member of a struct nor a bound variable. *)
Fixpoint written_out (t : term) : bool :=
  match t with
  | Var _ => false
  | Node h l =>
      match h with
      | HArray | HIndex _ | HSlice _ _ => forallb written_out l
      | HAccess _ => false
      | _ => true
      end
  | _ => true
  end.
Fixpoint direct (t : term) : Prop :=
  match t with
  | Var _ => True
  | Node h l =>
      match h with HIndex _ | HSlice _ _ => forallb written_out l = true | _ => True end /\
      fold_right (fun t P => direct t /\ P) True l
  | Quant _ _ set body => direct set /\ direct body
  | Count _ _ set num body => direct set /\ direct num /\ direct body
  end.
