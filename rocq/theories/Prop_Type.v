(** * C35: what the type checker guarantees *)
From Coq Require Import List Arith ZArith Bool Lia.
Require Import Verif.TypeCheck Verif.TypeSpec Verif.TypeProofs Verif.TypeExprs Verif.TypePrograms.
Import ListNotations.

(** Accepted programs whose names are distinct: nothing that is defined or
    specified goes wrong except in one of the ways of [gap], and every
    specification is Boolean, whatever the inputs of the declared types are.
    Partial: the full property has no [gap]. *)
Theorem C35_sound_partial : forall (A : arithmetic) p (inp : nat -> den A) booleanizer,
  names_distinct p ->
  (forall x t, In (x, t) (inputs_of p) -> belongs A (structs_of p) (enums_of p) (inp x) t = true) ->
  accepted booleanizer p = true ->
  forall r, In r (outcomes A (run A (structs_of p) (enums_of p) inp p)) -> r <> Wrong.
Proof. exact (fun A p inp bz N T H => accepted_sound A p inp N T bz H). Qed.

(** The operators written in a specification are those of its section. *)
Theorem C35_times : forall booleanizer p ft l i, accepted booleanizer p = true -> In (Specs ft l) p -> In i l ->
  forall k, In k (item_times i) -> k = section_time ft.
Proof. exact accepted_times. Qed.

(** Without the Booleanizer no accepted program contains an operation that needs it. *)
Theorem C35_booleanizer : forall p e, accepted false p = true -> In e (exprs_of p) -> computes e = false.
Proof. exact accepted_plain. Qed.

(** ** An accepted program *)
Definition simple : arithmetic := {|
  real := Z; real_of := fun m _ => m;
  real_rel := fun k => int_rel k;
  real_arith1 := fun k x => match k with Neg => - x | Sqrt => Z.sqrt x | Abs => Z.abs x end;
  real_arith2 := fun k => match k with Add => Z.add | Sub => Z.sub | Mul => Z.mul | Div => Z.div | Mod => Z.modulo | Pow => Z.pow end;
  int_arith1 := fun k x => match k with Neg => - x | Sqrt => x | Abs => Z.abs x end;
  int_arith2 := fun k => match k with Add => Z.add | Sub => Z.sub | Mul => Z.mul | Div => Z.div | Mod => Z.modulo | Pow => Z.pow end;
  int_bit1 := Z.lnot;
  int_bit2 := fun k => match k with BAnd => Z.land | BOr => Z.lor | BXor => Z.lxor | BShl => Z.shiftl | BShr => Z.shiftr end;
  code := fun _ m => Z.of_nat m |}%Z.

(** ENUM 10: {11: 11, 12: 12};  STRUCT 20: {21: bool; 22: int};
    INPUT 1: bool; 2: int; 3: 10; 4: bool[3];
    DEFINE 30 := 20(1, 2);  31 := prev(11, 3) == 3;
    FTSPEC 40: G[0,2] (30.21 -> F[0,1] (30.22 + 1 > 5));
           41: foreach(50 : 4)(50 || 31);
           42: 40 && 4[0] && foratleast(51 : {1, 4[2]}, 1)(51);
           43: 1 => 42; *)
Definition example : list section := [
  Enums [(10, [(11, XInt 11); (12, XInt 12)])];
  Structs [(20, [(21, TBool); (22, TInt)])];
  Input [(1, TBool); (2, TInt); (3, TStruct 10); (4, TArray TBool (Some 3))];
  Define [(30, XNew 20 [XSig 1; XSig 2]); (31, XRel REq (XPrev (XVar 11) (XSig 3)) (XSig 3))];
  Specs true
    [Formula 40 (XT1 G 0 2 (XLog LImplies (XAcc (XVar 30) 21) (XT1 F 0 1 (XRel RGt (XAr2 Add (XAcc (XVar 30) 22) (XInt 1)) (XInt 5)))));
     Formula 41 (XQuant ForEach 50 (XVar 4) (XLog LOr (XVar 50) (XVar 31)));
     Formula 42 (XLog LAnd (XLog LAnd (XVar 40) (XIdx (XVar 4) 0)) (XCount AtLeast 51 (XArr [XSig 1; XIdx (XVar 4) 2]) (XInt 1) (XVar 51)));
     Contract 43 (XSig 1) (XVar 42)]].
Definition example_inputs (x : nat) : den simple :=
  match x with
  | 1 => DBool Nat.even
  | 2 => DInt Z.of_nat
  | 3 => DEnum 10 (fun t => if t <? 3 then 11%Z else 12%Z)
  | _ => DArr [DBool (fun _ => true); DBool (fun t => t <? 3); DBool Nat.odd]
  end.
Ltac distinct := constructor;
  [cbn; repeat (constructor; [cbn; lia|]); constructor
  |cbn; intros m; intuition (subst; lia)
  |cbn; intros e x; intuition (subst; cbn in *; intuition lia)].
Example example_distinct : names_distinct example.
Proof. distinct. Qed.
Example example_accepted : accepted true example = true /\ accepted false example = false.
Proof. vm_compute; split; reflexivity. Qed.
Example example_typed : forall x t, In (x, t) (inputs_of example) -> belongs simple (structs_of example) (enums_of example) (example_inputs x) t = true.
Proof. cbn; intros x t I; intuition (match goal with H : (_, _) = _ |- _ => injection H as <- <- end; reflexivity). Qed.
(** Its outcomes at the first seven times. *)
Definition show (r : res (den simple)) : option (list bool) := match r with Ok (DBool f) => Some (map f (seq 0 7)) | _ => None end.
Example example_outcomes :
  map show (outcomes simple (run simple (structs_of example) (enums_of example) example_inputs example)) =
  [Some [true; true; true; false; true; true; true]; None; None;
   Some [false; false; false; true; true; true; true]; Some [true; true; true; false; true; true; true];
   Some [false; false; false; true; true; true; true];
   Some [true; false; true; false; true; false; true]; Some [false; false; false; true; true; true; true]].
Proof. vm_compute. reflexivity. Qed.

(** ** Programs that should not be accepted *)
Definition one (e : tx) : list section := [
  Enums [(10, [(11, XInt 11); (12, XInt 12)])];
  Structs [(20, [(21, TBool); (22, TInt)])];
  Input [(1, TBool); (2, TInt); (3, TStruct 10); (4, TArray TBool (Some 3))];
  Define [(30, XVar 11)];
  Specs true [Formula 40 e]].
Definition witness (g : gap) : tx :=
  match g with
  | NotANumber => XRel REq (XAr2 Add (XSig 1) (XSig 1)) (XBool true)           (* bool + bool *)
  | NotOrdered => XRel RLt (XSig 1) (XBool true)                               (* bool < bool *)
  | OutOfRange => XIdx (XVar 4) 3                                              (* of three elements *)
  | Arity => XAcc (XNew 20 [XSig 1]) 21
  | OutOfScope => XLog LAnd (XQuant ForEach 50 (XVar 4) (XVar 50)) (XVar 50)   (* the bound variable outside *)
  | ZeroModulus => XRel REq (XAr2 Mod (XSig 2) (XInt 0)) (XInt 1)
  | NamedInitial => XRel REq (XPrev (XVar 30) (XSig 3)) (XSig 3)
  end.
Definition is_gap (g : gap) {A} (o : res A) : bool :=
  match o, g with
  | Gap NotANumber, NotANumber | Gap NotOrdered, NotOrdered | Gap OutOfRange, OutOfRange | Gap Arity, Arity
  | Gap OutOfScope, OutOfScope | Gap ZeroModulus, ZeroModulus | Gap NamedInitial, NamedInitial => true
  | _, _ => false
  end.
Lemma is_gap_In {A} g (os : list (res A)) : existsb (is_gap g) os = true -> In (Gap g) os.
Proof.
  rewrite existsb_exists. intros (o & I & H). replace (Gap g) with o; [exact I|].
  destruct o as [a|h|]; try discriminate; destruct h, g; discriminate || reflexivity.
Qed.
(** Each of these gaps is real. *)
Theorem C35_gaps_refuted : forall g, exists p (inp : nat -> den simple),
  names_distinct p /\
  (forall x t, In (x, t) (inputs_of p) -> belongs simple (structs_of p) (enums_of p) (inp x) t = true) /\
  accepted true p = true /\
  In (Gap g) (outcomes simple (run simple (structs_of p) (enums_of p) inp p)).
Proof.
  intros g; exists (one (witness g)), example_inputs. split; [destruct g; distinct|]. split.
  - cbn; intros x t I; intuition (match goal with H : (_, _) = _ |- _ => injection H as <- <- end; reflexivity).
  - split; [destruct g; vm_compute; reflexivity|]. apply is_gap_In. destruct g; vm_compute; reflexivity.
Qed.

(** A definition brings a past-time operator into a future-time specification. *)
Theorem C35_mixed_time_refuted : exists p ft l i x e,
  names_distinct p /\ accepted false p = true /\ In (Specs ft l) p /\ In i l /\
  (exists y f, i = Formula y f /\ In x (uses f)) /\ In (x, e) (defs_of p) /\
  exists k, In k (times e) /\ k <> section_time ft.
Proof.
  exists [Input [(1, TBool)]; Define [(30, XT1 H 0 1 (XSig 1))]; Specs true [Formula 40 (XT1 G 0 1 (XVar 30))]],
         true, [Formula 40 (XT1 G 0 1 (XVar 30))], (Formula 40 (XT1 G 0 1 (XVar 30))), 30, (XT1 H 0 1 (XSig 1)).
  split; [distinct|]. vm_compute. repeat split; auto.
  - exists 40, (XT1 G 0 1 (XVar 30)); auto.
  - exists Past; split; [auto|discriminate].
Qed.
(** A definition of a future-time property is refused before the first
    future-time section, and accepted after it. *)
Theorem C35_definition_place_refuted : exists before after,
  accepted false (before ++ after) = true /\ accepted false (after ++ before) = false /\
  defs_of before = [] /\ (exists e, defs_of after = [(30, e)] /\ forall x, In x (uses e) -> ~ In x (declared before)).
Proof.
  exists [Specs true [Formula 40 (XBool true)]], [Input [(1, TBool)]; Define [(30, XT1 G 0 1 (XSig 1))]; Specs true [Formula 41 (XVar 30)]].
  vm_compute. repeat split. exists (XT1 G 0 1 (XSig 1)); split; [reflexivity|intros x []].
Qed.
(** One name declared in two sections. *)
Theorem C35_duplicate_refuted : exists p, accepted true p = true /\ ~ NoDup (declared p).
Proof.
  exists [Input [(1, TBool)]; Define [(1, XBool true)]; Structs [(1, [])]; Specs true [Formula 1 (XSig 1)]].
  split; [reflexivity|]. intros N; inversion N; subst. apply H1; left; reflexivity.
Qed.
(** Numbers are accepted without the Booleanizer: the time, constants, and the
    elements of an integer array (a single integer input is refused). *)
Theorem C35_numbers_refuted :
  (exists p e, accepted false p = true /\ In e (exprs_of p) /\ numeric e = true) /\
  (exists p, accepted false p = true /\ inputs_of p = [(1, TArray TInt (Some 2))] /\ exprs_of p = [XRel REq (XIdx (XVar 1) 0) (XIdx (XVar 1) 1)]) /\
  accepted false [Input [(1, TInt); (2, TInt)]; Specs true [Formula 40 (XRel REq (XSig 1) (XSig 2))]] = false.
Proof.
  split; [|split].
  - exists [Specs true [Formula 40 (XRel REq XTime (XInt 5))]], (XRel REq XTime (XInt 5)). vm_compute; auto.
  - exists [Input [(1, TArray TInt (Some 2))]; Specs true [Formula 40 (XRel REq (XIdx (XVar 1) 0) (XIdx (XVar 1) 1))]]. vm_compute; auto.
  - reflexivity.
Qed.

Print Assumptions C35_sound_partial.
Print Assumptions C35_times.
Print Assumptions C35_booleanizer.
Print Assumptions C35_gaps_refuted.
Print Assumptions C35_mixed_time_refuted.
Print Assumptions C35_definition_place_refuted.
Print Assumptions C35_duplicate_refuted.
Print Assumptions C35_numbers_refuted.
