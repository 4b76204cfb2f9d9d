(** * Assembly generation (model)

    compiler/c2po/assemble.py 402-832 and scq.py 5-43, on the shared graph of
    Graph.v.  [cls n] gives the attributes of node [n] that the assembler looks
    at besides its children. *)
From Coq Require Import List Arith ZArith Bool.
Require Import Verif.Graph Verif.Binary.
Import ListNotations.
Local Open Scope Z_scope.

(** Operators of the temporal engine (cpt.py OperatorKind). *)
Inductive opkind :=
| OpGlobal | OpFuture | OpUntil | OpRelease | OpOnce | OpHist | OpSince | OpTrigger
| OpNot | OpAnd | OpOr | OpImplies | OpEquiv | OpXor.

(** FT_OPERATOR_MAP, assemble.py 194-205; [None] is a KeyError. *)
Definition ft_code (o : opkind) : option Z :=
  match o with
  | OpGlobal => Some 26 | OpFuture => Some 27 | OpUntil => Some 25 | OpRelease => Some 24
  | OpNot => Some 23 | OpAnd => Some 22 | OpOr => Some 21 | OpImplies => Some 20
  | OpEquiv => Some 16 | OpXor => Some 17
  | OpOnce | OpHist | OpSince | OpTrigger => None
  end.
(** PT_OPERATOR_MAP, lines 237-249. *)
Definition pt_code (o : opkind) : option Z :=
  match o with
  | OpOnce => Some 11 | OpHist => Some 10 | OpSince => Some 9 | OpTrigger => Some 8
  | OpNot => Some 23 | OpAnd => Some 22 | OpOr => Some 21 | OpImplies => Some 20
  | OpEquiv => Some 16 | OpXor => Some 17
  | OpGlobal | OpFuture | OpUntil | OpRelease => None
  end.
Definition op_config : Z := 30.
Definition op_load : Z := 29.
Definition op_return : Z := 28.
Definition op_store : Z := 5.
Definition op_prev : Z := 39.
Definition op_ts : Z := 40.
(** TLOperandType, lines 161-165. *)
Definition type_atomic : Z := 0.
Definition type_direct : Z := 1.
Definition type_sub : Z := 2.
Definition type_none : Z := 3.

(** Classes of nodes that are left after desugaring. *)
Inductive nclass :=
| CSignal (aid : Z)               (* Signal read by the temporal engine (no booleanizer) *)
| CBool (b : bool)                (* Constant of type bool *)
| COp (o : opkind)                (* logical operator *)
| CTemporal (o : opkind) (lb ub : Z)
| CFormula (number : Z)
| CSet                            (* SpecificationSet *)
| CAtomic (aid : Z)               (* Atomic: result of the booleanizer *)
| CBzLoad (code sid : Z)          (* Signal read by the booleanizer: ILOAD or FLOAD *)
| CBzConst (code : Z) (v : bz_operand) (* numeric Constant *)
| CTimestamp                      (* CurrentTimestamp *)
| CBz (code : Z).                 (* booleanizer operator, opcode from its type *)

(** The [engine] attribute. *)
Inductive engine := EngNone | EngTl | EngBz.
Definition engine_of (c : nclass) : engine :=
  match c with
  | CSignal _ => EngNone
  | CBool _ | COp _ | CTemporal _ _ _ | CFormula _ | CSet => EngTl
  | CAtomic _ | CBzLoad _ _ | CBzConst _ _ | CTimestamp | CBz _ => EngBz
  end.
(** [context.atomic_id_map], atomics.py 4-75. *)
Definition atomic_id (c : nclass) : option Z :=
  match c with CSignal a | CAtomic a => Some a | _ => None end.
Definition is_constant (c : nclass) : bool :=
  match c with CBool _ | CBzConst _ _ => true | _ => false end.

(** ** Python dictionaries keyed by nodes: insertion order, an update keeps the
    position of the key. *)
Definition dict (V : Type) := list (nat * V).
Fixpoint dict_get {V} (d : dict V) (n : nat) : option V :=
  match d with
  | [] => None
  | (k, v) :: d => if (k =? n)%nat then Some v else dict_get d n
  end.
Fixpoint dict_set {V} (d : dict V) (n : nat) (v : V) : dict V :=
  match d with
  | [] => [(n, v)]
  | (k, w) :: d => if (k =? n)%nat then (k, v) :: d else (k, w) :: dict_set d n v
  end.
Definition dict_pop {V} (d : dict V) (n : nat) : dict V := filter (fun p => negb (fst p =? n)%nat) d.
Definition values {V} (d : dict V) : list V := map snd d.
Definition size_of {V} (d : dict V) : Z := Z.of_nat (length d).

(** A CGInstruction, lines 383-400. *)
Inductive cgtype := SCQ | TEMP.
Notation cg_instruction := (cgtype * tl_instruction)%type.

Definition bool_value (b : bool) : Z := if b then 1 else 0.

Section Gen.
Variable h : heap.
Variable cls : nat -> nclass.
(** [expr.scq[1] - expr.scq[0]], the queue size of a node. *)
Variable size : nat -> Z.

(** gen_tl_operand, lines 479-492.  A numeric constant is never an operand of a
    temporal instruction (type_check.py), so only bool constants are direct. *)
Definition gen_operand (d : dict tl_instruction) (o : option nat) : Z * Z :=
  match o with
  | None => (type_none, 0)
  | Some c =>
      match cls c with
      | CBool b => (type_direct, bool_value b)
      | _ => match dict_get d c with
             | Some i => (type_sub, tl_id i)
             | None => (type_none, 0)
             end
      end
  end.

(** gen_ft_instruction, lines 495-550 ([offset] 0), and gen_pt_instruction,
    lines 553-603; they differ in the operator map.  [None]: the error return or
    an exception (missing key, constant formula). *)
Definition gen_tl (code : opkind -> option Z) (offset : Z) (d : dict tl_instruction) (e : nat)
  : option tl_instruction :=
  let id := size_of d + offset in
  let operator o :=
    match code o, nchildren (h e) with
    | None, _ => None
    | Some c, [] => Some (TlInstruction c type_none 0 type_none 0 id)
    | Some c, [x] => let '(t1, v1) := gen_operand d (Some x) in
                     Some (TlInstruction c t1 v1 type_none 0 id)
    | Some c, [x; y] => let '(t1, v1) := gen_operand d (Some x) in
                        let '(t2, v2) := gen_operand d (Some y) in
                        Some (TlInstruction c t1 v1 t2 v2 id)
    | Some c, _ => None
    end in
  match cls e with
  | CFormula number =>
      match nchildren (h e) with
      | [x] =>
          match cls x, dict_get d x with
          | CBool _, _ => None
          | _, Some i => Some (TlInstruction op_return type_sub (tl_id i) type_direct number id)
          | _, None => None
          end
      | _ => None
      end
  | COp o | CTemporal o _ _ => operator o
  | _ => None
  end.

(** gen_ft_scq_instructions and gen_pt_scq_instructions, lines 606-719. *)
Definition gen_cg (e : nat) (id : Z) : list cg_instruction :=
  match cls e with
  | CTemporal _ lb ub =>
      [ (SCQ, TlInstruction op_config type_atomic (size e) type_atomic 0 id);
        (TEMP, TlInstruction op_config type_sub lb type_sub ub id) ]
  | _ => [ (SCQ, TlInstruction op_config type_atomic (size e) type_none 0 id) ]
  end.

(** gen_bz_instruction, lines 402-476. *)
Definition gen_bz (d : dict bz_instruction) (e : nat) : option bz_instruction :=
  let id := size_of d in
  let ref c := option_map (fun i => BzInt (bz_id i)) (dict_get d c) in
  match cls e, nchildren (h e) with
  | CBzLoad code sid, _ => Some (BzInstruction code (BzInt sid) 0 id)
  | CBzConst code v, _ => Some (BzInstruction code v 0 id)
  | CTimestamp, _ => Some (BzInstruction op_ts (BzInt 0) 0 id)
  | CAtomic aid, c :: _ => option_map (fun r => BzInstruction op_store r aid id) (ref c)
  | CBz code, [c] => option_map (fun r => BzInstruction code r 0 id) (ref c)
  | CBz code, [c1; c2] =>
      match ref c1, dict_get d c2 with
      | Some r, Some i2 => Some (BzInstruction code r (bz_id i2) id)
      | _, _ => None
      end
  | CBz code, _ => Some (BzInstruction code (BzInt 0) 0 id)
  | _, _ => None
  end.

(** State of the two loops of gen_assembly; [g_tl] is ft_instructions or
    pt_instructions, [g_scqs] the counter ft_scqs. *)
Record gen := Gen { g_bz : dict bz_instruction; g_tl : dict tl_instruction;
                    g_cg : dict (list cg_instruction); g_scqs : Z }.

(** cpt.py 106-113 has_only_tl_parents.  The parents of a node are the nodes of
    the program having it as a child. *)
Definition only_tl_parents (nodes : list nat) (e : nat) : bool :=
  forallb (fun p => negb (existsb (Nat.eqb e) (nchildren (h p))) ||
                    match engine_of (cls p) with EngTl => true | _ => false end) nodes.

(** Body of the loops, lines 733-766 and 768-799. *)
Definition gen_node (nodes : list nat) (code : opkind -> option Z) (offset : Z) (st : gen) (e : nat) : option gen :=
  match cls e with
  | CSet => Some st
  | c =>
      let st :=
        match atomic_id c with
        | Some a =>
            let id := size_of (g_tl st) + offset in
            Gen (g_bz st) (dict_set (g_tl st) e (TlInstruction op_load type_atomic a type_none 0 id))
                (dict_set (g_cg st) e (gen_cg e id)) (g_scqs st + 1)
        | None => st
        end in
      if is_constant c && only_tl_parents nodes e then Some st
      else
        match engine_of c with
        | EngBz => option_map (fun i => Gen (dict_set (g_bz st) e i) (g_tl st) (g_cg st) (g_scqs st)) (gen_bz (g_bz st) e)
        | EngTl =>
            option_map (fun i => Gen (g_bz st) (dict_set (g_tl st) e i) (dict_set (g_cg st) e (gen_cg e (tl_id i)))
                                     (g_scqs st + 1))
                       (gen_tl code offset (g_tl st) e)
        | EngNone => Some st
        end
  end.
Fixpoint gen_nodes (nodes : list nat) (code : opkind -> option Z) (offset : Z) (es : list nat) (st : gen) : option gen :=
  match es with
  | [] => Some st
  | e :: es => match gen_node nodes code offset st e with
               | None => None
               | Some st => gen_nodes nodes code offset es st
               end
  end.

(** Lines 801-805: PREV instructions move to the end. *)
Definition move_prev (d : dict bz_instruction) : dict bz_instruction :=
  fold_left (fun d k =>
    match dict_get d k with
    | Some i => if bz_operator i =? op_prev then dict_set (dict_pop d k) k i else d
    | None => d
    end) (map fst d) d.

(** Lines 807-817: the while loop; [n] is [end_of_instructions - idx]. *)
Fixpoint move_temp (n idx : nat) (l : list cg_instruction) : list cg_instruction :=
  match n with
  | O => l
  | S n =>
      match nth_error l idx with
      | Some (TEMP, i) => move_temp n idx (firstn idx l ++ skipn (S idx) l ++ [(TEMP, i)])
      | _ => move_temp n (S idx) l
      end
  end.

(** gen_assembly, lines 721-832; [fts] and [pts] are the postorders of the two
    specification sets.  ft_scqs does not change in the second loop. *)
Definition gen_assembly_of (fts pts : list nat) : option (list instruction) :=
  let nodes := fts ++ pts in
  match gen_nodes nodes ft_code 0 fts (Gen [] [] [] 0) with
  | None => None
  | Some st =>
      match gen_nodes nodes pt_code (g_scqs st) pts (Gen (g_bz st) [] (g_cg st) (g_scqs st)) with
      | None => None
      | Some st' =>
          let cgs := concat (values (g_cg st')) in
          Some (map IBz (values (move_prev (g_bz st'))) ++ map ITl (values (g_tl st)) ++
                map ITl (values (g_tl st')) ++ map (fun c => ICg (snd c)) (move_temp (length cgs) 0 cgs))
      end
  end.
End Gen.

(** ** Queue sizes: scq.py 5-43 *)
(** [wpd] and [bpd] are the delay attributes of the nodes.  Siblings (cpt.py
    61-70) are taken over the parents in the program; parents left over from
    replaced nodes could only enlarge the queue. *)
Definition siblings (h : heap) (nodes : list nat) (n : nat) : list nat :=
  flat_map (fun p => if existsb (Nat.eqb n) (nchildren (h p))
                     then filter (fun c => negb (c =? n)%nat) (nchildren (h p)) else []) nodes.
Definition scq_size (h : heap) (cls : nat -> nclass) (wpd bpd : nat -> Z) (const : Z) (nodes : list nat) (n : nat) : Z :=
  match cls n with
  | CFormula _ => 1 + const
  | CBool _ => 0
  | _ => Z.max (fold_right Z.max 0 (map wpd (siblings h nodes n)) - bpd n) 0 + 1 + const
  end.

(** compute_scq_sizes followed by gen_assembly; [ft] and [pt] are the set
    nodes. *)
Definition gen_assembly (fuel : nat) (h : heap) (cls : nat -> nclass) (wpd bpd : nat -> Z) (const : Z) (ft pt : nat)
  : option (list instruction) :=
  match postorder fuel h [ft], postorder fuel h [pt] with
  | Some fts, Some pts =>
      gen_assembly_of h cls (scq_size h cls wpd bpd const (fts ++ pts)) fts pts
  | _, _ => None
  end.
