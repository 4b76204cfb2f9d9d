(** * Contracts and the names in reports (model)

    parse_c2po.py 360-396, cpt.py 1073-1106 and 1310-1376, type_check.py 11-38,
    desugar.py 94-137, assemble.py 985-1015, and in the C monitor the tables of
    names (process_binary.c 68-125) and the lines printed for a report
    (engines/aux_info.c). *)
From Coq Require Import List Arith NArith Bool String.
Require Import Verif.Mltl Verif.Scq Verif.Engine Verif.MapFile.
Import ListNotations.
Local Open Scope string_scope.

(** ** Parsing *)
(** What stands in a specification section. *)
Inductive decl :=
| DFormula (label : option string) (e : expr)
| DContract (label : string) (a g : expr).
Inductive spec :=
| Formula (label : string) (num : nat) (e : expr)
| Contract (label : string) (n0 n1 n2 : nat) (a g : expr).
(** fresh_label, lines 160-162. *)
Definition fresh_label (n : nat) : string := "__f" ++ string_of_list_ascii (dec (N.of_nat n)) ++ "__".
(** Lines 368-396: the specification and the next number. *)
Definition parse_spec (n : nat) (d : decl) : spec * nat :=
  match d with
  | DFormula None e => (Formula (fresh_label n) n e, n + 1)
  | DFormula (Some l) e => (Formula l n e, n + 1)
  | DContract l a g => (Contract l n (n + 1) (n + 2) a g, n + 3)
  end.
Fixpoint parse_specs (n : nat) (ds : list decl) : list spec * nat :=
  match ds with
  | [] => ([], n)
  | d :: ds => let (s, n1) := parse_spec n d in let (r, n2) := parse_specs n1 ds in (s :: r, n2)
  end.
(** Sections in file order; [true] is FTSPEC. *)
Notation section := (bool * list decl)%type.
Fixpoint parse_sections (n : nat) (ss : list section) : list (bool * list spec) :=
  match ss with
  | [] => []
  | (ft, ds) :: ss => let (l, n1) := parse_specs n ds in (ft, l) :: parse_sections n1 ss
  end.

(** ** Prog *)
(** Program.__init__, cpt.py 1313-1326. *)
Record program := Prog { ft_specs : list spec; pt_specs : list spec }.
Definition program_of (ss : list (bool * list spec)) : program :=
  Prog (flat_map (fun s : bool * list spec => if fst s then snd s else []) ss)
          (flat_map (fun s : bool * list spec => if fst s then [] else snd s) ss).
Definition get_specs (p : program) : list spec := (ft_specs p ++ pt_specs p)%list.

(** context.contracts after type checking: a dict, in insertion order; a label
    used again keeps its place and gets the new contract (cpt.py 1561). *)
Record entry := Entry { e_label : string; e_0 : nat; e_1 : nat; e_2 : nat }.
Fixpoint add_contract (t : list entry) (c : entry) : list entry :=
  match t with
  | [] => [c]
  | x :: t => if e_label x =? e_label c then c :: t else x :: add_contract t c
  end.
Definition contract_entry (s : spec) : list entry :=
  match s with Contract l n0 n1 n2 _ _ => [Entry l n0 n1 n2] | _ => [] end.
Definition contract_table (ss : list (bool * list spec)) : list entry :=
  fold_left add_contract (flat_map contract_entry (flat_map snd ss)) [].

(** ** resolve_contracts, desugar.py 100-136 *)
Definition new_formulas (s : spec) : list spec :=
  match s with
  | Contract l n0 n1 n2 a g =>
      [Formula ("__" ++ l ++ "_active__") n0 a;
       Formula ("__" ++ l ++ "_valid__") n1 (EImpl a g);
       Formula ("__" ++ l ++ "_verified__") n2 (EAnd [a; g])]
  | _ => []
  end.
Definition is_contract (s : spec) : bool := match s with Contract _ _ _ _ _ _ => true | _ => false end.
(** [==] with a contract: Contract.__eq__, cpt.py 1095-1096. *)
Definition spec_eq (x c : spec) : bool :=
  match x, c with
  | Contract l _ _ _ _ _, Contract l' _ _ _ _ _ => l =? l'
  | _, _ => false
  end.
(** children[index(c) : index(c)+1] = new; [None] is the ValueError. *)
Fixpoint splice (l : list spec) (c : spec) (new : list spec) : option (list spec) :=
  match l with
  | [] => None
  | x :: l => if spec_eq x c then Some (new ++ l)%list else option_map (cons x) (splice l c new)
  end.
(** Program.replace_spec, cpt.py 1362-1369. *)
Definition replace_spec (p : program) (c : spec) (new : list spec) : option program :=
  match splice (ft_specs p) c new with
  | Some l => Some (Prog l (pt_specs p))
  | None => option_map (Prog (ft_specs p)) (splice (pt_specs p) c new)
  end.
Fixpoint resolve_loop (p : program) (cs : list spec) : option program :=
  match cs with
  | [] => Some p
  | c :: cs => match replace_spec p c (new_formulas c) with Some p => resolve_loop p cs | None => None end
  end.
Definition resolve_contracts (p : program) : option program :=
  resolve_loop p (filter is_contract (get_specs p)).

(** ** Names in the monitor *)
(** The 'F' records in file order, assemble.py 988-1006. *)
Definition formula_names (p : program) : list string :=
  flat_map (fun s => match s with Formula l _ _ => [l] | _ => [] end) (get_specs p).
(** Contract records the C loader counts: it stops when the next one would not
    fit, before counting the current one (process_binary.c 90-105). *)
Definition loaded_contracts (bound : nat) (t : list entry) : list entry := firstn (bound - 1) t.
(** r2u2_aux_formula_report: the name printed with a report. *)
Definition printed_name (names : list string) (num : nat) : option string := nth_error names num.
(** r2u2_aux_contract_report. *)
Inductive status := Inactive | Invalid | Verified.
Fixpoint contract_line (t : list entry) (r : nat * verdict) : list (string * status * nat) :=
  match t with
  | [] => []
  | e :: t =>
      let (num, v) := r in let (truth, time) := v in
      if (num =? e_0 e)%nat && negb truth then [(e_label e, Inactive, time)]
      else if (num =? e_1 e)%nat && negb truth then [(e_label e, Invalid, time)]
      else if (num =? e_2 e)%nat && truth then [(e_label e, Verified, time)]
      else contract_line t r
  end.
Definition contract_lines (t : list entry) (out : list (nat * verdict)) : list (string * status * nat) :=
  flat_map (contract_line t) out.
