(** * Queue sizes computed by the compiler (model layer)

    compiler/c2po/scq.py 5-65, on the instruction list: each instruction is one
    expression node, and the nodes it reads are its children. *)
From Coq Require Import List Arith ZArith Bool.
Require Import Verif.Mltl Verif.Transform Verif.Scq Verif.Engine Verif.Monitoring.
Import ListNotations.

Definition operand_is (k : nat) (o : operand) : bool := match o with Sub j => j =? k | _ => false end.
(** cpt.py 61-70 get_siblings: the other children of every parent.  Only their
    wpd is used (scq.py 40). *)
Definition sibling_wpds (es : list expr) (prog : list instr) (k : nat) : list Z :=
  flat_map (fun p =>
    (if operand_is k (i_op1 p) && negb (operand_is k (i_op2 p)) then [wpd (operand_expr es (i_op2 p))] else []) ++
    (if operand_is k (i_op2 p) && negb (operand_is k (i_op1 p)) then [wpd (operand_expr es (i_op1 p))] else []))
  prog.
(** scq.py 17-43: size of the queue of instruction [k]. *)
Definition computed_size (const : nat) (es : list expr) (prog : list instr) (k : nat) (ins : instr) : nat :=
  match i_op ins with
  | RETURN => 1 + const
  | _ => Z.to_nat (Z.max (fold_right Z.max 0%Z (sibling_wpds es prog k) -
                          bpd (nth k es (EConst false))) 0) + 1 + const
  end.
(** The queue configuration: bounds from the operators, lengths as computed. *)
Definition sized (const : nat) (prog : list instr) (confs : list qconf) : list qconf :=
  map (fun p => QConf (computed_size const (exprs prog confs) prog (fst p) (fst (snd p)))
                      (c_lb (snd (snd p))) (c_ub (snd (snd p))))
      (combine (seq 0 (length prog)) (combine prog confs)).
