(** * Commands (specification) *)
From Coq Require Import List Arith ZArith Bool.
Require Import Verif.Commands.
Import ListNotations.

(** What a guard requires: itself and, transitively, its dependencies ("Traverse
    the dependency graph of guard conditions and check that all dependencies are
    met"). *)
Inductive requires : guard -> guard -> Prop :=
| req_self g : requires g g
| req_dep g d e : In d (dependencies g) -> requires d e -> requires g e.

(** One part of a composite command fails in state [s]: its guard does not hold
    and nothing happens, or it runs and does not succeed. *)
Definition part_fails (c : command) (s s' : state) (r : cresult) (calls : list call) : Prop :=
  (exists g, check_guards s c = Some g /\ s' = s /\ r = RGuard (command_name c) g /\ calls = []) \/
  (check_guards s c = None /\ execute c s = (s', r, calls) /\ r <> RCode SUCCESS).
(** The parts run one after the other, each successfully. *)
Inductive parts_succeed : list command -> state -> state -> list call -> Prop :=
| all_done s : parts_succeed [] s s []
| one_more c cs s s1 s2 l1 l2 :
    check_guards s c = None -> execute c s = (s1, RCode SUCCESS, l1) -> parts_succeed cs s1 s2 l2 ->
    parts_succeed (c :: cs) s s2 (l1 ++ l2).

(** A call was allowed: its guards and what they directly depend on held. *)
Definition allowed (c : call) : Prop :=
  forall g, In g (call_guards c) ->
    holds (fst (call_state c)) (snd (call_state c)) g = true /\
    forall d, In d (dependencies g) -> holds (fst (call_state c)) (snd (call_state c)) d = true.
(** The stronger reading. *)
Definition fully_allowed (c : call) : Prop :=
  forall g d, In g (call_guards c) -> requires g d -> holds (fst (call_state c)) (snd (call_state c)) d = true.

(** Guards of the assembler, assemble.py 1116-1127. *)
Definition assemble_guards : list guard :=
  [VALID_PROGRAM; VALID_SIGNAL_MAPPING; WELL_TYPED; DESUGARED; VALID_SCQ_SIZES; COMPUTED_ATOMICS;
   ONLY_BINARY_OPERATORS; ATOMIC_CONSISTENT_SIGNAL_MAPPING].
(** What the assembler may take for granted about every node. *)
Record assemblable (p : program) (c : context) : Prop := {
  as_real : is_dummy p = false;
  as_typed : is_well_typed p = true;
  as_plain : forall n, In n (pnodes p) -> p_sugar n = false;
  as_mapped : forall n id m, In n (pnodes p) -> p_signal n = Some (id, m) -> m = Some id;
  as_sized : forall n, In n (pnodes p) -> p_temporal n = true \/ p_aid n <> None -> (0 <= p_scq n)%Z;
  as_atomics : forall n, In n (pnodes p) -> p_atomic n = true -> p_aid n <> None;
  as_binary : forall n, In n (pnodes p) -> p_set n = false -> p_arity n <= 2;
  as_same_ids : booleanizer c = false ->
                forall n id m, In n (pnodes p) -> p_signal n = Some (id, m) -> p_aid n = Some id
}.

(** Lines run one after the other up to a state of the console. *)
Inductive runs (copy : state -> state) : console -> list line -> console -> Prop :=
| runs_nil k : runs copy k [] k
| runs_cons k l ls k1 k2 c calls :
    run_line copy k l = (Some k1, c, calls) -> runs copy k1 ls k2 -> runs copy k (l :: ls) k2.
(** Lines in which every push has its pop. *)
Inductive balanced : list line -> Prop :=
| bal_nil : balanced []
| bal_line l ls : l <> LPush -> l <> LPop -> balanced ls -> balanced (l :: ls)
| bal_nest ls ls' : balanced ls -> balanced ls' -> balanced (LPush :: ls ++ LPop :: ls').
