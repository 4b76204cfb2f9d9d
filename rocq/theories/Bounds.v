(** * Atomic and signal identifiers, and their bounds (model)

    compiler/c2po/atomics.py 4-75, map.py 72-117, trace.py 29-67,
    cpt.py 1944-1959, assemble.py 1155-1156, 1177-1187. *)
From Coq Require Import List Arith ZArith Bool.
Import ListNotations.
Local Open Scope Z_scope.

(** What compute_atomics looks at in one node of the postorder: its engine,
    whether it is a signal and with which id, whether a parent belongs to the
    temporal engine.  Constants are skipped (line 28). *)
Inductive anode :=
| ATl                                  (* computed by the temporal engine *)
| AConst
| ASignal (sid : Z) (tl_parent : bool) (* sid is -1 when not in the map *)
| ABz (tl_parent : bool).              (* computed by the booleanizer *)

(** The ids entered into atomic_id_map, in order (lines 22-62); [bz] is
    context.enable_booleanizer, [aid] the counter.  With the booleanizer,
    signals are booleanizer nodes (type_check.py sets their engine). *)
Fixpoint atomic_ids (bz : bool) (aid : Z) (nodes : list anode) : list Z :=
  match nodes with
  | [] => []
  | ATl :: nodes | AConst :: nodes => atomic_ids bz aid nodes
  | ASignal sid p :: nodes =>
      if bz then if p then aid :: atomic_ids bz (aid + 1) nodes else atomic_ids bz aid nodes
      else if sid <? 0 then aid :: atomic_ids bz (aid + 1) nodes
      else sid :: atomic_ids bz aid nodes
  | ABz p :: nodes =>
      if bz then if p then aid :: atomic_ids bz (aid + 1) nodes else atomic_ids bz aid nodes
      else atomic_ids bz aid nodes
  end.
(** R2U2_MAX_ATOMICS: len(set(atomic_id_map.values())). *)
Definition max_atomics (ids : list Z) : Z := Z.of_nat (length (nodup Z.eq_dec ids)).

(** Signal maps, by signal name (a number here).  generate_map, map.py 92-95:
    position in the list of declared signals.  A map from a trace header
    (trace.py 43-51) gives the right-most column. *)
Fixpoint generated_id (declared : list nat) (s : nat) : option Z :=
  match declared with
  | [] => None
  | d :: rest => if (d =? s)%nat then Some 0 else option_map Z.succ (generated_id rest s)
  end.
Fixpoint header_id (columns : list nat) (s : nat) : option Z :=
  match columns with
  | [] => None
  | c :: rest =>
      match header_id rest s with
      | Some i => Some (Z.succ i)
      | None => if (c =? s)%nat then Some 0 else None
      end
  end.
(** R2U2_MAX_SIGNALS with the booleanizer: len(context.signals). *)
Definition max_signals (declared : list nat) : Z := Z.of_nat (length declared).
