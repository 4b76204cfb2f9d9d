(** * What the "check_sat" command is relied on for *)
From Coq Require Import List Arith ZArith Bool String Ascii.
From Verif Require Import Mltl MltlShape SmtSpec Smt SatCommand.
Import ListNotations.
Local Open Scope nat_scope.

(** The formulas among the specifications. *)
Fixpoint bodies (specs : list spec) : list expr :=
  match specs with
  | [] => []
  | (_, Some e) :: rest => e :: bodies rest
  | (_, None) :: rest => bodies rest
  end.
Fixpoint labels (specs : list spec) : list nat :=
  match specs with
  | [] => []
  | (n, Some _) :: rest => n :: labels rest
  | (_, None) :: rest => labels rest
  end.
(** One trace meets them all. *)
Definition together (es : list expr) : Prop := exists tr, forall e, In e es -> sat tr e 0.

(** A line of output. *)
Definition line (s : string) : string := s ++ String "010" EmptyString.
(** A solver that answers a query with one word, and whose "sat" and "unsat" are
    right; it may also fail in any way. *)
Definition honest (query : Prop) (p : process) : Prop :=
  match p with
  | Ended 0 out =>
      out = line "sat" /\ query \/ out = line "unsat" /\ ~ query \/ out = line "unknown"
  | _ => True
  end.
(** The formulas the solver is asked about. *)
Definition asked (specs : list spec) (e : expr) : Prop := In e (bodies specs) \/ e = EAnd (bodies specs).
Definition honest_for th strict (solve : expr -> process) (specs : list spec) : Prop :=
  forall e q, asked specs e -> to_smt th strict e = Some q -> honest q (solve e).
Definition answers (p : process) : Prop := exists out, p = Ended 0 out.
Definition decides (p : process) : Prop := p = Ended 0 (line "sat") \/ p = Ended 0 (line "unsat").

(** A printed or warned word is right about a claim. *)
Definition right (claim : Prop) (r : result) : Prop :=
  match r with Sat => claim | Unsat => ~ claim | _ => True end.
Definition says (m : message) (who : option nat) (r : result) : Prop := m = Shown who r \/ m = Warned who r.
Definition right_message (specs : list spec) (m : message) : Prop :=
  (forall n r, says m (Some n) r -> exists e, In (n, Some e) specs /\ right (satisfiable e) r) /\
  (forall r, says m None r -> right (together (bodies specs)) r).

(** Whom the lines on the standard output are about. *)
Fixpoint shown (ms : list message) : list (option nat) :=
  match ms with
  | [] => []
  | Shown who _ :: rest => who :: shown rest
  | _ :: rest => shown rest
  end.
