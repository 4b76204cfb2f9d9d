(** * C36: enum members *)
From Coq Require Import List ZArith Lia.
Require Import Verif.Enums Verif.EnumProofs.
Import ListNotations.
Local Open Scope Z_scope.

(** Full statement: [forall decl, distinct_members decl], i.e. two different
    members only have the same value if both were given it explicitly.  It is
    false: *)
Theorem C36_refuted : exists decl, NoDup (map fst decl) /\ ~ distinct_members decl.
Proof.
  exists [(0%nat, Some 1); (1%nat, None); (2%nat, None)]. split.
  - repeat constructor; cbn; intuition discriminate.
  - intros H. destruct (H 0%nat 2%nat 1) as [_ [E|[E|[E|[]]]]]; try discriminate; vm_compute; reflexivity.
Qed.
Print Assumptions C36_refuted.

(** It holds exactly when no explicit value is below the number of automatic
    members (and not negative). *)
Theorem C36_distinct_iff decl : NoDup (map fst decl) ->
  (distinct_members decl <-> (forall x v, In (x, Some v) decl -> ~ (0 <= v < automatic decl))).
Proof. exact (distinct_iff decl). Qed.
Print Assumptions C36_distinct_iff.

(** In particular for declarations without explicit values, even with repeated
    names; and every declared member has a value. *)
Theorem C36_automatic_distinct decl : (forall x v, ~ In (x, Some v) decl) ->
  forall x y v, member_value decl x = Some v -> member_value decl y = Some v -> x = y.
Proof.
  intros H x y v Hx Hy. destruct (PeanoNat.Nat.eq_dec x y) as [E|N]; [exact E|].
  destruct (distinct_if decl (fun x v Hv => False_ind _ (H x v Hv)) x y v N Hx Hy) as [F _]. destruct (H x v F).
Qed.
Print Assumptions C36_automatic_distinct.
Theorem C36_every_member decl x : In x (map fst decl) <-> exists v, member_value decl x = Some v.
Proof. exact (value_total decl x). Qed.
Print Assumptions C36_every_member.

(** Example: {A, B: 7, C} is fine, {A, B, C} gives 0, 1, 2. *)
Example C36_mixed_case :
  let decl := [(0%nat, None); (1%nat, Some 7); (2%nat, None)] in
  NoDup (map fst decl) /\ (forall x v, In (x, Some v) decl -> ~ (0 <= v < automatic decl)) /\
  member_value decl 2 = Some 1.
Proof.
  split; [repeat constructor; cbn; intuition discriminate|]. split; [|vm_compute; reflexivity].
  intros x v [E|[E|[E|[]]]] R; try discriminate. injection E as _ <-. unfold automatic in R; cbn in R. lia.
Qed.
Example C36_automatic_case :
  map (member_value [(0%nat, None); (1%nat, None); (2%nat, None)]) [0; 1; 2]%nat = [Some 0; Some 1; Some 2].
Proof. vm_compute. reflexivity. Qed.
