(** * Numeric expressions in the Rust monitor: C17, C28, C30 and C45

    The notions are those of [Prop_Booleanizer]; here the chain ends in the Rust
    loader ([rust_load]) and booleanizer ([rust_run]), and [saturated] gives the
    value of an expression: integer results that do not fit become the closest
    32-bit integer.  [rust_run] is [None] when the monitor panics.  [le] is the
    operator <= on doubles. *)
From Coq Require Import List Arith ZArith Bool Ascii Lia.
Require Import Verif.Graph Verif.GraphSpec Verif.Binary Verif.BinarySpec Verif.Assembly Verif.Layout Verif.AssemblySpec Verif.LayoutSpec.
Require Import Verif.Booleanizer Verif.BooleanizerSpec Verif.BooleanizerChain Verif.Ieee.
Require Import Verif.RustBooleanizer Verif.RustBzSpec Verif.RustBzOps Verif.RustBzArith Verif.RustBzChain.
Require Import Verif.Prop_Binary Verif.Prop_Booleanizer.
Import ListNotations.
Local Open Scope Z_scope.

(** C17 for the Rust loader: all constants that fit, float constants included. *)
Theorem C17_rust_round_trip (is : list instruction) (aux bytes : list Z) :
  Forall fits is -> Forall rust_readable is -> Forall small aux -> assemble_binary is aux = Some bytes ->
  exists acts, rust_load bytes = Some acts /\ Forall2 faithful is acts.
Proof. exact (rust_round_trip is aux bytes). Qed.
Print Assumptions C17_rust_round_trip.

(** C28 for the Rust monitor: after step [t] every atomic holds the value of its
    expression; the monitor does not panic as long as the expressions have
    values. *)
Theorem C28_rust_atomics h T cls types wpd_of bpd_of const ft pt aux :
  denotes h T -> tl_shaped h cls ->
  (forall n, reachable h [ft] n -> assemblable h cls ft_code n) ->
  (forall n, reachable h [pt] n -> assemblable h cls pt_code n) ->
  (forall n, reachable h [ft] n -> reachable h [pt] n -> engine_of (cls n) <> EngBz) ->
  numeric h cls types (in_program h ft pt) ->
  exists fuel0 asm, (forall fuel, (fuel0 <= fuel)%nat -> gen_assembly fuel h cls wpd_of bpd_of const ft pt = Some asm) /\
  forall bytes, Forall fits asm -> Forall small aux -> assemble_binary asm aux = Some bytes ->
  exists acts, rust_load bytes = Some acts /\
    forall F le inp, typed types inp ->
      (forall t s, Z.of_nat t < 2 ^ 31 -> rust_run F le acts inp (S t) = Some s ->
         forall n aid x e v, in_program h ft pt n -> cls n = CAtomic aid -> nchildren (h n) = [x] -> stands h cls types x e true ->
         saturated F le inp t e (VInt v) -> rust_atomics s aid = negb (v =? 0)) /\
      (forall t, Z.of_nat t <= 2 ^ 31 ->
         (forall t' n e int, (t' < t)%nat -> in_program h ft pt n -> stands h cls types n e int -> exists v, saturated F le inp t' e v) ->
         exists s, rust_run F le acts inp t = Some s).
Proof. exact (rust_values_chain h T cls types wpd_of bpd_of const ft pt aux). Qed.
Print Assumptions C28_rust_atomics.

Theorem C28_rust_values_unique F le inp t e v w : saturated F le inp t e v -> saturated F le inp t e w -> v = w.
Proof. intros H1 H2. exact (saturated_unique F le inp t e v H1 w H2). Qed.
Print Assumptions C28_rust_values_unique.

(** C45: the monitor reports overflow after a step only if some integer operation
    of the program overflowed at this step; if the program has a single
    arithmetic instruction, exactly if that one did.  Full claim: always exactly
    if some operation did; false (below) when a later instruction does not. *)
Theorem C45_overflow_reports_partial h T cls types wpd_of bpd_of const ft pt aux :
  denotes h T -> tl_shaped h cls ->
  (forall n, reachable h [ft] n -> assemblable h cls ft_code n) ->
  (forall n, reachable h [pt] n -> assemblable h cls pt_code n) ->
  (forall n, reachable h [ft] n -> reachable h [pt] n -> engine_of (cls n) <> EngBz) ->
  numeric h cls types (in_program h ft pt) ->
  exists fuel0 asm, (forall fuel, (fuel0 <= fuel)%nat -> gen_assembly fuel h cls wpd_of bpd_of const ft pt = Some asm) /\
  forall bytes, Forall fits asm -> Forall small aux -> assemble_binary asm aux = Some bytes ->
  exists acts, rust_load bytes = Some acts /\
    forall F le inp, typed types inp ->
      (forall t s, Z.of_nat t < 2 ^ 31 ->
         (forall t' n e int, (t' <= t)%nat -> in_program h ft pt n -> stands h cls types n e int -> exists v, saturated F le inp t' e v) ->
         rust_run F le acts inp (S t) = Some s -> rust_overflow s = true ->
         exists n e int, in_program h ft pt n /\ stands h cls types n e int /\ overflows F le inp t e) /\
      (forall t s n code e int, Z.of_nat t < 2 ^ 31 ->
         (forall n e int, in_program h ft pt n -> stands h cls types n e int -> exists v, saturated F le inp t e v) ->
         rust_run F le acts inp (S t) = Some s ->
         in_program h ft pt n -> cls n = Assembly.CBz code -> arithmetic code -> stands h cls types n e int ->
         (forall m code', in_program h ft pt m -> cls m = Assembly.CBz code' -> arithmetic code' -> m = n) ->
         (rust_overflow s = true <-> overflows F le inp t e)).
Proof. exact (rust_overflow_chain h T cls types wpd_of bpd_of const ft pt aux). Qed.
Print Assumptions C45_overflow_reports_partial.

(** C30 for numeric expressions: where every integer operation has an exact
    result and no comparison of floats depends on the tolerance, the two monitors
    hand the same atomics to the temporal engine and the Rust monitor reports no
    overflow. *)
Theorem C30_booleanizers_agree h T cls types wpd_of bpd_of const ft pt aux :
  denotes h T -> tl_shaped h cls ->
  (forall n, reachable h [ft] n -> assemblable h cls ft_code n) ->
  (forall n, reachable h [pt] n -> assemblable h cls pt_code n) ->
  (forall n, reachable h [ft] n -> reachable h [pt] n -> engine_of (cls n) <> EngBz) ->
  numeric h cls types (in_program h ft pt) ->
  exists fuel0 asm, (forall fuel, (fuel0 <= fuel)%nat -> gen_assembly fuel h cls wpd_of bpd_of const ft pt = Some asm) /\
  forall bytes, Forall fits asm -> Forall small aux -> assemble_binary asm aux = Some bytes ->
  exists acts racts, load bytes = Some acts /\ rust_load bytes = Some racts /\
    forall F le inp t, typed types inp -> Z.of_nat t <= 2 ^ 31 ->
      (forall t' n e int, (t' < t)%nat -> in_program h ft pt n -> stands h cls types n e int -> exists v, exact F le inp t' e v) ->
      exists s r, bz_run F (fst (bz_load acts)) (snd (bz_load acts)) inp t = Some s /\ rust_run F le racts inp t = Some r /\
        rust_overflow r = false /\
        forall n aid x e, (0 < t)%nat -> in_program h ft pt n -> cls n = CAtomic aid -> nchildren (h n) = [x] -> stands h cls types x e true ->
          atomic_buffer s aid = rust_atomics r aid.
Proof. exact (booleanizers_agree h T cls types wpd_of bpd_of const ft pt aux). Qed.
Print Assumptions C30_booleanizers_agree.

(** ** Examples *)
(** The program of Prop_Binary; a float constant with bit 31 set, which C17
    excludes, is fine here. *)
Example C17_rust_ex :
  let is := float_constant 5 0x3FB999999999999A :: ex_program in
  Forall fits is /\ Forall rust_readable is /\ Forall small [65; 66; 0] /\
  match assemble_binary is [65; 66; 0] with
  | Some bytes => option_map (@List.length action) (rust_load bytes) = Some 12%nat
  | None => False
  end.
Proof.
  split; [|split; [|split]]; [| | |vm_compute; reflexivity].
  - repeat apply Forall_cons; try apply Forall_nil; repeat split; vm_compute; first [reflexivity|intros; discriminate].
  - repeat apply Forall_cons; try apply Forall_nil; try exact I; eexists; (split; [reflexivity|]) || reflexivity;
      vm_compute; first [reflexivity|intros; discriminate].
  - repeat (apply Forall_cons; [vm_compute; split; [intros; discriminate|reflexivity]|]). apply Forall_nil.
Qed.

(** The graph of [Prop_Booleanizer]; node 8, y + 1, is its only arithmetic
    instruction.  At step 0, y = 2^31 - 1 and the sum saturates. *)
Definition rust_rows (F : float_ops) (le : Z -> Z -> bool) (asm : option (list instruction)) (inp : nat -> Z -> value) (n : nat) (as_ : list Z)
  : option (list (list bool * bool)) :=
  match asm with
  | Some asm =>
      match assemble_binary asm [] with
      | Some bytes =>
          match rust_load bytes with
          | Some acts =>
              fold_right (fun t l => match rust_run F le acts inp (S t), l with
                                     | Some s, Some l => Some ((map (rust_atomics s) as_, rust_overflow s) :: l)
                                     | _, _ => None end) (Some []) (seq 0 n)
          | None => None
          end
      | None => None
      end
  | None => None
  end.
Definition none_le (_ _ : Z) : bool := false.
Example C28_rust_case :
  rust_rows no_floats none_le (gen_assembly 100 bzg bz_cls (fun _ => 0) (fun _ => 0) 2 0 1) bz_inputs 4 [0; 1; 2] =
  Some [([false; true; false], true); ([true; true; false], false); ([true; false; true], false); ([false; false; true], false)].
Proof. vm_compute. reflexivity. Qed.
Example C45_single : forall m code, reachable bzg [0%nat] m -> bz_cls m = Assembly.CBz code -> arithmetic code -> m = 8%nat.
Proof.
  intros m code R C A. apply bz_reach in R. cbn in R.
  repeat (destruct R as [<-|R]; [try discriminate C; try reflexivity; injection C as <-; cbn in A; intuition discriminate|]). easy.
Qed.
Example C45_overflow : overflows no_floats none_le bz_inputs 0 y1 /\ ~ overflows no_floats none_le bz_inputs 1 y1.
Proof.
  split.
  - exists 2147483647, 1. split; [apply (s_signal _ _ bz_inputs 0 1)|]. split; [apply s_value|]. unfold overflow2, int32. lia.
  - intros (a & b & H1 & H2 & O).
    pose proof (saturated_unique _ _ _ _ _ _ H1 _ (s_signal _ _ _ 1%nat 1)) as E1. vm_compute in E1. injection E1 as ->.
    pose proof (saturated_unique _ _ _ _ _ _ H2 _ (s_value _ _ _ 1%nat (VInt 1))) as E2. injection E2 as ->.
    unfold overflow2, int32 in O. lia.
Qed.
Example C30_exact : exact no_floats none_le bz_inputs 2 (NBinary Gt (NPrev (VInt 2) y1) two) (VInt 1).
Proof.
  apply (x_binary_int _ _ _ 2 Gt _ _ 6 2 1); [|apply x_value|left; split; [lia|reflexivity]|intros []].
  apply x_prev_later. apply (x_binary_int _ _ _ 1 Add _ _ 5 1 6); [apply (x_signal _ _ bz_inputs 1 1)|apply x_value| |].
  - split; [unfold int32; lia|]. exists 0. lia.
  - cbn. unfold int32. lia.
Qed.

(** ** Where the claims fail *)
(** One specification: an atomic that compares nodes 5 and 6. *)
Definition cg (k5 k6 : list nat) (n : nat) : node :=
  match n with
  | 0%nat => Node KSet (sym 0) [2%nat]
  | 1%nat => Node KSet (sym 1) []
  | 2%nat => Node KFormula (sym 2) [3%nat]
  | 3%nat => Node KOp (sym 3) [4%nat]
  | 4%nat => Node KOp (sym 4) [5; 6]%nat
  | 5%nat => Node (if k5 then KLeaf else KOp) (sym 5) k5
  | 6%nat => Node (if k6 then KLeaf else KOp) (sym 6) k6
  | _ => Node KLeaf (sym n) []
  end.
Definition cg_cls (l : list nclass) (n : nat) : nclass :=
  match n with
  | 0%nat | 1%nat => CSet
  | 2%nat => CFormula 0
  | 3%nat => CAtomic 0
  | S (S (S (S n))) => nth n l (CBool true)
  end.
(** The hypotheses of the theorems above. *)
Definition well_formed (h : heap) (T : nat -> tree) (cls : nat -> nclass) (types : Z -> bool) (ft pt : nat) : Prop :=
  denotes h T /\ tl_shaped h cls /\
  (forall n, assemblable h cls ft_code n /\ assemblable h cls pt_code n) /\
  (forall n, reachable h [ft] n -> reachable h [pt] n -> engine_of (cls n) <> EngBz) /\
  numeric h cls types (in_program h ft pt).
(** The binary runs on both monitors for one step: the values of an atomic, and
    whether the Rust monitor reports overflow. *)
Definition one_step (F : float_ops) (le : Z -> Z -> bool) (h : heap) (cls : nat -> nclass) (ft pt : nat) (inp : nat -> Z -> value)
  (aid : Z) : option (bool * bool * bool) :=
  match gen_assembly 100 h cls (fun _ => 0) (fun _ => 0) 0 ft pt with
  | None => None
  | Some asm =>
      match assemble_binary asm [] with
      | None => None
      | Some bytes =>
          match load bytes, rust_load bytes with
          | Some acts, Some racts =>
              match bz_run F (fst (bz_load acts)) (snd (bz_load acts)) inp 1, rust_run F le racts inp 1 with
              | Some s, Some r => Some (atomic_buffer s aid, rust_atomics r aid, rust_overflow r)
              | _, _ => None
              end
          | _, _ => None
          end
      end
  end.
Lemma cg_pt n k5 k6 : reachable (cg k5 k6) [1%nat] n -> n = 1%nat.
Proof. induction 1 as [n [<-|[]]|n c H IH Hc]; [reflexivity|subst; destruct Hc]. Qed.
Ltac start :=
  split; [intros n; do 11 (destruct n as [|n]; [reflexivity|]); reflexivity|];
  split; [intros n; do 11 (destruct n as [|n]; [cbn; first [exact I|eexists; split; [reflexivity|exact I]]|]); destruct n; exact I|];
  split; [intros n; do 11 (destruct n as [|n]; [split; cbn; first [exact I|reflexivity|eexists; split; [reflexivity|first [discriminate|exact I]]|repeat constructor]|]);
          destruct n; split; first [exact I|reflexivity]|];
  split; [intros n _ R; apply cg_pt in R; subst; discriminate|].
Lemma cg_atomic k5 k6 : reachable (cg k5 k6) [0%nat] 3.
Proof. apply (reach_child _ _ 2 3); [|left; reflexivity]. apply (reach_child _ _ 0 2); [|left; reflexivity]. apply reach_start. left. reflexivity. Qed.
Ltac in_cg := left; apply cg_atomic.
Ltac finish nodes :=
  split;
  [ intros n _ B; do 4 (destruct n as [|n]; [contradiction B|]); do 7 (destruct n as [|n]; [first [contradiction B|nodes]|]);
    destruct n; contradiction B
  | intros n m aid _ _; do 11 (destruct n as [|n]; [intros E1; try discriminate E1; injection E1 as <-;
      do 11 (destruct m as [|m]; [intros E2; first [discriminate E2|reflexivity]|]); destruct m; discriminate|]); destruct n; discriminate
  | intros n _ x0 x; do 11 (destruct n as [|n]; [discriminate|]); destruct n; discriminate ].

(** C30: x = y = 2^31 - 1 and x > y + 1.  In C the sum wraps around, in Rust it
    saturates. *)
Definition sum_cls := cg_cls [Assembly.CBz 14; CBzLoad 1 0; Assembly.CBz 24; CBzLoad 1 1; CBzConst 3 (BzInt 1)].
Theorem C30_overflow_refuted :
  exists h T cls types ft pt inp n aid x e, well_formed h T cls types ft pt /\ typed types inp /\
    in_program h ft pt n /\ cls n = CAtomic aid /\ nchildren (h n) = [x] /\ stands h cls types x e true /\
    one_step no_floats none_le h cls ft pt inp aid = Some (true, false, true).
Proof.
  set (g := cg [] [7; 8]%nat).
  assert (S5 : stands g sum_cls ints 5 (NSignal 0) true) by (apply (st_signal _ _ ints 5 0); leaf).
  assert (S7 : stands g sum_cls ints 7 (NSignal 1) true) by (apply (st_signal _ _ ints 7 1); leaf).
  assert (S8 : stands g sum_cls ints 8 (NValue (VInt 1)) true) by (apply (st_value _ _ _ 8 (VInt 1)); leaf).
  assert (S6 : stands g sum_cls ints 6 y1 true) by (apply (st_binary _ _ _ 6 Add 24 7 8 _ _ true); try reflexivity; assumption).
  assert (S4 : stands g sum_cls ints 4 (NBinary Gt (NSignal 0) y1) true) by (apply (st_binary _ _ _ 4 Gt 14 5 6 _ _ true); try reflexivity; assumption).
  exists g, (tree_of g 6), sum_cls, ints, 0%nat, 1%nat, (fun _ _ => VInt 2147483647), 3%nat, 0, 4%nat, (NBinary Gt (NSignal 0) y1).
  split; [start; finish ltac:(eauto)|]. split; [intros t k; leaf|]. split; [in_cg|].
  do 2 (split; [reflexivity|]). split; [exact S4|]. vm_compute. reflexivity.
Qed.
Print Assumptions C30_overflow_refuted.

(** x > y with x = 1.000005 and y = 1: C compares exactly, in Rust numbers up to
    0.00001 apart count as equal. *)
Definition less_cls := cg_cls [Assembly.CBz 15; CBzLoad 2 0; CBzLoad 2 1].
Definition floats (_ : Z) : bool := false.
Theorem C30_float_comparison_refuted :
  exists h T cls types ft pt inp n aid x e, well_formed h T cls types ft pt /\ typed types inp /\
    in_program h ft pt n /\ cls n = CAtomic aid /\ nchildren (h n) = [x] /\ stands h cls types x e true /\
    one_step ieee ieee_le h cls ft pt inp aid = Some (true, false, false).
Proof.
  set (g := cg [] []).
  assert (S5 : stands g less_cls floats 5 (NSignal 0) false) by (apply (st_signal _ _ floats 5 0); leaf).
  assert (S6 : stands g less_cls floats 6 (NSignal 1) false) by (apply (st_signal _ _ floats 6 1); leaf).
  assert (S4 : stands g less_cls floats 4 (NBinary Gt (NSignal 0) (NSignal 1)) true) by (apply (st_binary _ _ _ 4 Gt 15 5 6 _ _ false); try reflexivity; assumption).
  exists g, (tree_of g 6), less_cls, floats, 0%nat, 1%nat, (fun _ k => VFloat (if k =? 0 then 0x3FF000053E2D6239 else 0x3FF0000000000000)), 3%nat, 0, 4%nat.
  eexists. split; [start; finish ltac:(eauto)|]. split; [intros t k; split; [reflexivity|exact I]|]. split; [in_cg|].
  do 2 (split; [reflexivity|]). split; [exact S4|]. vm_compute. reflexivity.
Qed.
Print Assumptions C30_float_comparison_refuted.

(** x ** y > 1 with x = 2 and y = -1: the power is 0 in C, 2^31 - 1 in Rust. *)
Definition power_cls (bound : Z) := cg_cls [Assembly.CBz 14; Assembly.CBz 33; CBzConst 3 (BzInt bound); CBzLoad 1 0; CBzLoad 1 1].
Definition power (bound : Z) := NBinary Gt (NBinary Pow (NSignal 0) (NSignal 1)) (NValue (VInt bound)).
Definition two_ints (x y : Z) (_ : nat) (k : Z) : value := VInt (if k =? 0 then x else y).
Lemma two_typed x y : int32 x -> int32 y -> typed ints (two_ints x y).
Proof. intros Hx Hy t k. split; [reflexivity|]. unfold two_ints. destruct (k =? 0); assumption. Qed.
Lemma power_ok bound : 0 <= bound < 2 ^ 31 ->
  well_formed (cg [7; 8]%nat []) (tree_of (cg [7; 8]%nat []) 6) (power_cls bound) ints 0 1 /\
  stands (cg [7; 8]%nat []) (power_cls bound) ints 4 (power bound) true.
Proof.
  intros Hb. set (g := cg [7; 8]%nat []).
  assert (S7 : stands g (power_cls bound) ints 7 (NSignal 0) true) by (apply (st_signal _ _ ints 7 0); leaf).
  assert (S8 : stands g (power_cls bound) ints 8 (NSignal 1) true) by (apply (st_signal _ _ ints 8 1); leaf).
  assert (S5 : stands g (power_cls bound) ints 5 (NBinary Pow (NSignal 0) (NSignal 1)) true)
    by (apply (st_binary _ _ _ 5 Pow 33 7 8 _ _ true); try reflexivity; assumption).
  assert (S6 : stands g (power_cls bound) ints 6 (NValue (VInt bound)) true) by (apply (st_value _ _ _ 6 (VInt bound)); split; [reflexivity|exact Hb]).
  assert (S4 : stands g (power_cls bound) ints 4 (power bound) true)
    by (apply (st_binary _ _ _ 4 Gt 14 5 6 _ _ true); try reflexivity; assumption).
  split; [|exact S4]. start. finish ltac:(eauto).
Qed.
Theorem C30_negative_exponent_refuted :
  exists h T cls types ft pt inp n aid x e, well_formed h T cls types ft pt /\ typed types inp /\
    in_program h ft pt n /\ cls n = CAtomic aid /\ nchildren (h n) = [x] /\ stands h cls types x e true /\
    one_step no_floats none_le h cls ft pt inp aid = Some (false, true, true).
Proof.
  destruct (power_ok 1) as [W S4]; [lia|].
  exists (cg [7; 8]%nat []), (tree_of (cg [7; 8]%nat []) 6), (power_cls 1), ints, 0%nat, 1%nat, (two_ints 2 (-1)), 3%nat, 0, 4%nat, (power 1).
  split; [exact W|]. split; [apply two_typed; (split; [intros; discriminate|reflexivity])|]. split; [in_cg|].
  do 2 (split; [reflexivity|]). split; [exact S4|]. vm_compute. reflexivity.
Qed.
Print Assumptions C30_negative_exponent_refuted.

(** x > 0.1 with x = 0.1: the C loader spoils the constant (C17), so the atomic
    is true in C and false in Rust. *)
Theorem C30_float_constant_refuted :
  exists h T cls, denotes h T /\ tl_shaped h cls /\ (forall n, assemblable h cls ft_code n) /\
    cls 4%nat = Assembly.CBz 15 /\ nchildren (h 4%nat) = [5; 6]%nat /\ cls 5%nat = CBzLoad 2 0 /\
    cls 6%nat = CBzConst 4 (BzFloat 0x3FB999999999999A) /\
    one_step ieee ieee_le h cls 0 1 (fun _ _ => VFloat 0x3FB999999999999A) 0 = Some (true, false, false).
Proof.
  set (g := cg [] []). set (c := cg_cls [Assembly.CBz 15; CBzLoad 2 0; CBzConst 4 (BzFloat 0x3FB999999999999A)]).
  exists g, (tree_of g 6), c.
  split; [intros n; do 11 (destruct n as [|n]; [reflexivity|]); reflexivity|].
  split; [intros n; do 11 (destruct n as [|n]; [cbn; first [exact I|eexists; split; [reflexivity|exact I]]|]); destruct n; exact I|].
  split; [intros n; do 11 (destruct n as [|n]; [cbn; first [exact I|reflexivity|eexists; split; [reflexivity|first [discriminate|exact I]]|repeat constructor]|]);
          destruct n; first [exact I|reflexivity]|].
  do 4 (split; [reflexivity|]). vm_compute. reflexivity.
Qed.
Print Assumptions C30_float_constant_refuted.

(** C28 in Rust: (-3) ** 20 > 0 is false.  The power is positive, but an
    overflowing power of an odd negative number becomes -2^31. *)
Definition rust_one (h : heap) (cls : nat -> nclass) (ft pt : nat) (inp : nat -> Z -> value) : option (option rust_state) :=
  match gen_assembly 100 h cls (fun _ => 0) (fun _ => 0) 0 ft pt with
  | None => None
  | Some asm =>
      match assemble_binary asm [] with
      | None => None
      | Some bytes => option_map (fun acts => rust_run no_floats none_le acts inp 1) (rust_load bytes)
      end
  end.
Theorem C28_rust_power_refuted :
  exists h T cls types ft pt inp n aid x s, well_formed h T cls types ft pt /\ typed types inp /\
    in_program h ft pt n /\ cls n = CAtomic aid /\ nchildren (h n) = [x] /\ stands h cls types x (power 0) true /\
    inp 0%nat 0 = VInt (-3) /\ inp 0%nat 1 = VInt 20 /\ (-3) ^ 20 > 0 /\
    rust_one h cls ft pt inp = Some (Some s) /\ rust_atomics s aid = false.
Proof.
  destruct (power_ok 0) as [W S4]; [lia|].
  assert (R : match rust_one (cg [7; 8]%nat []) (power_cls 0) 0 1 (two_ints (-3) 20) with
              | Some (Some s) => rust_atomics s 0 = false | _ => False end) by (vm_compute; reflexivity).
  destruct (rust_one (cg [7; 8]%nat []) (power_cls 0) 0 1 (two_ints (-3) 20)) as [[s|]|] eqn:E; [|contradiction|contradiction].
  exists (cg [7; 8]%nat []), (tree_of (cg [7; 8]%nat []) 6), (power_cls 0), ints, 0%nat, 1%nat, (two_ints (-3) 20), 3%nat, 0, 4%nat, s.
  split; [exact W|]. split; [apply two_typed; (split; [intros; discriminate|reflexivity])|]. split; [in_cg|].
  do 2 (split; [reflexivity|]). split; [exact S4|]. do 2 (split; [reflexivity|]). split; [reflexivity|]. split; [exact E|exact R].
Qed.
Print Assumptions C28_rust_power_refuted.

(** The Rust monitor panics on x % y with x = -2^31 and y = -1. *)
Definition mod_cls := cg_cls [Assembly.CBz 14; Assembly.CBz 32; CBzConst 3 (BzInt 0); CBzLoad 1 0; CBzLoad 1 1].
Theorem C45_panic_refuted :
  exists h T cls types ft pt inp n x e, well_formed h T cls types ft pt /\ typed types inp /\
    in_program h ft pt n /\ cls n = CAtomic 0 /\ nchildren (h n) = [x] /\ stands h cls types x e true /\
    rust_one h cls ft pt inp = Some None.
Proof.
  set (g := cg [7; 8]%nat []).
  assert (S7 : stands g mod_cls ints 7 (NSignal 0) true) by (apply (st_signal _ _ ints 7 0); leaf).
  assert (S8 : stands g mod_cls ints 8 (NSignal 1) true) by (apply (st_signal _ _ ints 8 1); leaf).
  assert (S5 : stands g mod_cls ints 5 (NBinary Mod (NSignal 0) (NSignal 1)) true)
    by (apply (st_binary _ _ _ 5 Mod 32 7 8 _ _ true); try reflexivity; assumption).
  assert (S6 : stands g mod_cls ints 6 (NValue (VInt 0)) true) by (apply (st_value _ _ _ 6 (VInt 0)); leaf).
  assert (S4 : stands g mod_cls ints 4 (NBinary Gt (NBinary Mod (NSignal 0) (NSignal 1)) (NValue (VInt 0))) true)
    by (apply (st_binary _ _ _ 4 Gt 14 5 6 _ _ true); try reflexivity; assumption).
  exists g, (tree_of g 6), mod_cls, ints, 0%nat, 1%nat, (two_ints (-2147483648) (-1)), 3%nat, 4%nat. eexists.
  split; [start; finish ltac:(eauto)|]. split; [apply two_typed; (split; [intros; discriminate|reflexivity])|]. split; [in_cg|].
  do 2 (split; [reflexivity|]). split; [exact S4|]. vm_compute. reflexivity.
Qed.
Print Assumptions C45_panic_refuted.

(** x + 1 > y + 1 with x = 2^31 - 1 and y = 0: the first sum overflows, the
    second does not and clears the report. *)
Definition sums_cls := cg_cls [Assembly.CBz 14; Assembly.CBz 24; Assembly.CBz 24; CBzLoad 1 0; CBzLoad 1 1; CBzConst 3 (BzInt 1)].
Definition x1 : nexpr := NBinary Add (NSignal 0) (NValue (VInt 1)).
Theorem C45_missed_overflow_refuted :
  exists h T cls types ft pt inp n e s, well_formed h T cls types ft pt /\ typed types inp /\
    in_program h ft pt n /\ stands h cls types n e true /\ overflows no_floats none_le inp 0 e /\
    rust_one h cls ft pt inp = Some (Some s) /\ rust_overflow s = false.
Proof.
  set (g := cg [7; 9]%nat [8; 9]%nat).
  assert (S7 : stands g sums_cls ints 7 (NSignal 0) true) by (apply (st_signal _ _ ints 7 0); leaf).
  assert (S8 : stands g sums_cls ints 8 (NSignal 1) true) by (apply (st_signal _ _ ints 8 1); leaf).
  assert (S9 : stands g sums_cls ints 9 (NValue (VInt 1)) true) by (apply (st_value _ _ _ 9 (VInt 1)); leaf).
  assert (S5 : stands g sums_cls ints 5 x1 true) by (apply (st_binary _ _ _ 5 Add 24 7 9 _ _ true); try reflexivity; assumption).
  assert (S6 : stands g sums_cls ints 6 y1 true) by (apply (st_binary _ _ _ 6 Add 24 8 9 _ _ true); try reflexivity; assumption).
  assert (S4 : stands g sums_cls ints 4 (NBinary Gt x1 y1) true)
    by (apply (st_binary _ _ _ 4 Gt 14 5 6 _ _ true); try reflexivity; assumption).
  assert (W : well_formed g (tree_of g 6) sums_cls ints 0 1) by (start; finish ltac:(eauto)).
  assert (R : match rust_one g sums_cls 0 1 (two_ints 2147483647 0) with
              | Some (Some s) => rust_overflow s = false | _ => False end) by (vm_compute; reflexivity).
  destruct (rust_one g sums_cls 0 1 (two_ints 2147483647 0)) as [[s|]|] eqn:E; [|contradiction|contradiction].
  exists g, (tree_of g 6), sums_cls, ints, 0%nat, 1%nat, (two_ints 2147483647 0), 5%nat, x1, s.
  split; [exact W|]. split; [apply two_typed; (split; [intros; discriminate|reflexivity])|].
  split; [left; apply (reach_child _ _ 4 5); [|left; reflexivity]; apply (reach_child _ _ 3 4); [apply cg_atomic|left; reflexivity]|]. split; [exact S5|].
  split; [|split; [exact E|exact R]].
  exists 2147483647, 1. split; [apply (s_signal _ _ (two_ints 2147483647 0) 0 0)|]. split; [apply s_value|]. clear. cbn. unfold int32. lia.
Qed.
Print Assumptions C45_missed_overflow_refuted.
