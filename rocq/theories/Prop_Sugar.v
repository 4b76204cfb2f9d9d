(** * Arrays, structs and set aggregation: C11, C13

    [eval] gives the meaning of an expression as a value changing with time;
    [real], [real_rel], [leaf] and [ops] are arbitrary. *)
From Coq Require Import List Arith ZArith Bool Ascii Lia.
Require Import Verif.Graph Verif.GraphSpec Verif.Binary Verif.BinarySpec Verif.Assembly Verif.Layout.
Require Import Verif.Scq Verif.Engine Verif.Monitoring.
Require Import Verif.Sugar Verif.SugarSpec Verif.SugarProofs Verif.SugarUnroll Verif.SugarArrays.
Import ListNotations.
Local Existing Instance C_monitor.
Local Open Scope nat_scope.

(** C11: desugaring an expression with aggregations succeeds and yields one
    without any, with the same value at every time.  Partial: where a variable is
    not bound twice, sets contain no aggregation themselves and indexed arrays
    are written out. *)
Theorem C11_set_aggregation_partial real real_rel leaf ops t (d : den real) :
  extensional ops -> eval real_rel leaf ops t nothing = Some d ->
  unshadowed t -> flat_sets t -> (forall t1, resolve_structs t = Some t1 -> direct t1) ->
  exists fuel t', (forall fuel', fuel <= fuel' -> desugar fuel' t = Some t') /\ plain t' /\
    exists d', eval real_rel leaf ops t' nothing = Some d' /\ same d d'.
Proof.
  intros X E U F D. destruct (desugar_total real real_rel leaf ops X t d D U F E) as (fuel & t' & H).
  exists fuel, t'. split; [exact H|]. exact (desugar_sound real real_rel leaf ops X fuel t t' d D E (H fuel (le_n fuel))).
Qed.
Print Assumptions C11_set_aggregation_partial.

(** Whatever desugaring yields, aggregations within sets included, is right. *)
Theorem C11_result_sound_partial real real_rel leaf ops fuel t t' (d : den real) :
  extensional ops -> eval real_rel leaf ops t nothing = Some d -> (forall t1, resolve_structs t = Some t1 -> direct t1) ->
  desugar fuel t = Some t' -> plain t' /\ exists d', eval real_rel leaf ops t' nothing = Some d' /\ same d d'.
Proof. intros X E D H. exact (desugar_sound real real_rel leaf ops X fuel t t' d D E H). Qed.
Print Assumptions C11_result_sound_partial.

(** An aggregation that binds the variable of an enclosing one is never
    compiled. *)
Theorem C11_shadowing_rejected fuel t : ~ unshadowed t -> desugar fuel t = None.
Proof.
  intros N. destruct (desugar fuel t) as [t'|] eqn:E; [|reflexivity]. exfalso. apply N. unfold desugar in E.
  apply bind_some in E. destruct E as (t1 & H & _). apply traversed_some in H. exact (proj1 H).
Qed.
Print Assumptions C11_shadowing_rejected.

(** C13: element, slice and member accesses and comparisons of arrays. *)
Theorem C13_arrays_structs_partial real real_rel leaf ops t (d : den real) :
  extensional ops -> eval real_rel leaf ops t nothing = Some d -> bound t = [] ->
  (forall t1, resolve_structs t = Some t1 -> direct t1) ->
  exists fuel t', (forall fuel', fuel <= fuel' -> desugar fuel' t = Some t') /\ plain t' /\
    exists d', eval real_rel leaf ops t' nothing = Some d' /\ same d d'.
Proof.
  intros X E B D. apply (C11_set_aggregation_partial real real_rel leaf ops t d X E); [apply bound_nil_unshadowed, B| |exact D].
  clear - B. induction t as [y|h l IH|k y s b IHs IHb|k y s n b IHs IHn IHb] using term_ind'; cbn in *; try discriminate; [trivial|].
  apply fold_and. induction IH as [|t l Ht Hl IHl]; constructor; cbn in B; apply app_eq_nil in B; destruct B; auto.
Qed.
Print Assumptions C13_arrays_structs_partial.

(** ** Examples.  Leaves 0..4 are integer inputs and 5.. are constants. *)
Definition ex_leaf (k : nat) : stream unit :=
  match k with
  | 0 => Ints (fun t => Z.of_nat t) | 1 => Ints (fun t => (3 - Z.of_nat t)%Z) | 2 => Ints (fun _ => 2%Z)
  | 3 => Ints (fun t => if t =? 4 then 7%Z else 0%Z) | 4 => Ints (fun t => Z.of_nat (t mod 2)) | _ => Ints (fun _ => Z.of_nat (k - 5))
  end.
Definition ex_rel (r : rel) (x y : unit) := true.
(** Operator 0 is negation. *)
Definition ex_ops (o : nat) (l : list (stream unit)) : option (stream unit) :=
  match o, l with 0, [Bits f] => Some (Bits (fun t => negb (f t))) | _, _ => None end.
Lemma ex_extensional : extensional ex_ops.
Proof.
  intros o l l' F. destruct o; [|exact I]. destruct F as [|a b l l' E F]; [exact I|]. destruct E as [f g E|f g E|f g E]; destruct F; try exact I.
  constructor. intros t. rewrite E. reflexivity.
Qed.
Notation ex_eval := (eval ex_rel ex_leaf ex_ops).
Definition ex_values (t : term) (n : nat) : option (list bool) :=
  match ex_eval t nothing with Some (Val (Bits f)) => Some (map f (seq 0 n)) | _ => None end.
Notation lf k := (Node (HLeaf k) []).
(** foreach(x : s.m)(foratleast(y : {i0, i1, i2}, 1)(y > x.m)) with
    s := P({P(i2), P(i3)}). *)
Definition ex_set : term :=
  Quant ForEach 0 (Node (HAccess 9) [Node (HStruct [9]) [Node HArray [Node (HStruct [9]) [lf 2]; Node (HStruct [9]) [lf 3]]]])
    (Count AtLeast 1 (Node HArray [lf 0; lf 1; lf 2]) (lf 6) (Node (HRel RGt) [Var 1; Node (HAccess 9) [Var 0]])).
Example C11_hypotheses :
  (exists d, ex_eval ex_set nothing = Some d) /\ unshadowed ex_set /\ flat_sets ex_set /\
  (forall t1, resolve_structs ex_set = Some t1 -> direct t1).
Proof.
  split; [eexists; reflexivity|]. split; [cbn; intuition discriminate|]. split; [cbn; repeat split|].
  cbn. intros t1 [= <-]. cbn. repeat split.
Qed.
Example C11_case :
  ex_values ex_set 6 = Some [true; false; false; true; false; true] /\
  match desugar 20 ex_set with Some t => ex_values t 6 | None => None end = Some [true; false; false; true; false; true] /\
  desugar 20 ex_set =
    Some (Node HAnd [Node (HRel RGe) [Node HAdd [Node (HRel RGt) [lf 0; lf 2]; Node (HRel RGt) [lf 1; lf 2]; Node (HRel RGt) [lf 2; lf 2]]; lf 6];
                     Node (HRel RGe) [Node HAdd [Node (HRel RGt) [lf 0; lf 3]; Node (HRel RGt) [lf 1; lf 3]; Node (HRel RGt) [lf 2; lf 3]]; lf 6]]).
Proof. repeat split; vm_compute; reflexivity. Qed.
(** {i0, i1, i2, i3}[1..2] == s.m with s := P({i2, i4}), and P({i0, i1}).m[1] > 0. *)
Definition ex_array : term :=
  Node HAnd [Node (HRel REq) [Node (HSlice 1 2) [Node HArray [lf 0; lf 1; lf 2; lf 3]]; Node (HAccess 9) [Node (HStruct [9]) [Node HArray [lf 2; lf 2]]]];
             Node (HRel RGt) [Node (HIndex 1) [Node (HAccess 9) [Node (HStruct [9]) [Node HArray [lf 0; lf 1]]]]; lf 5]].
Example C13_hypotheses :
  (exists d, ex_eval ex_array nothing = Some d) /\ bound ex_array = [] /\ (forall t1, resolve_structs ex_array = Some t1 -> direct t1).
Proof. split; [eexists; reflexivity|]. split; [reflexivity|]. cbn. intros t1 [= <-]. cbn. repeat split. Qed.
Example C13_case :
  ex_values ex_array 4 = Some [false; true; false; false] /\
  desugar 20 ex_array = Some (Node HAnd [Node HAnd [Node (HRel REq) [lf 1; lf 2]; Node (HRel REq) [lf 2; lf 2]]; Node (HRel RGt) [lf 1; lf 5]]).
Proof. split; vm_compute; reflexivity. Qed.

(** ** Where the claims fail *)
(** An array that is a member of an array element: x.m[0].m[0] is compiled to the
    struct x.m[0]. *)
Theorem C13_nested_access_refuted :
  exists t d t', ex_eval t nothing = Some d /\ bound t = [] /\ (forall fuel, 20 <= fuel -> desugar fuel t = Some t') /\
    (forall d', ex_eval t' nothing = Some d' -> ~ same d d').
Proof.
  exists (Node (HIndex 0) [Node (HAccess 8) [Node (HIndex 0) [Node (HAccess 9) [Node (HStruct [9]) [Node HArray [Node (HStruct [8]) [Node HArray [lf 0; lf 1]]]]]]]]).
  do 2 eexists. split; [vm_compute; reflexivity|]. split; [reflexivity|]. split.
  - intros fuel L. apply (desugar_more 20); [exact L|]. vm_compute. reflexivity.
  - intros d' E S. vm_compute in E. injection E as <-. inversion S.
Qed.
Print Assumptions C13_nested_access_refuted.

(** An array member of the bound variable: foreach(x : {P({i0}), P({i1})})(x.m[0] > 0)
    is compiled to comparisons of structs with 0. *)
Theorem C11_member_index_refuted :
  exists t d t', ex_eval t nothing = Some d /\ unshadowed t /\ flat_sets t /\
    (forall fuel, 20 <= fuel -> desugar fuel t = Some t') /\ ex_eval t' nothing = None.
Proof.
  exists (Quant ForEach 0 (Node HArray [Node (HStruct [9]) [Node HArray [lf 0]]; Node (HStruct [9]) [Node HArray [lf 1]]])
            (Node (HRel RGt) [Node (HIndex 0) [Node (HAccess 9) [Var 0]]; lf 5])).
  do 2 eexists. split; [vm_compute; reflexivity|]. split; [cbn; tauto|]. split; [cbn; auto|]. split.
  - intros fuel L. apply (desugar_more 20); [exact L|]. vm_compute. reflexivity.
  - vm_compute. reflexivity.
Qed.
Print Assumptions C11_member_index_refuted.

(** Arrays of different lengths are compared as far as the left one goes. *)
Theorem C13_unequal_lengths_refuted :
  exists t t', ex_eval t nothing = None /\ (forall fuel, 20 <= fuel -> desugar fuel t = Some t') /\
    exists f, ex_eval t' nothing = Some (Val (Bits f)) /\ f 0 = true.
Proof.
  exists (Node (HRel REq) [Node HArray [lf 2]; Node HArray [lf 2; lf 3]]). eexists. split; [vm_compute; reflexivity|]. split.
  - intros fuel L. apply (desugar_more 20); [exact L|]. vm_compute. reflexivity.
  - eexists. split; vm_compute; reflexivity.
Qed.
Print Assumptions C13_unequal_lengths_refuted.

(** A left array longer than the right one is rejected. *)
Theorem C13_longer_array fuel r l m : length m < length l -> desugar fuel (Node (HRel r) [Node HArray l; Node HArray m]) = None.
Proof. exact (longer_left fuel r l m). Qed.
Print Assumptions C13_longer_array.
Example C13_longer_case : length [lf 2] < length [lf 2; lf 3].
Proof. cbn. lia. Qed.

(** [!=] between arrays is not the negation of [==]. *)
Theorem C13_inequality_refuted :
  exists a b tq tn f g, desugar 20 (Node (HRel REq) [a; b]) = Some tq /\ desugar 20 (Node (HRel RNe) [a; b]) = Some tn /\
    ex_eval tq nothing = Some (Val (Bits f)) /\ ex_eval tn nothing = Some (Val (Bits g)) /\ f 1 = false /\ g 1 = false.
Proof. exists (Node HArray [lf 0; lf 2]), (Node HArray [lf 1; lf 2]). do 4 eexists. repeat split; vm_compute; reflexivity. Qed.
Print Assumptions C13_inequality_refuted.

(** Indices out of range are rejected. *)
Theorem C13_index_range fuel i es : length es <= i -> desugar fuel (Node (HIndex i) [Node HArray es]) = None.
Proof. exact (index_range fuel i es). Qed.
Print Assumptions C13_index_range.
(** Slices out of range are not: they stay in the program. *)
Theorem C13_slice_range_refuted :
  exists t t', ex_eval t nothing = None /\ (forall fuel, 20 <= fuel -> desugar fuel t = Some t') /\ ~ plain t'.
Proof.
  exists (Node (HRel REq) [Node (HSlice 0 2) [Node HArray [lf 0; lf 1]]; Node HArray [lf 0; lf 1]]). eexists. split; [vm_compute; reflexivity|]. split.
  - intros fuel L. apply (desugar_more 20); [exact L|]. vm_compute. reflexivity.
  - cbn. tauto.
Qed.
Print Assumptions C13_slice_range_refuted.

(** Indices below 0 are taken without their sign, and the index one past the end
    passes the type checker. *)
Theorem C13_index_check_refuted n : (0 < n)%Z ->
  (forall i, (- n <= i < 0)%Z -> check_index n i = Some (- i)%Z) /\ check_index n n = Some n.
Proof.
  intros H. unfold check_index. split.
  - intros i Hi. destruct (Z.ltb_spec n (Z.abs i)); [lia|]. cbn. f_equal. lia.
  - destruct (Z.ltb_spec n (Z.abs n)); [lia|]. cbn. f_equal. lia.
Qed.
Print Assumptions C13_index_check_refuted.

(** A bound variable with the name of an input: the body speaks of the input.
    With the name of a definition: of the definition. *)
Theorem C11_input_name_refuted set d : ex_eval set nothing = Some (Arr [d]) ->
  exists inputs x, forall t, ex_eval (Quant ForEach x set (Node (HRel RGt) [parse_symbol inputs x; lf 5])) nothing = Some t ->
    exists f, t = Val (Bits f) /\ forall k, f k = (0 <? Z.of_nat k)%Z.
Proof.
  intros E. exists [0], 0. intros t H. cbn [eval] in H. rewrite E in H. cbn in H. injection H as <-. eexists. split; [reflexivity|].
  intros k. unfold quantify, count. cbn [filter length]. destruct (0 <? Z.of_nat k)%Z; reflexivity.
Qed.
Print Assumptions C11_input_name_refuted.
Theorem C11_definition_name_refuted :
  exists defs t, ex_values t 3 = Some [false; true; true] /\ ex_values (expand_symbols defs t) 3 = Some [true; true; true].
Proof.
  exists (fun s => if s =? 0 then Some (lf 2) else None), (Quant ForEach 0 (Node HArray [lf 0]) (Node (HRel RGt) [Var 0; lf 5])).
  split; vm_compute; reflexivity.
Qed.
Print Assumptions C11_definition_name_refuted.

(** A set of one element: foreach becomes a conjunction of one operand, whose
    second operand is then missing; the monitor gives no report though the
    operand is always true. *)
Local Open Scope Z_scope.
Local Open Scope char_scope.
Definition one (n : nat) : node :=
  match n with
  | 0%nat => Graph.Node KSet ["S"] [2%nat]
  | 1%nat => Graph.Node KSet ["P"] []
  | 2%nat => Graph.Node KFormula ["f"] [3%nat]
  | 3%nat => Graph.Node KOp ["&"] [4%nat]
  | _ => Graph.Node KLeaf ["a"] []
  end.
Definition one_cls (n : nat) : nclass :=
  match n with 0%nat | 1%nat => CSet | 2%nat => CFormula 0 | 3%nat => COp OpAnd | _ => CSignal 0 end.
Theorem C11_singleton_refuted :
  (exists t, desugar 20 (Quant ForEach 0 (Sugar.Node HArray [lf 0]) (Sugar.Node (HRel RGt) [Var 0; lf 5])) = Some (Sugar.Node HAnd [t])) /\
  exists asm bytes prog confs m,
    gen_assembly 100 one one_cls (fun _ => 0) (fun _ => 0) 1 0 1 = Some asm /\ assemble_binary asm [] = Some bytes /\
    boot bytes = Some (prog, confs) /\ run 20 (rows (fun _ _ => true) 10) prog (init prog confs) = Some m /\ reports 0 m = [].
Proof.
  split; [eexists; vm_compute; reflexivity|].
  do 5 eexists. do 4 (split; [vm_compute; reflexivity|]). reflexivity.
Qed.
Print Assumptions C11_singleton_refuted.
