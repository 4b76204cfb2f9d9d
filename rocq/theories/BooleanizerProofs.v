(** * Running the booleanizer (proofs) *)
From Coq Require Import List Arith ZArith Bool Lia.
Require Import Verif.Graph Verif.GraphSpec Verif.Binary Verif.BinarySpec Verif.BinaryProofs.
Require Import Verif.Layout Verif.Booleanizer Verif.Assembly Verif.AssemblySpec Verif.AssemblyProofs.
Require Import Verif.BooleanizerSpec Verif.BooleanizerOps Verif.BooleanizerGen.
Import ListNotations.
Local Open Scope Z_scope.

(** The loaded form of an instruction that is not a constant. *)
Definition to_c (i : bz_instruction) : c_bz :=
  Binary.CBz (low_word (bz_operand1 i)) (bz_operand2 i) (bz_id i) (bz_operator i).
Definition is_const (p : nat * bz_instruction) : bool :=
  (bz_operator (snd p) =? op_iconst) || (bz_operator (snd p) =? op_fconst).
Definition code_of (l : dict bz_instruction) : list c_bz :=
  map (fun p => to_c (snd p)) (filter (fun p => negb (is_const p)) l).
Definition loaded (l : dict bz_instruction) : list action := map (fun p => result (IBz (snd p))) l.

Lemma update_same {A} (f : Z -> A) k v : update f k v k = v.
Proof. unfold update. rewrite Z.eqb_refl. reflexivity. Qed.
Lemma update_other {A} (f : Z -> A) k v j : j <> k -> update f k v j = f j.
Proof. unfold update. intros H. apply Z.eqb_neq in H. rewrite H. reflexivity. Qed.

Lemma skipn_next {A} (l : list A) k x post : skipn k l = x :: post -> skipn (S k) l = post.
Proof. revert l. induction k as [|k IH]; intros [|y l] H; try discriminate; [injection H as -> ->; reflexivity|]. cbn in *. exact (IH l H). Qed.

(** ** Loading *)
Definition load_from (p : list c_bz * (Z -> Z)) (acts : list action) := fold_left (fun p a => bz_load_one a p) acts p.
Lemma load_from_app p a b : load_from p (a ++ b) = load_from (load_from p a) b.
Proof. apply fold_left_app. Qed.
Lemma result_cases (p : nat * bz_instruction) : result (IBz (snd p)) =
  if bz_operator (snd p) =? op_iconst then SetInt (bz_id (snd p)) (wrap_int (low_word (bz_operand1 (snd p))))
  else if bz_operator (snd p) =? op_fconst then SetFloat (bz_id (snd p)) (float_bits (bits_of (bz_operand1 (snd p))))
  else StoreBz (to_c (snd p)).
Proof. reflexivity. Qed.
Lemma load_table : forall l t vb, fst (load_from (t, vb) (loaded l)) = t ++ code_of l.
Proof.
  induction l as [|p l IH]; intros t vb; [cbn; rewrite app_nil_r; reflexivity|].
  unfold loaded, load_from. cbn [map fold_left]. fold (loaded l).
  rewrite result_cases. unfold code_of. cbn [filter]. unfold is_const at 1.
  destruct (bz_operator (snd p) =? op_iconst); [apply IH|]. destruct (bz_operator (snd p) =? op_fconst); [apply IH|].
  cbn [orb negb map bz_load_one]. unfold load_from in IH. rewrite IH. rewrite <- app_assoc. reflexivity.
Qed.
Lemma load_frame : forall l t vb ref, ~ In ref (map (fun p => bz_id (snd p)) l) ->
  snd (load_from (t, vb) (loaded l)) ref = vb ref.
Proof.
  induction l as [|p l IH]; intros t vb ref H; [reflexivity|].
  unfold loaded, load_from. cbn [map fold_left]. fold (loaded l).
  cbn [map In] in H. assert (Hr : ref <> bz_id (snd p)) by (intros ->; tauto).
  assert (Hl : ~ In ref (map (fun p => bz_id (snd p)) l)) by tauto.
  rewrite result_cases. unfold load_from in IH.
  destruct (bz_operator (snd p) =? op_iconst); [cbn [bz_load_one]; rewrite IH by assumption; apply update_other; assumption|].
  destruct (bz_operator (snd p) =? op_fconst); [cbn [bz_load_one]; rewrite IH by assumption; apply update_other; assumption|].
  cbn [bz_load_one to_c c_bz_opcode c_bz_memref c_param1]. rewrite IH by assumption.
  destruct (bz_operator (snd p) =? 39); [apply update_other; assumption|reflexivity].
Qed.
Lemma load_at l1 (p : nat * bz_instruction) l2 t vb : ~ In (bz_id (snd p)) (map (fun p => bz_id (snd p)) l2) ->
  snd (load_from (t, vb) (loaded (l1 ++ p :: l2))) (bz_id (snd p)) =
  snd (bz_load_one (result (IBz (snd p))) (load_from (t, vb) (loaded l1))) (bz_id (snd p)).
Proof.
  intros H. unfold loaded. rewrite map_app, load_from_app. cbn [map].
  change (map (fun p0 => result (IBz (snd p0))) l1) with (loaded l1).
  change (map (fun p0 => result (IBz (snd p0))) l2) with (loaded l2).
  destruct (load_from (t, vb) (loaded l1)) as [t1 v1].
  change (load_from (t1, v1) (result (IBz (snd p)) :: loaded l2)) with (load_from (bz_load_one (result (IBz (snd p))) (t1, v1)) (loaded l2)).
  destruct (bz_load_one (result (IBz (snd p))) (t1, v1)) as [t2 v2]. apply load_frame. exact H.
Qed.
Lemma load_rest : forall rest p, (forall b, ~ In (IBz b) rest) -> load_from p (map result rest) = p.
Proof.
  induction rest as [|a rest IH]; intros p H; [reflexivity|]. unfold load_from. cbn [map fold_left].
  assert (E : bz_load_one (result a) p = p).
  { destruct p as [t vb]. destruct a as [b|i|i]; [exfalso; apply (H b); left; reflexivity|reflexivity|reflexivity]. }
  rewrite E. apply IH. intros b Hb. apply (H b). right. exact Hb.
Qed.

(** What the cell of a value contains. *)
Definition holds (c : Z) (v : value) : Prop := match v with VInt z => as_int c = z | VFloat bits => c = bits end.

Section Run.
Variable h : heap.
Variable cls : nat -> nclass.
Variable types : Z -> bool.
Variable F : float_ops.
Variable inp : nat -> Z -> value.
Variable d : dict bz_instruction.
Hypothesis enc : forall k n i, nth_error d k = Some (n, i) -> encodes h cls (map fst d) k n i.
Hypothesis fit : forall n i, In (n, i) d -> bz_fits i.
Hypothesis means : forall n i, In (n, i) d -> bz_class (cls n) -> exists e int, stands h cls types n e int.
Hypothesis apart : forall n i, In (n, i) d -> prev_apart h cls n.
Hypothesis aids : forall n i m j aid, In (n, i) d -> In (m, j) d -> cls n = CAtomic aid -> cls m = CAtomic aid -> n = m.
Hypothesis keys : NoDup (map fst d).
Hypothesis inputs_typed : typed types inp.

Lemma item_in k n i : nth_error d k = Some (n, i) -> In (n, i) d.
Proof. apply nth_error_In. Qed.
Lemma item_id k n i : nth_error d k = Some (n, i) -> bz_id i = Z.of_nat k.
Proof. intros H. apply (enc k n i H). Qed.
Lemma item_small k n i : nth_error d k = Some (n, i) -> Z.of_nat k < 2 ^ 32.
Proof.
  intros H. rewrite <- (item_id k n i H). pose proof (fit n i (item_in k n i H)) as (_ & _ & W & _). unfold word in W. lia.
Qed.
Lemma owner_item j c : nth_error (map fst d) j = Some c -> exists i, nth_error d j = Some (c, i).
Proof.
  intros H. rewrite nth_error_map in H. destruct (nth_error d j) as [[n i]|]; [|discriminate]. injection H as ->. eauto.
Qed.

Lemma const_class n i k v : nth_error d k = Some (n, i) -> const_node (cls n) v ->
  match v with VInt z => bz_operator i = op_iconst /\ bz_operand1 i = BzInt z
             | VFloat b => bz_operator i = op_fconst /\ bz_operand1 i = BzFloat b end.
Proof.
  intros H C. destruct (enc k n i H) as [_ E]. destruct v as [z|b]; cbn in C; destruct C as [C _]; rewrite C in E; exact E.
Qed.
Lemma unary_not_const o int code : unary_code o int = Some code -> code <> op_iconst /\ code <> op_fconst /\ code <> op_prev.
Proof. destruct o, int; intros E; try discriminate; injection E as <-; vm_compute; intuition discriminate. Qed.
Lemma binary_not_const o int code : binary_code o int = Some code -> code <> op_iconst /\ code <> op_fconst /\ code <> op_prev.
Proof. destruct o, int; intros E; try discriminate; injection E as <-; vm_compute; intuition discriminate. Qed.

(** The slot of node [n] at position [k] is right at step [t]. *)
Definition right (t : nat) (vb : Z -> Z) (k n : nat) : Prop :=
  forall e int, stands h cls types n e int -> exists v, yields F inp t e v /\ is_int v = int /\ holds (vb (Z.of_nat k)) v.

(** ** After loading *)
Lemma const_stands k n i e int : nth_error d k = Some (n, i) -> is_const (n, i) = true -> stands h cls types n e int ->
  exists v, e = NValue v /\ int = is_int v /\ const_node (cls n) v.
Proof.
  intros H C S. destruct (enc k n i H) as [_ E].
  assert (Op : bz_operator i = op_iconst \/ bz_operator i = op_fconst).
  { unfold is_const in C. cbn [snd] in C. apply orb_true_iff in C as [C|C]; apply Z.eqb_eq in C; auto. }
  inversion S; subst; try (exfalso; match goal with Ec : cls n = _ |- _ => rewrite Ec in E end).
  - destruct E as [E _]. unfold load_code in E. destruct (types k0); destruct Op as [Op|Op]; rewrite E in Op; discriminate.
  - eexists. split; [reflexivity|]. split; [reflexivity|assumption].
  - destruct Op as [Op|Op]; rewrite E in Op; discriminate.
  - match goal with X : nchildren _ = _, U : unary_code _ _ = _ |- _ => rewrite X in E; destruct (unary_not_const _ _ _ U) as (U1 & U2 & _) end.
    destruct E as [E _]. rewrite E in Op. tauto.
  - match goal with X : nchildren _ = _, U : binary_code _ _ = _ |- _ => rewrite X in E; destruct (binary_not_const _ _ _ U) as (U1 & U2 & _) end.
    destruct E as [E _]. rewrite E in Op. tauto.
  - match goal with X : nchildren _ = _ |- _ => rewrite X in E end.
    destruct E as [E _]. rewrite E in Op. destruct Op; discriminate.
Qed.

Definition const_slots (vb : Z -> Z) : Prop :=
  forall k n i v, nth_error d k = Some (n, i) -> const_node (cls n) v -> holds (vb (Z.of_nat k)) v.
Definition prev_slots (t : nat) (vb : Z -> Z) : Prop :=
  forall k n i, nth_error d k = Some (n, i) -> is_prev (n, i) = true -> right t vb k n.

Lemma ids_nodup : NoDup (map (fun p => bz_id (snd p)) d).
Proof.
  apply NoDup_nth_error. intros a b La E. rewrite map_length in La. rewrite !nth_error_map in E.
  destruct (nth_error d a) as [[n i]|] eqn:Ea; [|apply nth_error_None in Ea; lia].
  destruct (nth_error d b) as [[m j]|] eqn:Eb; cbn in E; [|discriminate].
  injection E as E. rewrite (item_id a n i Ea), (item_id b m j Eb) in E. lia.
Qed.
Lemma prev_last_ids : NoDup (map (fun p => bz_id (snd p)) (prev_last d)).
Proof.
  unfold prev_last. rewrite map_app. pose proof ids_nodup as N. revert N. generalize d as l. intros l.
  induction l as [|p l IH]; intros N; [constructor|]. cbn in N. inversion N as [|? ? N1 N2]; subst. specialize (IH N2).
  assert (Sub : forall f x, In x (map (fun p => bz_id (snd p)) (filter f l)) -> In x (map (fun p => bz_id (snd p)) l)).
  { intros f x Hx. apply in_map_iff in Hx as (q & <- & Hq). apply filter_In in Hq as [Hq _]. apply in_map_iff. eauto. }
  cbn. destruct (is_prev p) eqn:Ep; cbn [negb].
  - apply (NoDup_Add (a := bz_id (snd p)) (l := map (fun p => bz_id (snd p)) (filter (fun p => negb (is_prev p)) l) ++ map (fun p => bz_id (snd p)) (filter is_prev l))).
    + cbn. apply Add_app.
    + split; [exact IH|]. rewrite in_app_iff. intros [H|H]; apply Sub in H; tauto.
  - cbn. constructor; [|exact IH]. rewrite in_app_iff. intros [H|H]; apply Sub in H; tauto.
Qed.

Lemma loaded_slots vb0 : let vb := snd (bz_load_into vb0 (loaded (prev_last d))) in const_slots vb /\ prev_slots 0 vb.
Proof.
  cbn zeta. change (bz_load_into vb0 (loaded (prev_last d))) with (load_from ([], vb0) (loaded (prev_last d))).
  assert (A : forall l1 p l2, prev_last d = l1 ++ p :: l2 ->
     ~ In (bz_id (snd p)) (map (fun p => bz_id (snd p)) l2) /\ ~ In (bz_id (snd p)) (map (fun p => bz_id (snd p)) l1)).
  { intros l1 p l2 E. pose proof prev_last_ids as N. rewrite E, map_app in N. cbn in N. apply NoDup_remove_2 in N.
    rewrite in_app_iff in N. tauto. }
  assert (In_pl : forall p, In p d -> In p (prev_last d)).
  { intros p Hp. unfold prev_last. rewrite in_app_iff, !filter_In. destruct (is_prev p); auto. }
  assert (C : const_slots (snd (load_from ([], vb0) (loaded (prev_last d))))).
  { intros k n i v Hk Cn. pose proof (const_class n i k v Hk Cn) as Op.
    destruct (in_split _ _ (In_pl _ (item_in k n i Hk))) as (l1 & l2 & Es). rewrite Es.
    rewrite <- (item_id k n i Hk). destruct (A l1 (n, i) l2 Es) as [N _].
    pose proof (load_at l1 (n, i) l2 [] vb0 N) as L. cbn [snd] in L. rewrite L. clear L.
    destruct (load_from ([], vb0) (loaded l1)) as [t1 v1].
    pose proof (fit n i (item_in k n i Hk)) as Ft. unfold bz_fits in Ft.
    cbn [result]. destruct v as [z|b]; cbn [const_node] in Cn; destruct Cn as [Cn R]; destruct Op as [O1 O2]; rewrite O1, O2 in *.
    - rewrite Z.eqb_refl. cbn [bz_load_one snd]. rewrite update_same. cbn [holds low_word]. rewrite (Z.mod_small z) by lia.
      rewrite (wrap_id z) by (unfold int32; lia). apply as_int_set. unfold int32. lia.
    - change (op_fconst =? op_iconst) with false. rewrite Z.eqb_refl. cbn [bz_load_one snd]. rewrite update_same.
      cbn [holds bits_of]. unfold float_bits. rewrite (wrap_id (b mod 2 ^ 32)).
      + pose proof (Z.div_mod b (2 ^ 32) ltac:(lia)). rewrite Z.mod_small; lia.
      + unfold int32. pose proof (Z.mod_pos_bound b (2 ^ 32) ltac:(lia)). lia. }
  split; [exact C|].
  intros k n i Hk Hp e int S.
  destruct (enc k n i Hk) as [Id E]. unfold is_prev in Hp. cbn [snd] in Hp. apply Z.eqb_eq in Hp.
  assert (SP : exists x0 x v e', e = NPrev v e' /\ int = is_int v /\ cls n = Assembly.CBz op_prev /\ nchildren (h n) = [x0; x] /\ const_node (cls x0) v).
  { inversion S; subst; try match goal with Ec : cls n = _ |- _ => rewrite Ec in E end.
    - exfalso. destruct E as [E _]. unfold load_code in E. destruct (types k0); rewrite E in Hp; discriminate.
    - exfalso. pose proof (const_class n i k v Hk ltac:(assumption)) as Op. destruct v; destruct Op as [Op _]; rewrite Op in Hp; discriminate.
    - exfalso. rewrite E in Hp. discriminate.
    - exfalso. match goal with X : nchildren _ = _, U : unary_code _ _ = _ |- _ => rewrite X in E; destruct (unary_not_const _ _ _ U) as (_ & _ & U1) end.
      destruct E as [E _]. congruence.
    - exfalso. match goal with X : nchildren _ = _, U : binary_code _ _ = _ |- _ => rewrite X in E; destruct (binary_not_const _ _ _ U) as (_ & _ & U1) end.
      destruct E as [E _]. congruence.
    - do 4 eexists. split; [reflexivity|]. split; [reflexivity|]. split; [eassumption|]. split; eassumption. }
  destruct SP as (x0 & x & v & e' & -> & -> & Cn & Ch & Cv).
  exists v. split; [constructor|]. split; [reflexivity|].
  rewrite Cn, Ch in E. destruct E as (_ & j1 & j2 & [J1 R1] & _ & O1 & _).
  destruct (owner_item _ _ R1) as [i0 I0].
  destruct (in_split _ _ (In_pl _ (item_in k n i Hk))) as (l1 & l2 & Es).
  pose proof (C j1 x0 i0 v I0 Cv) as C0. rewrite Es in *.
  destruct (A l1 (n, i) l2 eq_refl) as [N _].
  pose proof (load_at l1 (n, i) l2 [] vb0 N) as L. cbn [snd] in L. rewrite <- Id, L. clear L.
  (* the constant's slot is not written after the constant *)
  assert (I1 : In (x0, i0) l1).
  { assert (Ip : is_prev (x0, i0) = false).
    { pose proof (const_class x0 i0 j1 v I0 Cv) as Op. unfold is_prev. cbn [snd]. destruct v; destruct Op as [-> _]; reflexivity. }
    unfold prev_last in Es.
    assert (Hn : In (x0, i0) (filter (fun p => negb (is_prev p)) d)).
    { apply filter_In. split; [apply (item_in j1), I0|]. rewrite Ip. reflexivity. }
    assert (Hs : forall (A1 A2 : dict bz_instruction) l1 q l2, A1 ++ A2 = l1 ++ q :: l2 -> ~ In q A1 -> forall y, In y A1 -> In y l1).
    { induction A1 as [|a A1 IHA]; intros A2 m1 q m2 Eq Nq y Hy; [easy|]. destruct m1 as [|b m1]; cbn in Eq; injection Eq as -> Eq.
      - exfalso. apply Nq. left. reflexivity.
      - destruct Hy as [->|Hy]; [left; reflexivity|]. right. eapply IHA; [exact Eq| |exact Hy]. intros H. apply Nq. right. exact H. }
    eapply Hs; [exact Es| |exact Hn]. rewrite filter_In. unfold is_prev. cbn [snd]. rewrite Hp. cbn. intros [_ H]. discriminate. }
  destruct (load_from ([], vb0) (loaded l1)) as [t1 v1] eqn:Ev.
  assert (V1 : v1 (Z.of_nat j1) = snd (load_from ([], vb0) (loaded (l1 ++ (n, i) :: l2))) (Z.of_nat j1)).
  { unfold loaded. rewrite map_app, load_from_app. fold (loaded l1). rewrite Ev.
    change (map (fun p0 => result (IBz (snd p0))) ((n, i) :: l2)) with (loaded ((n, i) :: l2)).
    rewrite load_frame; [reflexivity|].
    pose proof prev_last_ids as Nd. rewrite Es, map_app in Nd.
    apply in_split in I1 as (a1 & a2 & ->). rewrite map_app in Nd. cbn [map snd] in Nd.
    rewrite <- app_assoc in Nd. cbn [app] in Nd. apply NoDup_remove_2 in Nd. rewrite !in_app_iff in Nd.
    rewrite <- (item_id j1 x0 i0 I0). tauto. }
  cbn [result]. rewrite Hp. change (op_prev =? op_iconst) with false. change (op_prev =? op_fconst) with false.
  cbn [bz_load_one c_bz_opcode c_bz_memref c_param1 snd]. change (op_prev =? 39) with true. cbv iota. rewrite update_same, O1.
  cbn [low_word]. rewrite Z.mod_small by (pose proof (item_small j1 x0 i0 I0); lia). rewrite V1. exact C0.
Qed.

(** ** One step *)
Lemma update_frame ts c s s' : bz_update F ts c s = Some s' ->
  signal_vector s' = signal_vector s /\
  (forall r, r <> c_bz_memref c -> value_buffer s' r = value_buffer s r) /\
  (forall a, c_bz_opcode c <> op_store \/ a <> c_param2 c -> atomic_buffer s' a = atomic_buffer s a).
Proof.
  unfold bz_update. intros E.
  assert (St : bz_decode (c_bz_opcode c) = Some STORE -> c_bz_opcode c = op_store).
  { unfold bz_decode. destruct (find (fun p => fst p =? c_bz_opcode c) bz_opcodes) as [[q o]|] eqn:Ef; [|discriminate].
    apply find_some in Ef as [Hin Eq]. cbn [fst] in Eq. apply Z.eqb_eq in Eq. subst q. cbn [option_map snd]. intros Ho. injection Ho as ->.
    cbn [bz_opcodes In] in Hin. repeat (destruct Hin as [Hin|Hin]; [inversion Hin; reflexivity|]). easy. }
  assert (SV : forall ref v, s' = set_value s ref v -> ref = c_bz_memref c ->
    signal_vector s' = signal_vector s /\
    (forall r, r <> c_bz_memref c -> value_buffer s' r = value_buffer s r) /\
    (forall a, c_bz_opcode c <> op_store \/ a <> c_param2 c -> atomic_buffer s' a = atomic_buffer s a)).
  { intros ref v -> ->. cbn. split; [reflexivity|]. split; [|reflexivity]. intros r Hr. apply update_other. exact Hr. }
  destruct (bz_decode (c_bz_opcode c)) as [[| | |o|o|o|o|o| |]|].
  4: destruct (int_unary o _); [|discriminate]; cbn [option_map] in E.
  5: destruct (int_binary o _ _); [|discriminate]; cbn [option_map] in E.
  3: { injection E as <-. cbn. split; [reflexivity|]. split; [reflexivity|]. intros a [H|H]; [exfalso; apply H, St; reflexivity|].
       apply update_other. exact H. }
  all: injection E as <-; try (eapply SV; reflexivity). auto.
Qed.

Record inv (t k : nat) (s : bz_state) : Prop := Inv {
  inv_slot : forall j n i, nth_error d j = Some (n, i) ->
    (j < k)%nat \/ is_prev (n, i) = true \/ is_const (n, i) = true -> right t (value_buffer s) j n;
  inv_const : const_slots (value_buffer s);
  inv_signal : forall q, holds (signal_vector s q) (inp t q);
  inv_atom : forall j n i aid x e, (j < k)%nat -> nth_error d j = Some (n, i) -> cls n = CAtomic aid ->
    nchildren (h n) = [x] -> stands h cls types x e true ->
    exists v, yields F inp t e (VInt v) /\ atomic_buffer s aid = negb (v =? 0)
}.
Lemma child_right t k s j c : inv t k s -> refers (map fst d) k j c -> right t (value_buffer s) j c.
Proof. intros I [L R]. destruct (owner_item _ _ R) as [i Hi]. apply (inv_slot _ _ _ I j c i Hi). auto. Qed.
Lemma low_ref k n i j : nth_error d k = Some (n, i) -> (j < k)%nat -> low_word (BzInt (Z.of_nat j)) = Z.of_nat j.
Proof. intros H L. pose proof (item_small k n i H). cbn. apply Z.mod_small. lia. Qed.

Lemma holds_set c z : int32 z -> holds (set_int c z) (VInt z).
Proof. apply as_int_set. Qed.

Lemma stands_prev k n i e int : nth_error d k = Some (n, i) -> stands h cls types n e int -> is_prev (n, i) = false ->
  cls n <> Assembly.CBz op_prev.
Proof.
  intros H S P C. destruct (enc k n i H) as [_ E]. rewrite C in E.
  assert (Op : bz_operator i = op_prev).
  { destruct (nchildren (h n)) as [|? [|? [|? ?]]]; [exact E|apply E|apply E|exact E]. }
  unfold is_prev in P. cbn [snd] in P. rewrite Op, Z.eqb_refl in P. discriminate.
Qed.

Lemma exec_right t k s n i s' e int : inv t k s -> Z.of_nat t < 2 ^ 31 -> nth_error d k = Some (n, i) ->
  is_prev (n, i) = false -> is_const (n, i) = false -> stands h cls types n e int ->
  bz_update F (Z.of_nat t mod 2 ^ 32) (to_c i) s = Some s' ->
  exists v, yields F inp t e v /\ is_int v = int /\ holds (value_buffer s' (Z.of_nat k)) v.
Proof.
  intros I Ht Hk Np Nc S U. destruct (enc k n i Hk) as [Id E].
  pose proof (fit n i (item_in k n i Hk)) as Ft. unfold bz_fits in Ft.
  pose proof (stands_prev k n i e int Hk S Np) as Npr.
  unfold bz_update, to_c in U. cbn [c_bz_memref c_bz_opcode c_param1 c_param2] in U. rewrite Id in U.
  inversion S as [n' q Ec Hq|n' v Cv|n' Ec|n' o code x e0 int0 Ec Uc Ch Sx|n' o code x1 x2 e1 e2 int0 Ec Uc Ch S1 S2|n' x0 x v e0 Ec Ch Cv Sx]; subst.
  - (* signal *) rewrite Ec in E. destruct E as [Eo E1]. rewrite Eo, E1 in *.
    destruct (inputs_typed t q) as [Ty Tr]. pose proof (inv_signal _ _ _ I q) as Sg.
    exists (inp t q). split; [constructor|]. split; [exact Ty|].
    assert (Lw : low_word (BzInt q) = q).
    { cbn. apply Z.mod_small. destruct (types q); cbn in Ft; lia. }
    rewrite Lw in U. unfold load_code in U. destruct (types q).
    + change (bz_decode 1) with (Some ILOAD) in U. injection U as <-. cbn [set_value value_buffer]. rewrite update_same.
      destruct (inp t q) as [z|b]; [|discriminate]. cbn [holds] in Sg. rewrite Sg. apply holds_set, Tr.
    + change (bz_decode 2) with (Some FLOAD) in U. injection U as <-. cbn [set_value value_buffer]. rewrite update_same. exact Sg.
  - (* constant *) exfalso. pose proof (const_class n i k v Hk Cv) as Op. unfold is_const in Nc. cbn [snd] in Nc.
    destruct v; destruct Op as [Op _]; rewrite Op in Nc; discriminate.
  - (* time *) rewrite Ec in E. rewrite E in U. change (bz_decode op_ts) with (Some TS) in U. injection U as <-.
    exists (VInt (Z.of_nat t)). split; [constructor|]. split; [reflexivity|]. cbn [set_value value_buffer]. rewrite update_same.
    rewrite Z.mod_small by lia. match goal with |- context [?c <? Z.of_nat t] => replace (c <? Z.of_nat t) with false by (symmetry; apply Z.ltb_ge; lia) end.
    apply holds_set. unfold int32. lia.
  - (* unary *) rewrite Ec, Ch in E. destruct E as (Eo & j & R & E1). rewrite Eo, E1 in U. rewrite (low_ref k n i j Hk (proj1 R)) in U.
    destruct (child_right t k s j x I R e0 int Sx) as (va & Ya & Ta & Ha).
    destruct int; destruct va as [a|a]; try discriminate Ta; cbn [holds] in Ha.
    + destruct (exec_unary_int o code Uc) as (o' & Dc & X). rewrite Dc, Ha in U.
      assert (Ia : int32 a) by (rewrite <- Ha; apply as_int32).
      destruct (int_unary o' a) as [c|] eqn:Ex; [|discriminate]. cbn [option_map] in U. injection U as <-.
      destruct (proj1 (X a Ia) c Ex) as [Ic Sc]. exists (VInt c). split; [econstructor; eassumption|]. split; [reflexivity|].
      cbn [set_value value_buffer]. rewrite update_same. apply holds_set, Ic.
    + destruct (exec_unary_float F o code Uc) as (o' & Dc & X). rewrite Dc in U. injection U as <-.
      exists (VFloat (flt_unary F o' a)). split; [econstructor; [exact Ya|apply X]|]. split; [reflexivity|].
      cbn [set_value value_buffer]. rewrite update_same, Ha. reflexivity.
  - (* binary *) rewrite Ec, Ch in E. destruct E as (Eo & j1 & j2 & R1 & R2 & E1 & E2). rewrite Eo, E1, E2 in U.
    rewrite (low_ref k n i j1 Hk (proj1 R1)) in U.
    destruct (child_right t k s j1 x1 I R1 e1 int0 S1) as (va & Ya & Ta & Ha).
    destruct (child_right t k s j2 x2 I R2 e2 int0 S2) as (vb & Yb & Tb & Hb).
    destruct int0; destruct va as [a|a]; try discriminate Ta; destruct vb as [b|b]; try discriminate Tb; cbn [holds] in Ha, Hb.
    + destruct (exec_binary_int o code Uc) as (o' & Dc & X). rewrite Dc, Ha, Hb in U.
      assert (Ia : int32 a) by (rewrite <- Ha; apply as_int32). assert (Ib : int32 b) by (rewrite <- Hb; apply as_int32).
      destruct (int_binary o' a b) as [c|] eqn:Ex; [|discriminate]. cbn [option_map] in U. injection U as <-.
      destruct (proj1 (X a b Ia Ib) c Ex) as [Ic Sc]. exists (VInt c). split; [econstructor; eassumption|].
      split; [destruct (relational o); reflexivity|].
      cbn [set_value value_buffer]. rewrite update_same. apply holds_set, Ic.
    + pose proof (exec_binary_float F o code Uc) as X. destruct (relational o).
      * destruct X as (o' & Dc & X). rewrite Dc in U. injection U as <-.
        eexists. split; [eapply y_binary_float; [exact Ya|exact Yb|apply X]|]. split; [reflexivity|].
        cbn [set_value value_buffer]. rewrite update_same, Ha, Hb. apply holds_set, truth_int32.
      * destruct X as (o' & Dc & X). rewrite Dc in U. injection U as <-.
        eexists. split; [eapply y_binary_float; [exact Ya|exact Yb|apply X]|]. split; [reflexivity|].
        cbn [set_value value_buffer]. rewrite update_same, Ha, Hb. reflexivity.
  - (* prev *) contradiction.
Qed.

Lemma exec_total t k s n i : inv t k s -> nth_error d k = Some (n, i) -> is_prev (n, i) = false -> is_const (n, i) = false ->
  (forall e int, stands h cls types n e int -> exists v, yields F inp t e v) ->
  exists s', bz_update F (Z.of_nat t mod 2 ^ 32) (to_c i) s = Some s'.
Proof.
  intros I Hk Np Nc Df. destruct (enc k n i Hk) as [Id E].
  unfold bz_update, to_c. cbn [c_bz_memref c_bz_opcode c_param1 c_param2].
  destruct (bz_decode (bz_operator i)) as [[| | |o|o|o|o|o| |]|] eqn:Dc; try (eexists; reflexivity).
  all: assert (Bc : bz_class (cls n));
    [ destruct (cls n) eqn:Ecl; try contradiction; try exact Logic.I;
      destruct (nchildren (h n)); [contradiction|]; destruct E as (Eo & _); rewrite Eo in Dc; discriminate Dc | ].
  all: destruct (means n i (item_in k n i Hk) Bc) as (e & int & S); destruct (Df e int S) as [v Y];
    pose proof (stands_prev k n i e int Hk S Np) as Npr.
  all: inversion S as [n' q Ec Hq|n' w Cv|n' Ec|n' o1 code x e0 int0 Ec Uc Ch Sx|n' o1 code x1 x2 e1 e2 int0 Ec Uc Ch S1 S2|n' x0 x w e0 Ec Ch Cv Sx]; subst;
    try contradiction; try rewrite Ec in E.
  all: try (exfalso; destruct E as [E _]; rewrite E in Dc; unfold load_code in Dc; destruct (types q); discriminate Dc).
  all: try (exfalso; pose proof (const_class n i k w Hk Cv) as Op; destruct w; destruct Op as [Op _]; rewrite Op in Dc; discriminate Dc).
  all: try (exfalso; rewrite E in Dc; discriminate Dc).
  - rewrite Ch in E. destruct E as (Eo & j & R & E1). rewrite E1. rewrite (low_ref k n i j Hk (proj1 R)). rewrite Eo in Dc.
    destruct (child_right t k s j x I R e0 int Sx) as (va & Ya & Ta & Ha).
    destruct int; destruct va as [a|a]; try discriminate Ta; cbn [holds] in Ha.
    + destruct (exec_unary_int o1 code Uc) as (o' & Dc' & X). rewrite Dc in Dc'. injection Dc' as <-. rewrite Ha.
      assert (Ia : int32 a) by (rewrite <- Ha; apply as_int32).
      inversion Y; subst; match goal with Y' : yields _ _ t e0 _ |- _ => pose proof (yields_unique _ _ _ _ _ Ya _ Y') as Q end; [|discriminate].
      injection Q as <-. destruct (proj2 (X _ Ia) _ ltac:(eassumption)) as [c' ->]. eexists. reflexivity.
    + destruct (exec_unary_float F o1 code Uc) as (o' & Dc' & _). rewrite Dc in Dc'. discriminate.
  - rewrite Ch in E. destruct E as (Eo & j1 & j2 & R1 & R2 & E1 & E2). rewrite Eo in Dc.
    destruct int0.
    + destruct (exec_binary_int o1 code Uc) as (o' & Dc' & _). rewrite Dc in Dc'. discriminate.
    + pose proof (exec_binary_float F o1 code Uc) as X. destruct (relational o1); destruct X as (o' & Dc' & _); rewrite Dc in Dc'; discriminate.
  - rewrite Ch in E. destruct E as (Eo & j & R & E1). rewrite Eo in Dc. destruct int.
    + destruct (exec_unary_int o1 code Uc) as (o' & Dc' & _). rewrite Dc in Dc'. discriminate.
    + destruct (exec_unary_float F o1 code Uc) as (o' & Dc' & _). rewrite Dc in Dc'. discriminate.
  - rewrite Ch in E. destruct E as (Eo & j1 & j2 & R1 & R2 & E1 & E2). rewrite E1, E2. rewrite (low_ref k n i j1 Hk (proj1 R1)). rewrite Eo in Dc.
    destruct (child_right t k s j1 x1 I R1 e1 int0 S1) as (va & Ya & Ta & Ha).
    destruct (child_right t k s j2 x2 I R2 e2 int0 S2) as (vb & Yb & Tb & Hb).
    destruct int0; destruct va as [a|a]; try discriminate Ta; destruct vb as [b|b]; try discriminate Tb; cbn [holds] in Ha, Hb.
    + destruct (exec_binary_int o1 code Uc) as (o' & Dc' & X). rewrite Dc in Dc'. injection Dc' as <-. rewrite Ha, Hb.
      assert (Ia : int32 a) by (rewrite <- Ha; apply as_int32). assert (Ib : int32 b) by (rewrite <- Hb; apply as_int32).
      inversion Y; subst.
      2: match goal with Y' : yields _ _ t e1 (VFloat _) |- _ => pose proof (yields_unique _ _ _ _ _ Ya _ Y') as Q; discriminate Q end.
      match goal with Y1 : yields _ _ t e1 (VInt ?z1), Y2 : yields _ _ t e2 (VInt ?z2), B : binary_int _ ?z1 ?z2 _ |- _ =>
        pose proof (yields_unique _ _ _ _ _ Ya _ Y1) as Q1; pose proof (yields_unique _ _ _ _ _ Yb _ Y2) as Q2 end.
      injection Q1 as <-. injection Q2 as <-.
      destruct (proj2 (X _ _ Ia Ib) _ ltac:(eassumption)) as [c' ->]. eexists. reflexivity.
    + pose proof (exec_binary_float F o1 code Uc) as X. destruct (relational o1); destruct X as (o' & Dc' & _); rewrite Dc in Dc'; discriminate.
Qed.

Lemma index_eq j k n i : nth_error d j = Some (n, i) -> forall i', nth_error d k = Some (n, i') -> j = k.
Proof.
  intros H i' H'. pose proof (proj1 (NoDup_nth_error (map fst d)) keys j k) as N. apply N.
  - rewrite map_length. apply nth_error_Some. congruence.
  - rewrite !nth_error_map, H, H'. reflexivity.
Qed.

Lemma code_of_class k n i e int : nth_error d k = Some (n, i) -> stands h cls types n e int ->
  (exists b, bz_operator i = load_code b) \/ bz_operator i = op_iconst \/ bz_operator i = op_fconst \/ bz_operator i = op_ts \/
  (exists o b, unary_code o b = Some (bz_operator i)) \/ (exists o b, binary_code o b = Some (bz_operator i)) \/
  (bz_operator i = op_prev /\ cls n = Assembly.CBz op_prev).
Proof.
  intros H S. destruct (enc k n i H) as [_ E].
  inversion S as [n' q Ec Hq|n' v Cv|n' Ec|n' o code x e0 int0 Ec Uc Ch Sx|n' o code x1 x2 e1 e2 int0 Ec Uc Ch S1 S2|n' x0 x v e0 Ec Ch Cv Sx]; subst.
  2: { pose proof (const_class n i k v H Cv) as Op. destruct v; destruct Op as [-> _]; auto. }
  all: rewrite Ec in E; try rewrite Ch in E.
  - destruct E as [-> _]. eauto.
  - auto.
  - destruct E as (-> & _). eauto 9.
  - destruct E as (-> & _). eauto 9.
  - destruct E as (-> & _). auto 9.
Qed.
Lemma store_class k n i : nth_error d k = Some (n, i) -> bz_operator i = op_store -> exists aid, cls n = CAtomic aid.
Proof.
  intros H Eo. destruct (enc k n i H) as [_ E].
  assert (D : bz_class (cls n) \/ exists aid, cls n = CAtomic aid).
  { destruct (cls n); try contradiction; try (left; exact Logic.I). right. eauto. }
  destruct D as [D|D]; [exfalso|exact D].
  destruct (means n i (item_in k n i H) D) as (e & int & S). pose proof (code_of_class k n i e int H S) as C. rewrite Eo in C.
  destruct C as [[b C]|[C|[C|[C|[[o [b C]]|[[o [b C]]|[C _]]]]]]]; try discriminate C; try (destruct b; discriminate C);
    destruct o, b; discriminate C.
Qed.
Lemma prev_class k n i e int : nth_error d k = Some (n, i) -> is_prev (n, i) = true -> stands h cls types n e int ->
  exists x0 x v e0, e = NPrev v e0 /\ int = is_int v /\ cls n = Assembly.CBz op_prev /\ nchildren (h n) = [x0; x] /\
    const_node (cls x0) v /\ stands h cls types x e0 (is_int v).
Proof.
  intros H P S. assert (Eo : bz_operator i = op_prev) by (apply Z.eqb_eq; exact P).
  assert (Ec : cls n = Assembly.CBz op_prev).
  { pose proof (code_of_class k n i e int H S) as C. rewrite Eo in C.
    destruct C as [[b C]|[C|[C|[C|[[o [b C]]|[[o [b C]]|[_ C]]]]]]]; try discriminate C; try (destruct b; discriminate C); try exact C;
    destruct o, b; discriminate C. }
  inversion S as [n' q E Hq|n' v Cv|n' E|n' o code x e0 int0 E Uc Ch Sx|n' o code x1 x2 e1 e2 int0 E Uc Ch S1 S2|n' x0 x v e0 E Ch Cv Sx]; subst.
  6: { exists x0, x, v, e0. auto 8. }
  all: exfalso.
  2: { destruct v; destruct Cv as [Cv _]; congruence. }
  all: rewrite Ec in E; try discriminate E; injection E as <-.
  - destruct o, int; discriminate Uc.
  - destruct o, int0; discriminate Uc.
Qed.

Lemma main_step t k s n i s' : inv t k s -> Z.of_nat t < 2 ^ 31 -> nth_error d k = Some (n, i) ->
  is_prev (n, i) = false -> is_const (n, i) = false ->
  bz_update F (Z.of_nat t mod 2 ^ 32) (to_c i) s = Some s' -> inv t (S k) s'.
Proof.
  intros I Ht Hk Np Nc U. destruct (update_frame _ _ _ _ U) as (Fs & Fv & Fa).
  pose proof (item_id k n i Hk) as Id. cbn [to_c c_bz_memref c_bz_opcode c_param2] in Fv, Fa. rewrite Id in Fv.
  split.
  - intros j m i' Hj Cs. destruct (Nat.eq_dec j k) as [->|Ne].
    + rewrite Hk in Hj. injection Hj as <- <-. intros e int S. eapply exec_right; eassumption.
    + intros e int S. rewrite Fv by lia. apply (inv_slot _ _ _ I j m i' Hj); [|exact S]. destruct Cs as [L|Cs]; [left; lia|auto].
  - intros j m i' v Hj Cv. destruct (Nat.eq_dec j k) as [->|Ne].
    + exfalso. rewrite Hk in Hj. injection Hj as <- <-. pose proof (const_class n i k v Hk Cv) as Op. unfold is_const in Nc. cbn [snd] in Nc.
      destruct v; destruct Op as [Op _]; rewrite Op in Nc; discriminate.
    + rewrite Fv by lia. exact (inv_const _ _ _ I j m i' v Hj Cv).
  - intros q. rewrite Fs. apply (inv_signal _ _ _ I).
  - intros j m i' aid x e L Hj Cm Ch S. destruct (Nat.eq_dec j k) as [->|Ne].
    + rewrite Hk in Hj. injection Hj as <- <-. destruct (enc k n i Hk) as [_ E]. rewrite Cm, Ch in E.
      destruct E as (Eo & E2 & r & R & E1). unfold bz_update, to_c in U. cbn [c_bz_memref c_bz_opcode c_param1 c_param2] in U.
      rewrite Eo in U. change (bz_decode op_store) with (Some STORE) in U. rewrite E1, E2, (low_ref k n i r Hk (proj1 R)) in U. injection U as <-.
      destruct (child_right t k s r x I R e true S) as (v & Y & T & H). destruct v as [z|]; [|discriminate]. cbn [holds] in H.
      exists z. split; [exact Y|]. cbn [atomic_buffer]. rewrite update_same, H. reflexivity.
    + assert (Lj : (j < k)%nat) by lia. destruct (inv_atom _ _ _ I j m i' aid x e Lj Hj Cm Ch S) as (v & Y & A). exists v. split; [exact Y|].
      rewrite Fa; [exact A|]. destruct (Z.eq_dec (bz_operator i) op_store) as [Eo|No]; [right|left; exact No].
      intros Q. destruct (store_class k n i Hk Eo) as [aid' Cn]. destruct (enc k n i Hk) as [_ E]. rewrite Cn in E.
      destruct (nchildren (h n)); [contradiction|]. destruct E as (_ & E2 & _).
      assert (n = m) as -> by (apply (aids n i m i' aid); [exact (item_in k n i Hk)|exact (item_in j m i' Hj)|congruence|exact Cm]).
      apply Ne. eapply index_eq; eassumption.
Qed.

Lemma skip_step t k s n i : inv t k s -> nth_error d k = Some (n, i) -> is_prev (n, i) = true \/ is_const (n, i) = true -> inv t (S k) s.
Proof.
  intros I Hk Pc. split.
  - intros j m i' Hj Cs. destruct (Nat.eq_dec j k) as [->|Ne].
    + rewrite Hk in Hj. injection Hj as <- <-. apply (inv_slot _ _ _ I k n i Hk). auto.
    + apply (inv_slot _ _ _ I j m i' Hj). destruct Cs as [L|Cs]; [left; lia|auto].
  - exact (inv_const _ _ _ I).
  - exact (inv_signal _ _ _ I).
  - intros j m i' aid x e L Hj Cm Ch S. destruct (Nat.eq_dec j k) as [->|Ne].
    + exfalso. rewrite Hk in Hj. injection Hj as <- <-. destruct (enc k n i Hk) as [_ E]. rewrite Cm, Ch in E. destruct E as (Eo & _).
      unfold is_prev, is_const in Pc. cbn [snd] in Pc. rewrite Eo in Pc. destruct Pc; discriminate.
    + apply (inv_atom _ _ _ I j m i' aid x e); [lia|assumption..].
Qed.

Definition main_code (l : dict bz_instruction) : list c_bz := code_of (filter (fun p => negb (is_prev p)) l).
Lemma main_code_cons p l : main_code (p :: l) = if is_prev p || is_const p then main_code l else to_c (snd p) :: main_code l.
Proof.
  unfold main_code, code_of. cbn [filter]. destruct (is_prev p); cbn [negb orb]; [reflexivity|]. cbn [filter].
  destruct (is_const p); reflexivity.
Qed.
Lemma main_phase t : Z.of_nat t < 2 ^ 31 -> forall post k s s', skipn k d = post -> (k <= length d)%nat -> inv t k s ->
  bz_updates F (Z.of_nat t mod 2 ^ 32) (main_code post) s = Some s' -> inv t (length d) s'.
Proof.
  intros Ht post. induction post as [|[n i] post IH]; intros k s s' Sk Lk I U.
  - cbn in U. injection U as <-. assert (length d - k = 0)%nat by (rewrite <- skipn_length, Sk; reflexivity).
    replace (length d) with k by lia. exact I.
  - assert (Hk : nth_error d k = Some (n, i)).
    { rewrite <- (firstn_skipn k d), nth_error_app2; rewrite firstn_length_le by exact Lk; [|lia]. rewrite Nat.sub_diag, Sk. reflexivity. }
    assert (Sk' : skipn (S k) d = post).
    { eapply skipn_next, Sk. }
    assert (Lk' : (S k <= length d)%nat) by (apply nth_error_Some; congruence).
    rewrite main_code_cons in U. destruct (is_prev (n, i) || is_const (n, i)) eqn:Pc.
    + apply orb_true_iff in Pc. eapply IH; [exact Sk'|exact Lk'|eapply skip_step; eassumption|exact U].
    + apply orb_false_iff in Pc as [Np Nc]. cbn [bz_updates snd] in U.
      destruct (bz_update F (Z.of_nat t mod 2 ^ 32) (to_c i) s) as [s1|] eqn:U1; [|discriminate].
      eapply IH; [exact Sk'|exact Lk'|eapply main_step; eassumption|exact U].
Qed.
Lemma main_total t : Z.of_nat t < 2 ^ 31 ->
  (forall n i e int, In (n, i) d -> stands h cls types n e int -> exists v, yields F inp t e v) ->
  forall post k s, skipn k d = post -> (k <= length d)%nat -> inv t k s ->
  exists s', bz_updates F (Z.of_nat t mod 2 ^ 32) (main_code post) s = Some s'.
Proof.
  intros Ht Df post. induction post as [|[n i] post IH]; intros k s Sk Lk I.
  - eexists. reflexivity.
  - assert (Hk : nth_error d k = Some (n, i)).
    { rewrite <- (firstn_skipn k d), nth_error_app2; rewrite firstn_length_le by exact Lk; [|lia]. rewrite Nat.sub_diag, Sk. reflexivity. }
    assert (Sk' : skipn (S k) d = post).
    { eapply skipn_next, Sk. }
    assert (Lk' : (S k <= length d)%nat) by (apply nth_error_Some; congruence).
    rewrite main_code_cons. destruct (is_prev (n, i) || is_const (n, i)) eqn:Pc.
    + apply orb_true_iff in Pc. eapply IH; [exact Sk'|exact Lk'|eapply skip_step; eassumption].
    + apply orb_false_iff in Pc as [Np Nc]. cbn [bz_updates snd].
      destruct (exec_total t k s n i I Hk Np Nc) as [s1 U1]; [intros e int; apply (Df n i); exact (item_in k n i Hk)|].
      rewrite U1. eapply IH; [exact Sk'|exact Lk'|eapply main_step; eassumption].
Qed.

(** ** The previous values, at the end of a step *)
Lemma prev_not_const p : is_prev p = true -> is_const p = false.
Proof. unfold is_prev, is_const. intros H. apply Z.eqb_eq in H. rewrite H. reflexivity. Qed.
Lemma code_of_prev p l : is_prev p = true -> code_of (p :: l) = to_c (snd p) :: code_of l.
Proof. intros H. unfold code_of. cbn [filter]. rewrite (prev_not_const p H). reflexivity. Qed.
Lemma exec_prev ts (p : nat * bz_instruction) s : is_prev p = true ->
  bz_update F ts (to_c (snd p)) s = Some (set_value s (bz_id (snd p)) (value_buffer s (bz_operand2 (snd p)))).
Proof.
  intros H. apply Z.eqb_eq in H. unfold bz_update, to_c. cbn [c_bz_memref c_bz_opcode c_param1 c_param2]. rewrite H. reflexivity.
Qed.

Lemma prev_phase t ts s0 : inv t (length d) s0 -> forall post pre s, filter is_prev d = pre ++ post ->
  (forall j n i, nth_error d j = Some (n, i) -> is_prev (n, i) = false -> value_buffer s (Z.of_nat j) = value_buffer s0 (Z.of_nat j)) ->
  (forall j n i, nth_error d j = Some (n, i) -> In (n, i) pre -> right (S t) (value_buffer s) j n) ->
  atomic_buffer s = atomic_buffer s0 ->
  exists s', bz_updates F ts (code_of post) s = Some s' /\
    (forall j n i, nth_error d j = Some (n, i) -> is_prev (n, i) = false -> value_buffer s' (Z.of_nat j) = value_buffer s0 (Z.of_nat j)) /\
    prev_slots (S t) (value_buffer s') /\ atomic_buffer s' = atomic_buffer s0.
Proof.
  intros I0 post. induction post as [|[n i] post IH]; intros pre s Ef Fr Dn At.
  - exists s. split; [reflexivity|]. split; [exact Fr|]. split; [|exact At].
    intros j m i' Hj P. apply (Dn j m i' Hj). rewrite app_nil_r in Ef. rewrite <- Ef. apply filter_In. split; [exact (item_in j m i' Hj)|exact P].
  - assert (Hin : In (n, i) (filter is_prev d)) by (rewrite Ef; apply in_or_app; right; left; reflexivity).
    apply filter_In in Hin as [Hin P]. apply In_nth_error in Hin as [k Hk]. pose proof (item_id k n i Hk) as Id.
    rewrite code_of_prev by exact P. cbn [bz_updates]. rewrite exec_prev by exact P. cbn [snd]. rewrite Id.
    apply (IH (pre ++ [(n, i)])).
    + rewrite Ef, <- app_assoc. reflexivity.
    + intros j m i' Hj Nj. cbn [set_value value_buffer]. rewrite update_other; [exact (Fr j m i' Hj Nj)|].
      intros Q. assert (j = k) as -> by lia. rewrite Hk in Hj. injection Hj as <- <-. congruence.
    + intros j m i' Hj Hm. destruct (Nat.eq_dec j k) as [->|Ne].
      * rewrite Hk in Hj. injection Hj as <- <-. intros e int S.
        destruct (prev_class k n i e int Hk P S) as (x0 & x & v & e0 & -> & -> & Ec & Ch & Cv & Sx).
        destruct (enc k n i Hk) as [_ E]. rewrite Ec, Ch in E. destruct E as (_ & j1 & j2 & R1 & R2 & _ & E2).
        cbn [set_value value_buffer]. rewrite update_same, E2. destruct R2 as [L2 R2]. destruct (owner_item _ _ R2) as [ix Hx].
        assert (Nx : is_prev (x, ix) = false).
        { destruct (is_prev (x, ix)) eqn:Px; [|reflexivity]. exfalso.
          destruct (prev_class j2 x ix _ _ Hx Px Sx) as (_ & _ & _ & _ & _ & _ & Cx & _).
          exact (apart n i (item_in k n i Hk) x0 x Ec Ch Cx). }
        rewrite (Fr j2 x ix Hx Nx). destruct (inv_slot _ _ _ I0 j2 x ix Hx) with (e := e0) (int := is_int v) as (w & Y & T & H).
        { left. apply nth_error_Some. congruence. }
        { exact Sx. }
        exists w. split; [constructor; exact Y|]. auto.
      * cbn [set_value value_buffer]. intros e int S. rewrite update_other by lia.
        apply (Dn j m i' Hj); [|exact S]. apply in_app_iff in Hm as [Hm|[Hm|[]]]; [exact Hm|]. exfalso. apply Ne.
        injection Hm as <- <-. eapply index_eq; eassumption.
    + exact At.
Qed.

(** ** The whole run *)
Lemma updates_app ts : forall a b s, bz_updates F ts (a ++ b) s =
  match bz_updates F ts a s with Some s' => bz_updates F ts b s' | None => None end.
Proof. induction a as [|i a IH]; intros b s; [reflexivity|]. cbn. destruct (bz_update F ts i s); [apply IH|reflexivity]. Qed.
Lemma table_split : code_of (prev_last d) = main_code d ++ code_of (filter is_prev d).
Proof. unfold main_code, prev_last, code_of. rewrite filter_app, map_app. reflexivity. Qed.

Definition ready (t : nat) (s : bz_state) : Prop := const_slots (value_buffer s) /\ prev_slots t (value_buffer s).
Definition answers (t : nat) (s : bz_state) : Prop :=
  forall n i aid x e, In (n, i) d -> cls n = CAtomic aid -> nchildren (h n) = [x] -> stands h cls types x e true ->
    exists v, yields F inp t e (VInt v) /\ atomic_buffer s aid = negb (v =? 0).
Lemma ready_inv t s : ready t s ->
  inv t 0 (BzState (value_buffer s) (fun k => load_signal (signal_vector s k) (inp t k)) (atomic_buffer s)).
Proof.
  intros [Cs Ps]. split; cbn [value_buffer signal_vector atomic_buffer].
  - intros j n i Hj [L|[P|C]]; [lia|exact (Ps j n i Hj P)|]. intros e int S.
    destruct (const_stands j n i e int Hj C S) as (v & -> & -> & Cv). exists v. split; [constructor|]. split; [reflexivity|].
    exact (Cs j n i v Hj Cv).
  - exact Cs.
  - intros q. destruct (inputs_typed t q) as [_ Ti]. destruct (inp t q); cbn [load_signal holds]; [apply as_int_set, Ti|reflexivity].
  - intros j n i aid x e L. lia.
Qed.
Lemma step_answers t s s' : Z.of_nat t < 2 ^ 31 -> ready t s ->
  bz_step F (Z.of_nat t mod 2 ^ 32) (code_of (prev_last d)) (inp t) s = Some s' -> ready (S t) s' /\ answers t s'.
Proof.
  intros Ht R U. unfold bz_step in U. rewrite table_split, updates_app in U.
  destruct (bz_updates F _ (main_code d) _) as [s1|] eqn:U1; [|discriminate].
  assert (I1 : inv t (length d) s1) by (eapply main_phase; [exact Ht|reflexivity|apply Nat.le_0_l|apply ready_inv, R|exact U1]).
  destruct (prev_phase t (Z.of_nat t mod 2 ^ 32) s1 I1 (filter is_prev d) [] s1) as (s2 & U2 & Fr & Ps & At); auto.
  { intros j n i _ []. }
  rewrite U2 in U. injection U as <-. split; [split; [|exact Ps]|].
  - intros k n i v Hk Cv. rewrite (Fr k n i Hk); [exact (inv_const _ _ _ I1 k n i v Hk Cv)|].
    pose proof (const_class n i k v Hk Cv) as Op. unfold is_prev. cbn [snd]. destruct v; destruct Op as [-> _]; reflexivity.
  - intros n i aid x e Hin Cn Ch S. apply In_nth_error in Hin as [k Hk]. rewrite At.
    apply (inv_atom _ _ _ I1 k n i aid x e); try assumption. apply nth_error_Some. congruence.
Qed.
Lemma step_total t s : Z.of_nat t < 2 ^ 31 -> ready t s ->
  (forall n i e int, In (n, i) d -> stands h cls types n e int -> exists v, yields F inp t e v) ->
  exists s', bz_step F (Z.of_nat t mod 2 ^ 32) (code_of (prev_last d)) (inp t) s = Some s'.
Proof.
  intros Ht R Df. unfold bz_step. rewrite table_split, updates_app.
  destruct (main_total t Ht Df d 0%nat _ eq_refl (Nat.le_0_l _) (ready_inv t s R)) as [s1 U1]. rewrite U1.
  assert (I1 : inv t (length d) s1) by (eapply main_phase; [exact Ht|reflexivity|apply Nat.le_0_l|apply ready_inv, R|exact U1]).
  destruct (prev_phase t (Z.of_nat t mod 2 ^ 32) s1 I1 (filter is_prev d) [] s1) as (s2 & U2 & _); auto; [intros j n i _ []|].
  eauto.
Qed.

Lemma run_ready s0 : const_slots (value_buffer s0) -> prev_slots 0 (value_buffer s0) -> forall t s, Z.of_nat t <= 2 ^ 31 ->
  bz_run_from F (code_of (prev_last d)) s0 inp t = Some s -> ready t s.
Proof.
  intros C0 P0. induction t as [|t IH]; intros s Ht U; cbn [bz_run_from] in U; [injection U as <-; split; assumption|].
  destruct (bz_run_from F (code_of (prev_last d)) s0 inp t) as [s1|]; [|discriminate].
  assert (Z.of_nat t < 2 ^ 31) by lia.
  eapply step_answers; [eassumption|apply IH; [lia|reflexivity]|exact U].
Qed.
Lemma run_answers s0 t s : const_slots (value_buffer s0) -> prev_slots 0 (value_buffer s0) -> Z.of_nat t < 2 ^ 31 ->
  bz_run_from F (code_of (prev_last d)) s0 inp (S t) = Some s -> answers t s.
Proof.
  intros C0 P0 Ht U. cbn [bz_run_from] in U. destruct (bz_run_from F (code_of (prev_last d)) s0 inp t) as [s1|] eqn:U1; [|discriminate].
  eapply step_answers; [eassumption|eapply run_ready; [exact C0|exact P0| |exact U1]; lia|exact U].
Qed.
Lemma run_total s0 : const_slots (value_buffer s0) -> prev_slots 0 (value_buffer s0) -> forall t, Z.of_nat t <= 2 ^ 31 ->
  (forall t' n i e int, (t' < t)%nat -> In (n, i) d -> stands h cls types n e int -> exists v, yields F inp t' e v) ->
  exists s, bz_run_from F (code_of (prev_last d)) s0 inp t = Some s.
Proof.
  intros C0 P0. induction t as [|t IH]; intros Ht Df; [eexists; reflexivity|].
  destruct IH as [s1 U1]; [lia| |].
  { intros t' n i e int L. apply (Df t' n i). lia. }
  cbn [bz_run_from]. rewrite U1. apply step_total; [lia|eapply run_ready; [exact C0|exact P0| |exact U1]; lia|].
  intros n i e int. apply (Df t n i). lia.
Qed.
End Run.
