(** * Running the Rust booleanizer (proofs) *)
From Coq Require Import List Arith ZArith Bool Lia.
Require Import Verif.Graph Verif.GraphSpec Verif.Binary Verif.BinarySpec Verif.BinaryProofs.
Require Import Verif.Layout Verif.Booleanizer Verif.Assembly Verif.AssemblySpec Verif.AssemblyProofs.
Require Import Verif.BooleanizerSpec Verif.BooleanizerOps Verif.BooleanizerGen Verif.BooleanizerProofs.
Require Import Verif.RustBooleanizer Verif.RustBzSpec Verif.RustBzOps Verif.RustBzArith.
Import ListNotations.
Local Open Scope Z_scope.

Definition rust_loaded (l : dict bz_instruction) : list action := map (fun p => rust_result (IBz (snd p))) l.

(** ** Loading *)
Definition rust_from (p : list c_bz * (Z -> rvalue)) (acts : list action) := fold_left (fun p a => rust_bz_one a p) acts p.
Lemma rust_from_app p a b : rust_from p (a ++ b) = rust_from (rust_from p a) b.
Proof. apply fold_left_app. Qed.
Lemma rust_cases (p : nat * bz_instruction) : rust_result (IBz (snd p)) =
  if bz_operator (snd p) =? op_iconst then SetInt (bz_id (snd p)) (wrap_int (low_word (bz_operand1 (snd p))))
  else if bz_operator (snd p) =? op_fconst then SetFloat (bz_id (snd p)) (repair (float_bits (bits_of (bz_operand1 (snd p)))))
  else StoreBz (to_c (snd p)).
Proof.
  unfold rust_result. rewrite result_cases. destruct (bz_operator (snd p) =? op_iconst); [reflexivity|].
  destruct (bz_operator (snd p) =? op_fconst); reflexivity.
Qed.
Lemma rust_table : forall l t vb, fst (rust_from (t, vb) (rust_loaded l)) = t ++ code_of l.
Proof.
  induction l as [|p l IH]; intros t vb; [cbn; rewrite app_nil_r; reflexivity|].
  unfold rust_loaded, rust_from. cbn [map fold_left]. fold (rust_loaded l).
  rewrite rust_cases. unfold code_of. cbn [filter]. unfold is_const at 1.
  destruct (bz_operator (snd p) =? op_iconst); [apply IH|]. destruct (bz_operator (snd p) =? op_fconst); [apply IH|].
  cbn [orb negb map rust_bz_one]. unfold rust_from in IH. rewrite IH. rewrite <- app_assoc. reflexivity.
Qed.
Lemma rust_frame : forall l t vb ref, ~ In ref (map (fun p => bz_id (snd p)) l) ->
  snd (rust_from (t, vb) (rust_loaded l)) ref = vb ref.
Proof.
  induction l as [|p l IH]; intros t vb ref H; [reflexivity|].
  unfold rust_loaded, rust_from. cbn [map fold_left]. fold (rust_loaded l).
  cbn [map In] in H. assert (Hr : ref <> bz_id (snd p)) by (intros ->; tauto).
  assert (Hl : ~ In ref (map (fun p => bz_id (snd p)) l)) by tauto.
  rewrite rust_cases. unfold rust_from in IH.
  destruct (bz_operator (snd p) =? op_iconst); [cbn [rust_bz_one]; rewrite IH by assumption; apply update_other; assumption|].
  destruct (bz_operator (snd p) =? op_fconst); [cbn [rust_bz_one]; rewrite IH by assumption; apply update_other; assumption|].
  cbn [rust_bz_one to_c c_bz_opcode c_bz_memref c_param1]. rewrite IH by assumption.
  destruct (bz_operator (snd p) =? 39); [apply update_other; assumption|reflexivity].
Qed.
Lemma rust_at l1 (p : nat * bz_instruction) l2 t vb : ~ In (bz_id (snd p)) (map (fun p => bz_id (snd p)) l2) ->
  snd (rust_from (t, vb) (rust_loaded (l1 ++ p :: l2))) (bz_id (snd p)) =
  snd (rust_bz_one (rust_result (IBz (snd p))) (rust_from (t, vb) (rust_loaded l1))) (bz_id (snd p)).
Proof.
  intros H. unfold rust_loaded. rewrite map_app, rust_from_app. cbn [map].
  change (map (fun p0 => rust_result (IBz (snd p0))) l1) with (rust_loaded l1).
  change (map (fun p0 => rust_result (IBz (snd p0))) l2) with (rust_loaded l2).
  destruct (rust_from (t, vb) (rust_loaded l1)) as [t1 v1].
  change (rust_from (t1, v1) (rust_result (IBz (snd p)) :: rust_loaded l2)) with
    (rust_from (rust_bz_one (rust_result (IBz (snd p))) (t1, v1)) (rust_loaded l2)).
  destruct (rust_bz_one (rust_result (IBz (snd p))) (t1, v1)) as [t2 v2]. apply rust_frame. exact H.
Qed.
Lemma rust_rest : forall rest p, (forall b, ~ In (IBz b) rest) -> rust_from p (map rust_result rest) = p.
Proof.
  induction rest as [|a rest IH]; intros p H; [reflexivity|]. unfold rust_from. cbn [map fold_left].
  assert (E : rust_bz_one (rust_result a) p = p).
  { destruct p as [t vb]. destruct a as [b|i|i]; [exfalso; apply (H b); left; reflexivity|reflexivity|reflexivity]. }
  rewrite E. apply IH. intros b Hb. apply (H b). right. exact Hb.
Qed.

(** What the cell of a value contains. *)
Definition keeps (c : rvalue) (v : value) : Prop := match v with VInt z => r_i c = z /\ int32 z | VFloat bits => r_f c = bits end.

Section Run.
Variable h : heap.
Variable cls : nat -> nclass.
Variable types : Z -> bool.
Variable F : float_ops.
Variable le : Z -> Z -> bool.
Variable inp : nat -> Z -> value.
Variable d : dict bz_instruction.
Hypothesis enc : forall k n i, nth_error d k = Some (n, i) -> encodes h cls (map fst d) k n i.
Hypothesis fit : forall n i, In (n, i) d -> bz_fits i.
Hypothesis means : forall n i, In (n, i) d -> bz_class (cls n) -> exists e int, stands h cls types n e int.
Hypothesis apart : forall n i, In (n, i) d -> prev_apart h cls n.
Hypothesis aids : forall n i m j aid, In (n, i) d -> In (m, j) d -> cls n = CAtomic aid -> cls m = CAtomic aid -> n = m.
Hypothesis keys : NoDup (map fst d).
Hypothesis inputs_typed : typed types inp.

Let item_in k n i : nth_error d k = Some (n, i) -> In (n, i) d.
Proof. apply nth_error_In. Qed.
Let item_id k n i : nth_error d k = Some (n, i) -> bz_id i = Z.of_nat k.
Proof. intros H. apply (enc k n i H). Qed.
Let item_small k n i : nth_error d k = Some (n, i) -> Z.of_nat k < 2 ^ 32.
Proof. eapply BooleanizerProofs.item_small; eassumption. Qed.
Let owner_item j c : nth_error (map fst d) j = Some c -> exists i, nth_error d j = Some (c, i).
Proof. apply BooleanizerProofs.owner_item. Qed.
Let const_class n i k v : nth_error d k = Some (n, i) -> const_node (cls n) v ->
  match v with VInt z => bz_operator i = op_iconst /\ bz_operand1 i = BzInt z
             | VFloat b => bz_operator i = op_fconst /\ bz_operand1 i = BzFloat b end.
Proof. eapply BooleanizerProofs.const_class; eassumption. Qed.
Let const_stands k n i e int : nth_error d k = Some (n, i) -> is_const (n, i) = true -> stands h cls types n e int ->
  exists v, e = NValue v /\ int = is_int v /\ const_node (cls n) v.
Proof. eapply BooleanizerProofs.const_stands; eassumption. Qed.
Let prev_class k n i e int : nth_error d k = Some (n, i) -> is_prev (n, i) = true -> stands h cls types n e int ->
  exists x0 x v e0, e = NPrev v e0 /\ int = is_int v /\ cls n = Assembly.CBz op_prev /\ nchildren (h n) = [x0; x] /\
    const_node (cls x0) v /\ stands h cls types x e0 (is_int v).
Proof. eapply BooleanizerProofs.prev_class; eassumption. Qed.
Let index_eq j k n i : nth_error d j = Some (n, i) -> forall i', nth_error d k = Some (n, i') -> j = k.
Proof. eapply BooleanizerProofs.index_eq; eassumption. Qed.
Let store_class k n i : nth_error d k = Some (n, i) -> bz_operator i = op_store -> exists aid, cls n = CAtomic aid.
Proof. eapply BooleanizerProofs.store_class; eassumption. Qed.
Let stands_prev k n i e int : nth_error d k = Some (n, i) -> stands h cls types n e int -> is_prev (n, i) = false ->
  cls n <> Assembly.CBz op_prev.
Proof. eapply BooleanizerProofs.stands_prev; eassumption. Qed.
Let low_ref k n i j : nth_error d k = Some (n, i) -> (j < k)%nat -> low_word (BzInt (Z.of_nat j)) = Z.of_nat j.
Proof. intros H L. pose proof (item_small k n i H). cbn. apply Z.mod_small. lia. Qed.
Let prev_last_ids : NoDup (map (fun p => bz_id (snd p)) (prev_last d)).
Proof. eapply BooleanizerProofs.prev_last_ids; eassumption. Qed.

(** The slot of node [n] at position [k] is right at step [t], if [n] has a value. *)
Definition kept (t : nat) (vb : Z -> rvalue) (k n : nat) : Prop :=
  forall e int v, stands h cls types n e int -> saturated F le inp t e v -> is_int v = int /\ keeps (vb (Z.of_nat k)) v.
Definition const_kept (vb : Z -> rvalue) : Prop :=
  forall k n i v, nth_error d k = Some (n, i) -> const_node (cls n) v -> keeps (vb (Z.of_nat k)) v.
Definition prev_kept (t : nat) (vb : Z -> rvalue) : Prop :=
  forall k n i, nth_error d k = Some (n, i) -> is_prev (n, i) = true -> kept t vb k n.

Lemma rust_slots : let vb := snd (rust_bz_load (rust_loaded (prev_last d))) in const_kept vb /\ prev_kept 0 vb.
Proof.
  cbn zeta. change (rust_bz_load (rust_loaded (prev_last d))) with (rust_from ([], fun _ => RValue 0 0) (rust_loaded (prev_last d))).
  set (vb0 := fun _ : Z => RValue 0 0).
  assert (A : forall l1 p l2, prev_last d = l1 ++ p :: l2 ->
     ~ In (bz_id (snd p)) (map (fun p => bz_id (snd p)) l2) /\ ~ In (bz_id (snd p)) (map (fun p => bz_id (snd p)) l1)).
  { intros l1 p l2 E. pose proof prev_last_ids as N. rewrite E, map_app in N. cbn in N. apply NoDup_remove_2 in N.
    rewrite in_app_iff in N. tauto. }
  assert (In_pl : forall p, In p d -> In p (prev_last d)).
  { intros p Hp. unfold prev_last. rewrite in_app_iff, !filter_In. destruct (is_prev p); auto. }
  assert (C : const_kept (snd (rust_from ([], vb0) (rust_loaded (prev_last d))))).
  { intros k n i v Hk Cn. pose proof (const_class n i k v Hk Cn) as Op.
    destruct (in_split _ _ (In_pl _ (item_in k n i Hk))) as (l1 & l2 & Es). rewrite Es.
    rewrite <- (item_id k n i Hk). destruct (A l1 (n, i) l2 Es) as [N _].
    pose proof (rust_at l1 (n, i) l2 [] vb0 N) as L. cbn [snd] in L. rewrite L. clear L.
    destruct (rust_from ([], vb0) (rust_loaded l1)) as [t1 v1].
    pose proof (fit n i (item_in k n i Hk)) as Ft. unfold bz_fits in Ft.
    pose proof (rust_cases (n, i)) as Rc. cbn [snd] in Rc. rewrite Rc. clear Rc. destruct v as [z|b]; cbn [const_node] in Cn; destruct Cn as [Cn R]; destruct Op as [O1 O2]; rewrite O1, O2 in *.
    - rewrite Z.eqb_refl. cbn [rust_bz_one snd]. rewrite update_same. cbn [keeps low_word set_i r_i]. rewrite (Z.mod_small z) by lia.
      split; [apply wrap_id|]; unfold int32; lia.
    - change (op_fconst =? op_iconst) with false. rewrite Z.eqb_refl. cbn [rust_bz_one snd]. rewrite update_same.
      cbn [keeps bits_of set_f r_f]. apply repair_float. lia. }
  split; [exact C|].
  intros k n i Hk Hp e int w S Y.
  destruct (enc k n i Hk) as [Id E].
  destruct (prev_class k n i e int Hk Hp S) as (x0 & x & v & e' & -> & -> & Cn & Ch & Cv & _).
  unfold is_prev in Hp. cbn [snd] in Hp. apply Z.eqb_eq in Hp.
  inversion Y; subst. split; [reflexivity|].
  rewrite Cn, Ch in E. destruct E as (_ & j1 & j2 & [J1 R1] & _ & O1 & _).
  destruct (owner_item _ _ R1) as [i0 I0].
  destruct (in_split _ _ (In_pl _ (item_in k n i Hk))) as (l1 & l2 & Es).
  pose proof (C j1 x0 i0 w I0 Cv) as C0. rewrite Es in C0 |- *.
  destruct (A l1 (n, i) l2 Es) as [N _].
  pose proof (rust_at l1 (n, i) l2 [] vb0 N) as L. cbn [snd] in L. rewrite <- Id, L. clear L.
  assert (I1 : In (x0, i0) l1).
  { assert (Ip : is_prev (x0, i0) = false).
    { pose proof (const_class x0 i0 j1 w I0 Cv) as Op. unfold is_prev. cbn [snd]. destruct w; destruct Op as [-> _]; reflexivity. }
    unfold prev_last in Es.
    assert (Hn : In (x0, i0) (filter (fun p => negb (is_prev p)) d)).
    { apply filter_In. split; [apply (item_in j1), I0|]. rewrite Ip. reflexivity. }
    assert (Hs : forall (A1 A2 : dict bz_instruction) l1 q l2, A1 ++ A2 = l1 ++ q :: l2 -> ~ In q A1 -> forall y, In y A1 -> In y l1).
    { induction A1 as [|a A1 IHA]; intros A2 m1 q m2 Eq Nq y Hy; [easy|]. destruct m1 as [|b m1]; cbn in Eq; injection Eq as -> Eq.
      - exfalso. apply Nq. left. reflexivity.
      - destruct Hy as [->|Hy]; [left; reflexivity|]. right. eapply IHA; [exact Eq| |exact Hy]. intros H. apply Nq. right. exact H. }
    eapply Hs; [exact Es| |exact Hn]. rewrite filter_In. unfold is_prev. cbn [snd]. rewrite Hp. cbn. intros [_ H]. discriminate. }
  destruct (rust_from ([], vb0) (rust_loaded l1)) as [t1 v1] eqn:Ev.
  assert (V1 : v1 (Z.of_nat j1) = snd (rust_from ([], vb0) (rust_loaded (l1 ++ (n, i) :: l2))) (Z.of_nat j1)).
  { unfold rust_loaded. rewrite map_app, rust_from_app. fold (rust_loaded l1). rewrite Ev.
    change (map (fun p0 => rust_result (IBz (snd p0))) ((n, i) :: l2)) with (rust_loaded ((n, i) :: l2)).
    rewrite rust_frame; [reflexivity|].
    pose proof prev_last_ids as Nd. rewrite Es, map_app in Nd.
    apply in_split in I1 as (a1 & a2 & ->). rewrite map_app in Nd. cbn [map snd] in Nd.
    rewrite <- app_assoc in Nd. cbn [app] in Nd. apply NoDup_remove_2 in Nd. rewrite !in_app_iff in Nd.
    rewrite <- (item_id j1 x0 i0 I0). tauto. }
  pose proof (rust_cases (n, i)) as Rc. cbn [snd] in Rc. rewrite Rc. clear Rc. rewrite Hp. change (op_prev =? op_iconst) with false. change (op_prev =? op_fconst) with false.
  cbn [rust_bz_one to_c c_bz_opcode c_bz_memref c_param1 snd]. rewrite Hp. change (op_prev =? 39) with true. cbv iota. rewrite update_same, O1.
  cbn [low_word]. rewrite Z.mod_small by (pose proof (item_small j1 x0 i0 I0); lia). rewrite V1. exact C0.
Qed.

(** ** One step *)
Lemma rust_update_frame ts c s s' : rust_update F le ts c s = Some s' ->
  rust_signals s' = rust_signals s /\
  (forall r, r <> c_bz_memref c -> rust_values s' r = rust_values s r) /\
  (forall a, c_bz_opcode c <> op_store \/ a <> c_param2 c -> rust_atomics s' a = rust_atomics s a).
Proof using F le.
  unfold rust_update. intros E.
  assert (St : bz_decode (c_bz_opcode c) = Some STORE -> c_bz_opcode c = op_store).
  { unfold bz_decode. destruct (find (fun p => fst p =? c_bz_opcode c) bz_opcodes) as [[q o]|] eqn:Ef; [|discriminate].
    apply find_some in Ef as [Hin Eq]. cbn [fst] in Eq. apply Z.eqb_eq in Eq. subst q. cbn [option_map snd]. intros Ho. injection Ho as ->.
    cbn [bz_opcodes In] in Hin. repeat (destruct Hin as [Hin|Hin]; [inversion Hin; reflexivity|]). easy. }
  assert (SV : forall ref v f, s' = put s ref v f -> ref = c_bz_memref c ->
    rust_signals s' = rust_signals s /\
    (forall r, r <> c_bz_memref c -> rust_values s' r = rust_values s r) /\
    (forall a, c_bz_opcode c <> op_store \/ a <> c_param2 c -> rust_atomics s' a = rust_atomics s a)).
  { intros ref v f -> ->. cbn. split; [reflexivity|]. split; [|reflexivity]. intros r Hr. apply update_other. exact Hr. }
  destruct (bz_decode (c_bz_opcode c)) as [[| | |o|o|o|o|o| |]|].
  4: destruct (rust_unary o _) as [z f].
  5: destruct (rust_binary o _ _) as [[z f]|]; [|discriminate].
  3: { injection E as <-. cbn. split; [reflexivity|]. split; [reflexivity|]. intros a [H|H]; [exfalso; apply H, St; reflexivity|].
       apply update_other. exact H. }
  all: injection E as <-; try (eapply SV; reflexivity). auto.
Qed.

Record kinv (t k : nat) (s : rust_state) : Prop := Kinv {
  kinv_slot : forall j n i, nth_error d j = Some (n, i) ->
    (j < k)%nat \/ is_prev (n, i) = true \/ is_const (n, i) = true -> kept t (rust_values s) j n;
  kinv_const : const_kept (rust_values s);
  kinv_signal : forall q, keeps (rust_signals s q) (inp t q);
  kinv_atom : forall j n i aid x e v, (j < k)%nat -> nth_error d j = Some (n, i) -> cls n = CAtomic aid ->
    nchildren (h n) = [x] -> stands h cls types x e true -> saturated F le inp t e (VInt v) ->
    rust_atomics s aid = negb (v =? 0)
}.
Lemma child_kept t k s j c : kinv t k s -> refers (map fst d) k j c -> kept t (rust_values s) j c.
Proof. intros I [L R]. destruct (owner_item _ _ R) as [i Hi]. apply (kinv_slot _ _ _ I j c i Hi). auto. Qed.

(** What an instruction does, given the values of its operands. *)
Lemma exec_kept t k s n i s' e int v : kinv t k s -> Z.of_nat t < 2 ^ 31 -> nth_error d k = Some (n, i) ->
  is_prev (n, i) = false -> is_const (n, i) = false -> stands h cls types n e int -> saturated F le inp t e v ->
  rust_update F le (Z.of_nat t mod 2 ^ 32) (to_c i) s = Some s' ->
  (is_int v = int /\ keeps (rust_values s' (Z.of_nat k)) v) /\
  ((arithmetic (bz_operator i) /\ (rust_overflow s' = true <-> overflows F le inp t e)) \/
   (~ arithmetic (bz_operator i) /\ ~ overflows F le inp t e /\ rust_overflow s' = rust_overflow s)).
Proof.
  intros I Ht Hk Np Nc S Y U. destruct (enc k n i Hk) as [Id E].
  pose proof (fit n i (item_in k n i Hk)) as Ft. unfold bz_fits in Ft.
  pose proof (stands_prev k n i e int Hk S Np) as Npr.
  unfold rust_update, to_c in U. cbn [c_bz_memref c_bz_opcode c_param1 c_param2] in U. rewrite Id in U.
  inversion S as [n' q Ec Hq|n' w Cv|n' Ec|n' o code x e0 int0 Ec Uc Ch Sx|n' o code x1 x2 e1 e2 int0 Ec Uc Ch S1 S2|n' x0 x w e0 Ec Ch Cv Sx]; subst.
  - (* signal *) rewrite Ec in E. destruct E as [Eo E1]. rewrite Eo, E1 in *.
    destruct (inputs_typed t q) as [Ty Tr]. pose proof (kinv_signal _ _ _ I q) as Sg.
    inversion Y; subst. 
    assert (Lw : low_word (BzInt q) = q).
    { cbn. apply Z.mod_small. destruct (types q); cbn in Ft; lia. }
    rewrite Lw in U. unfold load_code in *. destruct (types q).
    + change (bz_decode 1) with (Some ILOAD) in U. injection U as <-. cbn [put rust_values rust_overflow]. rewrite update_same. split.
      * split; [exact Ty|]. destruct (inp t q) as [z|b]; [|discriminate]. exact Sg.
      * right. split; [not_arith|]. split; [easy|reflexivity].
    + change (bz_decode 2) with (Some FLOAD) in U. injection U as <-. cbn [put rust_values rust_overflow]. rewrite update_same. split.
      * split; [exact Ty|]. destruct (inp t q) as [z|b]; [discriminate|]. exact Sg.
      * right. split; [not_arith|]. split; [easy|reflexivity].
  - (* constant *) exfalso. pose proof (const_class n i k w Hk Cv) as Op. unfold is_const in Nc. cbn [snd] in Nc.
    destruct w; destruct Op as [Op _]; rewrite Op in Nc; discriminate.
  - (* time *) rewrite Ec in E. rewrite E in *. change (bz_decode op_ts) with (Some TS) in U. injection U as <-.
    inversion Y; subst. cbn [put rust_values rust_overflow]. rewrite update_same. split.
    + split; [reflexivity|]. unfold int_max. rewrite (Z.mod_small (Z.of_nat t)) by lia.
      match goal with |- context [?c <? Z.of_nat t] => replace (c <? Z.of_nat t) with false by (symmetry; apply Z.ltb_ge; lia) end.
      cbn [keeps set_i r_i]. unfold int32. lia.
    + right. split; [not_arith|]. split; [easy|reflexivity].
  - (* unary *) rewrite Ec, Ch in E. destruct E as (Eo & j & R & E1). rewrite Eo, E1 in *. rewrite (low_ref k n i j Hk (proj1 R)) in U.
    inversion Y as [| | |? ? ? a c Ya Sc|? ? ? a c Ya Sc| | | |]; subst; destruct (child_kept t k s j x I R e0 int _ Sx Ya) as [Ta Ha];
      cbn [is_int] in Ta; subst int; cbn [keeps] in Ha.
    + destruct (exec_unary_sat o _ Uc) as (o' & Dc & X). rewrite Dc in U. destruct Ha as [Ha Ia]. rewrite Ha in U.
      destruct (X a Ia) as (c' & f & Ex & Ic & Sc' & Fl). rewrite Ex in U. injection U as <-.
      rewrite (unary_sat_unique _ _ _ _ Sc Sc'). cbn [put rust_values rust_overflow]. rewrite update_same. split.
      * split; [reflexivity|]. cbn. auto.
      * assert (Ov : overflow1 o a <-> overflows F le inp t (NUnary o e0)).
        { cbn. split; [eauto|]. intros (a' & Sa' & O). pose proof (saturated_unique _ _ _ _ _ _ Ya _ Sa') as Q. injection Q as <-. exact O. }
        unfold flagged in Fl. destruct f as [f|]; [left|right]; rewrite <- Ov; intuition.
    + destruct (exec_unary_float F o _ Uc) as (o' & Dc & X). rewrite Dc in U. injection U as <-.
      assert (c = flt_unary F o' a) as -> by (specialize (X a); congruence).
      cbn [put rust_values rust_overflow]. rewrite update_same. split.
      * split; [reflexivity|]. cbn. rewrite Ha. reflexivity.
      * right. split; [destruct o; try discriminate Uc; injection Uc as <-; not_arith|]. split; [|reflexivity].
        intros (a' & Sa' & O). pose proof (saturated_unique _ _ _ _ _ _ Ya _ Sa') as Q. discriminate Q.
  - (* binary *) rewrite Ec, Ch in E. destruct E as (Eo & j1 & j2 & R1 & R2 & E1 & E2). rewrite Eo, E1, E2 in *.
    rewrite (low_ref k n i j1 Hk (proj1 R1)) in U.
    inversion Y as [| | | | |? ? ? ? a b c Ya Yb Sc|? ? ? ? a b c Ya Yb Sc| |]; subst;
      destruct (child_kept t k s j1 x1 I R1 e1 int0 _ S1 Ya) as [Ta Ha]; destruct (child_kept t k s j2 x2 I R2 e2 int0 _ S2 Yb) as [Tb Hb];
      cbn [is_int] in Ta, Tb; subst int0; cbn [keeps] in Ha, Hb.
    + destruct (exec_binary_sat o _ Uc) as (o' & Dc & X). rewrite Dc in U. destruct Ha as [Ha Ia], Hb as [Hb Ib]. rewrite Ha, Hb in U.
      destruct (X a b Ia Ib) as [X1 X2]. destruct (X1 c Sc) as [f Ex]. rewrite Ex in U. injection U as <-.
      destruct (X2 c f Ex) as (Ic & _ & Fl). cbn [put rust_values rust_overflow]. rewrite update_same. split.
      * split; [destruct (relational o); reflexivity|]. cbn. auto.
      * assert (Ov : overflow2 o a b <-> overflows F le inp t (NBinary o e1 e2)).
        { cbn. split; [eauto|]. intros (a' & b' & Sa' & Sb' & O).
          pose proof (saturated_unique _ _ _ _ _ _ Ya _ Sa') as Q. injection Q as <-.
          pose proof (saturated_unique _ _ _ _ _ _ Yb _ Sb') as Q. injection Q as <-. exact O. }
        unfold flagged in Fl. destruct f as [f|]; [left|right]; rewrite <- Ov; intuition.
    + pose proof (exec_binary_sat_float F le o _ Uc) as X. 
      assert (Nov : ~ overflows F le inp t (NBinary o e1 e2)).
      { intros (a' & b' & Sa' & _). pose proof (saturated_unique _ _ _ _ _ _ Ya _ Sa') as Q. discriminate Q. }
      assert (Nar : ~ arithmetic (bz_operator i)) by (destruct o; try discriminate Uc; injection Uc as <-; not_arith).
      destruct (relational o); destruct X as (o' & Dc & X); rewrite Dc in U; injection U as <-;
        specialize (X a b); rewrite X in Sc; injection Sc as <-; cbn [put rust_values rust_overflow]; rewrite update_same;
        (split; [|right; auto]).
      * split; [reflexivity|]. cbn. rewrite Ha, Hb. split; [reflexivity|]. apply truth_int32.
      * split; [reflexivity|]. cbn. rewrite Ha, Hb. reflexivity.
  - (* prev *) contradiction.
Qed.

Lemma store_flag k n i ts s s' : nth_error d k = Some (n, i) -> (exists aid, cls n = CAtomic aid) ->
  rust_update F le ts (to_c i) s = Some s' -> bz_operator i = op_store /\ rust_overflow s' = rust_overflow s.
Proof.
  intros Hk [aid C] U. destruct (enc k n i Hk) as [_ E]. rewrite C in E. destruct (nchildren (h n)); [contradiction|].
  destruct E as (Eo & _). split; [exact Eo|]. unfold rust_update, to_c in U. cbn [c_bz_memref c_bz_opcode c_param1 c_param2] in U. rewrite Eo in U.
  change (bz_decode op_store) with (Some STORE) in U. injection U as <-. reflexivity.
Qed.
Lemma item_class k n i : nth_error d k = Some (n, i) -> bz_class (cls n) \/ exists aid, cls n = CAtomic aid.
Proof.
  intros Hk. destruct (enc k n i Hk) as [_ E]. destruct (cls n); try contradiction; try (left; exact Logic.I). right. eauto.
Qed.

(** Every expression of the program has a value at step [t]. *)
Definition all_valued (t : nat) : Prop := forall n i e int, In (n, i) d -> stands h cls types n e int -> exists v, saturated F le inp t e v.

Lemma rust_total t k s n i : kinv t k s -> nth_error d k = Some (n, i) -> is_prev (n, i) = false -> is_const (n, i) = false ->
  all_valued t -> exists s', rust_update F le (Z.of_nat t mod 2 ^ 32) (to_c i) s = Some s'.
Proof.
  intros I Hk Np Nc Df. destruct (enc k n i Hk) as [Id E].
  unfold rust_update, to_c. cbn [c_bz_memref c_bz_opcode c_param1 c_param2].
  destruct (bz_decode (bz_operator i)) as [[| | |o|o|o|o|o| |]|] eqn:Dc; try (eexists; reflexivity).
  1: destruct (rust_unary o _); eexists; reflexivity.
  assert (Bc : bz_class (cls n)).
  { destruct (item_class k n i Hk) as [B|[aid C]]; [exact B|]. exfalso. rewrite C in E.
    destruct (nchildren (h n)); [contradiction|]; destruct E as (Eo & _); rewrite Eo in Dc; discriminate Dc. }
  destruct (means n i (item_in k n i Hk) Bc) as (e & int & S). destruct (Df n i e int (item_in k n i Hk) S) as [v Y].
  pose proof (stands_prev k n i e int Hk S Np) as Npr.
  inversion S as [n' q Ec Hq|n' w Cv|n' Ec|n' o1 code x e0 int0 Ec Uc Ch Sx|n' o1 code x1 x2 e1 e2 int0 Ec Uc Ch S1 S2|n' x0 x w e0 Ec Ch Cv Sx]; subst;
    try contradiction; try rewrite Ec in E.
  1: exfalso; destruct E as [E _]; rewrite E in Dc; unfold load_code in Dc; destruct (types q); discriminate Dc.
  1: exfalso; pose proof (const_class n i k w Hk Cv) as Op; destruct w; destruct Op as [Op _]; rewrite Op in Dc; discriminate Dc.
  1: exfalso; rewrite E in Dc; discriminate Dc.
  - exfalso. rewrite Ch in E. destruct E as (Eo & j & R & E1). rewrite Eo in Dc. destruct int.
    + destruct (exec_unary_sat o1 _ Uc) as (o' & Dc' & _). rewrite Dc in Dc'. discriminate.
    + destruct (exec_unary_float F o1 _ Uc) as (o' & Dc' & _). rewrite Dc in Dc'. discriminate.
  - rewrite Ch in E. destruct E as (Eo & j1 & j2 & R1 & R2 & E1 & E2). rewrite E1, E2. rewrite (low_ref k n i j1 Hk (proj1 R1)). rewrite Eo in Dc.
    inversion Y as [| | | | |? ? ? ? a b c Ya Yb Sc|? ? ? ? a b c Ya Yb Sc| |]; subst;
      destruct (child_kept t k s j1 x1 I R1 e1 int0 _ S1 Ya) as [Ta Ha]; destruct (child_kept t k s j2 x2 I R2 e2 int0 _ S2 Yb) as [Tb Hb];
      cbn [is_int] in Ta, Tb; subst int0; cbn [keeps] in Ha, Hb.
    + destruct (exec_binary_sat o1 _ Uc) as (o' & Dc' & X). rewrite Dc in Dc'. injection Dc' as <-. destruct Ha as [Ha Ia], Hb as [Hb Ib].
      rewrite Ha, Hb. destruct (proj1 (X a b Ia Ib) c Sc) as [f ->]. eexists. reflexivity.
    + exfalso. pose proof (exec_binary_sat_float F le o1 _ Uc) as X.
      destruct (relational o1); destruct X as (o' & Dc' & _); rewrite Dc in Dc'; discriminate.
Qed.

Lemma rust_main_step t k s n i s' : kinv t k s -> Z.of_nat t < 2 ^ 31 -> nth_error d k = Some (n, i) ->
  is_prev (n, i) = false -> is_const (n, i) = false ->
  rust_update F le (Z.of_nat t mod 2 ^ 32) (to_c i) s = Some s' -> kinv t (S k) s'.
Proof.
  intros I Ht Hk Np Nc U. destruct (rust_update_frame _ _ _ _ U) as (Fs & Fv & Fa).
  pose proof (item_id k n i Hk) as Id. cbn [to_c c_bz_memref c_bz_opcode c_param2] in Fv, Fa. rewrite Id in Fv.
  split.
  - intros j m i' Hj Cs. destruct (Nat.eq_dec j k) as [->|Ne].
    + rewrite Hk in Hj. injection Hj as <- <-. intros e int v S Y. eapply exec_kept; eassumption.
    + intros e int v S Y. rewrite Fv by lia. apply (kinv_slot _ _ _ I j m i' Hj) with (e := e); [|exact S|exact Y]. destruct Cs as [L|Cs]; [left; lia|auto].
  - intros j m i' v Hj Cv. destruct (Nat.eq_dec j k) as [->|Ne].
    + exfalso. rewrite Hk in Hj. injection Hj as <- <-. pose proof (const_class n i k v Hk Cv) as Op. unfold is_const in Nc. cbn [snd] in Nc.
      destruct v; destruct Op as [Op _]; rewrite Op in Nc; discriminate.
    + rewrite Fv by lia. exact (kinv_const _ _ _ I j m i' v Hj Cv).
  - intros q. rewrite Fs. apply (kinv_signal _ _ _ I).
  - intros j m i' aid x e v L Hj Cm Ch S Y. destruct (Nat.eq_dec j k) as [->|Ne].
    + rewrite Hk in Hj. injection Hj as <- <-. destruct (enc k n i Hk) as [_ E]. rewrite Cm, Ch in E.
      destruct E as (Eo & E2 & r & R & E1). unfold rust_update, to_c in U. cbn [c_bz_memref c_bz_opcode c_param1 c_param2] in U.
      rewrite Eo in U. change (bz_decode op_store) with (Some STORE) in U. rewrite E1, E2, (low_ref k n i r Hk (proj1 R)) in U. injection U as <-.
      destruct (child_kept t k s r x I R e true _ S Y) as (_ & H & _).
      cbn [rust_atomics]. rewrite update_same, H. reflexivity.
    + assert (Lj : (j < k)%nat) by lia. pose proof (kinv_atom _ _ _ I j m i' aid x e v Lj Hj Cm Ch S Y) as A.
      rewrite Fa; [exact A|]. destruct (Z.eq_dec (bz_operator i) op_store) as [Eo|No]; [right|left; exact No].
      intros Q. destruct (store_class k n i Hk Eo) as [aid' Cn]. destruct (enc k n i Hk) as [_ E]. rewrite Cn in E.
      destruct (nchildren (h n)); [contradiction|]. destruct E as (_ & E2 & _).
      assert (n = m) as -> by (apply (aids n i m i' aid); [exact (item_in k n i Hk)|exact (item_in j m i' Hj)|congruence|exact Cm]).
      apply Ne. eapply index_eq; eassumption.
Qed.
Lemma rust_skip_step t k s n i : kinv t k s -> nth_error d k = Some (n, i) -> is_prev (n, i) = true \/ is_const (n, i) = true -> kinv t (S k) s.
Proof.
  intros I Hk Pc. split.
  - intros j m i' Hj Cs. destruct (Nat.eq_dec j k) as [->|Ne].
    + rewrite Hk in Hj. injection Hj as <- <-. apply (kinv_slot _ _ _ I k n i Hk). auto.
    + apply (kinv_slot _ _ _ I j m i' Hj). destruct Cs as [L|Cs]; [left; lia|auto].
  - exact (kinv_const _ _ _ I).
  - exact (kinv_signal _ _ _ I).
  - intros j m i' aid x e v L Hj Cm Ch S Y. destruct (Nat.eq_dec j k) as [->|Ne].
    + exfalso. rewrite Hk in Hj. injection Hj as <- <-. destruct (enc k n i Hk) as [_ E]. rewrite Cm, Ch in E. destruct E as (Eo & _).
      unfold is_prev, is_const in Pc. cbn [snd] in Pc. rewrite Eo in Pc. destruct Pc; discriminate.
    + apply (kinv_atom _ _ _ I j m i' aid x e); try assumption. lia.
Qed.

(** The flag after the instructions of [post]: that of the last arithmetic one. *)
Definition flag_after (t : nat) (post : dict bz_instruction) (before after : bool) : Prop :=
  (after = true -> before = true /\ Forall (fun p => ~ arithmetic (bz_operator (snd p))) post \/
     exists n i e int, In (n, i) post /\ stands h cls types n e int /\ overflows F le inp t e) /\
  (Forall (fun p => ~ arithmetic (bz_operator (snd p))) post -> after = before) /\
  forall l1 n i l2 e int, post = l1 ++ (n, i) :: l2 -> arithmetic (bz_operator i) -> stands h cls types n e int ->
    Forall (fun p => ~ arithmetic (bz_operator (snd p))) l2 -> (after = true <-> overflows F le inp t e).
Lemma flag_skip t p post before after : ~ arithmetic (bz_operator (snd p)) -> flag_after t post before after -> flag_after t (p :: post) before after.
Proof.
  intros N (A & B & C). split; [|split].
  - intros H. destruct (A H) as [[H' Fo]|(n & i & e & int & Hi & R)]; [left; auto|]. right. exists n, i, e, int. split; [right; exact Hi|exact R].
  - intros H. inversion H; subst. auto.
  - intros l1 n i l2 e int Es Ar S Fl. destruct l1 as [|q l1]; cbn in Es; injection Es as -> Es; [contradiction|]. eapply C; eassumption.
Qed.
Lemma flag_arith t n i post before mid after e int : arithmetic (bz_operator i) -> stands h cls types n e int ->
  (forall e' int', stands h cls types n e' int' -> (mid = true <-> overflows F le inp t e')) ->
  flag_after t post mid after -> flag_after t ((n, i) :: post) before after.
Proof.
  intros Ar S M (A & B & C). split; [|split].
  - intros H. destruct (A H) as [[H' _]|(m & i' & e' & int' & Hi & R)]; right.
    + exists n, i, e, int. split; [left; reflexivity|]. split; [exact S|]. eapply M; [exact S|exact H'].
    + exists m, i', e', int'. split; [right; exact Hi|exact R].
  - intros H. inversion H; subst. contradiction.
  - intros l1 m i' l2 e' int' Es Ar' S' Fl. destruct l1 as [|q l1]; cbn in Es; [injection Es as E1 E2 Es|injection Es as E1 Es]; subst.
    + rewrite (B Fl). eapply M, S'.
    + eapply C; eauto.
Qed.

Lemma rust_main_phase t : Z.of_nat t < 2 ^ 31 -> forall post k s s', skipn k d = post -> (k <= length d)%nat -> kinv t k s ->
  rust_updates F le (Z.of_nat t mod 2 ^ 32) (main_code post) s = Some s' -> kinv t (length d) s' /\
  (all_valued t -> flag_after t post (rust_overflow s) (rust_overflow s')).
Proof.
  intros Ht post. induction post as [|[n i] post IH]; intros k s s' Sk Lk I U.
  - cbn in U. injection U as <-. assert (length d - k = 0)%nat by (rewrite <- skipn_length, Sk; reflexivity).
    replace (length d) with k by lia. split; [exact I|]. intros _. split; [auto|]. split; [auto|].
    intros l1 n i l2 e int Es. destruct l1; discriminate.
  - assert (Hk : nth_error d k = Some (n, i)).
    { rewrite <- (firstn_skipn k d), nth_error_app2; rewrite firstn_length_le by exact Lk; [|lia]. rewrite Nat.sub_diag, Sk. reflexivity. }
    assert (Sk' : skipn (S k) d = post).
    { eapply skipn_next, Sk. }
    assert (Lk' : (S k <= length d)%nat) by (apply nth_error_Some; congruence).
    rewrite main_code_cons in U. destruct (is_prev (n, i) || is_const (n, i)) eqn:Pc.
    + apply orb_true_iff in Pc.
      destruct (IH (S k) s s' Sk' Lk' (rust_skip_step t k s n i I Hk Pc) U) as [J Fl]. split; [exact J|].
      intros Df. apply flag_skip; [|exact (Fl Df)]. unfold is_prev, is_const in Pc. cbn [snd] in *. 
      destruct Pc as [P|P]; [|apply orb_true_iff in P as [P|P]]; apply Z.eqb_eq in P; rewrite P; not_arith.
    + apply orb_false_iff in Pc as [Np Nc]. cbn [rust_updates snd] in U.
      destruct (rust_update F le (Z.of_nat t mod 2 ^ 32) (to_c i) s) as [s1|] eqn:U1; [|discriminate].
      destruct (IH (S k) s1 s' Sk' Lk' (rust_main_step t k s n i s1 I Ht Hk Np Nc U1) U) as [J Fl]. split; [exact J|].
      intros Df. specialize (Fl Df). destruct (item_class k n i Hk) as [B|A].
      * destruct (means n i (item_in k n i Hk) B) as (e & int & S).
        assert (X : forall e int, stands h cls types n e int ->
          (arithmetic (bz_operator i) /\ (rust_overflow s1 = true <-> overflows F le inp t e)) \/
          (~ arithmetic (bz_operator i) /\ ~ overflows F le inp t e /\ rust_overflow s1 = rust_overflow s)).
        { intros e' int' S'. destruct (Df n i e' int' (item_in k n i Hk) S') as [v' Y'].
          exact (proj2 (exec_kept t k s n i s1 e' int' v' I Ht Hk Np Nc S' Y' U1)). }
        destruct (X e int S) as [[Ar _]|(Ar & _ & Eq)].
        -- eapply flag_arith; [exact Ar|exact S| |exact Fl]. intros e' int' S'. destruct (X e' int' S') as [[_ Q]|[Na _]]; [exact Q|contradiction].
        -- rewrite Eq in Fl. apply flag_skip; assumption.
      * destruct (store_flag k n i _ s s1 Hk A U1) as [Eo Eq]. rewrite Eq in Fl. apply flag_skip; [|exact Fl]. cbn [snd]. rewrite Eo. not_arith.
Qed.
Lemma rust_main_total t : Z.of_nat t < 2 ^ 31 -> all_valued t ->
  forall post k s, skipn k d = post -> (k <= length d)%nat -> kinv t k s ->
  exists s', rust_updates F le (Z.of_nat t mod 2 ^ 32) (main_code post) s = Some s'.
Proof.
  intros Ht Df post. induction post as [|[n i] post IH]; intros k s Sk Lk I.
  - eexists. reflexivity.
  - assert (Hk : nth_error d k = Some (n, i)).
    { rewrite <- (firstn_skipn k d), nth_error_app2; rewrite firstn_length_le by exact Lk; [|lia]. rewrite Nat.sub_diag, Sk. reflexivity. }
    assert (Sk' : skipn (S k) d = post).
    { eapply skipn_next, Sk. }
    assert (Lk' : (S k <= length d)%nat) by (apply nth_error_Some; congruence).
    rewrite main_code_cons. destruct (is_prev (n, i) || is_const (n, i)) eqn:Pc.
    + apply orb_true_iff in Pc. eapply IH; [exact Sk'|exact Lk'|eapply rust_skip_step; eassumption].
    + apply orb_false_iff in Pc as [Np Nc]. cbn [rust_updates snd].
      destruct (rust_total t k s n i I Hk Np Nc Df) as [s1 U1].
      rewrite U1. eapply IH; [exact Sk'|exact Lk'|eapply rust_main_step; eassumption].
Qed.

(** ** The previous values, at the end of a step *)
Lemma rust_exec_prev ts (p : nat * bz_instruction) s : is_prev p = true ->
  rust_update F le ts (to_c (snd p)) s = Some (put s (bz_id (snd p)) (rust_values s (bz_operand2 (snd p))) None).
Proof using F le.
  intros H. apply Z.eqb_eq in H. unfold rust_update, to_c. cbn [c_bz_memref c_bz_opcode c_param1 c_param2]. rewrite H. reflexivity.
Qed.
Lemma rust_prev_phase t ts s0 : kinv t (length d) s0 -> forall post pre s, filter is_prev d = pre ++ post ->
  (forall j n i, nth_error d j = Some (n, i) -> is_prev (n, i) = false -> rust_values s (Z.of_nat j) = rust_values s0 (Z.of_nat j)) ->
  (forall j n i, nth_error d j = Some (n, i) -> In (n, i) pre -> kept (S t) (rust_values s) j n) ->
  rust_atomics s = rust_atomics s0 -> rust_overflow s = rust_overflow s0 ->
  exists s', rust_updates F le ts (code_of post) s = Some s' /\
    (forall j n i, nth_error d j = Some (n, i) -> is_prev (n, i) = false -> rust_values s' (Z.of_nat j) = rust_values s0 (Z.of_nat j)) /\
    prev_kept (S t) (rust_values s') /\ rust_atomics s' = rust_atomics s0 /\ rust_overflow s' = rust_overflow s0.
Proof.
  intros I0 post. induction post as [|[n i] post IH]; intros pre s Ef Fr Dn At Ov.
  - exists s. split; [reflexivity|]. split; [exact Fr|]. split; [|auto].
    intros j m i' Hj P. apply (Dn j m i' Hj). rewrite app_nil_r in Ef. rewrite <- Ef. apply filter_In. split; [exact (item_in j m i' Hj)|exact P].
  - assert (Hin : In (n, i) (filter is_prev d)) by (rewrite Ef; apply in_or_app; right; left; reflexivity).
    apply filter_In in Hin as [Hin P]. apply In_nth_error in Hin as [k Hk]. pose proof (item_id k n i Hk) as Id.
    rewrite code_of_prev by exact P. cbn [rust_updates]. rewrite rust_exec_prev by exact P. cbn [snd]. rewrite Id.
    apply (IH (pre ++ [(n, i)])).
    + rewrite Ef, <- app_assoc. reflexivity.
    + intros j m i' Hj Nj. cbn [put rust_values]. rewrite update_other; [exact (Fr j m i' Hj Nj)|].
      intros Q. assert (j = k) as -> by lia. rewrite Hk in Hj. injection Hj as <- <-. congruence.
    + intros j m i' Hj Hm. destruct (Nat.eq_dec j k) as [->|Ne].
      * rewrite Hk in Hj. injection Hj as <- <-. intros e int w S Y.
        destruct (prev_class k n i e int Hk P S) as (x0 & x & v & e0 & -> & -> & Ec & Ch & Cv & Sx).
        destruct (enc k n i Hk) as [_ E]. rewrite Ec, Ch in E. destruct E as (_ & j1 & j2 & R1 & R2 & _ & E2).
        cbn [put rust_values]. rewrite update_same, E2. destruct R2 as [L2 R2]. destruct (owner_item _ _ R2) as [ix Hx].
        assert (Nx : is_prev (x, ix) = false).
        { destruct (is_prev (x, ix)) eqn:Px; [|reflexivity]. exfalso.
          destruct (prev_class j2 x ix _ _ Hx Px Sx) as (_ & _ & _ & _ & _ & _ & Cx & _).
          exact (apart n i (item_in k n i Hk) x0 x Ec Ch Cx). }
        rewrite (Fr j2 x ix Hx Nx). inversion Y; subst.
        apply (kinv_slot _ _ _ I0 j2 x ix Hx) with (e := e0); [left; apply nth_error_Some; congruence|exact Sx|assumption].
      * cbn [put rust_values]. intros e int w S Y. rewrite update_other by lia.
        apply (Dn j m i' Hj) with (e := e); [|exact S|exact Y]. apply in_app_iff in Hm as [Hm|[Hm|[]]]; [exact Hm|]. exfalso. apply Ne.
        injection Hm as <- <-. eapply index_eq; eassumption.
    + exact At.
    + exact Ov.
Qed.

(** ** The whole run *)
Lemma rust_updates_app ts : forall a b s, rust_updates F le ts (a ++ b) s =
  match rust_updates F le ts a s with Some s' => rust_updates F le ts b s' | None => None end.
Proof using F le. induction a as [|i a IH]; intros b s; [reflexivity|]. cbn. destruct (rust_update F le ts i s); [apply IH|reflexivity]. Qed.

Definition rust_ready (t : nat) (s : rust_state) : Prop := const_kept (rust_values s) /\ prev_kept t (rust_values s).
Definition rust_answers (t : nat) (s : rust_state) : Prop :=
  forall n i aid x e v, In (n, i) d -> cls n = CAtomic aid -> nchildren (h n) = [x] -> stands h cls types x e true ->
    saturated F le inp t e (VInt v) -> rust_atomics s aid = negb (v =? 0).
Lemma rust_ready_inv t s : rust_ready t s ->
  kinv t 0 (RustState (rust_values s) (fun k => rust_signal (rust_signals s k) (inp t k)) (rust_atomics s) (rust_overflow s)).
Proof.
  intros [Cs Ps]. split; cbn [rust_values rust_signals rust_atomics].
  - intros j n i Hj [L|[P|C]]; [lia|exact (Ps j n i Hj P)|]. intros e int w S Y.
    destruct (const_stands j n i e int Hj C S) as (v & -> & -> & Cv). inversion Y; subst. split; [reflexivity|].
    exact (Cs j n i w Hj Cv).
  - exact Cs.
  - intros q. destruct (inputs_typed t q) as [_ Ti]. destruct (inp t q); cbn; auto.
  - intros j n i aid x e v L. lia.
Qed.
Lemma rust_step_answers t s s' : Z.of_nat t < 2 ^ 31 -> rust_ready t s ->
  rust_step F le (Z.of_nat t mod 2 ^ 32) (code_of (prev_last d)) (inp t) s = Some s' ->
  rust_ready (S t) s' /\ rust_answers t s' /\ (all_valued t -> flag_after t d (rust_overflow s) (rust_overflow s')).
Proof.
  intros Ht R U. unfold rust_step in U. rewrite table_split, rust_updates_app in U.
  destruct (rust_updates F le _ (main_code d) _) as [s1|] eqn:U1; [|discriminate].
  destruct (rust_main_phase t Ht d 0%nat _ s1 eq_refl (Nat.le_0_l _) (rust_ready_inv t s R) U1) as [I1 Fl].
  destruct (rust_prev_phase t (Z.of_nat t mod 2 ^ 32) s1 I1 (filter is_prev d) [] s1) as (s2 & U2 & Fr & Ps & At & Ov); auto.
  { intros j n i _ []. }
  rewrite U2 in U. injection U as <-. split; [split; [|exact Ps]|split].
  - intros k n i v Hk Cv. rewrite (Fr k n i Hk); [exact (kinv_const _ _ _ I1 k n i v Hk Cv)|].
    pose proof (const_class n i k v Hk Cv) as Op. unfold is_prev. cbn [snd]. destruct v; destruct Op as [-> _]; reflexivity.
  - intros n i aid x e v Hin Cn Ch S Y. apply In_nth_error in Hin as [k Hk]. rewrite At.
    apply (kinv_atom _ _ _ I1 k n i aid x e); try assumption. apply nth_error_Some. congruence.
  - rewrite Ov. exact Fl.
Qed.
Lemma rust_step_total t s : Z.of_nat t < 2 ^ 31 -> rust_ready t s -> all_valued t ->
  exists s', rust_step F le (Z.of_nat t mod 2 ^ 32) (code_of (prev_last d)) (inp t) s = Some s'.
Proof.
  intros Ht R Df. unfold rust_step. rewrite table_split, rust_updates_app.
  destruct (rust_main_total t Ht Df d 0%nat _ eq_refl (Nat.le_0_l _) (rust_ready_inv t s R)) as [s1 U1]. rewrite U1.
  destruct (rust_main_phase t Ht d 0%nat _ s1 eq_refl (Nat.le_0_l _) (rust_ready_inv t s R) U1) as [I1 _].
  destruct (rust_prev_phase t (Z.of_nat t mod 2 ^ 32) s1 I1 (filter is_prev d) [] s1) as (s2 & U2 & _); auto; [intros j n i _ []|].
  eauto.
Qed.

Lemma rust_run_ready s0 : const_kept (rust_values s0) -> prev_kept 0 (rust_values s0) -> forall t s, Z.of_nat t <= 2 ^ 31 ->
  rust_run_from F le (code_of (prev_last d)) s0 inp t = Some s -> rust_ready t s.
Proof.
  intros C0 P0. induction t as [|t IH]; intros s Ht U; cbn [rust_run_from] in U; [injection U as <-; split; assumption|].
  destruct (rust_run_from F le (code_of (prev_last d)) s0 inp t) as [s1|]; [|discriminate].
  assert (Z.of_nat t < 2 ^ 31) by lia.
  eapply rust_step_answers; [eassumption|apply IH; [lia|reflexivity]|exact U].
Qed.
Lemma rust_run_answers s0 t s : const_kept (rust_values s0) -> prev_kept 0 (rust_values s0) -> Z.of_nat t < 2 ^ 31 ->
  rust_run_from F le (code_of (prev_last d)) s0 inp (S t) = Some s ->
  rust_answers t s /\ exists before, rust_run_from F le (code_of (prev_last d)) s0 inp t = Some before /\
    (all_valued t -> flag_after t d (rust_overflow before) (rust_overflow s)).
Proof.
  intros C0 P0 Ht U. cbn [rust_run_from] in U. destruct (rust_run_from F le (code_of (prev_last d)) s0 inp t) as [s1|] eqn:U1; [|discriminate].
  destruct (rust_step_answers t s1 s Ht) as (_ & A & Fl); [eapply rust_run_ready; [exact C0|exact P0| |exact U1]; lia|exact U|].
  split; [exact A|]. exists s1. auto.
Qed.
Lemma rust_run_total s0 : const_kept (rust_values s0) -> prev_kept 0 (rust_values s0) -> forall t, Z.of_nat t <= 2 ^ 31 ->
  (forall t', (t' < t)%nat -> all_valued t') -> exists s, rust_run_from F le (code_of (prev_last d)) s0 inp t = Some s.
Proof.
  intros C0 P0. induction t as [|t IH]; intros Ht Df; [eexists; reflexivity|].
  destruct IH as [s1 U1]; [lia| |].
  { intros t' L. apply Df. lia. }
  cbn [rust_run_from]. rewrite U1. apply rust_step_total; [lia|eapply rust_run_ready; [exact C0|exact P0| |exact U1]; lia|].
  apply Df. lia.
Qed.
(** Whatever overflow is reported, some operation of this step did overflow. *)
Lemma rust_run_calm s0 : const_kept (rust_values s0) -> prev_kept 0 (rust_values s0) -> rust_overflow s0 = false ->
  Forall (fun p => ~ arithmetic (bz_operator (snd p))) d -> forall t s,
  Z.of_nat t <= 2 ^ 31 -> (forall t', (t' < t)%nat -> all_valued t') ->
  rust_run_from F le (code_of (prev_last d)) s0 inp t = Some s -> rust_overflow s = false.
Proof.
  intros C0 P0 O0 Na. induction t as [|t IH]; intros s Ht Df U; [cbn in U; injection U as <-; exact O0|].
  destruct (rust_run_answers s0 t s C0 P0 ltac:(lia) U) as (_ & s1 & U1 & Fl).
  destruct (Fl (Df t (Nat.lt_succ_diag_r t))) as (_ & B & _). rewrite (B Na).
  apply (IH s1); [lia| |exact U1]. intros t' L. apply Df. lia.
Qed.
Lemma rust_run_cause s0 t s : const_kept (rust_values s0) -> prev_kept 0 (rust_values s0) -> rust_overflow s0 = false ->
  Z.of_nat t < 2 ^ 31 -> (forall t', (t' <= t)%nat -> all_valued t') ->
  rust_run_from F le (code_of (prev_last d)) s0 inp (S t) = Some s -> rust_overflow s = true ->
  exists n i e int, In (n, i) d /\ stands h cls types n e int /\ overflows F le inp t e.
Proof.
  intros C0 P0 O0 Ht Df U O.
  destruct (rust_run_answers s0 t s C0 P0 ltac:(lia) U) as (_ & s1 & U1 & Fl).
  destruct (Fl (Df t (Nat.le_refl t))) as (A & _). destruct (A O) as [[O1 Na]|R]; [exfalso|exact R].
  rewrite (rust_run_calm s0 C0 P0 O0 Na t s1) in O1; [discriminate|lia| |exact U1]. intros t' L. apply Df. lia.
Qed.
End Run.
