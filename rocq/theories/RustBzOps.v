(** * Operators of the Rust booleanizer, and its loader (proofs) *)
From Coq Require Import List ZArith Bool Lia.
Require Import Verif.Binary Verif.BinarySpec Verif.BinaryProofs Verif.Graph Verif.Assembly.
Require Import Verif.Booleanizer Verif.BooleanizerSpec Verif.BooleanizerOps Verif.RustBooleanizer Verif.RustBzSpec.
Import ListNotations.
Local Open Scope Z_scope.

(** ** Loading *)
Lemma low4_word spec k l : Forall small spec -> low4 spec k = Some l -> word l.
Proof.
  intros H E. unfold low4, byte in E.
  destruct (nth_error spec k) as [a|] eqn:Ea; [|discriminate]. destruct (nth_error spec (k + 1)) as [b|] eqn:Eb; [|discriminate].
  destruct (nth_error spec (k + 2)) as [c|] eqn:Ec; [|discriminate]. destruct (nth_error spec (k + 3)) as [d|] eqn:Ed; [|discriminate].
  apply (f_equal (fun o => match o with Some x => x | None => 0 end)) in E. cbv beta iota in E. subst l. rewrite Forall_forall in H. apply nth_error_In in Ea, Eb, Ec, Ed. apply H in Ea, Eb, Ec, Ed.
  unfold small in *. unfold word. rewrite !Z.shiftl_mul_pow2 by lia. lia.
Qed.
Lemma u32_same spec k : Forall small spec -> rust_u32 spec k = read_u32 spec k.
Proof.
  intros H. unfold rust_u32, read_u32. destruct (low4 spec k) as [l|] eqn:E; [|reflexivity]. cbn [option_map]. f_equal.
  pose proof (low4_word spec k l H E). rewrite wrap_u32. symmetry. apply Z.mod_small. assumption.
Qed.
(** What the C loader makes of a double, undone. *)
Definition repair (bits : Z) : Z := if bits mod 2 ^ 32 <? 2 ^ 31 then bits else (bits + 2 ^ 32) mod 2 ^ 64.
Definition repaired (a : action) : action := match a with SetFloat r b => SetFloat r (repair b) | _ => a end.
Lemma repair_sum l h : word l -> word h -> repair ((wrap_int l + h * 2 ^ 32) mod 2 ^ 64) = l + h * 2 ^ 32.
Proof.
  unfold word, repair, wrap_int. intros Hl Hh.
  set (w := (l + 2 ^ 31) mod 2 ^ 32 - 2 ^ 31).
  assert (W : w = l \/ w = l - 2 ^ 32) by (unfold w; Z.to_euclidean_division_equations; lia).
  assert (W1 : l < 2 ^ 31 -> w = l) by (unfold w; Z.to_euclidean_division_equations; lia).
  assert (W2 : 2 ^ 31 <= l -> w = l - 2 ^ 32) by (unfold w; Z.to_euclidean_division_equations; lia).
  clearbody w.
  assert (M : (w + h * 2 ^ 32) mod 2 ^ 64 mod 2 ^ 32 = l).
  { change (2 ^ 64) with (2 ^ 32 * 2 ^ 32). Z.to_euclidean_division_equations. destruct W; nia. }
  rewrite M. destruct (l <? 2 ^ 31) eqn:El.
  - rewrite W1 by lia. apply Z.mod_small. change (2 ^ 64) with (2 ^ 32 * 2 ^ 32). nia.
  - rewrite W2 by lia. rewrite Zplus_mod_idemp_l. replace (l - 2 ^ 32 + h * 2 ^ 32 + 2 ^ 32) with (l + h * 2 ^ 32) by lia.
    apply Z.mod_small. change (2 ^ 64) with (2 ^ 32 * 2 ^ 32). nia.
Qed.
Lemma f64_repaired spec k : Forall small spec -> rust_f64 spec k = option_map repair (read_f64 spec k).
Proof.
  intros H. unfold rust_f64, read_f64. destruct (low4 spec k) as [l|] eqn:E; [|reflexivity].
  destruct (low4 spec (k + 4)) as [h|] eqn:Eh.
  - pose proof (low4_word spec k l H E) as Wl. pose proof (low4_word spec (k + 4) h H Eh) as Wh. unfold low4 in Eh.
    replace (k + 4 + 1)%nat with (k + 5)%nat in Eh by lia. replace (k + 4 + 2)%nat with (k + 6)%nat in Eh by lia.
    replace (k + 4 + 3)%nat with (k + 7)%nat in Eh by lia.
    destruct (byte spec (k + 4)) as [a|]; [|discriminate]. destruct (byte spec (k + 5)) as [b|]; [|discriminate].
    destruct (byte spec (k + 6)) as [c|]; [|discriminate]. destruct (byte spec (k + 7)) as [d|]; [|discriminate].
    apply (f_equal (fun o => match o with Some x => x | None => 0 end)) in Eh. cbv beta iota in Eh. cbn [option_map]. f_equal.
    rewrite <- (repair_sum l h Wl Wh). f_equal. f_equal. rewrite <- Eh. rewrite !Z.shiftl_mul_pow2 by lia.
    change (2 ^ 40) with (2 ^ 8 * 2 ^ 32). change (2 ^ 48) with (2 ^ 16 * 2 ^ 32). change (2 ^ 56) with (2 ^ 24 * 2 ^ 32). lia.
  - unfold low4 in Eh.
    replace (k + 4 + 1)%nat with (k + 5)%nat in Eh by lia. replace (k + 4 + 2)%nat with (k + 6)%nat in Eh by lia.
    replace (k + 4 + 3)%nat with (k + 7)%nat in Eh by lia.
    destruct (byte spec (k + 4)); [|reflexivity]. destruct (byte spec (k + 5)); [|reflexivity].
    destruct (byte spec (k + 6)); [|reflexivity]. destruct (byte spec (k + 7)); [discriminate|reflexivity].
Qed.
Lemma load_one_repaired spec k : Forall small spec -> rust_load_one spec k = option_map (map repaired) (load_one spec k).
Proof.
  intros H. unfold rust_load_one, load_one.
  destruct (byte spec (k + 1)) as [e1|]; [|reflexivity]. destruct (byte spec (k + 2)) as [e2|]; [|reflexivity].
  assert (T : forall j, rust_read_tl spec j = read_tl spec j) by (intros j; unfold rust_read_tl, read_tl; rewrite !u32_same by assumption; reflexivity).
  assert (B : forall j, rust_read_bz spec j = read_bz spec j) by (intros j; unfold rust_read_bz, read_bz; rewrite !u32_same by assumption; reflexivity).
  destruct ((e1 =? tag_cg) && (e2 =? tag_tl)); [rewrite T; destruct (read_tl spec (k + 3)); reflexivity|].
  destruct (e1 =? tag_bz).
  - rewrite B. destruct (read_bz spec (k + 2)) as [i|]; [|reflexivity]. destruct (c_bz_opcode i =? op_iconst).
    + unfold rust_i32, read_i32. destruct (low4 spec (k + 2)); reflexivity.
    + destruct (c_bz_opcode i =? op_fconst); [|reflexivity]. rewrite f64_repaired by assumption. destruct (read_f64 spec (k + 2)); reflexivity.
  - destruct (e1 =? tag_tl); [|reflexivity]. rewrite T. destruct (read_tl spec (k + 2)); reflexivity.
Qed.
Lemma load_repaired spec : Forall small spec -> rust_load spec = option_map (map repaired) (load spec).
Proof.
  intros H. unfold rust_load, load. destruct (byte spec 0) as [h|]; [|reflexivity].
  generalize (Z.to_nat h). generalize (List.length spec). induction n as [|fuel IH]; intros k; [reflexivity|].
  cbn [rust_load_loop load_loop]. destruct (byte spec k) as [len|]; [|reflexivity].
  rewrite load_one_repaired by assumption.
  assert (C : match option_map (map repaired) (load_one spec k), rust_load_loop fuel spec (k + Z.to_nat len) with
              | Some a, Some l => Some (a ++ l) | _, _ => None end =
              option_map (map repaired) match load_one spec k, load_loop fuel spec (k + Z.to_nat len) with
              | Some a, Some l => Some (a ++ l) | _, _ => None end).
  { rewrite IH. destruct (load_one spec k); [|reflexivity]. destruct (load_loop fuel spec (k + Z.to_nat len)); [|reflexivity].
    cbn [option_map]. rewrite map_app. reflexivity. }
  destruct len; [reflexivity|exact C|exact C].
Qed.

Lemma little_small n : forall v, Forall small (little n v).
Proof. induction n as [|n IH]; intros v; cbn [little]; constructor; [unfold small; apply Z.mod_pos_bound; lia|apply IH]. Qed.
Lemma body_small i : fits i -> Forall small (Z.of_nat (size i) :: body i).
Proof.
  intros H. constructor; [destruct i; cbn [size]; unfold small; lia|].
  assert (L : forall v, Forall small (little 4 v)) by (intros; apply little_small).
  destruct i as [b|t|t]; cbn [body fits] in *.
  - destruct H as (_ & _ & _ & Ho). constructor; [unfold small, tag_bz; lia|].
    apply Forall_app. split; [|apply Forall_app; split; [apply L|apply Forall_app; split; [apply L|repeat constructor; apply Ho]]].
    unfold operand_bytes. destruct (bz_operand1 b); [|apply little_small].
    apply Forall_app. split; [apply L|]. unfold pad4, small. repeat constructor; lia.
  - destruct H as (_ & _ & _ & H1 & H2 & H3). constructor; [unfold small, tag_tl; lia|].
    do 3 (apply Forall_app; split; [apply L|]). do 3 (apply Forall_cons; [assumption|]). apply Forall_nil.
  - destruct H as (_ & _ & _ & H1 & H2 & H3). constructor; [unfold small, tag_cg; lia|]. constructor; [unfold small, tag_tl; lia|].
    do 3 (apply Forall_app; split; [apply L|]). do 3 (apply Forall_cons; [assumption|]). apply Forall_nil.
Qed.
Lemma binary_small is aux bytes : Forall fits is -> Forall small aux -> assemble_binary is aux = Some bytes -> Forall small bytes.
Proof.
  intros H A E. unfold assemble_binary in E. rewrite concat_values in E by assumption.
  apply (f_equal (fun o => match o with Some x => x | None => [] end)) in E. cbv beta iota in E. subst bytes.
  assert (Hh : Forall small header).
  { apply Forall_forall. intros x Hx. assert (Q : forallb (fun x => (0 <=? x) && (x <? 256)) header = true) by (vm_compute; reflexivity).
    rewrite forallb_forall in Q. specialize (Q x Hx). unfold small. lia. }
  assert (S0 : small 0) by (unfold small; lia).
  apply Forall_cons; [vm_compute; split; [intros; discriminate|reflexivity]|].
  apply Forall_app. split; [exact Hh|]. apply Forall_app. split.
  - induction H as [|i is Hi H IH]; [constructor|]. cbn [map List.concat]. apply Forall_app. split; [apply body_small, Hi|exact IH].
  - apply Forall_cons; [exact S0|]. apply Forall_app. split; [exact A|]. apply Forall_cons; [exact S0|constructor].
Qed.
Definition rust_result (i : instruction) : action := repaired (result i).
Lemma rust_load_value is aux bytes : Forall fits is -> Forall small aux -> assemble_binary is aux = Some bytes ->
  rust_load bytes = Some (map rust_result is).
Proof.
  intros H A E. rewrite load_repaired by (eapply binary_small; eassumption). rewrite (load_value is aux bytes H E).
  cbn [option_map]. rewrite map_map. reflexivity.
Qed.
Lemma repair_float bits : 0 <= bits < 2 ^ 64 -> repair (float_bits bits) = bits.
Proof.
  intros H. unfold float_bits. rewrite repair_sum.
  - rewrite (Z.div_mod bits (2 ^ 32)) at 3 by lia. lia.
  - apply Z.mod_pos_bound. lia.
  - unfold word. split; [apply Z.div_pos; lia|]. apply Z.div_lt_upper_bound; [lia|]. change (2 ^ 32 * 2 ^ 32) with (2 ^ 64). lia.
Qed.
Lemma rust_result_faithful i : fits i -> rust_readable i -> faithful i (rust_result i).
Proof.
  intros Hf Hr. destruct i as [b|t|t]; [|repeat split..].
  unfold rust_result. cbn [fits rust_readable result] in *. destruct Hf as (H1 & H2 & H3 & H4).
  destruct (bz_operator b =? op_iconst) eqn:Ei; [|destruct (bz_operator b =? op_fconst) eqn:Ef].
  - apply Z.eqb_eq in Ei. destruct Hr as (z & Eo & Hz). rewrite Eo in *. cbn [repaired faithful low_word].
    split; [assumption|]. split; [reflexivity|]. rewrite (Z.mod_small z) by exact H1. rewrite Eo. f_equal. symmetry. apply wrap_id.
    unfold word in H1. unfold int32. lia.
  - apply Z.eqb_eq in Ef. destruct Hr as (bits & Eo). rewrite Eo in *. cbn [repaired faithful bits_of].
    split; [assumption|]. split; [reflexivity|]. rewrite Eo. f_equal. symmetry. apply repair_float, H1.
  - apply Z.eqb_neq in Ei, Ef. destruct Hr as (z & Eo & Hz). rewrite Eo in *.
    cbn [repaired faithful low_word c_bz_opcode c_bz_memref c_param2 c_param1]. rewrite Eo. repeat split; try assumption.
    f_equal. symmetry. apply Z.mod_small. lia.
Qed.
Lemma rust_round_trip is aux bytes : Forall fits is -> Forall rust_readable is -> Forall small aux ->
  assemble_binary is aux = Some bytes -> exists acts, rust_load bytes = Some acts /\ Forall2 faithful is acts.
Proof.
  intros H R A E. exists (map rust_result is). split; [eapply rust_load_value; eassumption|].
  clear E A. induction H as [|i is Hi H IH]; [constructor|]. inversion R; subst. cbn [map]. constructor; [apply rust_result_faithful; assumption|auto].
Qed.
