(** * The word-level monitor prints the truth values of its formula (proofs) *)
From Coq Require Import List Arith NArith ZArith Bool Lia.
From Verif Require Import Mltl Sabre SabreSpec SabreProofs.
Import ListNotations.

(** ** Tables filled from left to right *)
Section Scan.
Context {A : Type}.
Variable f : list A -> sop -> A.
Variable d : A.
Fixpoint scan (acc : list A) (prog : list sop) : list A :=
  match prog with [] => acc | o :: prog => scan (acc ++ [f acc o]) prog end.
Lemma scan_length prog : forall acc, length (scan acc prog) = length acc + length prog.
Proof.
  induction prog as [|o prog IH]; intros acc; cbn [scan length]; [lia|].
  rewrite IH, app_length. cbn [length]. lia.
Qed.
Lemma scan_prefix prog : forall acc k, k < length acc -> nth k (scan acc prog) d = nth k acc d.
Proof.
  induction prog as [|o prog IH]; intros acc k Hk; cbn [scan]; [reflexivity|].
  rewrite IH by (rewrite app_length; lia). apply app_nth1. exact Hk.
Qed.
Hypothesis Hf : forall l l' o, (forall c, In c (children o) -> nth c l d = nth c l' d) -> f l o = f l' o.
Lemma scan_nth prog : forall acc k o,
  nth_error prog k = Some o -> (forall c, In c (children o) -> c < length acc + k) ->
  nth (length acc + k) (scan acc prog) d = f (scan acc prog) o.
Proof.
  induction prog as [|o' prog IH]; intros acc k o Ho Hc; [destruct k; discriminate|].
  destruct k as [|k]; cbn [nth_error] in Ho.
  - injection Ho as ->. cbn [scan]. rewrite scan_prefix by (rewrite app_length; cbn [length]; lia).
    rewrite Nat.add_0_r. rewrite app_nth2 by lia. rewrite Nat.sub_diag. cbn [nth].
    apply Hf. intros c Hin. specialize (Hc c Hin). rewrite scan_prefix by (rewrite app_length; cbn [length]; lia).
    symmetry. apply app_nth1. lia.
  - cbn [scan]. specialize (IH (acc ++ [f acc o']) k o Ho). rewrite app_length in IH. cbn [length] in IH.
    replace (length acc + S k) with (length acc + 1 + k) by lia. apply IH. intros c Hin. specialize (Hc c Hin). lia.
Qed.
End Scan.

Lemma lags_scan w prog : forall acc, lags_from w acc prog = scan (lag_of w) acc prog.
Proof. induction prog as [|o prog IH]; intros acc; [reflexivity|]. cbn [lags_from scan]. apply IH. Qed.
Lemma formulas_scan prog : forall acc, formulas_from acc prog = scan node_formula acc prog.
Proof. induction prog as [|o prog IH]; intros acc; [reflexivity|]. cbn [formulas_from scan]. apply IH. Qed.

Definition own (w : nat) (o : sop) : nat :=
  match o with SFuture _ ub _ | SGlobal _ ub _ | SUntil _ ub _ _ => ceil_words w ub | _ => 0 end.

Section Run.
Variable w L : nat.
Hypothesis HL : w = 2 ^ L.
Hypothesis HL1 : 1 <= L.
Variable prog : list sop.
Hypothesis Hprog : subformula_list prog.
Hypothesis Hsup : forall o, In o prog -> supported w o.
Variable tr : nat -> nat -> bool.

Lemma w_pos : 0 < w.
Proof. rewrite HL. pose proof (Nat.pow_nonzero 2 L ltac:(lia)). lia. Qed.
Lemma ceil_0 : ceil_words w 0 = 0.
Proof. unfold ceil_words. pose proof w_pos. apply Nat.div_small. lia. Qed.

Definition fm (k : nat) : expr := nth k (formulas_from [] prog) (EConst false).
Notation d := (lag w prog).
Notation R := (lag w prog (root prog)).
Notation size := (ring_size w prog).

Lemma child_lt k o c : nth_error prog k = Some o -> In c (children o) -> c < k.
Proof. intros Ho Hc. destruct Hprog as (_ & H & _). exact (H k o Ho c Hc). Qed.
Lemma fm_eq k o : nth_error prog k = Some o -> fm k = node_formula (formulas_from [] prog) o.
Proof.
  intros Ho. unfold fm. rewrite formulas_scan.
  apply (scan_nth node_formula (EConst false)) with (acc := []) (k := k); [|exact Ho|].
  - intros l l' o' H. destruct o'; cbn [children node_formula] in *; try reflexivity;
      try (rewrite !H by (cbn; auto); reflexivity).
    + f_equal. apply map_ext_in. exact H.
    + f_equal. apply map_ext_in. exact H.
  - intros c Hc. cbn [length Nat.add]. exact (child_lt k o c Ho Hc).
Qed.
Lemma lag_eq k o :
  nth_error prog k = Some o -> d k = own w o + fold_right Nat.max 0 (map d (children o)).
Proof.
  intros Ho. unfold lag at 1, lags. rewrite lags_scan.
  rewrite (scan_nth (lag_of w) 0) with (acc := []) (k := k) (o := o); [|clear|exact Ho|].
  - rewrite <- lags_scan. unfold lag_of. destruct o; cbn [own]; rewrite ?ceil_0; reflexivity.
  - intros l l' o' H. unfold lag_of. f_equal. f_equal. apply map_ext_in. exact H.
  - intros c Hc. cbn [length Nat.add]. exact (child_lt k o c Ho Hc).
Qed.
Lemma max_in l x : In x l -> x <= fold_right Nat.max 0 l.
Proof. induction l as [|y l IH]; cbn [In fold_right]; [tauto|]. intros [->|H]; [lia|]. specialize (IH H). lia. Qed.
Lemma lag_child k o c : nth_error prog k = Some o -> In c (children o) -> d c + own w o <= d k.
Proof.
  intros Ho Hc. rewrite (lag_eq k o Ho). pose proof (max_in (map d (children o)) (d c) (in_map d _ _ Hc)). lia.
Qed.
Lemma lag_root k : k < length prog -> d k <= R.
Proof.
  destruct Hprog as (Hne & _ & Hup).
  assert (H : forall n k, length prog - k <= n -> k < length prog -> d k <= R).
  { induction n as [|n IH]; intros k' Hn Hk; [lia|].
    destruct (Nat.eq_dec (S k') (length prog)) as [He|He].
    - unfold root. replace (length prog - 1) with k' by lia. apply Nat.le_refl.
    - destruct (Hup k' ltac:(lia)) as (m & o & Hm & Ho & Hc).
      assert (Hlen : m < length prog) by (apply nth_error_Some; congruence).
      pose proof (lag_child m o k' Ho Hc). pose proof (IH m ltac:(lia) Hlen). lia. }
  intros Hk. apply (H (length prog)); lia.
Qed.
Lemma R_size : R < size.
Proof.
  unfold ring_size, bit_length. destruct (Nat.eqb_spec R 0) as [->|Hne]; [cbn; lia|].
  pose proof (Nat.log2_spec R ltac:(lia)). lia.
Qed.

(** ** Slots *)
Lemma slot_nat W e i : e <= W + i -> slot size W e i = (W + i - e) mod size.
Proof.
  intros H. unfold slot. pose proof R_size. replace (Z.of_nat W - Z.of_nat e + Z.of_nat i)%Z with (Z.of_nat (W + i - e)) by lia.
  rewrite <- Nat2Z.inj_mod. apply Nat2Z.id.
Qed.
Lemma slot_other W e x : x mod size = slot size W e 0 -> (W - e - x < size)%nat -> x + e <= W -> W = x + e.
Proof.
  intros H Hd Hle. rewrite slot_nat in H by lia. pose proof R_size.
  replace (W + 0 - e) with (W - e) in H by lia.
  destruct (Nat.eq_dec (W - e) x) as [He|He]; [lia|]. exfalso.
  pose proof (Nat.div_mod x size ltac:(lia)) as H1. pose proof (Nat.div_mod (W - e) size ltac:(lia)) as H2.
  rewrite <- H in H2. assert (x < W - e) by lia.
  assert (x / size < (W - e) / size) by nia. nia.
Qed.

Definition good (e : expr) (x : nat) (v : N) : Prop :=
  forall p, p < w -> (position w v p = true <-> sat tr e (x * w + p)).

(** ** The invariant
    [k] subformulas have been computed in turn [W]. *)
Definition inv (W k : nat) (s : state) : Prop :=
  (forall a i, a_word w (atomics s a i)) /\
  (forall c i, a_word w (values s c i)) /\
  (forall a x, W <= x + R -> x <= W -> good (EAtom a) x (atomics s a (x mod size))) /\
  (forall c o, nth_error prog c = Some o -> (forall a, o <> SAtom a) ->
     forall x, W <= x + R -> x + d c <= W -> (c < k \/ x + d c < W) -> good (fm c) x (values s c (x mod size))).
Definition inv0 (W : nat) (s : state) : Prop :=
  (forall a i, a_word w (atomics s a i)) /\
  (forall c i, a_word w (values s c i)) /\
  (forall a x, W <= x + R -> x < W -> good (EAtom a) x (atomics s a (x mod size))) /\
  (forall c o, nth_error prog c = Some o -> (forall a, o <> SAtom a) ->
     forall x, W <= x + R -> x + d c < W -> good (fm c) x (values s c (x mod size))).

Lemma ring_word W k s c : inv W k s -> words w (ring_of prog s c).
Proof.
  intros (H1 & H2 & _) i. unfold ring_of. destruct (nth_error prog c) as [[]|]; auto.
Qed.
Lemma atom_or_not o : (exists a, o = SAtom a) \/ forall a, o <> SAtom a.
Proof. destruct o; try (right; discriminate). left. eexists. reflexivity. Qed.

(** What an operand's ring holds. *)
Lemma ring_good W k s c x :
  inv W k s -> c < k -> c < length prog -> W <= x + R -> x + d c <= W -> good (fm c) x (ring_of prog s c (x mod size)).
Proof.
  intros (_ & _ & Ha & Hv) Hck Hc H1 H2. unfold ring_of. destruct (nth_error prog c) as [o|] eqn:Ho.
  2: { apply nth_error_None in Ho. lia. }
  destruct (atom_or_not o) as [[a ->]|Hno].
  - rewrite (fm_eq c _ Ho). cbn [node_formula]. apply Ha; lia.
  - replace (match o with SAtom a => atomics s a | _ => values s c end) with (values s c)
      by (destruct o; try reflexivity; exfalso; eapply Hno; reflexivity).
    apply (Hv c o Ho Hno); [exact H1|exact H2|left; exact Hck].
Qed.

Lemma shift_in_word old bits n : a_word w old -> a_word w (shift_in w old bits n).
Proof. intros H. destruct n; [exact H|]. apply trunc_word. Qed.
Lemma shift_in_bits old bits n : n <= w -> forall p, w - n <= p < w ->
  position w (shift_in w old bits n) p = bits (p - (w - n)).
Proof.
  pose proof w_pos as Hw.
  induction n as [|n IH]; intros Hn p Hp; [lia|]. cbn [shift_in].
  rewrite trunc_bit by lia. rewrite lor_bit, shl_bit by lia.
  destruct (Nat.ltb_spec (p + 1) w) as [Hlt|Hge].
  - rewrite IH by lia.
    replace (position w (if bits n then 1%N else 0%N) p) with false.
    + rewrite orb_false_r. f_equal. lia.
    + unfold position. destruct (bits n); [|symmetry; apply N.bits_0].
      replace (N.of_nat (w - 1 - p)) with (N.succ (N.of_nat (w - 2 - p))) by lia.
      symmetry. apply N.bits_above_log2. cbn. lia.
  - replace (p - (w - S n)) with n by lia. cbn [orb]. unfold position.
    replace (w - 1 - p) with 0 by lia. destruct (bits n); reflexivity.
Qed.

Lemma read_inv W s : inv0 W s -> inv W 0 (read_inputs w size W tr s).
Proof.
  pose proof w_pos as Hw. pose proof R_size as HR.
  intros (H1 & H2 & H3 & H4). unfold read_inputs. repeat split; cbn [atomics values].
  - intros a i. unfold put. destruct (i =? slot size W 0 0); [apply shift_in_word; apply H1|apply H1].
  - exact H2.
  - intros Hx. revert Hx. unfold put. destruct (Nat.eqb_spec (x mod size) (slot size W 0 0)) as [E|E].
    + assert (HW : W = x + 0) by (apply (slot_other W 0 x E); lia). intros Hx.
      rewrite shift_in_bits in Hx by lia. cbn [sat]. replace x with W by lia. rewrite <- Hx. f_equal. lia.
    + intros Hx. apply (H3 a x); try assumption. 
      destruct (Nat.eq_dec x W) as [->|]; [|lia]. exfalso. apply E. rewrite slot_nat by lia. f_equal. lia.
  - intros Hx. unfold put. destruct (Nat.eqb_spec (x mod size) (slot size W 0 0)) as [E|E].
    + assert (HW : W = x + 0) by (apply (slot_other W 0 x E); lia).
      rewrite shift_in_bits by lia. cbn [sat] in Hx. replace W with x by lia. rewrite <- Hx. f_equal. lia.
    + apply (H3 a x); try assumption. 
      destruct (Nat.eq_dec x W) as [->|]; [|lia]. exfalso. apply E. rewrite slot_nat by lia. f_equal. lia.
  - intros Hx. apply (H4 c o); try assumption. destruct H6; lia.
  - intros Hx. apply (H4 c o); try assumption. destruct H6; lia.
Qed.

(** ** One subformula *)
Lemma fold_land xs : forall x p,
  position w (fold_left N.land xs x) p = position w x p && forallb (fun y => position w y p) xs.
Proof.
  induction xs as [|y xs IH]; intros x p; cbn [fold_left forallb]; [symmetry; apply andb_true_r|].
  rewrite IH, land_bit. symmetry. apply andb_assoc.
Qed.
Lemma fold_lor xs : forall x p,
  position w (fold_left N.lor xs x) p = position w x p || existsb (fun y => position w y p) xs.
Proof.
  induction xs as [|y xs IH]; intros x p; cbn [fold_left existsb]; [symmetry; apply orb_false_r|].
  rewrite IH, lor_bit. symmetry. apply orb_assoc.
Qed.

Lemma conj_bits l p : l <> [] ->
  position w (match l with [] => 0%N | x :: xs => fold_left N.land xs x end) p = forallb (fun y => position w y p) l.
Proof. destruct l as [|x xs]; [contradiction|]. intros _. apply fold_land. Qed.
Lemma disj_bits l p : l <> [] ->
  position w (match l with [] => 0%N | x :: xs => fold_left N.lor xs x end) p = existsb (fun y => position w y p) l.
Proof. destruct l as [|x xs]; [contradiction|]. intros _. apply fold_lor. Qed.
Lemma conj_good g t p cs :
  (forall c, In c cs -> (position w (g c) p = true <-> sat tr (fm c) t)) ->
  (forallb (fun y => position w y p) (map g cs) = true <-> sat tr (EAnd (map fm cs)) t).
Proof.
  intros H. cbn [sat]. induction cs as [|c cs IH]; cbn [map forallb fold_right]; [split; auto|].
  rewrite andb_true_iff, IH by (intros; apply H; right; assumption).
  rewrite (H c (or_introl eq_refl)). reflexivity.
Qed.
Lemma disj_good g t p cs :
  (forall c, In c cs -> (position w (g c) p = true <-> sat tr (fm c) t)) ->
  (existsb (fun y => position w y p) (map g cs) = true <-> sat tr (EOr (map fm cs)) t).
Proof.
  intros H. cbn [sat]. induction cs as [|c cs IH]; cbn [map existsb fold_right]; [split; [discriminate|contradiction]|].
  rewrite orb_true_iff, IH by (intros; apply H; right; assumption).
  rewrite (H c (or_introl eq_refl)). reflexivity.
Qed.

Lemma operand_good W k s c e dk p i :
  inv W k s -> c < k -> c < length prog -> dk <= W -> dk <= R -> d c + e <= dk -> p < w -> i <= e * w + w - 1 - p ->
  (operand w (ring_of prog s c) size W dk (p + i) = true <-> sat tr (fm c) ((W - dk) * w + p + i)).
Proof.
  intros Hinv Hck Hc HW HR Hd Hp Hi. pose proof w_pos as Hw. unfold operand.
  assert (Hq : (p + i) / w <= e) by (apply Nat.lt_succ_r, Nat.div_lt_upper_bound; nia).
  rewrite slot_nat by lia.
  replace (W + (p + i) / w - dk) with (W - dk + (p + i) / w) by lia.
  pose proof (ring_good W k s c (W - dk + (p + i) / w) Hinv Hck Hc ltac:(lia) ltac:(lia)
    ((p + i) mod w) (Nat.mod_upper_bound (p + i) w ltac:(lia))) as Hg. rewrite Hg.
  replace ((W - dk + (p + i) / w) * w + (p + i) mod w) with ((W - dk) * w + p + i); [reflexivity|].
  pose proof (Nat.div_mod (p + i) w ltac:(lia)). nia.
Qed.

Lemma ceil_bound ub : ub <= ceil_words w ub * w.
Proof.
  pose proof w_pos as Hw. unfold ceil_words. pose proof (Nat.div_mod (w - 1 + ub) w ltac:(lia)).
  pose proof (Nat.mod_upper_bound (w - 1 + ub) w ltac:(lia)). nia.
Qed.
Lemma buffer_fits lb ub : lb <= ub -> w + (ub - lb) <= buffer_size w lb ub * w.
Proof.
  intros Hlu. pose proof w_pos as Hw. pose proof (ceil_bound ub) as H1.
  pose proof (Nat.mul_div_le lb w ltac:(lia)) as H2. unfold buffer_size.
  assert (H3 : lb / w <= ceil_words w ub) by (unfold ceil_words; apply Nat.div_le_mono; lia).
  nia.
Qed.

Lemma compute_good junk W k s o :
  inv W k s -> nth_error prog k = Some o -> (forall a, o <> SAtom a) ->
  (forall i, a_word w (fst (junk i)) /\ a_word w (snd (junk i))) ->
  exists v, compute w prog junk size W k s = Some v /\ a_word w v /\ (d k <= W -> good (fm k) (W - d k) v).
Proof.
  intros Hinv Ho Hna Hjunk. pose proof w_pos as Hw.
  assert (Hk : k < length prog) by (apply nth_error_Some; congruence).
  pose proof (lag_root k Hk) as HdR.
  assert (Hin : In o prog) by (eapply nth_error_In; exact Ho).
  pose proof (Hsup o Hin) as Hs.
  assert (Hcl : forall c, In c (children o) -> c < k /\ c < length prog /\ d c + own w o <= d k).
  { intros c Hc. pose proof (child_lt k o c Ho Hc). pose proof (lag_child k o c Ho Hc). lia. }
  assert (Harg : d k <= W -> forall c, In c (children o) ->
                 good (fm c) (W - d k) (ring_of prog s c (slot size W (d k) 0))).
  { intros HW c Hc. destruct (Hcl c Hc) as (H1 & H2 & H3). rewrite slot_nat by lia.
    rewrite Nat.add_0_r. apply (ring_good W k s c (W - d k) Hinv H1 H2); lia. }
  assert (Hj1 : words w (fun i => fst (junk i))) by (intros i; apply Hjunk).
  assert (Hj2 : words w (fun i => snd (junk i))) by (intros i; apply Hjunk).
  unfold compute. rewrite Ho. pose proof (fm_eq k o Ho) as Hfm.
  destruct o as [a|b|c|cs|cs|c1 c2|c1 c2|c1 c2|lb ub c|lb ub c|lb ub c1 c2];
    cbn [children supported own] in *.
  - exfalso. eapply Hna. reflexivity.
  - subst b. eexists. split; [reflexivity|]. split.
    + unfold a_word. apply N.neq_0_lt_0. apply N.pow_nonzero. discriminate.
    + intros HW p Hp. rewrite Hfm. cbn [node_formula sat]. unfold position. rewrite N.bits_0. reflexivity.
  - eexists. split; [reflexivity|]. split; [apply trunc_word|]. intros HW p Hp.
    rewrite trunc_bit, lnot_bit, negb_true_iff by assumption. rewrite Hfm. cbn [node_formula sat].
    fold (fm c). rewrite <- (Harg HW c (or_introl eq_refl) p Hp).
    symmetry. apply not_true_iff_false.
  - eexists. split; [reflexivity|]. split; [apply trunc_word|]. intros HW p Hp.
    rewrite trunc_bit by assumption. rewrite Hfm. cbn [node_formula].
    rewrite conj_bits by (destruct cs; [contradiction|discriminate]). apply conj_good. intros c Hc. exact (Harg HW c Hc p Hp).
  - eexists. split; [reflexivity|]. split; [apply trunc_word|]. intros HW p Hp.
    rewrite trunc_bit by assumption. rewrite Hfm. cbn [node_formula].
    rewrite disj_bits by (destruct cs; [contradiction|discriminate]). apply disj_good. intros c Hc. exact (Harg HW c Hc p Hp).
  - eexists. split; [reflexivity|]. split; [apply trunc_word|]. intros HW p Hp.
    rewrite trunc_bit, lor_bit, lnot_bit by assumption. rewrite Hfm. cbn [node_formula sat].
    fold (fm c1) (fm c2).
    rewrite <- (Harg HW c1 (or_introl eq_refl) p Hp), <- (Harg HW c2 (or_intror (or_introl eq_refl)) p Hp).
    destruct (position w (ring_of prog s c1 _) p), (position w (ring_of prog s c2 _) p);
      cbn [negb orb]; intuition congruence.
  - contradiction.
  - eexists. split; [reflexivity|]. split; [apply trunc_word|]. intros HW p Hp.
    rewrite trunc_bit, lxor_bit by assumption. rewrite Hfm. cbn [node_formula sat].
    fold (fm c1) (fm c2).
    rewrite <- (Harg HW c1 (or_introl eq_refl) p Hp), <- (Harg HW c2 (or_intror (or_introl eq_refl)) p Hp).
    destruct (position w (ring_of prog s c1 _) p), (position w (ring_of prog s c2 _) p);
      cbn [xorb]; intuition congruence.
  - destruct Hs as [Hlu Hfit].
    destruct (window_spec w Hw N.lor true L (ring_of prog s c) (fun i => fst (junk i)) (buffer_size w lb ub) size W (d k) lb ub)
      as (x & E & Hx & Hbits); try assumption.
    + intros x y p. rewrite lor_bit. apply orb_true_iff.
    + unfold buffer_size. lia.
    + apply buffer_fits. exact Hlu.
    + exact (ring_word W k s c Hinv).
    + exists x. split; [exact E|]. split; [exact Hx|]. intros HW p Hp. rewrite (Hbits p Hp), Hfm.
      cbn [node_formula sat]. fold (fm c). destruct (Hcl c (or_introl eq_refl)) as (H1 & H2 & H3).
      pose proof (ceil_bound ub) as Hcb.
      split.
      * intros (i & Hi & Hop). exists ((W - d k) * w + p + i). split; [lia|].
        apply (operand_good W k s c (ceil_words w ub) (d k) p i Hinv H1 H2 HW HdR H3 Hp); [lia|exact Hop].
      * intros (j & Hj & Hsat). exists (j - ((W - d k) * w + p)). split; [lia|].
        apply (operand_good W k s c (ceil_words w ub) (d k) p _ Hinv H1 H2 HW HdR H3 Hp); [lia|].
        replace ((W - d k) * w + p + (j - ((W - d k) * w + p))) with j by lia. exact Hsat.
  - destruct Hs as [Hlu Hfit].
    destruct (window_spec w Hw N.land false L (ring_of prog s c) (fun i => fst (junk i)) (buffer_size w lb ub) size W (d k) lb ub)
      as (x & E & Hx & Hbits); try assumption.
    + intros x y p. rewrite land_bit. apply andb_false_iff.
    + unfold buffer_size. lia.
    + apply buffer_fits. exact Hlu.
    + exact (ring_word W k s c Hinv).
    + exists x. split; [exact E|]. split; [exact Hx|]. intros HW p Hp. rewrite Hfm.
      cbn [node_formula sat]. fold (fm c). destruct (Hcl c (or_introl eq_refl)) as (H1 & H2 & H3).
      pose proof (ceil_bound ub) as Hcb. specialize (Hbits p Hp).
      split.
      * intros Htrue j Hj.
        replace j with ((W - d k) * w + p + (j - ((W - d k) * w + p))) by lia.
        apply (operand_good W k s c (ceil_words w ub) (d k) p _ Hinv H1 H2 HW HdR H3 Hp); [lia|].
        apply not_false_iff_true. intros Hf. assert (position w x p = false); [|congruence].
        apply Hbits. eexists. split; [|exact Hf]. lia.
      * intros Hall. apply not_false_iff_true. intros Hf. apply Hbits in Hf. destruct Hf as (i & Hi & Hop).
        assert (Ht : operand w (ring_of prog s c) size W (d k) (p + i) = true); [|congruence].
        apply (operand_good W k s c (ceil_words w ub) (d k) p i Hinv H1 H2 HW HdR H3 Hp); [lia|].
        apply Hall. lia.
  - destruct Hs as (Hlu & Hfit & Hpow).
    destruct (until_window_spec w Hw L (ring_of prog s c1) (ring_of prog s c2) junk (buffer_size w lb ub) size W (d k) lb ub)
      as (x & E & Hx & Hbits); try assumption.
    + unfold buffer_size. lia.
    + apply buffer_fits. exact Hlu.
    + exact (ring_word W k s c1 Hinv).
    + exact (ring_word W k s c2 Hinv).
    + exists x. split; [exact E|]. split; [exact Hx|]. intros HW p Hp. rewrite (Hbits p Hp), Hfm.
      cbn [node_formula sat]. fold (fm c1) (fm c2).
      destruct (Hcl c1 (or_introl eq_refl)) as (H1 & H2 & H3).
      destruct (Hcl c2 (or_intror (or_introl eq_refl))) as (G1 & G2 & G3).
      pose proof (ceil_bound ub) as Hcb.
      split.
      * intros (i & Hi & Hop & Hbef). exists ((W - d k) * w + p + i). split; [lia|]. split.
        -- apply (operand_good W k s c2 (ceil_words w ub) (d k) p i Hinv G1 G2 HW HdR G3 Hp); [lia|exact Hop].
        -- intros j Hj.
           replace j with ((W - d k) * w + p + (j - ((W - d k) * w + p))) by lia.
           apply (operand_good W k s c1 (ceil_words w ub) (d k) p _ Hinv H1 H2 HW HdR H3 Hp); [lia|].
           apply Hbef. lia.
      * intros (j & Hj & Hsat & Hbef). exists (j - ((W - d k) * w + p)). split; [lia|]. split.
        -- apply (operand_good W k s c2 (ceil_words w ub) (d k) p _ Hinv G1 G2 HW HdR G3 Hp); [lia|].
           replace ((W - d k) * w + p + (j - ((W - d k) * w + p))) with j by lia. exact Hsat.
        -- intros i Hi. apply (operand_good W k s c1 (ceil_words w ub) (d k) p i Hinv H1 H2 HW HdR H3 Hp); [lia|].
           apply Hbef. lia.
Qed.

(** ** One turn *)
Lemma store_inv W k s o v :
  inv W k s -> nth_error prog k = Some o -> (forall a, o <> SAtom a) -> a_word w v ->
  (d k <= W -> good (fm k) (W - d k) v) ->
  inv W (S k) (State (atomics s) (put (values s) k (put (values s k) (slot size W (d k) 0) v))).
Proof.
  intros (H1 & H2 & H3 & H4) Ho Hna Hv Hgood. pose proof R_size as HR.
  assert (Hk : k < length prog) by (apply nth_error_Some; congruence).
  pose proof (lag_root k Hk) as HdR.
  split; [exact H1|]. split; [|split; [exact H3|]]; cbn [values].
  - intros c i. unfold put. destruct (c =? k); [|apply H2]. destruct (i =? slot size W (d k) 0); [exact Hv|apply H2].
  - intros c oc Hoc Hnc x Hx1 Hx2 Hx3. unfold put. destruct (Nat.eqb_spec c k) as [->|Hck].
    + destruct (Nat.eqb_spec (x mod size) (slot size W (d k) 0)) as [E|E].
      * assert (HW : W = x + d k) by (apply (slot_other W (d k) x E); lia).
        replace x with (W - d k) by lia. apply Hgood. lia.
      * apply (H4 k oc Hoc Hnc x Hx1 Hx2). right.
        destruct (Nat.eq_dec (x + d k) W) as [He|]; [|lia]. exfalso. apply E.
        rewrite slot_nat by lia. f_equal. lia.
    + apply (H4 c oc Hoc Hnc x Hx1 Hx2). destruct Hx3; [left; lia|right; assumption].
Qed.
Lemma skip_inv W k s a : inv W k s -> nth_error prog k = Some (SAtom a) -> inv W (S k) s.
Proof.
  intros (H1 & H2 & H3 & H4) Ho. split; [exact H1|]. split; [exact H2|]. split; [exact H3|].
  intros c oc Hoc Hnc x Hx1 Hx2 Hx3. apply (H4 c oc Hoc Hnc x Hx1 Hx2).
  destruct Hx3 as [Hx3|]; [|right; assumption].
  destruct (Nat.eq_dec c k) as [->|]; [|left; lia]. exfalso. rewrite Ho in Hoc. injection Hoc as <-. eapply Hnc. reflexivity.
Qed.
Lemma compute_all junk W :
  (forall k i, a_word w (fst (junk k i)) /\ a_word w (snd (junk k i))) ->
  forall todo k s, k + todo = length prog -> inv W k s ->
  exists s', compute_from w prog junk size W k todo s = Some s' /\ inv W (length prog) s'.
Proof.
  intros Hjunk. induction todo as [|todo IH]; intros k s Hk Hinv; cbn [compute_from].
  - exists s. split; [reflexivity|]. replace (length prog) with k by lia. exact Hinv.
  - destruct (nth_error prog k) as [o|] eqn:Ho; [|apply nth_error_None in Ho; lia].
    destruct (atom_or_not o) as [[a ->]|Hna].
    + apply IH; [lia|]. exact (skip_inv W k s a Hinv Ho).
    + destruct (compute_good (junk k) W k s o Hinv Ho Hna (Hjunk k)) as (v & E & Hv & Hg).
      rewrite E.
      assert (Hnext : exists s', compute_from w prog junk size W (S k) todo
          (State (atomics s) (put (values s) k (put (values s k) (slot size W (d k) 0) v))) = Some s' /\ inv W (length prog) s').
      { apply IH; [lia|]. exact (store_inv W k s o v Hinv Ho Hna Hv Hg). }
      destruct o; try exact Hnext. exfalso. eapply Hna. reflexivity.
Qed.

Lemma clear_inv W s : inv W (length prog) s -> inv0 (S W) (clear prog size W s).
Proof.
  intros (H1 & H2 & H3 & H4). pose proof R_size as HR.
  assert (Hz : a_word w 0%N).
  { unfold a_word. apply N.neq_0_lt_0. apply N.pow_nonzero. discriminate. }
  assert (Hslot : forall x, S W <= x + R -> x <= W -> x mod size <> slot size W 0 1).
  { intros x Hx1 Hx2 E. replace (slot size W 0 1) with (slot size (S W) 0 0) in E.
    - pose proof (slot_other (S W) 0 x E ltac:(lia) ltac:(lia)). lia.
    - rewrite !slot_nat by lia. f_equal. lia. }
  unfold clear. split; [|split; [|split]]; cbn [atomics values].
  - intros a i. destruct (uses prog a); [|apply H1]. unfold put. destruct (i =? _); [exact Hz|apply H1].
  - intros c i. unfold put. destruct (i =? _); [exact Hz|apply H2].
  - intros a x Hx1 Hx2. specialize (H3 a x ltac:(lia) ltac:(lia)).
    destruct (uses prog a); [|exact H3]. unfold put.
    destruct (Nat.eqb_spec (x mod size) (slot size W 0 1)) as [E|]; [|exact H3].
    exfalso. exact (Hslot x Hx1 ltac:(lia) E).
  - intros c o Ho Hna x Hx1 Hx2.
    assert (Hc : c < length prog) by (apply nth_error_Some; congruence).
    specialize (H4 c o Ho Hna x ltac:(lia) ltac:(lia) (or_introl Hc)). unfold put.
    destruct (Nat.eqb_spec (x mod size) (slot size W 0 1)) as [E|]; [|exact H4].
    exfalso. exact (Hslot x Hx1 ltac:(lia) E).
Qed.

Lemma prog_nonempty : 0 < length prog.
Proof. destruct Hprog as (Hne & _). destruct prog; [contradiction|cbn; lia]. Qed.
Lemma formula_fm : formula prog = fm (root prog).
Proof.
  unfold formula, fm, root. pose proof prog_nonempty.
  assert (Hlen : length (formulas_from [] prog) = length prog) by (rewrite formulas_scan, scan_length; reflexivity).
  rewrite <- Hlen in *. revert H. generalize (formulas_from [] prog). intros l Hl.
  destruct (exists_last (l := l)) as (l' & x & ->); [intros ->; cbn in Hl; lia|].
  rewrite last_last, app_length, app_nth2 by (cbn [length]; lia). cbn [length].
  replace (length l' + 1 - 1 - length l') with 0 by lia. reflexivity.
Qed.

Lemma turn_good junk W s :
  (forall k i, a_word w (fst (junk k i)) /\ a_word w (snd (junk k i))) -> inv0 W s ->
  exists s' out, turn w prog junk tr W s = Some (s', out) /\ inv0 (S W) s' /\
    (W < R /\ out = [] \/ R <= W /\ exists x, out = [x] /\ a_word w x /\ good (formula prog) (W - R) x).
Proof.
  intros Hjunk H0. unfold turn.
  destruct (compute_all junk W Hjunk (length prog) 0 _ eq_refl (read_inv W s H0)) as (s1 & E & Hinv).
  rewrite E. do 2 eexists. split; [reflexivity|]. split; [exact (clear_inv W s1 Hinv)|].
  destruct (Nat.leb_spec R W) as [Hle|Hgt]; [right|left; split; [exact Hgt|reflexivity]].
  split; [exact Hle|]. eexists. split; [reflexivity|]. split; [apply (ring_word W _ s1 _ Hinv)|].
  rewrite formula_fm, slot_nat by lia. rewrite Nat.add_0_r.
  assert (Hroot : root prog < length prog) by (pose proof prog_nonempty; unfold root; lia).
  apply (ring_good W (length prog) s1 (root prog) (W - R) Hinv); lia.
Qed.

Lemma start_inv : inv0 0 start.
Proof.
  assert (Hz : a_word w 0%N).
  { unfold a_word. apply N.neq_0_lt_0. apply N.pow_nonzero. discriminate. }
  split; [intros; exact Hz|]. split; [intros; exact Hz|]. split; intros; lia.
Qed.

Lemma turns_good junk n :
  (forall W k i, a_word w (fst (junk W k i)) /\ a_word w (snd (junk W k i))) ->
  exists s out, turns w prog junk tr n = Some (s, out) /\ inv0 n s /\
    length out = n - R /\ (forall x, In x out -> a_word w x) /\ words_of w tr (formula prog) out.
Proof.
  intros Hjunk. induction n as [|n IH]; cbn [turns].
  - exists start, []. split; [reflexivity|]. split; [exact start_inv|]. split; [reflexivity|].
    split; [intros x []|]. intros i x Hx. destruct i; discriminate.
  - destruct IH as (s & out & E & Hinv & Hlen & Hwords & Hout). rewrite E.
    destruct (turn_good (junk n) n s (Hjunk n) Hinv) as (s' & new & E' & Hinv' & Hnew). rewrite E'.
    exists s', (out ++ new). split; [reflexivity|]. split; [exact Hinv'|].
    destruct Hnew as [[Hlt ->]|(Hle & x & -> & Hx & Hg)].
    + rewrite app_nil_r. split; [lia|]. split; assumption.
    + rewrite app_length. cbn [length]. split; [lia|]. split.
      * intros y Hy. apply in_app_iff in Hy. destruct Hy as [Hy|[<-|[]]]; auto.
      * intros i y Hy p Hp. destruct (Nat.ltb_spec i (length out)) as [Hi|Hi].
        -- rewrite nth_error_app1 in Hy by exact Hi. exact (Hout i y Hy p Hp).
        -- rewrite nth_error_app2 in Hy by exact Hi.
           destruct (i - length out) as [|r] eqn:Er; [|destruct r; discriminate].
           cbn [nth_error] in Hy. injection Hy as <-. replace i with (n - R) by lia. exact (Hg p Hp).
Qed.

(** ** The delay *)
Lemma lag_ahead : forall k o, nth_error prog k = Some o -> d k = words_ahead w (fm k).
Proof.
  induction k as [k IH] using lt_wf_ind. intros o Ho. rewrite (fm_eq k o Ho), (lag_eq k o Ho).
  assert (Hc : forall c, In c (children o) -> d c = words_ahead w (fm c)).
  { intros c Hc. pose proof (child_lt k o c Ho Hc) as Hlt. pose proof (proj1 (nth_error_Some prog k)) as Hk.
    specialize (Hk ltac:(congruence)).
    destruct (nth_error prog c) as [oc|] eqn:Hoc; [|apply nth_error_None in Hoc; lia].
    exact (IH c Hlt oc Hoc). }
  destruct o; cbn [own children map fold_right node_formula words_ahead] in *; unfold ceil_words;
    rewrite ?(Nat.add_comm (w - 1));
    try (fold (fm c)); try (fold (fm c1) (fm c2)); try rewrite (Hc c) by (cbn; auto); try rewrite (Hc c1), (Hc c2) by (cbn; auto); try lia.
  - clear Ho. induction cs as [|c cs IHc]; cbn [map fold_right]; [reflexivity|].
    fold (fm c). rewrite <- (Hc c) by (left; reflexivity). cbn [Nat.add] in IHc |- *.
    rewrite <- IHc by (intros; apply Hc; right; assumption). reflexivity.
  - clear Ho. induction cs as [|c cs IHc]; cbn [map fold_right]; [reflexivity|].
    fold (fm c). rewrite <- (Hc c) by (left; reflexivity). cbn [Nat.add] in IHc |- *.
    rewrite <- IHc by (intros; apply Hc; right; assumption). reflexivity.
Qed.
Lemma delay : R = words_ahead w (formula prog).
Proof.
  rewrite formula_fm. destruct (nth_error prog (root prog)) as [o|] eqn:Ho; [exact (lag_ahead _ o Ho)|].
  exfalso. apply nth_error_None in Ho. pose proof prog_nonempty. unfold root in Ho. lia.
Qed.
End Run.

Lemma word_size_power w : word_size w -> exists L, w = 2 ^ L /\ 1 <= L.
Proof.
  intros [<-|[<-|[<-|[<-|[]]]]]; [exists 3|exists 4|exists 5|exists 6]; (split; [reflexivity|lia]).
Qed.

Lemma monitor_right w prog tr junk n :
  word_size w -> subformula_list prog -> (forall o, In o prog -> supported w o) ->
  (forall W k i, a_word w (fst (junk W k i)) /\ a_word w (snd (junk W k i))) ->
  exists s out, turns w prog junk tr n = Some (s, out) /\
    length out = n - words_ahead w (formula prog) /\ words_of w tr (formula prog) out.
Proof.
  intros Hw Hp Hs Hj. destruct (word_size_power w Hw) as (L & HL & HL1).
  destruct (turns_good w L HL HL1 prog Hp Hs tr junk n Hj) as (s & out & E & _ & Hlen & _ & Hout).
  exists s, out. split; [exact E|]. split; [|exact Hout].
  rewrite <- (delay w L HL HL1 prog Hp Hs). exact Hlen.
Qed.

(** ** Intervals of up to three words; what goes wrong otherwise *)
Lemma short_fits w n : word_size w -> 1 <= n <= 3 * w -> rest_fits w n.
Proof.
  intros Hw Hn. destruct (word_size_power w Hw) as (L & HL & HL1). unfold rest_fits.
  pose proof (Nat.log2_spec n ltac:(lia)) as [H1 H2]. rewrite Nat.pow_succ_r' in H2.
  set (e := Nat.log2 n) in *.
  destruct (Nat.lt_ge_cases e L) as [Hlt|Hge].
  - left. assert (2 ^ S e <= 2 ^ L) by (apply Nat.pow_le_mono_r; lia). rewrite Nat.pow_succ_r' in *. lia.
  - destruct (Nat.eq_dec e L) as [->|Hne]; [left; lia|].
    assert (2 ^ S L <= 2 ^ e) by (apply Nat.pow_le_mono_r; lia). rewrite Nat.pow_succ_r' in *.
    destruct (Nat.eq_dec (n - 2 ^ e) w) as [He|He]; [|left; lia].
    right. rewrite He. apply Nat.mod_same. lia.
Qed.
Lemma short_supported w lb ub c :
  word_size w -> lb <= ub -> ub - lb + 1 <= 3 * w -> supported w (SFuture lb ub c) /\ supported w (SGlobal lb ub c).
Proof. intros Hw Hlu Hn. split; (split; [exact Hlu|apply short_fits; [exact Hw|lia]]). Qed.

Lemma constant_wrong :
  exists prog tr s out, subformula_list prog /\ formula prog = EConst true /\
    turns 8 prog (fun _ _ _ => (0, 0)%N) tr 1 = Some (s, out) /\ ~ words_of 8 tr (formula prog) out.
Proof.
  exists [SConst true], (fun _ _ => true). do 2 eexists. split; [|split; [reflexivity|split; [reflexivity|]]].
  - split; [discriminate|]. split.
    + intros [|k] o Ho; cbn in Ho; [injection Ho as <-; contradiction|destruct k; discriminate].
    + intros k Hk. cbn in Hk. lia.
  - intros H. specialize (H 0 _ eq_refl 0 ltac:(lia)). destruct H as [_ H]. specialize (H eq_refl).
    vm_compute in H. discriminate.
Qed.
Lemma pair_list o : children o = [0; 1] -> subformula_list [SAtom 0; SAtom 1; o].
Proof.
  intros Ho. split; [discriminate|]. split.
  - intros [|[|[|k]]] o' H; cbn in H; try (injection H as <-); try contradiction.
    + rewrite Ho. intros c Hc. cbn in Hc. lia.
    + destruct k; discriminate.
  - intros k Hk. cbn in Hk. exists 2, o. split; [lia|]. split; [reflexivity|]. rewrite Ho. cbn. lia.
Qed.
Lemma equivalence_wrong :
  exists prog tr s out, subformula_list prog /\ formula prog = EEquiv (EAtom 0) (EAtom 1) /\
    turns 8 prog (fun _ _ _ => (0, 0)%N) tr 1 = Some (s, out) /\ ~ words_of 8 tr (formula prog) out.
Proof.
  exists [SAtom 0; SAtom 1; SEquiv 0 1], (fun _ _ => true). do 2 eexists.
  split; [|split; [reflexivity|split; [reflexivity|]]].
  - apply pair_list. reflexivity.
  - intros H. specialize (H 0 _ eq_refl 0 ltac:(lia)). destruct H as [_ H].
    assert (Hs : sat (fun _ _ => true) (formula [SAtom 0; SAtom 1; SEquiv 0 1]) (0 * 8 + 0)) by (cbn; tauto).
    specialize (H Hs). vm_compute in H. discriminate.
Qed.
(** a0 always holds, a1 only at time 2. *)
Lemma until_wrong :
  exists prog tr s out, subformula_list prog /\ formula prog = EU 1 1 (EAtom 0) (EAtom 1) /\
    turns 8 prog (fun _ _ _ => (0, 0)%N) tr 2 = Some (s, out) /\ ~ words_of 8 tr (formula prog) out.
Proof.
  exists [SAtom 0; SAtom 1; SUntil 1 1 0 1], (fun t a => if a =? 0 then true else t =? 2). do 2 eexists.
  split; [|split; [reflexivity|split; [reflexivity|]]].
  - apply pair_list. reflexivity.
  - intros H. specialize (H 0 _ eq_refl 0 ltac:(lia)). destruct H as [H _].
    assert (Hb : sat (fun t a => if a =? 0 then true else t =? 2) (formula [SAtom 0; SAtom 1; SUntil 1 1 0 1]) (0 * 8 + 0)).
    { apply H. vm_compute. reflexivity. }
    cbn in Hb. destruct Hb as (j & Hj & Hq & _). apply Nat.eqb_eq in Hq. lia.
Qed.
Lemma wide_undefined :
  exists prog, subformula_list prog /\ formula prog = EF 0 24 (EAtom 0) /\
    forall tr junk, turns 8 prog junk tr 1 = None.
Proof.
  exists [SAtom 0; SFuture 0 24 0]. split; [|split; [reflexivity|]].
  - split; [discriminate|]. split.
    + intros [|[|k]] o H; cbn in H; try (injection H as <-); try contradiction.
      * intros c Hc. cbn in Hc. lia.
      * destruct k; discriminate.
    + intros k Hk. cbn in Hk. exists 1, (SFuture 0 24 0). split; [lia|]. split; [reflexivity|]. cbn. lia.
  - intros tr junk. reflexivity.
Qed.
