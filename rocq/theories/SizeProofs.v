(** * Sizes computed by the compiler and sizes that suffice (proof infrastructure) *)
From Coq Require Import List Arith ZArith Bool Lia.
Require Import Verif.Mltl Verif.MltlShape Verif.Transform Verif.Scq Verif.Engine Verif.Monitoring Verif.ScqSize Verif.TightSize.
Require Import Verif.MonitorProofs Verif.ScqSizeProofs Verif.ReachProofs Verif.MonitorCheck Verif.TightProofs.
Import ListNotations.

(** ** [soon] is the compiler's best-case delay *)
Lemma fold_left_zmin l : forall x y, fold_left Z.min l (Z.min x y) = Z.min (fold_left Z.min l x) y.
Proof. induction l as [|z l IH]; intros x y; cbn; [reflexivity|]. rewrite <- IH. f_equal. lia. Qed.
Lemma zmin_soon es e :
  Forall (fun e => bpd e = Z.of_nat (soon e)) es ->
  fold_left Z.min (map bpd es) (Z.of_nat (soon e)) = Z.of_nat (fold_right (fun e n => Nat.min (soon e) n) (soon e) es).
Proof.
  induction 1 as [|x es He Hes IH]; [reflexivity|]. cbn [map fold_left fold_right].
  rewrite fold_left_zmin, IH, He, Nat2Z.inj_min. lia.
Qed.
Lemma bpd_soon e : all_nodes future_op e -> bpd e = Z.of_nat (soon e).
Proof.
  induction e using expr_ind'; intros HN; cbn [all_nodes] in HN; destruct HN as [Hop HN]; cbn [bpd];
    try reflexivity; try (cbn in Hop; tauto).
  1,7: auto.
  all: try (assert (A : Forall (fun e => bpd e = Z.of_nat (soon e)) es) by
              (clear Hop; match goal with F : Forall _ ?l |- _ => induction F as [|x l Hx Hl IH] end;
               constructor; cbn in HN; tauto);
            destruct es as [|e es]; [reflexivity|]; inversion_clear A as [|? ? A1 A2];
            cbn [map zmin_list]; rewrite A1; exact (zmin_soon es e A2)).
  all: cbn [soon]; repeat match goal with IH : all_nodes _ ?x -> _ |- _ => specialize (IH ltac:(tauto)) end; lia.
Qed.
Lemma soon_soonest e : soon e <= soonest e.
Proof.
  induction e using expr_ind'; cbn [soon soonest]; try lia.
  - destruct es as [|x es]; [lia|]. inversion H as [|? ? H1 H2]; subst. clear H. induction H2 as [|y l Hy _ IH]; cbn [fold_right]; lia.
  - destruct es as [|x es]; [lia|]. inversion H as [|? ? H1 H2]; subst. clear H. induction H2 as [|y l Hy _ IH]; cbn [fold_right]; lia.
Qed.
Lemma exprs_within prog confs : length prog = length confs -> length (exprs prog confs) = length prog.
Proof.
  unfold exprs.
  assert (G : forall p es cs, length p = length cs -> length (exprs_from es p cs) = length es + length p).
  { induction p as [|i p IH]; intros es [|c cs] E; cbn in *; try lia. rewrite IH by lia. rewrite app_length. cbn. lia. }
  apply (G prog []).
Qed.

Section Sizes.
  Variables (const : nat) (prog : list instr) (confs : list qconf).
  Hypothesis Hlen : length prog = length confs.
  Hypothesis Hft : ft_program prog (sized const prog confs).
  Let es := exprs prog confs.

  Lemma es_future : Forall (all_nodes future_op) es.
  Proof. unfold es. rewrite <- (sized_exprs const prog confs Hlen). apply exprs_future. assumption. Qed.
  Lemma operand_future o : all_nodes future_op (operand_expr es o).
  Proof.
    destruct o as [b|a|i|]; cbn; auto.
    destruct (nth_in_or_default i es (EConst false)) as [Hin| ->]; [|cbn; auto].
    pose proof es_future as F. rewrite Forall_forall in F. apply F. assumption.
  Qed.
  Lemma operand_wpd o : wpd (operand_expr es o) = Z.of_nat (reach (operand_expr es o)).
  Proof. apply wpd_reach, operand_future. Qed.
  Lemma node_bpd k : bpd (nth k es (EConst false)) = Z.of_nat (soon (node_expr prog confs k)).
  Proof. apply bpd_soon. exact (operand_future (Sub k)). Qed.

  Lemma operand_is_spec k o : operand_is k o = true <-> o = Sub k.
  Proof. destruct o; cbn; try (split; discriminate). rewrite Nat.eqb_eq. split; congruence. Qed.
  Lemma in_siblings k z :
    In z (sibling_wpds es prog k) <-> exists o, sibling prog k o /\ z = Z.of_nat (reach (operand_expr es o)).
  Proof.
    unfold sibling_wpds. rewrite in_flat_map. split.
    - intros (p & Hp & Hz). apply in_app_iff in Hz as [Hz|Hz].
      + destruct (operand_is k (i_op1 p) && negb (operand_is k (i_op2 p))) eqn:E; [|destruct Hz].
        apply andb_true_iff in E as [E1 E2]. apply operand_is_spec in E1.
        destruct Hz as [<-|[]]. exists (i_op2 p). split; [|apply operand_wpd]. exists p. split; [assumption|].
        split; [|auto]. intros E. apply operand_is_spec in E. rewrite E in E2. discriminate.
      + destruct (operand_is k (i_op2 p) && negb (operand_is k (i_op1 p))) eqn:E; [|destruct Hz].
        apply andb_true_iff in E as [E1 E2]. apply operand_is_spec in E1.
        destruct Hz as [<-|[]]. exists (i_op1 p). split; [|apply operand_wpd]. exists p. split; [assumption|].
        split; [|auto]. intros E. apply operand_is_spec in E. rewrite E in E2. discriminate.
    - intros (o & (p & Hp & Hne & Ho) & ->). exists p. split; [assumption|]. rewrite in_app_iff, <- operand_wpd.
      assert (Hf : operand_is k o = false).
      { destruct (operand_is k o) eqn:E; [|reflexivity]. apply operand_is_spec in E. contradiction. }
      destruct Ho as [[E1 E2]|[E1 E2]]; [left|right]; rewrite E2, Hf, (proj2 (operand_is_spec k _) E1); left; reflexivity.
  Qed.
  Lemma zmax_fold (l : list Z) : (0 <= fold_right Z.max 0 l)%Z /\ (forall z, In z l -> z <= fold_right Z.max 0 l)%Z /\
    (forall b, 0 <= b -> (forall z, In z l -> z <= b) -> fold_right Z.max 0 l <= b)%Z.
  Proof.
    clear. induction l as [|x l (H1 & H2 & H3)]; cbn [fold_right].
    - repeat split; try lia. intros z [].
    - split; [lia|]. split.
      + intros z [<-|Hz]; [lia|]. specialize (H2 z Hz). lia.
      + intros b Hb Hz. specialize (H3 b Hb ltac:(intros; apply Hz; right; assumption)).
        specialize (Hz x (or_introl eq_refl)). lia.
  Qed.

  Lemma sized_nth k c ins : nth_error (sized const prog confs) k = Some c -> nth_error prog k = Some ins ->
    c_len c = computed_size const es prog k ins.
  Proof.
    intros H Hp. unfold sized in H. fold es in H. rewrite nth_error_map in H.
    destruct (nth_error confs k) as [c0|] eqn:Ec.
    2:{ apply nth_error_None in Ec. assert (k < length prog) by (apply nth_error_Some; congruence). lia. }
    assert (Hk : nth_error (seq 0 (length prog)) k = Some k).
    { assert (k < length prog) by (apply nth_error_Some; congruence).
      rewrite (nth_error_nth' _ 0) by (rewrite seq_length; assumption). rewrite seq_nth by assumption. reflexivity. }
    erewrite combine_nth_error in H; [|exact Hk|apply combine_nth_error; eassumption].
    injection H as <-. reflexivity.
  Qed.

  Lemma computed_least k ins c :
    nth_error prog k = Some ins -> nth_error (sized const prog confs) k = Some c -> i_op ins <> RETURN ->
    (forall o, sibling prog k o -> reach (operand_expr es o) - soon (node_expr prog confs k) + 1 + const <= c_len c) /\
    1 + const <= c_len c /\
    forall L, 1 + const <= L ->
      (forall o, sibling prog k o -> reach (operand_expr es o) - soon (node_expr prog confs k) + 1 + const <= L) ->
      c_len c <= L.
  Proof.
    intros Hp Hc Hr. rewrite (sized_nth k c ins Hc Hp).
    assert (E : computed_size const es prog k ins =
      Z.to_nat (Z.max (fold_right Z.max 0%Z (sibling_wpds es prog k) - bpd (nth k es (EConst false))) 0) + 1 + const)
      by (unfold computed_size; destruct (i_op ins); congruence).
    rewrite E, node_bpd. destruct (zmax_fold (sibling_wpds es prog k)) as (H1 & H2 & H3).
    split; [|split; [lia|]].
    - intros o Ho. specialize (H2 _ (proj2 (in_siblings k _) (ex_intro _ o (conj Ho eq_refl)))). lia.
    - intros L HL Ho. specialize (H3 (Z.of_nat (L - 1 - const + soon (node_expr prog confs k)))).
      assert (H : forall z, In z (sibling_wpds es prog k) -> (z <= Z.of_nat (L - 1 - const + soon (node_expr prog confs k)))%Z).
      { intros z Hz. apply in_siblings in Hz as (o & Hs & ->). specialize (Ho o Hs). lia. }
      specialize (H3 ltac:(lia) H). lia.
  Qed.

  Lemma sized_node k : node_expr prog (sized const prog confs) k = node_expr prog confs k.
  Proof. unfold node_expr. rewrite sized_exprs by assumption. reflexivity. Qed.

  (** A constant no less than every reach. *)
  Lemma constant_enough :
    (forall k ins, nth_error prog k = Some ins -> reach (node_expr prog confs k) <= const) ->
    queues_enough prog (sized const prog confs).
  Proof.
    intros H k ins conf j conf_j Hp _ Hc. apply sized_len in Hc. specialize (H k ins Hp). rewrite !sized_node. cbv zeta.
    assert (W : forall a b, wait prog (sized const prog confs) ins conf (node_expr prog confs k) a b <= const + 0 \/
                            (a = i_op2 ins -> b = i_op1 ins -> False) /\ (a = i_op1 ins -> b = i_op2 ins -> False)).
    { intros a b. unfold wait. rewrite sized_exprs by assumption. fold es.
      pose proof (node_of prog (sized const prog confs) (fun _ => true) (whole_part _ _ Hft) k ins Hp eq_refl) as [c Hn].
      pose proof (wd_ge _ _ _ (whole_part _ _ Hft) k ins c Hn) as [W1 W2]. unfold wd, owd in W1, W2.
      rewrite sized_node, sized_exprs in * by assumption. fold es in W1, W2.
      destruct (i_op ins); try (left; lia).
      1,2: left; destruct (i_op1 ins); lia.
      all: destruct (operand_pace (paces prog) a); try (left; lia).
      all: destruct (Nat.le_gt_cases (reach (operand_expr es b)) (const + 0)); [left; assumption|right].
      all: split; intros _ ->; lia. }
    split; intros E.
    - destruct (W (i_op1 ins) (i_op2 ins)) as [W1|[_ W1]]; [lia|destruct (W1 eq_refl eq_refl)].
    - destruct (W (i_op2 ins) (i_op1 ins)) as [W1|[W1 _]]; [lia|destruct (W1 eq_refl eq_refl)].
  Qed.

End Sizes.

(** ** Parts of programs *)
Lemma enough_from_soon part prog confs :
  (forall k ins conf c conf_c, part k = true -> nth_error prog k = Some ins -> nth_error confs k = Some conf -> nth_error confs c = Some conf_c ->
    let e := node_expr prog confs k in
    (i_op1 ins = Sub c -> wait prog confs ins conf e (i_op1 ins) (i_op2 ins) - soon (node_expr prog confs c) + 1 <= c_len conf_c) /\
    (i_op2 ins = Sub c -> wait prog confs ins conf e (i_op2 ins) (i_op1 ins) - soon (node_expr prog confs c) + 1 <= c_len conf_c)) ->
  part_enough part prog confs.
Proof.
  intros H k ins conf c conf_c E0 E1 E2 E3. cbv zeta. specialize (H k ins conf c conf_c E0 E1 E2 E3). cbv zeta in H.
  pose proof (soon_soonest (node_expr prog confs c)). destruct H as [H1 H2]. split; intros E; [specialize (H1 E)|specialize (H2 E)]; lia.
Qed.


Section Part.
  Variables (const : nat) (prog : list instr) (confs : list qconf) (part : nat -> bool).
  Hypothesis Hlen : length prog = length confs.
  Hypothesis Hft : ft_part part prog (sized const prog confs).
  Let es := exprs prog confs.

  Lemma part_future k : part k = true -> all_nodes future_op (node_expr prog confs k).
  Proof.
    rewrite <- (sized_node const prog confs Hlen). induction k as [k IH] using lt_wf_ind. intros HK.
    destruct (nth_error prog k) as [ins|] eqn:Ep.
    2:{ unfold node_expr. rewrite sized_exprs by assumption. rewrite nth_overflow; [cbn; auto|]. apply nth_error_None in Ep.
        rewrite exprs_within; assumption. }
    destruct (node_of prog _ part Hft k ins Ep HK) as [c Hn]. rewrite (node_eq prog _ part Hft k ins c Hn).
    assert (HO : forall o, (forall i, o = Sub i -> reads ins i) -> all_nodes future_op (operand_expr (exprs prog (sized const prog confs)) o)).
    { intros o Ho. destruct o as [b|a|i|]; cbn [operand_expr]; try (cbn; tauto).
      destruct (sub_child prog _ part Hft k ins c i Hn (Ho i eq_refl)) as (Hlt & ins' & c' & Hn' & _).
      exact (IH i Hlt (proj2 (proj2 Hn'))). }
    pose proof (HO (i_op1 ins) (fun i E => or_introl E)) as H1. pose proof (HO (i_op2 ins) (fun i E => or_intror E)) as H2.
    pose proof (node_ft prog _ part Hft k ins c Hn) as [_ Hi].
    unfold instr_expr. destruct (i_op ins); try destruct Hi; cbn; auto.
  Qed.
  Lemma part_operand o : (forall i, o = Sub i -> part i = true) -> all_nodes future_op (operand_expr es o).
  Proof. intros H. destruct o as [b|a|i|]; cbn; auto. exact (part_future i (H i eq_refl)). Qed.
  Lemma part_sibling j insj conf_j o :
    part j = true -> nth_error prog j = Some insj -> nth_error (sized const prog confs) j = Some conf_j -> i_op insj <> RETURN ->
    all_nodes future_op (operand_expr es o) -> sibling prog j o ->
    reach (operand_expr es o) - soon (node_expr prog confs j) + 1 <= c_len conf_j.
  Proof.
    intros HJ Hj Hc Hr Ho Hs. rewrite (sized_nth const prog confs Hlen j conf_j insj Hc Hj).
    assert (E : computed_size const es prog j insj =
      Z.to_nat (Z.max (fold_right Z.max 0%Z (sibling_wpds es prog j) - bpd (nth j es (EConst false))) 0) + 1 + const)
      by (unfold computed_size; destruct (i_op insj); congruence).
    fold es. rewrite E. change (nth j es (EConst false)) with (node_expr prog confs j). rewrite (bpd_soon _ (part_future j HJ)).
    destruct (zmax_fold (sibling_wpds es prog j)) as (_ & H2 & _).
    assert (Hin : In (Z.of_nat (reach (operand_expr es o))) (sibling_wpds es prog j)).
    { rewrite <- (wpd_reach _ Ho). unfold sibling_wpds. apply in_flat_map.
      destruct Hs as (p & Hp & Hne & Hs). exists p. split; [assumption|]. rewrite in_app_iff.
      assert (Hf : operand_is j o = false).
      { destruct (operand_is j o) eqn:X; [|reflexivity]. apply operand_is_spec in X. contradiction. }
      destruct Hs as [[E1 E2]|[E1 E2]]; [left|right]; rewrite E2, Hf, (proj2 (operand_is_spec j _) E1); left; reflexivity. }
    specialize (H2 _ Hin). lia.
  Qed.

  (** Default sizes. *)
  Lemma part_modest_enough : part_modest part prog confs -> part_enough part prog (sized const prog confs).
  Proof.
    intros Hm. apply enough_from_soon. intros k ins conf j conf_j HK Hp Hck Hcj. specialize (Hm k ins HK Hp). cbv zeta in Hm.
    pose proof (sized_len _ _ _ _ _ Hcj) as Hl. cbv zeta. rewrite !(sized_node const prog confs Hlen).
    pose proof (node_of prog (sized const prog confs) part Hft k ins Hp HK) as [ck Hn].
    assert (Hkid : reads ins j -> exists insj, nth_error prog j = Some insj /\ i_op insj <> RETURN /\ part j = true).
    { intros Hr. destruct (sub_child _ _ _ Hft k ins ck j Hn Hr) as (_ & insj & cj & Hj & Hne).
      exists insj. split; [apply Hj|]. split; [assumption|apply Hj]. }
    assert (Hsib : forall o, reads ins j -> o <> Sub j -> ((i_op1 ins = Sub j /\ i_op2 ins = o) \/ (i_op2 ins = Sub j /\ i_op1 ins = o)) ->
      reach (operand_expr es o) - soon (node_expr prog confs j) + 1 <= c_len conf_j).
    { intros o Hr Hne Ho. destruct (Hkid Hr) as (insj & Hj & Hrj & HJ).
      apply (part_sibling j insj conf_j o HJ Hj Hcj Hrj).
      - apply part_operand. intros i ->. destruct (sub_child _ _ _ Hft k ins ck i Hn ltac:(unfold reads; tauto)) as (_ & x & y & Hi & _). apply Hi.
      - exists ins. split; [eapply nth_error_In; eassumption|auto]. }
    assert (B : match i_op ins with AND | OR | EQUIV => True | _ => False end ->
      reach (node_expr prog confs k) = Nat.max (reach (operand_expr es (i_op1 ins))) (reach (operand_expr es (i_op2 ins)))).
    { intros Ho. rewrite <- (sized_node const prog confs Hlen k), (node_eq _ _ _ Hft k ins ck Hn), sized_exprs by assumption.
      fold es. unfold instr_expr. destruct (i_op ins); try destruct Ho; cbn [reach fold_right]; lia. }
    assert (G : forall own other, reads ins j -> own = Sub j ->
      ((i_op1 ins = own /\ i_op2 ins = other) \/ (i_op2 ins = own /\ i_op1 ins = other)) ->
      match i_op ins with AND | OR | EQUIV => True | _ => False end ->
      (forall c, own = Sub c ->
        (operand_pace (paces prog) own = Many -> reach (operand_expr es own) <= Nat.max (reach (operand_expr es other)) (soon (operand_expr es own))) /\
        (own = other -> reach (operand_expr es own) <= soon (operand_expr es own))) ->
      match operand_pace (paces prog) own with Many => reach (node_expr prog confs k) | _ => reach (operand_expr es other) end
        - soon (node_expr prog confs j) + 1 <= c_len conf_j).
    { intros own other Hr Eo Ho Hop Hf. destruct (Hf j Eo) as [F1 F2]. rewrite (B Hop).
      replace (soon (node_expr prog confs j)) with (soon (operand_expr es own)) in * by (rewrite Eo; reflexivity).
      assert (D : own = other \/ own <> other).
      { rewrite Eo. destruct other as [b|a|i|]; try (right; discriminate).
        destruct (Nat.eq_dec j i) as [->|]; [left; reflexivity|right; congruence]. }
      destruct D as [D|D].
      - rewrite <- D in *. specialize (F2 eq_refl).
        assert (Ee : i_op1 ins = own /\ i_op2 ins = own) by tauto. destruct Ee as [-> ->].
        destruct (operand_pace (paces prog) own); lia.
      - assert (Hs : reach (operand_expr es other) - soon (operand_expr es own) + 1 <= c_len conf_j).
        { apply (Hsib other Hr); [congruence|]. rewrite Eo in Ho. assumption. }
        assert (Em : Nat.max (reach (operand_expr es (i_op1 ins))) (reach (operand_expr es (i_op2 ins))) =
                     Nat.max (reach (operand_expr es own)) (reach (operand_expr es other))).
        { destruct Ho as [[-> ->]|[-> ->]]; lia. }
        rewrite Em. destruct (operand_pace (paces prog) own); try lia. specialize (F1 eq_refl). lia. }
    assert (Hw : forall a b, wait prog (sized const prog confs) ins conf (node_expr prog confs k) a b =
      wait prog confs ins conf (node_expr prog confs k) a b) by (intros; unfold wait; rewrite sized_exprs by assumption; reflexivity).
    rewrite !Hw. unfold wait. fold es. fold es in Hm.
    assert (Z : forall x, 0 - x + 1 <= c_len conf_j) by (intros; lia).
    destruct (i_op ins) eqn:Eop; try (split; intros; apply Z).
    - destruct Hm as [b Hb]. rewrite Hb. split; intros; apply Z.
    - destruct Hm as [b Hb]. rewrite Hb. split; intros; apply Z.
    - destruct Hm as [M1 M2]. split; intros E.
      + apply (G (i_op1 ins) (i_op2 ins)); auto. left; assumption.
      + apply (G (i_op2 ins) (i_op1 ins)); auto. right; assumption.
    - destruct Hm as [M1 M2]. split; intros E.
      + apply (G (i_op1 ins) (i_op2 ins)); auto. left; assumption.
      + apply (G (i_op2 ins) (i_op1 ins)); auto. right; assumption.
    - destruct Hm as [M1 M2]. split; intros E.
      + apply (G (i_op1 ins) (i_op2 ins)); auto. left; assumption.
      + apply (G (i_op2 ins) (i_op1 ins)); auto. right; assumption.
  Qed.
End Part.
Lemma modest_enough const prog confs :
  length prog = length confs -> ft_program prog (sized const prog confs) -> modest prog confs ->
  queues_enough prog (sized const prog confs).
Proof.
  intros E Hft Hm k ins conf c conf_c.
  apply (part_modest_enough const prog confs all E (whole_part _ _ Hft) (fun k ins _ => Hm k ins) k ins conf c conf_c eq_refl).
Qed.

Lemma enough_monitored {I : impl} prog confs tr n :
  ft_program prog confs -> distinct_reports prog -> queues_enough prog confs -> monitored prog confs confs tr n.
Proof.
  intros Hft Hd He. destruct (tight_total prog confs tr Hft Hd He (max_passes prog confs) n (le_n _)) as [m Hm].
  exists m. split; [assumption|]. intros k ins Hp Hr.
  split; [exact (tight_increasing prog confs tr Hft Hd He _ n m k ins Hm Hp Hr)|]. intros t. split.
  - intros b. exact (tight_sound prog confs tr Hft Hd He _ n m k ins t b Hm Hp Hr).
  - exact (tight_timely prog confs tr Hft Hd He _ n m k ins t Hm Hp Hr).
Qed.
Lemma sized_monitored {I : impl} const prog confs tr n :
  length prog = length confs -> ft_program prog (sized const prog confs) -> distinct_reports prog ->
  queues_enough prog (sized const prog confs) -> monitored prog confs (sized const prog confs) tr n.
Proof.
  intros E Hft Hd He. destruct (enough_monitored prog _ tr n Hft Hd He) as (m & Hm & H).
  unfold max_passes in Hm. rewrite sized_exprs in Hm by assumption. exists m. split; [exact Hm|].
  intros k ins Hp Hr. destruct (H k ins Hp Hr) as [H1 H2]. split; [assumption|]. intros t.
  rewrite (sized_node const prog confs E) in H2. apply H2.
Qed.

(** ** Deciding the hypotheses (for examples) *)
Definition enoughb (prog : list instr) (confs : list qconf) : bool :=
  for_all (length prog) (fun k =>
    match nth_error prog k, nth_error confs k with
    | Some ins, Some conf =>
        let e := node_expr prog confs k in
        let fits a b :=
          match a with
          | Sub c => match nth_error confs c with
                     | Some conf_c => wait prog confs ins conf e a b - soonest (node_expr prog confs c) + 1 <=? c_len conf_c
                     | None => true
                     end
          | _ => true
          end in
        fits (i_op1 ins) (i_op2 ins) && fits (i_op2 ins) (i_op1 ins)
    | _, _ => true
    end).
Lemma enoughb_spec prog confs : enoughb prog confs = true -> queues_enough prog confs.
Proof.
  intros H k ins conf c conf_c Hp Hc Hcc.
  assert (Hk : k < length prog) by (apply nth_error_Some; congruence).
  pose proof (for_all_spec _ _ H k Hk) as Hb. cbv beta zeta in Hb. rewrite Hp, Hc in Hb.
  apply andb_true_iff in Hb as [H1 H2]. cbv zeta. split; intros E; rewrite E in *; rewrite Hcc in *; apply Nat.leb_le; assumption.
Qed.
Definition modestb (prog : list instr) (confs : list qconf) : bool :=
  for_all (length prog) (fun k =>
    match nth_error prog k with
    | Some ins =>
        let es := exprs prog confs in
        let r o := reach (operand_expr es o) in
        let s o := soon (operand_expr es o) in
        let fits own other :=
          match own with
          | Sub c =>
              match operand_pace (paces prog) own with Many => r own <=? Nat.max (r other) (s own) | _ => true end &&
              (negb (operand_is c other) || (r own <=? s own))
          | _ => true
          end in
        match i_op ins with
        | AND | OR | EQUIV => fits (i_op1 ins) (i_op2 ins) && fits (i_op2 ins) (i_op1 ins)
        | UNTIL | RELEASE => directb (i_op1 ins)
        | _ => true
        end
    | None => true
    end).
Lemma modestb_spec prog confs : modestb prog confs = true -> modest prog confs.
Proof.
  intros H k ins Hp. assert (Hk : k < length prog) by (apply nth_error_Some; congruence).
  pose proof (for_all_spec _ _ H k Hk) as Hb. cbv beta zeta in Hb. rewrite Hp in Hb. cbv zeta.
  assert (G : forall own other,
    match own with
    | Sub c => match operand_pace (paces prog) own with
               | Many => reach (operand_expr (exprs prog confs) own) <=? Nat.max (reach (operand_expr (exprs prog confs) other)) (soon (operand_expr (exprs prog confs) own))
               | _ => true end && (negb (operand_is c other) || (reach (operand_expr (exprs prog confs) own) <=? soon (operand_expr (exprs prog confs) own)))
    | _ => true end = true ->
    forall c, own = Sub c ->
      (operand_pace (paces prog) own = Many -> reach (operand_expr (exprs prog confs) own) <= Nat.max (reach (operand_expr (exprs prog confs) other)) (soon (operand_expr (exprs prog confs) own))) /\
      (own = other -> reach (operand_expr (exprs prog confs) own) <= soon (operand_expr (exprs prog confs) own))).
  { intros own other G c ->. apply andb_true_iff in G as [G1 G2]. split.
    - intros E. rewrite E in G1. apply Nat.leb_le. assumption.
    - intros <-. cbn [operand_is] in G2. rewrite Nat.eqb_refl in G2. apply Nat.leb_le. assumption. }
  destruct (i_op ins); try exact Logic.I; try (apply directb_spec; assumption);
    apply andb_true_iff in Hb as [H1 H2]; (split; [apply G; exact H1|apply G; exact H2]).
Qed.
