(** * Queries about integer inputs and the monitor (proofs) *)
From Coq Require Import List Arith ZArith Bool Lia.
From Verif Require Import Mltl MltlShape MltlEval Binary Booleanizer BooleanizerSpec BooleanizerOps.
From Verif Require Import Smt SmtSpec SmtQueries SmtFunctions SmtArith SmtArithSpec SmtArithProofs.
Import ListNotations.
Local Open Scope nat_scope.

Lemma says_one o v w : relational o = true -> (binary_int o v w 1 <-> compares o v w).
Proof. destruct o; cbn; try discriminate; intros _; unfold says; intuition lia. Qed.
Lemma calm_compare F inp t x o e1 e2 : (forall s, inp t s = VInt (x s)) -> relational o = true -> calm x e1 -> calm x e2 ->
  (yields F inp t (NBinary o e1 e2) (VInt 1) <-> exists v w, exactly x e1 v /\ exactly x e2 w /\ compares o v w).
Proof.
  intros Hi Ho H1 H2. destruct (calm_yields F inp t x e1 Hi H1) as (v & Ev & _ & Yv).
  destruct (calm_yields F inp t x e2 Hi H2) as (w & Ew & _ & Yw). split.
  - intros H. exists v, w. split; [exact Ev|]. split; [exact Ew|].
    inversion H as [| | | | |? ? ? ? a b ? Ya Yb Hb|? ? ? ? a b ? Ya Yb Hb| |]; subst.
    + pose proof (yields_unique _ _ _ _ _ Ya _ Yv) as E1. pose proof (yields_unique _ _ _ _ _ Yb _ Yw) as E2.
      injection E1 as ->. injection E2 as ->. apply says_one; assumption.
    + pose proof (yields_unique _ _ _ _ _ Ya _ Yv). discriminate.
  - intros (v' & w' & Ev' & Ew' & Hc). rewrite (exactly_unique _ _ _ _ Ev' Ev), (exactly_unique _ _ _ _ Ew' Ew) in Hc.
    apply (y_binary_int F inp t o e1 e2 v w 1 Yv Yw). apply says_one; assumption.
Qed.

Lemma encodable_iff x e : safe_divisors e -> (encodable e = true <-> exists v, exactly x e v).
Proof.
  intros Hs. split.
  - intros H. destruct (encodable_some (fun s _ => x s) (fun a => a) (fun a => a) e 0%Z H) as (v & Hv). exists v.
    exact (proj1 (aterm_exact (fun s _ => x s) (fun a => a) (fun a => a) e 0%Z Hs v) Hv).
  - intros (v & H). clear Hs. induction H; cbn [encodable]; rewrite ?andb_true_iff; auto.
Qed.

(** On calm inputs the monitor sees what the query speaks about. *)
Lemma calm_observes F table f inp x tr :
  (forall t s, inp t s = VInt (x t s)) -> (forall t a, calm_atom (x t) (table a)) ->
  (observes F table f inp tr <-> shows table f x tr).
Proof.
  intros Hi Hc.
  assert (E : forall t a, match table a with ABool s => f t s = true | ACompare o e1 e2 => yields F inp t (NBinary o e1 e2) (VInt 1) end
              <-> match table a with
                  | ABool s => f t s = true
                  | ACompare o e1 e2 => exists v w, exactly (x t) e1 v /\ exactly (x t) e2 w /\ compares o v w
                  end).
  { intros t a. specialize (Hc t a). destruct (table a) as [s|o e1 e2]; [reflexivity|]. destruct Hc as (Ho & H1 & H2).
    apply calm_compare; auto. }
  unfold observes, shows. split; intros H t a; rewrite (H t a); [apply E|symmetry; apply E].
Qed.
Lemma unsat_never F table e f inp x tr :
  all_nodes quantified_op e -> all_nodes measured_op e -> legal e -> (forall a, safe_atom (table a)) ->
  (forall t s, inp t s = VInt (x t s)) -> (forall t a, calm_atom (x t) (table a)) ->
  observes F table f inp tr -> ~ num_query table e -> forall i, ~ sat tr e i.
Proof.
  intros Hq Hm Hl Hs Hi Hc Ho Hn i H. apply Hn. apply (num_exact table e Hq Hm Hl Hs).
  exists (fun t => f (t + i)), (fun t => x (t + i)), (later i tr). split.
  - intros t a. exact (proj1 (calm_observes F table f inp x tr Hi Hc) Ho (t + i) a).
  - apply (sat_later i tr e (quantified_future e Hq) 0). exact H.
Qed.

(** ** Overflow *)
Definition one := NValue (VInt 1).
Definition sig0 := NSignal 0.
Definition over_table : nat -> natom := fun _ => ACompare Lt (NBinary Add sig0 one) sig0.
Lemma over_query : ~ num_query over_table (EAtom 0).
Proof. intros (x & f & d0 & m0 & H). cbn in H. lia. Qed.
Definition biggest : nat -> Z -> value := fun _ _ => VInt (2 ^ 31 - 1).
Lemma over_observed F : observes F over_table (fun _ _ => false) biggest (fun _ _ => true).
Proof.
  intros t a. split; [intros _|reflexivity]. cbn [over_table].
  apply (y_binary_int F biggest t Lt _ _ (- 2 ^ 31) (2 ^ 31 - 1) 1).
  - apply (y_binary_int F biggest t Add sig0 one (2 ^ 31 - 1) 1).
    + exact (y_signal F biggest t 0).
    + constructor.
    + cbn. split; [unfold int32; lia|]. exists 1%Z. lia.
  - exact (y_signal F biggest t 0).
  - left. split; [lia|reflexivity].
Qed.

(** ** Rounding: "x / 2 + 1 == 0 && x + 1 == 0" *)
Definition zero := NValue (VInt 0).
Definition two := NValue (VInt 2).
Definition half_table : nat -> natom := fun a =>
  match a with
  | 0 => ACompare Eq (NBinary Add (NBinary Div sig0 two) one) zero
  | _ => ACompare Eq (NBinary Add sig0 one) zero
  end.
Definition half_formula : expr := EAnd [EAtom 0; EAtom 1].
Lemma half_query : num_query half_table half_formula.
Proof. exists (fun _ _ => (-1)%Z), (fun _ _ => false), (fun a => a), (fun a => a). cbn. repeat split; reflexivity. Qed.
Lemma binary_parts F inp t o e1 e2 b v : yields F inp t e2 (VInt b) -> yields F inp t (NBinary o e1 e2) (VInt v) ->
  exists a, yields F inp t e1 (VInt a) /\ binary_int o a b v.
Proof.
  intros Y H. inversion H as [| | | | |? ? ? ? a b' ? Ya Yb Hb|? ? ? ? a b' ? Ya Yb Hb| |]; subst;
    pose proof (yields_unique _ _ _ _ _ Yb _ Y) as E; [|discriminate]. injection E as ->. exists a. auto.
Qed.
Lemma plus_one_zero F inp t e : yields F inp t (NBinary Eq (NBinary Add e one) zero) (VInt 1) ->
  exists a, yields F inp t e (VInt a) /\ wraps 0 (a + 1).
Proof.
  intros H. destruct (binary_parts F inp t Eq _ _ 0%Z 1%Z (y_value F inp t (VInt 0)) H) as (c & Hc & [[-> _]|[_ E]]); [|discriminate].
  destruct (binary_parts F inp t Add _ _ 1%Z 0%Z (y_value F inp t (VInt 1)) Hc) as (a & Ha & Hw). exists a. split; [exact Ha|exact Hw].
Qed.
Lemma half_observed F f inp tr : (forall t s, exists z, inp t s = VInt z /\ int32 z) -> observes F half_table f inp tr ->
  forall i, ~ sat tr half_formula i.
Proof.
  intros Hi Ho i (H0 & H1 & _). apply Ho in H0, H1. cbn [half_table] in H0, H1.
  apply plus_one_zero in H0, H1. destruct H0 as (q & Yq & W0), H1 as (a & Ya & W1).
  destruct (binary_parts F inp i Div _ _ 2%Z q (y_value F inp i (VInt 2)) Yq) as (a' & Ya' & Hr & r & Ea & Hb & Hs).
  pose proof (yields_unique _ _ _ _ _ Ya' _ Ya) as E. injection E as ->.
  destruct (Hi i 0%Z) as (z & Ez & Rz). pose proof (yields_unique _ _ _ _ _ Ya _ (y_signal F inp i 0)) as E. rewrite Ez in E.
  injection E as ->. destruct W0 as (_ & k0 & E0), W1 as (_ & k1 & E1). unfold int32 in *.
  assert (q = -1)%Z by lia. assert (z = -1)%Z by lia. subst. lia.
Qed.

(** ** Range: "x > 2147483647" *)
Definition wide_table : nat -> natom := fun _ => ACompare Gt sig0 (NValue (VInt (2 ^ 31 - 1))).
Lemma wide_query : num_query wide_table (EAtom 0).
Proof. exists (fun _ _ => (2 ^ 31)%Z), (fun _ _ => false), (fun a => a), (fun a => a). cbn. reflexivity. Qed.
Lemma wide_observed F f inp tr : (forall t s, exists z, inp t s = VInt z /\ int32 z) -> observes F wide_table f inp tr ->
  forall i, ~ sat tr (EAtom 0) i.
Proof.
  intros Hi Ho i H. cbn [sat] in H. apply Ho in H. cbn [wide_table] in H.
  destruct (binary_parts F inp i Gt _ _ _ 1%Z (y_value F inp i (VInt (2 ^ 31 - 1))) H) as (a & Ya & [[Ha _]|[_ E]]); [|discriminate].
  destruct (Hi i 0%Z) as (z & Ez & Rz). pose proof (yields_unique _ _ _ _ _ Ya _ (y_signal F inp i 0)) as E. rewrite Ez in E.
  injection E as ->. unfold int32 in Rz. lia.
Qed.

(** ** Division by zero: "x / 0 == 5" *)
Definition void_table : nat -> natom := fun _ => ACompare Eq (NBinary Div sig0 zero) (NValue (VInt 5)).
Lemma void_query : num_query void_table (EAtom 0).
Proof. exists (fun _ _ => 0%Z), (fun _ _ => false), (fun _ => 5%Z), (fun a => a). cbn. reflexivity. Qed.
Lemma void_observed F f inp tr : observes F void_table f inp tr -> forall i, ~ sat tr (EAtom 0) i.
Proof.
  intros Ho i H. cbn [sat] in H. apply Ho in H. cbn [void_table] in H.
  destruct (binary_parts F inp i Eq _ _ _ 1%Z (y_value F inp i (VInt 5)) H) as (a & Ya & _).
  destruct (binary_parts F inp i Div _ _ _ a (y_value F inp i (VInt 0)) Ya) as (b & Yb & _ & r & _ & Hr & _). lia.
Qed.

(** ** Witnesses *)
Lemma overflow_witness F : exists table e f inp tr,
  (forall t s, exists z, inp t s = VInt z /\ int32 z) /\ observes F table f inp tr /\
  ~ num_query table e /\ forall i, sat tr e i.
Proof.
  exists over_table, (EAtom 0), (fun _ _ => false), biggest, (fun _ _ => true). split; [|split; [exact (over_observed F)|split; [exact over_query|reflexivity]]].
  intros t s. exists (2 ^ 31 - 1)%Z. split; [reflexivity|unfold int32; lia].
Qed.
Lemma rounding_witness : exists table e, (forall a, safe_atom (table a)) /\ num_query table e /\
  forall F f inp tr, (forall t s, exists z, inp t s = VInt z /\ int32 z) -> observes F table f inp tr ->
  forall i, ~ sat tr e i.
Proof.
  exists half_table, half_formula. split; [|split; [exact half_query|exact half_observed]].
  intros [|a]; cbn; repeat split. exists 2%Z. split; [reflexivity|lia].
Qed.
Lemma range_witness : exists table e, (forall a, safe_atom (table a)) /\ num_query table e /\
  forall F f inp tr, (forall t s, exists z, inp t s = VInt z /\ int32 z) -> observes F table f inp tr ->
  forall i, ~ sat tr e i.
Proof. exists wide_table, (EAtom 0). split; [|split; [exact wide_query|exact wide_observed]]. intros a; cbn; repeat split. Qed.
Lemma zero_witness : exists table e, num_query table e /\
  forall F f inp tr, observes F table f inp tr -> forall i, ~ sat tr e i.
Proof. exists void_table, (EAtom 0). split; [exact void_query|exact void_observed]. Qed.
