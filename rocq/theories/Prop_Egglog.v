(** * C05: the equality-saturation rule set *)
From Coq Require Import List ZArith.
Require Import Verif.Mltl Verif.Egglog Verif.EgglogProofs.
Import ListNotations.

(** Every rule, every instance on legal intervals whose guards hold. *)
Theorem C05_rules_equivalent :
  forall r sb st,
    In r all_rules -> Forall (gholds sb) (guards r) -> tlegal (tinst sb st (lhs r)) ->
    legal (of_eterm (tinst sb st (rhs r))) /\
    equivalent (of_eterm (tinst sb st (lhs r))) (of_eterm (tinst sb st (rhs r))).
Proof. exact rules_equivalent. Qed.
Print Assumptions C05_rules_equivalent.

(** Whatever term saturation puts in the e-class of an encoded formula,
    decoding it gives an equivalent formula with legal intervals. *)
Theorem C05_saturation_equivalent :
  forall e t t',
    legal e -> to_eterm e = Some t -> egraph all_rules t t t' ->
    equivalent (of_eterm t') e /\ legal (of_eterm t').
Proof. exact saturation_equivalent. Qed.
Print Assumptions C05_saturation_equivalent.

(** [G[0,3] G[1,4] a && true] is encoded and saturation reaches [G[1,7] a]. *)
Example C05_case :
  let e := EAnd [EG 0 3 (EG 1 4 (EAtom 0)); EConst true] in
  exists t, legal e /\ to_eterm e = Some t /\ egraph all_rules t t (TGlobal 1 7 (TVar 0)).
Proof.
  eexists. split; [cbn; auto with arith|]. split; [reflexivity|].
  set (root := TAnd2 _ _).
  set (gg := TGlobal 0 3 (TGlobal 1 4 (TVar 0))).
  assert (Hr : egraph all_rules root root root) by constructor.
  assert (H1 : egraph all_rules root root gg).
  { exact (eg_fire all_rules root
             (Rule false (PAnd2 (PV 0) (PBool true)) (PV 0) []) (fun _ => 0%Z) (fun _ => gg)
             ltac:(cbn; tauto) ltac:(constructor) Hr). }
  assert (Hg : egraph all_rules root gg gg) by (eapply eg_sub; [exact Hr | left; reflexivity]).
  eapply eg_trans; [exact H1|].
  exact (eg_fire all_rules root
           (Rule false (PGlobal (BV 0) (BV 1) (PGlobal (BV 2) (BV 3) (PV 0)))
              (PGlobal (BAdd (BV 0) (BV 2)) (BAdd (BV 1) (BV 3)) (PV 0)) [])
           (fun v => nth v [0; 3; 1; 4]%Z 0%Z) (fun _ => TVar 0)
           ltac:(cbn; tauto) ltac:(constructor) Hg).
Qed.
