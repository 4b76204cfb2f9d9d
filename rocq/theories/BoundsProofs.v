(** * Bounds on atomic and signal identifiers (proofs) *)
From Coq Require Import List Arith ZArith Bool Lia FinFun.
Require Import Verif.Bounds.
Import ListNotations.
Local Open Scope Z_scope.

Lemma bz_ids : forall nodes aid, exists n,
  atomic_ids true aid nodes = map (fun k => aid + Z.of_nat k) (seq 0 n).
Proof.
  induction nodes as [|[| |sid [|]|[|]] nodes IH]; intros aid; cbn [atomic_ids]; try apply IH; [exists 0%nat; reflexivity| |].
  all: destruct (IH (aid + 1)) as [n ->]; exists (S n); cbn [seq map]; f_equal; [lia|];
    rewrite <- seq_shift, map_map; apply map_ext; intros; lia.
Qed.
Lemma NoDup_shift aid n : NoDup (map (fun k => aid + Z.of_nat k) (seq 0 n)).
Proof. apply Injective_map_NoDup; [intros x y H; lia|apply seq_NoDup]. Qed.
Lemma bz_ids_bounded nodes a : In a (atomic_ids true 0 nodes) -> 0 <= a < max_atomics (atomic_ids true 0 nodes).
Proof.
  unfold max_atomics. destruct (bz_ids nodes 0) as [n ->]. rewrite nodup_fixed_point by apply NoDup_shift.
  rewrite map_length, seq_length. intros H. apply in_map_iff in H as (k & <- & Hk). apply in_seq in Hk. lia.
Qed.

Lemma interval_length : forall n (l : list Z), (forall z, 0 <= z < Z.of_nat n -> In z l) -> Z.of_nat n <= max_atomics l.
Proof.
  intros n l H. unfold max_atomics.
  assert (L : (length (map Z.of_nat (seq 0 n)) <= length (nodup Z.eq_dec l))%nat).
  { apply NoDup_incl_length; [apply Injective_map_NoDup; [intros x y E; lia|apply seq_NoDup]|].
    intros z Hz. apply in_map_iff in Hz as (k & <- & Hk). apply in_seq in Hk. apply nodup_In. apply H. lia. }
  rewrite map_length, seq_length in L. lia.
Qed.
Lemma dense_bounded ids : (forall a b, In a ids -> 0 <= b <= a -> In b ids) ->
  forall a, In a ids -> a < max_atomics ids.
Proof.
  intros H a Ha. destruct (Z_lt_ge_dec a 0) as [Hn|Hn]; [unfold max_atomics; lia|].
  pose proof (interval_length (Z.to_nat (a + 1)) ids) as L. rewrite Z2Nat.id in L by lia.
  enough (a + 1 <= max_atomics ids) by lia. apply L. intros z Hz. apply (H a); [assumption|lia].
Qed.
Lemma generated_bounded declared s i : generated_id declared s = Some i -> 0 <= i < max_signals declared.
Proof.
  unfold max_signals. revert i. induction declared as [|d l IH]; intros i E; cbn in E; [discriminate|].
  cbn [length]. destruct (d =? s)%nat; [injection E as <-; lia|].
  destruct (generated_id l s) as [j|]; [|discriminate]. cbn in E. injection E as <-. specialize (IH j eq_refl). lia.
Qed.
Lemma generated_total declared s : In s declared -> exists i, generated_id declared s = Some i.
Proof.
  induction declared as [|d l IH]; intros H; [easy|]. cbn. destruct (Nat.eqb_spec d s); [eauto|].
  destruct H as [->|H]; [congruence|]. destruct (IH H) as [i ->]. cbn. eauto.
Qed.
Lemma generated_inj declared s t i : generated_id declared s = Some i -> generated_id declared t = Some i -> s = t.
Proof.
  revert i. induction declared as [|d l IH]; intros i E1 E2; cbn in *; [discriminate|].
  destruct (Nat.eqb_spec d s) as [->|]; destruct (Nat.eqb_spec s t) as [->|]; auto;
  try destruct (Nat.eqb_spec d t) as [->|].
  - injection E1 as <-. destruct (generated_id l t) as [j|] eqn:E; [|discriminate]. pose proof (generated_bounded _ _ _ E).
    cbn in E2. injection E2 as E2. lia.
  - injection E2 as <-. destruct (generated_id l s) as [j|] eqn:E; [|discriminate]. pose proof (generated_bounded _ _ _ E).
    cbn in E1. injection E1 as E1. lia.
  - destruct (generated_id l s) as [j|] eqn:E; [|discriminate]. destruct (generated_id l t) as [j'|] eqn:E'; [|discriminate].
    cbn in *. apply (IH j); [reflexivity|]. f_equal. injection E1 as E1. injection E2 as E2. lia.
Qed.
