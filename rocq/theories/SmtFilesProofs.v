(** * Proofs about the "write_smt_encoding" command *)
From Coq Require Import List Arith Bool Lia.
From Verif Require Import SmtFiles SmtFilesSpec.
Import ListNotations.

Section Proofs.
Variables (expr text : Type) (to_smt : expr -> option text).
Notation spec := (nat * option expr)%type.

Lemma content_put files n (t : text) m : content (put n t files) m = if m =? n then Some t else content files m.
Proof.
  induction files as [|[k u] files IH]; cbn; [reflexivity|].
  destruct (Nat.eqb_spec n k) as [->|Hnk]; cbn.
  - destruct (Nat.eqb_spec m k); reflexivity.
  - destruct (Nat.eqb_spec m k) as [->|Hmk]; [|exact IH]. destruct (Nat.eqb_spec k n); [congruence|reflexivity].
Qed.

(** ** Into a directory *)
Lemma all_in_directory (specs : list spec) files : exists files' ok,
  write_all to_smt specs true (Directory files) = Some (Directory files', ok) /\
  (ok = true <-> forall n e, In (n, Some e) specs -> to_smt e <> None) /\
  (forall m, (forall e, ~ In (m, Some e) specs) -> content files' m = content files m) /\
  (ok = true -> NoDup (map fst specs) -> forall n e, In (n, Some e) specs ->
     written to_smt (Directory files') n e).
Proof.
  revert files. induction specs as [|[n [e|]] specs IH]; intros files; cbn [write_all].
  - exists files, true. split; [reflexivity|]. split; [split; [intros _ n e []|reflexivity]|]. split; [reflexivity|intros _ _ n e []].
  - unfold write_smt. destruct (to_smt e) as [t|] eqn:Et.
    2:{ exists files, false. split; [reflexivity|]. split.
        - split; [discriminate|]. intros H. exfalso. exact (H n e (or_introl eq_refl) Et).
        - split; [reflexivity|discriminate]. }
    destruct (IH (put n t files)) as (files' & ok & -> & Hok & Hkept & Hw). exists files', ok. split; [reflexivity|].
    split.
    { rewrite Hok. split.
      - intros H n' e' [E|Hin]; [injection E as <- <-; congruence|eauto].
      - intros H n' e' Hin. apply (H n' e'). right. exact Hin. }
    split.
    { intros m Hm. rewrite Hkept.
      - rewrite content_put. destruct (Nat.eqb_spec m n) as [->|]; [|reflexivity]. exfalso. exact (Hm e (or_introl eq_refl)).
      - intros e' Hin. exact (Hm e' (or_intror Hin)). }
    intros Ho Hnd n' e' Hin. cbn [map fst] in Hnd. inversion Hnd as [|x l Hn Hnd']; subst x l.
    destruct Hin as [E|Hin]; [|exact (Hw Ho Hnd' n' e' Hin)]. injection E as <- <-. exists t. split; [exact Et|].
    cbn [found]. rewrite Hkept.
    + rewrite content_put, Nat.eqb_refl. reflexivity.
    + intros e' Hin. apply Hn. change n with (fst (n, Some e')). apply in_map. exact Hin.
  - destruct (IH files) as (files' & ok & -> & Hok & Hkept & Hw). exists files', ok. split; [reflexivity|].
    split.
    { rewrite Hok. split.
      - intros H n' e' [E|Hin]; [discriminate E|eauto].
      - intros H n' e' Hin. apply (H n' e'). right. exact Hin. }
    split.
    { intros m Hm. apply Hkept. intros e' Hin. exact (Hm e' (or_intror Hin)). }
    intros Ho Hnd n' e' [E|Hin]; [discriminate E|]. cbn [map fst] in Hnd. inversion Hnd; subst. eauto.
Qed.

(** ** All formulas *)
Lemma all_written (ft pt : list spec) location : NoDup (map fst ft) -> exists place ok,
  write_smt_encoding to_smt ft pt None location = Some (place, ok) /\
  (ok = true <-> forall n e, In (n, Some e) ft -> to_smt e <> None) /\
  (ok = true -> forall n e, In (n, Some e) ft -> written to_smt place n e).
Proof.
  intros Hnd. unfold write_smt_encoding.
  assert (Hdir : forall files, exists place ok,
    write_all to_smt ft true (Directory files) = Some (place, ok) /\
    (ok = true <-> forall n e, In (n, Some e) ft -> to_smt e <> None) /\
    (ok = true -> forall n e, In (n, Some e) ft -> written to_smt place n e)).
  { intros files. destruct (all_in_directory ft files) as (files' & ok & H1 & H2 & _ & H4).
    exists (Directory files'), ok. auto. }
  assert (Hfile : exists place ok,
    write_all to_smt ft (false || (1 <? length ft))
      (if false || (1 <? length ft) then Directory [] else Absent) = Some (place, ok) /\
    (ok = true <-> forall n e, In (n, Some e) ft -> to_smt e <> None) /\
    (ok = true -> forall n e, In (n, Some e) ft -> written to_smt place n e)).
  { cbn [orb]. destruct (Nat.ltb_spec 1 (length ft)) as [Hl|Hl]; [apply Hdir|].
    destruct ft as [|[n [e|]] [|]]; cbn in Hl; try lia; cbn [write_all].
    - exists Absent, true. repeat split; intros; contradiction.
    - unfold write_smt. destruct (to_smt e) as [t|] eqn:Et.
      + exists (File t), true. split; [reflexivity|]. split.
        * split; [|reflexivity]. intros _ n' e' [E|[]]. injection E as <- <-. congruence.
        * intros _ n' e' [E|[]]. injection E as <- <-. exists t. auto.
      + exists Absent, false. split; [reflexivity|]. split; [|discriminate].
        split; [discriminate|]. intros H. exfalso. exact (H n e (or_introl eq_refl) Et).
    - exists Absent, true. split; [reflexivity|]. split.
      + split; [|reflexivity]. intros _ n' e' [E|[]]. discriminate E.
      + intros _ n' e' [E|[]]. discriminate E. }
  destruct location as [|t|files]; cbn [setup].
  - exact Hfile.
  - exact Hfile.
  - cbn [orb]. apply Hdir.
Qed.

(** ** One formula *)
Lemma find_first (l : list spec) n s : find (fun s => fst s =? n) l = Some s -> fst s = n /\ In s l.
Proof. intros H. apply find_some in H. destruct H as [H1 H2]. apply Nat.eqb_eq in H2. auto. Qed.
Lemma find_unique (l : list spec) n o : NoDup (map fst l) -> In (n, o) l -> find (fun s => fst s =? n) l = Some (n, o).
Proof.
  induction l as [|[m o'] l IH]; cbn; [intros _ []|]. intros Hnd [E|Hin].
  - injection E as -> ->. rewrite Nat.eqb_refl. reflexivity.
  - inversion Hnd as [|x y Hn Hnd']; subst x y. destruct (Nat.eqb_spec m n) as [->|].
    + exfalso. apply Hn. change n with (fst (n, o)). apply in_map. exact Hin.
    + auto.
Qed.
Lemma find_app (l l' : list spec) f : find f (l ++ l') = match find f l with Some s => Some s | None => find f l' end.
Proof. induction l as [|s l IH]; cbn; [reflexivity|]. destruct (f s); auto. Qed.
Lemma get_spec_iff (ft pt : list spec) n s : NoDup (map fst (ft ++ pt)) ->
  (get_spec ft pt n = Some s <-> fst s = n /\ In s (ft ++ pt)).
Proof.
  intros Hnd. unfold get_spec. rewrite <- (find_app ft pt). split; [apply find_first|].
  intros [<- Hin]. destruct s as [n o]. apply find_unique; assumption.
Qed.

Lemma one_written (ft pt : list spec) location n : NoDup (map fst (ft ++ pt)) -> exists place ok,
  write_smt_encoding to_smt ft pt (Some n) location = Some (place, ok) /\
  (ok = true <-> exists e, In (n, Some e) (ft ++ pt) /\ to_smt e <> None) /\
  (ok = true -> forall e, In (n, Some e) (ft ++ pt) -> written to_smt place n e).
Proof.
  intros Hnd. unfold write_smt_encoding.
  assert (Hget : forall e, In (n, Some e) (ft ++ pt) -> get_spec ft pt n = Some (n, Some e)).
  { intros e Hin. apply get_spec_iff; auto. }
  destruct (get_spec ft pt n) as [[m [e|]]|] eqn:Eg.
  - apply get_spec_iff in Eg; [|exact Hnd]. destruct Eg as [Em Hin]. cbn in Em. subst m.
    assert (Huniq : forall e', In (n, Some e') (ft ++ pt) -> e' = e).
    { intros e' Hin'. specialize (Hget e' Hin'). congruence. }
    unfold write_smt. destruct (to_smt e) as [t|] eqn:Et.
    + assert (Hok : true = true <-> exists e, In (n, Some e) (ft ++ pt) /\ to_smt e <> None).
      { split; [|reflexivity]. intros _. exists e. split; [exact Hin|congruence]. }
      assert (Hw : forall p, found p n = Some t -> true = true -> forall e, In (n, Some e) (ft ++ pt) -> written to_smt p n e).
      { intros p Hf _ e' Hin'. rewrite (Huniq e' Hin'). exists t. auto. }
      destruct location as [|u|files]; cbn [setup].
      * exists (File t), true. split; [reflexivity|]. split; [exact Hok|]. apply Hw. reflexivity.
      * exists (File t), true. split; [reflexivity|]. split; [exact Hok|]. apply Hw. reflexivity.
      * exists (Directory (put n t files)), true. split; [reflexivity|]. split; [exact Hok|]. apply Hw.
        cbn [found]. rewrite content_put, Nat.eqb_refl. reflexivity.
    + destruct (setup location) as [l d]. exists l, false. split; [reflexivity|]. split; [|discriminate].
      split; [discriminate|]. intros (e' & Hin' & He'). rewrite (Huniq e' Hin') in He'. congruence.
  - destruct (setup location) as [l d]. exists l, false. split; [reflexivity|]. split; [|discriminate].
    split; [discriminate|]. intros (e' & Hin' & _). specialize (Hget e' Hin'). congruence.
  - destruct (setup location) as [l d]. exists l, false. split; [reflexivity|]. split; [|discriminate].
    split; [discriminate|]. intros (e' & Hin' & _). specialize (Hget e' Hin'). congruence.
Qed.

(** ** Files that are not concerned *)
Lemma others_kept (ft pt : list spec) formula files place ok m :
  write_smt_encoding to_smt ft pt formula (Directory files) = Some (place, ok) ->
  match formula with Some n => m <> n | None => forall e, ~ In (m, Some e) ft end ->
  found place m = content files m.
Proof.
  unfold write_smt_encoding. cbn [setup]. destruct formula as [n|].
  - destruct (get_spec ft pt n) as [[k [e|]]|] eqn:Eg.
    + assert (Ek : k = n).
      { unfold get_spec in Eg. destruct (find _ ft) eqn:Ef.
        - injection Eg as ->. apply find_first in Ef. apply Ef.
        - apply find_first in Eg. apply Eg. }
      subst k. unfold write_smt. destruct (to_smt e) as [t|]; intros H; injection H as <- <-; intros Hm; [|reflexivity].
      cbn [found]. rewrite content_put. destruct (Nat.eqb_spec m n); [contradiction|reflexivity].
    + intros H. injection H as <- <-. reflexivity.
    + intros H. injection H as <- <-. reflexivity.
  - cbn [orb]. destruct (all_in_directory ft files) as (files' & ok' & -> & _ & Hk & _).
    intros H. injection H as <- <-. intros Hm. cbn [found]. apply Hk, Hm.
Qed.

(** ** Refutations *)
Lemma past_omitted e t : to_smt e = Some t -> exists (ft pt : list spec) place,
  NoDup (map fst (ft ++ pt)) /\ In (3, Some e) pt /\
  write_smt_encoding to_smt ft pt None Absent = Some (place, true) /\ found place 3 = None.
Proof.
  intros He. exists [(1, Some e); (2, Some e)], [(3, Some e)], (Directory [(1, t); (2, t)]).
  split; [repeat constructor; cbn; intuition discriminate|]. split; [left; reflexivity|].
  unfold write_smt_encoding. cbn. unfold write_smt. rewrite He. auto.
Qed.
Lemma file_lost (ft pt : list spec) n t : (forall o, ~ In (n, o) (ft ++ pt)) ->
  write_smt_encoding to_smt ft pt (Some n) (File t) = Some (Absent, false).
Proof.
  intros H. unfold write_smt_encoding. cbn [setup].
  destruct (get_spec ft pt n) as [[m o]|] eqn:Eg; [|reflexivity]. exfalso.
  assert (Hm : m = n /\ In (m, o) (ft ++ pt)).
  { unfold get_spec in Eg. destruct (find _ ft) eqn:Ef.
    - injection Eg as ->. apply find_first in Ef. destruct Ef as [E Ef]. split; [exact E|apply in_or_app; auto].
    - apply find_first in Eg. destruct Eg as [E Eg]. split; [exact E|apply in_or_app; auto]. }
  destruct Hm as [-> Hm]. exact (H o Hm).
Qed.
End Proofs.
