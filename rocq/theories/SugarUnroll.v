(** * Unrolling of aggregations and arrays (proofs) *)
From Coq Require Import List Arith ZArith Bool Lia.
Require Import Verif.Sugar Verif.SugarSpec Verif.SugarProofs.
Import ListNotations.

Lemma tame_refl t : tame t t.
Proof. split; [apply incl_refl|auto]. Qed.
Lemma tame_list h l : tame (Node h l) (Node h l). Proof. apply tame_refl. Qed.
Lemma tame_kid a e i : nth_error (kids a) i = Some e -> tame a e.
Proof. intros H. destruct a as [x|h l|k x s b|k x s n b]; try (destruct i; discriminate). apply tame_part. eapply nth_error_In, H. Qed.
Lemma tame_kids_slice a h n i : tame a (Node h (firstn n (skipn i (kids a)))).
Proof.
  destruct a as [x|h' l|k x s b|k x s m b]; cbn [kids]; try apply tame_slice; rewrite skipn_nil, firstn_nil; (split; [apply incl_nil_l|split; [cbn; lia|cbn; auto]]).
Qed.
Lemma arrays_tame t : forall t', resolve_arrays t = Some t' -> tame t t'.
Proof.
  induction t as [x|h l IH|k x s b IHs IHb|k x s n b IHs IHn IHb] using term_ind'; intros t' H; cbn [resolve_arrays] in H.
  - injection H as <-. apply tame_refl.
  - apply bind_some in H. destruct H as (l' & Hl & H). apply all_some_forall2 in Hl. pose proof (tame_forall2 _ _ _ IH Hl) as F.
    assert (forall h', tame (Node h l) (Node h' l')) as T by (intros h'; apply tame_node, F).
    destruct h as [k|o| | | |r| |i|i j|names|m]; try (injection H as <-; apply T).
    + destruct l' as [|a [|? ?]]; try (injection H as <-; apply T). eapply tame_trans; [apply (T HArray)|].
      eapply tame_trans; [apply tame_part; left; reflexivity|]. eapply tame_kid, H.
    + destruct l' as [|a [|? ?]]; try (injection H as <-; apply T).
      assert (tame (Node (HSlice i j) l) (Node HArray (firstn (j + 1 - i) (skipn i (kids a))))) as S.
      { eapply tame_trans; [apply (T HArray)|]. eapply tame_trans; [apply tame_part; left; reflexivity|]. apply tame_kids_slice. }
      destruct a as [x|[k|o| | | |r| |i'|i' j'|names|m'] es|? ? ? ?|? ? ? ? ?];
        match type of H with (if ?c then _ else _) = _ => destruct c end; try discriminate; injection H as <-; try exact S; apply T.
  - apply bind_some in H. destruct H as (s' & Hs & H). apply bind_some in H. destruct H as (b' & Hb & H). injection H as <-.
    apply tame_quant; auto.
  - apply bind_some in H. destruct H as (s' & Hs & H). apply bind_some in H. destruct H as (n' & Hn & H).
    apply bind_some in H. destruct H as (b' & Hb & H). injection H as <-. apply tame_count; auto.
Qed.

(** ** Fuel *)
Lemma all_some_mono {A B} (f g : A -> option B) l r : (forall x y, f x = Some y -> g x = Some y) ->
  all_some (map f l) = Some r -> all_some (map g l) = Some r.
Proof. intros H. rewrite !all_some_forall2. intros F. induction F; constructor; auto. Qed.
Lemma unroll_more fuel : forall fuel' t t', fuel <= fuel' -> unroll fuel t = Some t' -> unroll fuel' t = Some t'.
Proof.
  induction fuel as [|fuel IH]; intros fuel' t t' L H; [discriminate|]. destruct fuel' as [|fuel']; [lia|].
  destruct t as [x|h l|k x s b|k x s n b]; cbn [unroll] in *.
  - exact H.
  - apply bind_some in H. destruct H as (l' & Hl & H).
    rewrite (all_some_mono _ (unroll fuel') _ _ (fun x y => IH fuel' x y ltac:(lia)) Hl). exact H.
  - apply bind_some in H. destruct H as (l & Hl & H). rewrite Hl. cbn [bind].
    apply bind_some in H. destruct H as (new & Hn & H). rewrite Hn. cbn [bind].
    apply bind_some in H. destruct H as (new' & Hn' & H). rewrite Hn'. cbn [bind]. apply IH; [lia|exact H].
  - apply bind_some in H. destruct H as (l & Hl & H). rewrite Hl. cbn [bind].
    apply bind_some in H. destruct H as (new & Hn & H). rewrite Hn. cbn [bind].
    apply bind_some in H. destruct H as (new' & Hn' & H). rewrite Hn'. cbn [bind]. apply IH; [lia|exact H].
Qed.

(** ** Counting *)
Lemma filter_length_le {A} (p : A -> bool) l : length (filter p l) <= length l.
Proof. induction l as [|x l IH]; cbn; [lia|]. destruct (p x); cbn; lia. Qed.
Lemma count_all fs t : (count fs t =? length fs) = forallb (fun f => f t) fs.
Proof.
  unfold count. induction fs as [|f fs IH]; [reflexivity|]. cbn. destruct (f t); cbn; [exact IH|].
  apply Nat.eqb_neq. pose proof (filter_length_le (fun f => f t) fs). lia.
Qed.
Lemma count_some fs t : (1 <=? count fs t) = existsb (fun f => f t) fs.
Proof. unfold count. induction fs as [|f fs IH]; [reflexivity|]. cbn [filter existsb]. destruct (f t); [reflexivity|exact IH]. Qed.
Lemma total_count fs t : total (map (fun f : nat -> bool => int_of_bit (f t)) fs) = Z.of_nat (count fs t).
Proof.
  unfold count, total. induction fs as [|f fs IH]; [reflexivity|]. cbn [map fold_right filter]. rewrite IH.
  destruct (f t); cbn [int_of_bit length]; lia.
Qed.
Lemma wrap32_small z : (0 <= z < 2 ^ 31)%Z -> wrap32 z = z.
Proof. intros H. unfold wrap32. rewrite Z.mod_small; lia. Qed.

(** ** No accesses left outside aggregations *)
Fixpoint cleared (t : term) : Prop :=
  match t with
  | Node h l =>
      match h with HIndex _ | HSlice _ _ | HAccess _ => False | _ => True end /\ fold_right (fun t P => cleared t /\ P) True l
  | _ => True
  end.

Section Meaning.
  Variable real : Type.
  Variable real_rel : rel -> real -> real -> bool.
  Variable leaf : nat -> stream real.
  Variable ops : nat -> list (stream real) -> option (stream real).
  Notation eval := (eval real_rel leaf ops).
  Notation apply := (apply real_rel leaf ops).
  Notation den := (den real).

  Lemma eval_node h l v d : eval (Node h l) v = Some d <-> exists ds, Forall2 (fun t d => eval t v = Some d) l ds /\ apply h ds = Some d.
  Proof.
    cbn [SugarSpec.eval]. split.
    - intros H. apply bind_some in H. destruct H as (ds & Hd & H). apply all_some_forall2 in Hd. eauto.
    - intros (ds & Hd & H). apply (all_some_forall2 (fun t => eval t v)) in Hd. rewrite Hd. exact H.
  Qed.
  Lemma quant_val k x s b v d : eval (Quant k x s b) v = Some d -> exists s, d = Val s.
  Proof.
    cbn [SugarSpec.eval]. destruct (eval s v) as [[|[|? ?]|]|]; try discriminate. intros H. apply bind_some in H. destruct H as (? & _ & H).
    injection H as <-. eauto.
  Qed.
  Lemma count_val k x s n b v d : eval (Count k x s n b) v = Some d -> exists s, d = Val s.
  Proof.
    cbn [SugarSpec.eval]. destruct (eval s v) as [[|[|? ?]|]|]; try discriminate. intros H.
    apply bind_some in H. destruct H as (? & _ & H). apply bind_some in H. destruct H as (? & _ & H).
    apply bind_some in H. destruct H as (? & _ & H). apply bind_some in H. destruct H as (? & _ & H).
    destruct (Z.of_nat _ <? _)%Z; [|discriminate]. injection H as <-. eauto.
  Qed.
  Lemma apply_arr h ds l : apply h ds = Some (Arr l) ->
    match h with HArray => ds = l | HIndex _ | HSlice _ _ | HAccess _ => True | _ => False end.
  Proof.
    destruct h as [k|o| | | |r| |i|i j|names|m]; cbn [SugarSpec.apply]; intros H; try exact I; try discriminate;
      try (apply bind_some in H; destruct H as (? & _ & H); try discriminate; apply bind_some in H; destruct H as (? & _ & H); discriminate).
    - destruct ds as [|? [|? [|? ?]]]; try discriminate. apply bind_some in H. destruct H as (? & _ & H). discriminate.
    - destruct ds; [discriminate|]. injection H as <-. reflexivity.
    - destruct (_ =? _); discriminate.
  Qed.
  Lemma apply_rec h ds l : apply h ds = Some (Rec l) ->
    match h with HStruct names => length names = length ds /\ l = combine names ds | HIndex _ | HSlice _ _ | HAccess _ => True | _ => False end.
  Proof.
    destruct h as [k|o| | | |r| |i|i j|names|m]; cbn [SugarSpec.apply]; intros H; try exact I; try discriminate;
      try (apply bind_some in H; destruct H as (? & _ & H); try discriminate; apply bind_some in H; destruct H as (? & _ & H); discriminate).
    - destruct ds as [|? [|? [|? ?]]]; try discriminate. apply bind_some in H. destruct H as (? & _ & H). discriminate.
    - destruct ds; discriminate.
    - destruct (Nat.eqb_spec (length names) (length ds)); [|discriminate]. injection H as <-. auto.
  Qed.

  (** ** Element accesses *)
  Lemma written_array a v ds : no_index a -> written_out a = true -> eval a v = Some (Arr ds) ->
    exists es, a = Node HArray es.
  Proof.
    destruct a as [x|h l|k x s b|k x s n b]; intros N W E.
    - discriminate.
    - apply eval_node in E. destruct E as (ds' & _ & E). apply apply_arr in E. destruct N as [N _].
      destruct h; try contradiction; [eauto|discriminate].
    - apply quant_val in E. destruct E as [? E]. discriminate.
    - apply count_val in E. destruct E as [? E]. discriminate.
  Qed.
  Lemma arrays_eval t : direct t -> forall v d, eval t v = Some d ->
    exists t', resolve_arrays t = Some t' /\ no_index t' /\ (written_out t = true -> written_out t' = true) /\
      (forall w e, eval t w = Some e -> eval t' w = Some e).
  Proof.
    induction t as [x|h l IH|k x s b IHs IHb|k x s n b IHs IHn IHb] using term_ind'; intros D v d H.
    - exists (Var x). cbn. auto.
    - pose proof H as H0. apply eval_node in H. destruct H as (ds & Hd & H). cbn [direct] in D. destruct D as [Dh Dl]. apply fold_and in Dl.
      assert (exists l', all_some (map resolve_arrays l) = Some l' /\ Forall no_index l' /\
                (forallb written_out l = true -> forallb written_out l' = true) /\
                Forall2 (fun t t' => forall w e, eval t w = Some e -> eval t' w = Some e) l l') as (l' & Hl & Nl & Wl & Fl).
      { clear H Dh H0. induction Hd as [|a c l ds E Hd IHd]; [exists []; auto|]. inversion IH as [|? ? Ha IHl]; inversion Dl as [|? ? Da Dl']; subst.
        destruct (Ha Da _ _ E) as (a' & Ea & Na & Wa & Fa). destruct (IHd IHl Dl') as (l' & El & Nl & Wl & Fl). exists (a' :: l').
        cbn. rewrite Ea, El. repeat split; auto. intros W. apply andb_prop in W. destruct W. rewrite Wa, Wl by assumption. reflexivity. }
      assert (forall w e, eval (Node h l) w = Some e -> eval (Node h l') w = Some e) as T.
      { intros w e G. apply eval_node in G. destruct G as (es & Ge & G). apply eval_node. exists es. split; [|exact G].
        clear - Fl Ge. revert es Ge. induction Fl as [|a c l l' E F IHd]; intros ds G; inversion G; subst; constructor; auto. }
      cbn [resolve_arrays]. rewrite Hl. cbn [bind].
      assert (forall h', h' = h -> match h with HIndex _ | HSlice _ _ => False | _ => True end ->
        no_index (Node h' l') /\ (written_out (Node h l) = true -> written_out (Node h' l') = true) /\
        (forall w e, eval (Node h l) w = Some e -> eval (Node h' l') w = Some e)) as Easy.
      { intros h' -> Hh. split; [|split; [|exact T]].
        - cbn. split; [exact Hh|apply fold_and, Nl].
        - cbn. destruct h; auto. }
      destruct h as [k|o| | | |r| |i|i j|names|m]; try (eexists; split; [reflexivity|apply Easy; [reflexivity|exact I]]).
      + (* HIndex *)
        pose proof (Wl Dh) as Wl'.
        destruct Hd as [|a da l ds Ea Hd]; [discriminate|]. destruct Hd; [|destruct da; discriminate].
        inversion Fl as [|? a' ? ? Fa Fl']; subst. inversion Fl'; subst. inversion Nl as [|? ? Na _]; subst.
        cbn in H. destruct da as [|ds|]; try discriminate. cbn in Wl'. rewrite andb_true_r in Wl'.
        destruct (written_array _ _ _ Na Wl' (Fa _ _ Ea)) as (es & ->). cbn [kids].
        assert (forall w e, eval (Node (HIndex i) [a]) w = Some e -> exists e', nth_error es i = Some e' /\ eval e' w = Some e) as K.
        { intros w e G. apply eval_node in G. destruct G as (ds1 & G1 & G). inversion G1 as [|? da1 ? ? Ga G2]; subst. inversion G2; subst.
          cbn in G. destruct da1 as [|dl|]; try discriminate. apply Fa in Ga. apply eval_node in Ga. destruct Ga as (ds2 & G3 & Ga).
          apply apply_arr in Ga. subst ds2. apply forall2_sym in G3. destruct (forall2_nth _ _ _ _ _ G3 G) as (e' & ? & ?). eauto. }
        destruct (K _ _ H0) as (e' & He & _). exists e'. split; [exact He|]. split; [|split].
        * cbn in Na. destruct Na as [_ Na]. apply fold_and in Na. rewrite Forall_forall in Na. apply Na. eapply nth_error_In, He.
        * intros _. cbn in Wl'. rewrite forallb_forall in Wl'. apply Wl'. eapply nth_error_In, He.
        * intros w e G. destruct (K _ _ G) as (e'' & He' & G'). congruence.
      + (* HSlice *)
        pose proof (Wl Dh) as Wl'.
        destruct Hd as [|a da l ds Ea Hd]; [discriminate|]. destruct Hd; [|destruct da; discriminate].
        inversion Fl as [|? a' ? ? Fa Fl']; subst. inversion Fl'; subst. inversion Nl as [|? ? Na _]; subst.
        cbn in H. destruct da as [|ds|]; try discriminate. cbn in Wl'. rewrite andb_true_r in Wl'.
        destruct (written_array _ _ _ Na Wl' (Fa _ _ Ea)) as (es & ->). cbn [kids].
        assert (forall w e, eval (Node (HSlice i j) [a]) w = Some e -> i <= j < length es /\ eval (Node HArray (firstn (j + 1 - i) (skipn i es))) w = Some e) as K.
        { intros w e G. apply eval_node in G. destruct G as (ds1 & G1 & G). inversion G1 as [|? da1 ? ? Ga G2]; subst. inversion G2; subst.
          cbn [SugarSpec.apply] in G. destruct da1 as [|dl|]; try discriminate. apply Fa in Ga. apply eval_node in Ga. destruct Ga as (ds2 & G3 & Ga).
          apply apply_arr in Ga. subst ds2. destruct (i <=? j) eqn:Eij; [|discriminate]. destruct (j <? length dl) eqn:Ej; [|discriminate].
          cbn in G. injection G as <-. apply Nat.leb_le in Eij. apply Nat.ltb_lt in Ej. rewrite (forall2_len _ _ _ G3). split; [auto|].
          apply eval_node. exists (firstn (j + 1 - i) (skipn i dl)). split; [apply forall2_firstn, forall2_skipn, G3|].
          cbn. destruct (firstn (j + 1 - i) (skipn i dl)) eqn:E; [|reflexivity].
          apply (f_equal (@length _)) in E. rewrite firstn_length, skipn_length in E. cbn in E. lia. }
        destruct (K _ _ H0) as ([L1 L2] & _). destruct (Nat.leb_spec (length es) i); [lia|]. destruct (Nat.leb_spec (length es) j); [lia|].
        cbn [orb]. eexists. split; [reflexivity|].
        assert (forall e, In e (firstn (j + 1 - i) (skipn i es)) -> In e es) as S.
        { intros e He. rewrite <- (firstn_skipn i es). apply in_or_app. right. rewrite <- (firstn_skipn (j + 1 - i) (skipn i es)). apply in_or_app. auto. }
        split; [|split].
        * cbn in Na. destruct Na as [_ Na]. cbn. split; [exact I|]. apply fold_and. apply fold_and in Na. rewrite Forall_forall in *. auto.
        * intros _. cbn in Wl'. cbn. rewrite forallb_forall in *. auto.
        * intros w e G. apply (K _ _ G).
    - cbn [direct] in D. destruct D as [Ds Db]. cbn [SugarSpec.eval] in H. destruct (eval s v) as [[|[|d0 ds]|]|] eqn:Es; try discriminate.
      destruct (IHs Ds _ _ Es) as (s' & Hs & Ns & _ & Fs). apply bind_some in H. destruct H as (fs & Hf & _). cbn [map all_some] in Hf.
      apply bind_some in Hf. destruct Hf as (f0 & Hf & _). apply bind_some in Hf. destruct Hf as (b0 & Hb & _).
      destruct (IHb Db _ _ Hb) as (b' & Hb' & Nb & _ & Fb). exists (Quant k x s' b'). cbn [resolve_arrays]. rewrite Hs, Hb'. split; [reflexivity|].
      split; [cbn; auto|]. split; [auto|].
      intros w e G. cbn [SugarSpec.eval] in *. destruct (eval s w) as [[|[|e0 es]|]|] eqn:Ews; try discriminate. rewrite (Fs _ _ Ews).
      apply bind_some in G. destruct G as (gs & Hg & G).
      assert (all_some (map (fun d => b0 <- eval b' (with_var w x d) ;; bits b0) (e0 :: es)) = Some gs) as ->; [|exact G].
      apply all_some_forall2 in Hg. apply all_some_forall2. clear - Hg Fb. induction Hg as [|? ? ? ? E F IHd]; constructor; [|exact IHd].
      apply bind_some in E. destruct E as (b0 & Eb & E). rewrite (Fb _ _ Eb). exact E.
    - cbn [direct] in D. destruct D as (Ds & Dn & Db). cbn [SugarSpec.eval] in H. destruct (eval s v) as [[|[|d0 ds]|]|] eqn:Es; try discriminate.
      destruct (IHs Ds _ _ Es) as (s' & Hs & Ns & _ & Fs). apply bind_some in H. destruct H as (nd & Hn & H).
      destruct (IHn Dn _ _ Hn) as (n' & Hn' & Nn & _ & Fn).
      apply bind_some in H. destruct H as (? & _ & H). apply bind_some in H. destruct H as (? & _ & H).
      apply bind_some in H. destruct H as (fs & Hf & _). cbn [map all_some] in Hf.
      apply bind_some in Hf. destruct Hf as (f0 & Hf & _). apply bind_some in Hf. destruct Hf as (b0 & Hb & _).
      destruct (IHb Db _ _ Hb) as (b' & Hb' & Nb & _ & Fb). exists (Count k x s' n' b'). cbn [resolve_arrays]. rewrite Hs, Hn', Hb'. split; [reflexivity|].
      split; [cbn; auto|]. split; [auto|].
      intros w e G. cbn [SugarSpec.eval] in *. destruct (eval s w) as [[|[|e0 es]|]|] eqn:Ews; try discriminate. rewrite (Fs _ _ Ews).
      apply bind_some in G. destruct G as (nd' & Hn2 & G). rewrite (Fn _ _ Hn2). cbn [bind].
      apply bind_some in G. destruct G as (ns & Hns & G). rewrite Hns. cbn [bind].
      apply bind_some in G. destruct G as (ni & Hni & G). rewrite Hni. cbn [bind].
      apply bind_some in G. destruct G as (gs & Hg & G).
      assert (all_some (map (fun d => b0 <- eval b' (with_var w x d) ;; bits b0) (e0 :: es)) = Some gs) as ->; [|exact G].
      apply all_some_forall2 in Hg. apply all_some_forall2. clear - Hg Fb. induction Hg as [|? ? ? ? E F IHd]; constructor; [|exact IHd].
      apply bind_some in E. destruct E as (b1 & Eb & E). rewrite (Fb _ _ Eb). exact E.
  Qed.

  (** ** Struct accesses after element accesses *)
  Lemma cleared_arr t ds : cleared t -> eval t nothing = Some (Arr ds) ->
    exists es, t = Node HArray es /\ Forall2 (fun e d => eval e nothing = Some d) es ds.
  Proof.
    destruct t as [x|h l|k x s b|k x s n b]; intros C E.
    - discriminate.
    - apply eval_node in E. destruct E as (ds' & F & E). apply apply_arr in E. destruct C as [C _].
      destruct h; try contradiction. subst. eauto.
    - apply quant_val in E. destruct E as [? E]. discriminate.
    - apply count_val in E. destruct E as [? E]. discriminate.
  Qed.
  Lemma cleared_rec t l : cleared t -> eval t nothing = Some (Rec l) -> exists names es, t = Node (HStruct names) es.
  Proof.
    destruct t as [x|h es|k x s b|k x s n b]; intros C E.
    - discriminate.
    - apply eval_node in E. destruct E as (ds' & F & E). apply apply_rec in E. destruct C as [C _].
      destruct h; try contradiction. eauto.
    - apply quant_val in E. destruct E as [? E]. discriminate.
    - apply count_val in E. destruct E as [? E]. discriminate.
  Qed.
  Lemma structs_eval' t t' v d : resolve_structs t = Some t' -> eval t v = Some d -> eval t' v = Some d.
  Proof.
    intros H E. destruct (structs_eval _ real_rel leaf ops _ _ _ E) as (t'' & E' & K). rewrite H in E'. injection E' as <-. apply K, E.
  Qed.
  Lemma structs_cleared t : no_index t -> forall d, eval t nothing = Some d -> forall t', resolve_structs t = Some t' -> cleared t'.
  Proof.
    induction t as [x|h l IH|k x s b IHs IHb|k x s n b IHs IHn IHb] using term_ind'; intros N d E t' H.
    - discriminate.
    - pose proof E as E0. apply eval_node in E. destruct E as (ds & F & A). cbn [resolve_structs] in H. apply bind_some in H.
      destruct H as (l' & Hl & H). apply all_some_forall2 in Hl. cbn in N. destruct N as [Nh Nl]. apply fold_and in Nl.
      assert (Forall cleared l') as Cl.
      { clear H A E0 Nh. revert l' Hl. induction F as [|a c l ds Ea F IHF]; intros l' Hl; inversion Hl; subst; constructor;
          inversion IH; inversion Nl; subst; eauto. }
      assert (Forall2 (fun t d => eval t nothing = Some d) l' ds) as F'.
      { clear H A E0 Nh Cl IH Nl. revert l' Hl. induction F as [|a c l ds Ea F IHF]; intros l' Hl; inversion Hl; subst; constructor; eauto.
        eapply structs_eval'; eassumption. }
      destruct h as [k|o| | | |r| |i|i j|names|m]; try contradiction; try (injection H as <-; cbn; split; [exact I|apply fold_and, Cl]).
      destruct F' as [|c dc l' ds Ec F']; [discriminate|]. destruct F'; [|destruct dc; discriminate]. inversion Cl as [|? ? Cc _]; subst.
      cbn in A. destruct dc as [| |fl]; try discriminate. destruct (cleared_rec _ _ Cc Ec) as (names & es & ->).
      cbn in Cc. destruct Cc as [_ Ces]. apply fold_and in Ces. rewrite Forall_forall in Ces. apply Ces. eapply member_in, H.
    - cbn [resolve_structs] in H. apply bind_some in H. destruct H as (? & _ & H). apply bind_some in H. destruct H as (? & _ & H).
      injection H as <-. exact I.
    - cbn [resolve_structs] in H. apply bind_some in H. destruct H as (? & _ & H). apply bind_some in H. destruct H as (? & _ & H).
      apply bind_some in H. destruct H as (? & _ & H). injection H as <-. exact I.
  Qed.

  Lemma closed_eval e d : eval e nothing = Some d -> forall v, eval e v = Some d.
  Proof. intros E v. eapply eval_mono; [|exact E]. intros x c H. discriminate. Qed.

  (** The bodies of an aggregation. *)
  Lemma bodies_eval x body es ds fs : ~ In x (bound body) ->
    Forall2 (fun e d => eval e nothing = Some d) es ds ->
    all_some (map (fun d => b <- eval body (with_var nothing x d) ;; bits b) ds) = Some fs ->
    exists bs, Forall2 (fun t d => eval t nothing = Some d) (map (fun e => subst x e body) es) bs /\ all_some (map bits bs) = Some fs.
  Proof.
    intros N F. revert fs. induction F as [|e d es ds E F IH]; intros fs H.
    - injection H as <-. exists []. split; [constructor|reflexivity].
    - cbn [map all_some] in H. apply bind_some in H. destruct H as (f & Hf & H). apply bind_some in H. destruct H as (r & Hr & H).
      injection H as <-. destruct (IH _ Hr) as (bs & Fb & Eb). apply bind_some in Hf. destruct Hf as (b & Hb & Hf).
      exists (b :: bs). split.
      + cbn [map]. constructor; [|exact Fb]. rewrite (eval_subst _ real_rel leaf ops x e d (closed_eval _ _ E)) by exact N. exact Hb.
      + cbn [map all_some]. rewrite Hf, Eb. reflexivity.
  Qed.
  Lemma renames x body es l : all_some (map (fun e => rename x e body) es) = Some l -> l = map (fun e => subst x e body) es.
  Proof.
    rewrite all_some_forall2. intros F. induction F as [|e r es l E F IH]; [reflexivity|]. cbn. rewrite <- IH. f_equal. eapply rename_some, E.
  Qed.
  Lemma bits_vals (bs : list den) fs : all_some (map bits bs) = Some fs ->
    all_some (map val bs) = Some (map (fun f => Bits f) fs) .
  Proof.
    revert fs. induction bs as [|b bs IH]; intros fs H; cbn in *; [injection H as <-; reflexivity|].
    apply bind_some in H. destruct H as (f & Hf & H). apply bind_some in H. destruct H as (r & Hr & H). injection H as <-.
    rewrite (IH _ Hr). destruct b as [[g|g|g]| |]; try discriminate. injection Hf as <-. reflexivity.
  Qed.
  Lemma bits_ints (fs : list (nat -> bool)) :
    all_some (map (@ints real) (map (fun f => Bits f) fs)) = Some (map (fun f t => int_of_bit (f t)) fs).
  Proof. induction fs as [|f fs IH]; [reflexivity|]. cbn in *. rewrite IH. reflexivity. Qed.
  Lemma bits_length (bs : list den) fs : all_some (map bits bs) = Some fs -> length fs = length bs.
  Proof. rewrite all_some_forall2. intros F. symmetry. eapply forall2_len, F. Qed.
  Lemma count_le fs t : count fs t <= length fs.
  Proof. unfold count. apply filter_length_le. Qed.

  Lemma quant_new k x set body d set' l new :
    no_index set -> ~ In x (bound body) ->
    resolve_structs set = Some set' -> all_some (map (fun e => rename x e body) (kids set')) = Some l ->
    operator (quant_op k) l = Some new -> eval (Quant k x set body) nothing = Some d ->
    l = map (fun e => subst x e body) (kids set') /\ new = Node (quant_op k) l /\ exists d', eval new nothing = Some d' /\ same d d'.
  Proof.
    intros Ni Nx Hs Hl Hop E. apply renames in Hl. split; [exact Hl|]. destruct l as [|l0 l1]; [discriminate|]. injection Hop as <-. split; [reflexivity|].
    rewrite Hl. clear Hl l0 l1. cbn [SugarSpec.eval] in E. destruct (eval set nothing) as [[|[|d0 ds0]|]|] eqn:Es; try discriminate.
    remember (d0 :: ds0) as ds eqn:Ed. clear Ed d0 ds0. apply bind_some in E. destruct E as (fs & Hf & E). injection E as <-.
    destruct (cleared_arr set' ds) as (es & -> & Fe); [eapply structs_cleared; eassumption|eapply structs_eval'; eassumption|]. cbn [kids].
    destruct (bodies_eval _ _ _ _ _ Nx Fe Hf) as (bs & Fb & Eb).
    destruct k; (eexists; split; [apply eval_node; exists bs; split; [exact Fb|]; cbn [quant_op SugarSpec.apply]; rewrite Eb; reflexivity|]);
      constructor; constructor; intros t; unfold quantify; [apply count_all|apply count_some].
  Qed.
  Lemma count_new k x set num body d set' l sum :
    no_index set -> ~ In x (bound body) ->
    resolve_structs set = Some set' -> all_some (map (fun e => rename x e body) (kids set')) = Some l ->
    operator HAdd l = Some sum -> eval (Count k x set num body) nothing = Some d ->
    l = map (fun e => subst x e body) (kids set') /\ sum = Node HAdd l /\
    exists d', eval (Node (HRel (count_op k)) [sum; num]) nothing = Some d' /\ same d d'.
  Proof.
    intros Ni Nx Hs Hl Hop E. apply renames in Hl. split; [exact Hl|]. destruct l as [|l0 l1]; [discriminate|]. injection Hop as <-. split; [reflexivity|].
    rewrite Hl. clear Hl l0 l1. cbn [SugarSpec.eval] in E. destruct (eval set nothing) as [[|[|d0 ds0]|]|] eqn:Es; try discriminate.
    remember (d0 :: ds0) as ds eqn:Ed. clear Ed d0 ds0. apply bind_some in E. destruct E as (nd & Hn & E).
    apply bind_some in E. destruct E as (nv & Hnv & E). apply bind_some in E. destruct E as (nf & Hnf & E).
    apply bind_some in E. destruct E as (fs & Hf & E). destruct (Z.ltb_spec (Z.of_nat (length ds)) (2 ^ 31)) as [Lt|]; [|discriminate]. injection E as <-.
    destruct (cleared_arr set' ds) as (es & -> & Fe); [eapply structs_cleared; eassumption|eapply structs_eval'; eassumption|]. cbn [kids].
    destruct (bodies_eval _ _ _ _ _ Nx Fe Hf) as (bs & Fb & Eb).
    assert (length fs = length ds) as Len by (apply all_some_forall2 in Hf; symmetry; eapply forall2_len, Hf).
    destruct nd as [nv'| |]; try discriminate. injection Hnv as ->.
    eexists. split.
    - apply eval_node. eexists [Val (Ints _); Val nv]. split.
      + constructor; [|constructor; [exact Hn|constructor]]. apply eval_node. exists bs. split; [exact Fb|].
        cbn [SugarSpec.apply]. rewrite (bits_vals _ _ Eb). cbn [bind]. rewrite bits_ints. cbn [bind]. reflexivity.
      + cbn [SugarSpec.apply rel_den rel_stream ints bind]. rewrite Hnf. reflexivity.
    - constructor. constructor. intros t. rewrite map_map. rewrite total_count. rewrite wrap32_small.
      + unfold compare_count, holds. destruct k; reflexivity.
      + pose proof (count_le fs t). lia.
  Qed.

  (** ** Unrolling *)
  Lemma no_index_bodies x es body : Forall no_index es -> no_index body -> Forall no_index (map (fun e => subst x e body) es).
  Proof. intros F N. rewrite Forall_map. eapply Forall_impl; [|exact F]. intros e Ne. apply no_index_subst; assumption. Qed.
  Lemma no_index_kids t : no_index t -> Forall no_index (kids t).
  Proof. destruct t; cbn; try constructor. intros [_ H]. apply fold_and, H. Qed.

  Hypothesis X : extensional ops.
  Lemma forall2_same (l' : list term) ds : Forall2 (fun t d => exists d', eval t nothing = Some d' /\ same d d') l' ds ->
    exists ds', Forall2 (fun t d => eval t nothing = Some d) l' ds' /\ Forall2 same ds ds'.
  Proof. intros F. induction F as [|t d l' ds (d' & E & S) F (ds' & F1 & F2)]; [exists []|exists (d' :: ds')]; auto. Qed.

  Lemma unroll_sound fuel : forall t t' d, unroll fuel t = Some t' -> no_index t -> unshadowed t -> eval t nothing = Some d ->
    no_index t' /\ bound t' = [] /\ exists d', eval t' nothing = Some d' /\ same d d'.
  Proof.
    induction fuel as [|fuel IH]; intros t t' d H N U E; [discriminate|].
    destruct t as [x|h l|k x s b|k x s n b]; cbn [unroll] in H.
    - discriminate.
    - apply bind_some in H. destruct H as (l' & Hl & H). injection H as <-. apply all_some_forall2 in Hl.
      apply eval_node in E. destruct E as (ds & F & A). cbn in N, U. destruct N as [Nh Nl]. apply fold_and in Nl. apply fold_and in U.
      assert (Forall no_index l' /\ flat_map bound l' = [] /\ Forall2 (fun t d => exists d', eval t nothing = Some d' /\ same d d') l' ds) as (N' & B' & F').
      { clear A. revert ds F. induction Hl as [|a a' l l' Ea Hl IHl]; intros ds F; inversion F; subst; [cbn; auto|].
        inversion Nl; inversion U; subst. destruct (IH a a' y Ea ltac:(assumption) ltac:(assumption) ltac:(assumption)) as (Na & Ba & Da).
        destruct (IHl ltac:(assumption) ltac:(assumption) _ ltac:(eassumption)) as (Nl' & Bl & Dl).
        split; [constructor; auto|]. split; [cbn; rewrite Ba, Bl; reflexivity|constructor; auto]. }
      split; [cbn; split; [exact Nh|apply fold_and, N']|]. split; [exact B'|].
      destruct (forall2_same _ _ F') as (ds' & F1 & F2).
      destruct (apply_same _ real_rel leaf ops _ _ _ _ X F2 A) as (d' & A' & S). exists d'. split; [|exact S].
      apply eval_node. eauto.
    - apply bind_some in H. destruct H as (l & Hl & H). apply bind_some in H. destruct H as (new & Hn & H).
      apply bind_some in H. destruct H as (new' & Hn' & H). apply bind_some in Hl. destruct Hl as (s' & Hs & Hl).
      apply traversed_some in Hs. destruct Hs as [_ Hs]. apply traversed_some in Hn'. destruct Hn' as [Un Hn'].
      cbn in N, U. destruct N as [Ns Nb], U as (Nx & Us & Ub).
      destruct (quant_new _ _ _ _ _ _ _ _ Ns Nx Hs Hl Hn E) as (El & En & d1 & E1 & S1).
      assert (no_index new) as Nn.
      { rewrite En, El. cbn. split; [destruct k; exact I|]. apply fold_and. apply no_index_bodies; [|exact Nb].
        apply no_index_kids. eapply structs_no_index; eassumption. }
      destruct (structs_tame _ _ Hn') as (_ & _ & Tu & _).
      destruct (IH _ _ d1 H) as (N' & B' & d2 & E2 & S2).
      { eapply structs_no_index; eassumption. } { apply Tu, Un. } { eapply structs_eval'; eassumption. }
      split; [exact N'|]. split; [exact B'|]. exists d2. split; [exact E2|]. eapply same_trans; eassumption.
    - apply bind_some in H. destruct H as (l & Hl & H). apply bind_some in H. destruct H as (new & Hn & H).
      apply bind_some in H. destruct H as (new' & Hn' & H). apply bind_some in Hl. destruct Hl as (s' & Hs & Hl).
      apply traversed_some in Hs. destruct Hs as [_ Hs]. apply traversed_some in Hn'. destruct Hn' as [Un Hn'].
      cbn in N, U. destruct N as (Ns & Nn & Nb), U as (Nx & Us & Um & Ub).
      destruct (count_new _ _ _ _ _ _ _ _ _ Ns Nx Hs Hl Hn E) as (El & En & d1 & E1 & S1).
      assert (no_index (Node (HRel (count_op k)) [new; n])) as Nnew.
      { rewrite En, El. cbn. split; [exact I|]. split; [|auto]. split; [exact I|]. apply fold_and. apply no_index_bodies; [|exact Nb].
        apply no_index_kids. eapply structs_no_index; eassumption. }
      destruct (structs_tame _ _ Hn') as (_ & _ & Tu & _).
      destruct (IH _ _ d1 H) as (N' & B' & d2 & E2 & S2).
      { eapply structs_no_index; eassumption. } { apply Tu, Un. } { eapply structs_eval'; eassumption. }
      split; [exact N'|]. split; [exact B'|]. exists d2. split; [exact E2|]. eapply same_trans; eassumption.
  Qed.

  (** ** Unrolling succeeds *)
  Lemma all_unroll l : Forall (fun t => exists f t', unroll f t = Some t') l -> exists f l', all_some (map (unroll f) l) = Some l'.
  Proof.
    intros F. induction F as [|t l (f & t' & E) F (g & l' & G)]; [exists 0, []; reflexivity|].
    exists (max f g), (t' :: l'). cbn. rewrite (unroll_more f _ _ _ (Nat.le_max_l f g) E). cbn.
    rewrite (all_some_mono _ (unroll (max f g)) _ _ (fun x y => unroll_more g _ x y (Nat.le_max_r f g)) G). reflexivity.
  Qed.
  Lemma unroll_children h l : Forall (fun t => exists f t', unroll f t = Some t') l -> exists f t', unroll f (Node h l) = Some t'.
  Proof. intros F. destruct (all_unroll _ F) as (f & l' & E). exists (S f), (Node h l'). cbn. rewrite E. reflexivity. Qed.

  Lemma all_renames x body es : no_index body -> unshadowed body ->
    all_some (map (fun e => rename x e body) es) = Some (map (fun e => subst x e body) es).
  Proof. intros N U. apply all_some_forall2. induction es as [|e es IH]; constructor; [apply rename_subst; assumption|exact IH]. Qed.
  Lemma operator_map h x body es : es <> [] -> operator h (map (fun e => subst x e body) es) = Some (Node h (map (fun e => subst x e body) es)).
  Proof. destruct es; [congruence|reflexivity]. Qed.
  Lemma bound_kids t : bound t = [] -> Forall (fun e => bound e = []) (kids t).
  Proof.
    destruct t as [x|h l|k x s b|k x s n b]; cbn; intros E; try constructor. induction l as [|e l IH]; constructor; cbn in E; apply app_eq_nil in E; destruct E; auto.
  Qed.

  Lemma unroll_total : forall q t d, length (bound t) <= q -> no_index t -> unshadowed t -> flat_sets t -> eval t nothing = Some d ->
    exists f t', unroll f t = Some t'.
  Proof.
    induction q as [q IHq] using lt_wf_ind. induction t as [x|h l IH|k x s b IHs IHb|k x s n b IHs IHn IHb] using term_ind'; intros d L N U P E.
    - discriminate.
    - apply unroll_children. apply eval_node in E. destruct E as (ds & F & A). cbn in L, N, U, P. destruct N as [Nh Nl].
      apply fold_and in Nl. apply fold_and in U. apply fold_and in P. clear A.
      induction F as [|a da l ds Ea F IHF]; [constructor|]. inversion IH; inversion Nl; inversion U; inversion P; subst. cbn in L. rewrite app_length in L.
      constructor; [eapply H1; eauto; lia|]. apply IHF; auto. lia.
    - cbn [bound length] in L. rewrite app_length in L. cbn in N, U, P. destruct N as [Ns Nb], U as (Nx & Us & Ub), P as (Bs & Pb).
      pose proof E as E0. cbn [SugarSpec.eval] in E. destruct (eval s nothing) as [[|[|d0 ds0]|]|] eqn:Es; try discriminate.
      destruct (structs_eval _ real_rel leaf ops _ _ _ Es) as (s' & Hs & K). pose proof (K _ _ Es) as Es'.
      destruct (cleared_arr s' (d0 :: ds0)) as (es & -> & Fe); [apply (structs_cleared s Ns _ Es _ Hs)|exact Es'|].
      assert (es <> []) as Ne by (intros ->; inversion Fe).
      destruct (structs_tame _ _ Hs) as (Ts & _ & _ & _). rewrite Bs in Ts. apply incl_nil in Ts. pose proof (bound_kids _ Ts) as Be. cbn [kids] in Be.
      pose proof (structs_no_index _ _ Hs Ns) as Nes. apply no_index_kids in Nes. cbn [kids] in Nes.
      set (l := map (fun e => subst x e b) es).
      destruct (quant_new k x s b d (Node HArray es) l (Node (quant_op k) l)) as (_ & _ & d1 & E1 & _);
        [exact Ns|exact Nx|exact Hs|apply all_renames; assumption|apply operator_map, Ne|exact E0|].
      assert (no_index (Node (quant_op k) l)) as Nn.
      { cbn. split; [destruct k; exact I|]. apply fold_and. apply no_index_bodies; assumption. }
      assert (unshadowed (Node (quant_op k) l)) as Un.
      { cbn. apply fold_and. unfold l. rewrite Forall_map. eapply Forall_impl; [|exact Be]. intros e Hb. cbn beta in Hb. apply unshadowed_subst; assumption. }
      destruct (structs_eval _ real_rel leaf ops _ _ _ E1) as (new' & Hn & Kn). pose proof (Kn _ _ E1) as En.
      assert (exists f t', unroll f new' = Some t') as (f & t' & Ht).
      { cbn [resolve_structs] in Hn. apply bind_some in Hn. destruct Hn as (l' & Hl' & Hn).
        assert (new' = Node (quant_op k) l') as -> by (destruct k; injection Hn as <-; reflexivity). apply unroll_children.
        apply all_some_forall2 in Hl'. apply eval_node in E1. destruct E1 as (ds1 & F1 & _). clear - IHq L Hl' F1 Be Nes Nb Ub Pb.
        unfold l in *. clear l. revert l' ds1 Hl' F1. induction es as [|e es IHes]; intros l' ds1 Hl' F1; inversion Hl'; subst; [constructor|].
        inversion F1; subst. inversion Be; inversion Nes; subst. constructor; [|eapply IHes; eauto].
        match goal with Hr : resolve_structs _ = Some y |- _ => rename Hr into Hy end.
        destruct (structs_tame _ _ Hy) as (_ & T2 & T3 & T4). rewrite bound_subst in T2 by assumption.
        eapply (IHq (length (bound b))); [lia|lia| | | |].
        - eapply structs_no_index; [exact Hy|]. apply no_index_subst; assumption.
        - apply T3, unshadowed_subst; assumption.
        - apply T4, flat_subst; assumption.
        - eapply structs_eval'; eassumption. }
      exists (S f), t'. cbn [unroll].
      rewrite (proj2 (traversed_some s (resolve_structs s) _) (conj Us Hs)). cbn [bind kids]. rewrite (all_renames x b es Nb Ub). cbn [bind].
      rewrite operator_map by exact Ne. cbn [bind]. fold l. rewrite (proj2 (traversed_some _ _ _) (conj Un Hn)). exact Ht.
    - cbn [bound length] in L. rewrite !app_length in L. cbn in N, U, P. destruct N as (Ns & Nn & Nb), U as (Nx & Us & Um & Ub), P as (Bs & Pn & Pb).
      pose proof E as E0. cbn [SugarSpec.eval] in E. destruct (eval s nothing) as [[|[|d0 ds0]|]|] eqn:Es; try discriminate.
      destruct (structs_eval _ real_rel leaf ops _ _ _ Es) as (s' & Hs & K). pose proof (K _ _ Es) as Es'.
      destruct (cleared_arr s' (d0 :: ds0)) as (es & -> & Fe); [apply (structs_cleared s Ns _ Es _ Hs)|exact Es'|].
      assert (es <> []) as Ne by (intros ->; inversion Fe).
      destruct (structs_tame _ _ Hs) as (Ts & _ & _ & _). rewrite Bs in Ts. apply incl_nil in Ts. pose proof (bound_kids _ Ts) as Be. cbn [kids] in Be.
      pose proof (structs_no_index _ _ Hs Ns) as Nes. apply no_index_kids in Nes. cbn [kids] in Nes.
      set (l := map (fun e => subst x e b) es).
      destruct (count_new k x s n b d (Node HArray es) l (Node HAdd l)) as (_ & _ & d1 & E1 & _);
        [exact Ns|exact Nx|exact Hs|apply all_renames; assumption|apply operator_map, Ne|exact E0|].
      assert (unshadowed (Node (HRel (count_op k)) [Node HAdd l; n])) as Un.
      { cbn. split; [|auto]. apply fold_and. unfold l. rewrite Forall_map. eapply Forall_impl; [|exact Be]. intros e Hb. cbn beta in Hb. apply unshadowed_subst; assumption. }
      destruct (structs_eval _ real_rel leaf ops _ _ _ E1) as (new' & Hn & Kn). pose proof (Kn _ _ E1) as En.
      assert (exists f t', unroll f new' = Some t') as (f & t' & Ht).
      { cbn [resolve_structs map all_some] in Hn. apply bind_some in Hn. destruct Hn as (r & Hr & Hn). apply bind_some in Hr. destruct Hr as (sum' & Hsum & Hr).
        apply bind_some in Hr. destruct Hr as (r2 & Hr2 & Hr). injection Hr as <-. apply bind_some in Hr2. destruct Hr2 as (n' & Hn' & Hr2).
        cbn in Hr2. injection Hr2 as <-. injection Hn as <-.
        apply bind_some in Hsum. destruct Hsum as (l' & Hl' & Hsum). injection Hsum as <-.
        apply eval_node in E1. destruct E1 as (dd & F0 & _). inversion F0 as [|? dsum ? dr Hs1 F0']; subst. inversion F0' as [|? dn ? dr2 Hd1 F0'']; subst.
        apply unroll_children. constructor; [|constructor; [|constructor]].
        - apply unroll_children. apply all_some_forall2 in Hl'. apply eval_node in Hs1. destruct Hs1 as (ds1 & F1 & _). clear - IHq L Hl' F1 Be Nes Nb Ub Pb.
          unfold l in *. clear l. revert l' ds1 Hl' F1. induction es as [|e es IHes]; intros l' ds1 Hl' F1; inversion Hl'; subst; [constructor|].
          inversion F1; subst. inversion Be; inversion Nes; subst. constructor; [|eapply IHes; eauto].
          match goal with Hr : resolve_structs _ = Some y |- _ => rename Hr into Hy end.
          destruct (structs_tame _ _ Hy) as (_ & T2 & T3 & T4). rewrite bound_subst in T2 by assumption.
          eapply (IHq (length (bound b))); [lia|lia| | | |].
          + eapply structs_no_index; [exact Hy|]. apply no_index_subst; assumption.
          + apply T3, unshadowed_subst; assumption.
          + apply T4, flat_subst; assumption.
          + eapply structs_eval'; eassumption.
        - destruct (structs_tame _ _ Hn') as (_ & T2 & T3 & T4). eapply (IHq (length (bound n))); [lia|lia| | | |].
          + eapply structs_no_index; eassumption.
          + apply T3, Um.
          + apply T4, Pn.
          + eapply structs_eval'; eassumption. }
      exists (S f), t'. cbn [unroll].
      rewrite (proj2 (traversed_some s (resolve_structs s) _) (conj Us Hs)). cbn [bind kids]. rewrite (all_renames x b es Nb Ub). cbn [bind].
      rewrite operator_map by exact Ne. cbn [bind]. fold l. rewrite (proj2 (traversed_some _ _ _) (conj Un Hn)). exact Ht.
  Qed.
End Meaning.
