(** * Signal map files (proofs) *)
From Coq Require Import Decimal DecimalN List NArith Arith Bool Ascii FinFun Lia.
Require Import Verif.MapFile Verif.MapSpec.
Import ListNotations.
Local Open Scope char_scope.

(** ** Characters *)
Lemma str_eqb_eq : forall a b, str_eqb a b = true <-> a = b.
Proof.
  induction a as [|x a IH]; intros [|y b]; cbn; try (split; [discriminate|congruence]); [tauto|].
  rewrite andb_true_iff, IH, Ascii.eqb_eq. split; [intros [-> ->]; reflexivity|intros H; injection H; auto].
Qed.
Lemma str_eqb_refl a : str_eqb a a = true.
Proof. apply str_eqb_eq. reflexivity. Qed.

Ltac all_chars := let c := fresh in intros c; destruct c as [[] [] [] [] [] [] [] []]; vm_compute; auto.
Lemma head_facts : forall c, is_head c = true -> is_word c = true /\ is_name c = true /\ is_digit c = false.
Proof. all_chars. Qed.
Lemma word_facts : forall c, is_word c = true -> is_name c = true /\ is_break c = false /\ (c =? ":") = false /\ (c =? "[") = false.
Proof. all_chars. Qed.
Lemma digit_facts : forall c, is_digit c = true ->
  is_word c = true /\ is_name c = true /\ is_break c = false /\ (c =? ":") = false /\ (c =? "[") = false /\
  (c =? "]") = false /\ (c =? ".") = false /\ (c =? "_") = false.
Proof. all_chars; intuition. Qed.
Lemma name_break : forall c, is_name c = true -> is_break c = false /\ (c =? ":") = false.
Proof. all_chars. Qed.

Lemma forallb_impl (p q : ascii -> bool) l : (forall c, p c = true -> q c = true) -> forallb p l = true -> forallb q l = true.
Proof. intros H. rewrite !forallb_forall. auto. Qed.
Lemma drop_all p : forall l r, forallb p l = true -> drop_while p (l ++ r) = drop_while p r.
Proof. induction l as [|c l IH]; intros r H; cbn in *; [reflexivity|]. apply andb_true_iff in H as [-> H]. auto. Qed.
Lemma take_all p : forall l r, forallb p l = true -> take_while p (l ++ r) = l ++ take_while p r.
Proof. induction l as [|c l IH]; intros r H; cbn in *; [reflexivity|]. apply andb_true_iff in H as [-> H]. f_equal. auto. Qed.
Lemma before_app c l r : forallb (fun x => negb (x =? c)) l = true -> before c (l ++ c :: r) = l.
Proof. intros H. unfold before. rewrite take_all by exact H. cbn [take_while]. rewrite Ascii.eqb_refl. cbn. apply app_nil_r. Qed.
Lemma before_none c l : forallb (fun x => negb (x =? c)) l = true -> before c l = l.
Proof. intros H. unfold before. rewrite <- (app_nil_r l) at 1. rewrite take_all by exact H. cbn. apply app_nil_r. Qed.
Lemma after_app c l r : forallb (fun x => negb (x =? c)) l = true -> after c (l ++ c :: r) = r.
Proof. intros H. unfold after. rewrite drop_all by exact H. cbn [drop_while]. rewrite Ascii.eqb_refl. reflexivity. Qed.

(** ** Numbers *)
Lemma chars_digits : forall d, forallb is_digit (chars d) = true.
Proof. induction d; cbn [chars forallb]; try rewrite IHd; reflexivity. Qed.
Lemma uint_chars : forall d, uint_of (chars d) = d.
Proof. induction d; cbn [chars uint_of]; rewrite ?IHd; reflexivity. Qed.
Lemma dec_digits n : forallb is_digit (dec n) = true.
Proof. apply chars_digits. Qed.
Lemma dec_inv n : N.of_uint (uint_of (dec n)) = n.
Proof. unfold dec. rewrite uint_chars. apply Unsigned.of_to. Qed.
Lemma dec_inj a b : dec a = dec b -> a = b.
Proof. intros H. rewrite <- (dec_inv a), <- (dec_inv b), H. reflexivity. Qed.
Lemma dec_cons n : exists c r, dec n = c :: r /\ is_digit c = true.
Proof.
  pose proof (dec_digits n) as H. destruct (dec n) as [|c r] eqn:E.
  - pose proof (dec_inv n) as I. rewrite E in I. cbn in I. subst n. discriminate.
  - exists c, r. split; [reflexivity|]. cbn in H. apply andb_true_iff in H. apply H.
Qed.
Lemma int_digits_all : forall l b, forallb is_digit l = true -> (b = true \/ l <> []) -> int_digits l b = Some l.
Proof.
  induction l as [|c l IH]; intros b H N; cbn.
  - destruct N as [->|N]; [reflexivity|congruence].
  - cbn in H. apply andb_true_iff in H as [-> H]. rewrite (IH true) by auto. reflexivity.
Qed.
Lemma int_dec n : int_of (dec n) = Some n.
Proof.
  unfold int_of. rewrite int_digits_all; [cbn; f_equal; apply dec_inv|apply dec_digits|].
  right. destruct (dec_cons n) as (c & r & -> & _). discriminate.
Qed.
Lemma dec_no c n : is_digit c = false -> forallb (fun x => negb (x =? c)) (dec n) = true.
Proof.
  intros H. eapply forallb_impl; [|apply dec_digits]. intros x Hx. apply negb_true_iff.
  destruct (x =? c) eqn:E; [|reflexivity]. apply Ascii.eqb_eq in E. congruence.
Qed.
Lemma split_dots_one : forall l, forallb (fun x => negb (x =? ".")) l = true -> split_dots l = [l].
Proof.
  induction l as [|c l IH]; intros H; [reflexivity|]. cbn in H. apply andb_true_iff in H as [H1 H2]. apply negb_true_iff in H1.
  cbn [split_dots]. rewrite IH by exact H2.
  destruct c as [[] [] [] [] [] [] [] []]; try reflexivity. discriminate.
Qed.
Lemma split_dots_two : forall l r, forallb (fun x => negb (x =? ".")) l = true -> forallb (fun x => negb (x =? ".")) r = true ->
  split_dots (l ++ "." :: "." :: r) = [l; r].
Proof.
  induction l as [|c l IH]; intros r H Hr.
  - cbn [app split_dots]. rewrite split_dots_one by exact Hr. reflexivity.
  - cbn in H. apply andb_true_iff in H as [H1 H2]. apply negb_true_iff in H1.
    cbn [app split_dots]. rewrite IH by assumption. destruct c as [[] [] [] [] [] [] [] []]; try reflexivity. discriminate.
Qed.

(** ** Lines *)
Lemma split_line : forall l current r, forallb (fun c => negb (is_break c)) l = true ->
  split_lines (l ++ "010" :: r) current = (rev current ++ l) :: split_lines r [].
Proof.
  induction l as [|c l IH]; intros current r H.
  - cbn. rewrite app_nil_r. reflexivity.
  - cbn in H. apply andb_true_iff in H as [H1 H2]. apply negb_true_iff in H1.
    cbn [app split_lines]. rewrite H1, IH by exact H2. cbn [rev]. rewrite <- app_assoc. reflexivity.
Qed.
Lemma split_file es : Forall (fun e => forallb (fun c => negb (is_break c)) (written e) = true) es ->
  split_lines (file es) [] = map written es.
Proof.
  unfold file. induction 1 as [|e es H _ IH]; [reflexivity|]. cbn [flat_map map]. rewrite <- app_assoc.
  change (["010"] ++ ?x) with ("010" :: x). rewrite split_line by exact H. cbn [rev app]. f_equal. exact IH.
Qed.

Lemma symbol_cons w : symbol w -> exists c r, w = c :: r /\ is_head c = true /\ forallb is_word r = true /\ forallb is_word w = true.
Proof.
  destruct w as [|c r]; [intros []|]. intros [H1 H2]. exists c, r. repeat split; auto. cbn. rewrite H2.
  destruct (head_facts c H1) as [-> _]. reflexivity.
Qed.
Lemma symbol_no_bracket w : symbol w -> forallb (fun x => negb (x =? "[")) w = true.
Proof.
  intros H. destruct (symbol_cons w H) as (_ & _ & _ & _ & _ & W). eapply forallb_impl; [|exact W].
  intros c Hc. apply negb_true_iff. apply (word_facts c Hc).
Qed.
Definition name_of (e : entry) : str :=
  match e with
  | One s _ => spelled s
  | Range w lo hi _ => w ++ "[" :: dec lo ++ "." :: "." :: dec hi ++ ["]"]
  end.
Definition column_of (e : entry) : N := match e with One _ c | Range _ _ _ c => c end.
Lemma written_name e : written e = name_of e ++ ":" :: dec (column_of e).
Proof. destruct e as [s c|w lo hi c]; cbn; [reflexivity|]. rewrite <- !app_assoc. cbn. rewrite <- !app_assoc. cbn. rewrite <- app_assoc. reflexivity. Qed.
Lemma dec_names n : forallb is_name (dec n) = true.
Proof. eapply forallb_impl; [|apply dec_digits]. intros c H. apply (digit_facts c H). Qed.
Lemma symbol_names w : symbol w -> forallb is_name w = true.
Proof.
  intros H. destruct (symbol_cons w H) as (_ & _ & _ & _ & _ & W). eapply forallb_impl; [|exact W]. intros c Hc. apply (word_facts c Hc).
Qed.
Lemma name_names e : symbol (entry_symbol e) -> forallb is_name (name_of e) = true.
Proof.
  intros H. destruct e as [[w|w i] c|w lo hi c]; cbn [name_of spelled entry_symbol symbol_of] in *.
  - apply symbol_names, H.
  - rewrite forallb_app, (symbol_names w H). cbn. rewrite forallb_app, dec_names. reflexivity.
  - rewrite forallb_app, (symbol_names w H). cbn. rewrite forallb_app, dec_names. cbn. rewrite forallb_app, dec_names. reflexivity.
Qed.
Lemma name_head e : symbol (entry_symbol e) -> exists c r, name_of e = c :: r /\ is_head c = true.
Proof.
  intros H. destruct e as [[w|w i] c|w lo hi c]; cbn [name_of spelled entry_symbol symbol_of] in *;
    destruct (symbol_cons w H) as (x & r & -> & Hx & _); cbn; eauto.
Qed.
Lemma written_line e : symbol (entry_symbol e) -> map_line (written e) = true.
Proof.
  intros H. rewrite written_name. destruct (name_head e H) as (c & r & E & Hc). pose proof (name_names e H) as N.
  rewrite E in *. cbn in N. apply andb_true_iff in N as [_ N]. cbn [app map_line]. rewrite Hc, drop_all by exact N.
  destruct (dec_cons (column_of e)) as (d & l & -> & Hd). cbn. exact Hd.
Qed.
Lemma names_no_colon l : forallb is_name l = true -> forallb (fun x => negb (x =? ":")) l = true.
Proof. apply forallb_impl. intros c H. apply negb_true_iff. apply (name_break c H). Qed.
Lemma written_no_break e : symbol (entry_symbol e) -> forallb (fun c => negb (is_break c)) (written e) = true.
Proof.
  intros H. rewrite written_name, forallb_app. apply andb_true_iff. split.
  - eapply forallb_impl; [|apply name_names, H]. intros c Hc. apply negb_true_iff. apply (name_break c Hc).
  - cbn. eapply forallb_impl; [|apply dec_digits]. intros c Hc. apply negb_true_iff. apply (digit_facts c Hc).
Qed.

(** The range test. *)
Lemma range_like_app w t : symbol w -> range_like (w ++ "[" :: t) =
  match t with
  | d :: _ :: _ :: r => is_digit d && match drop_while is_digit r with "]" :: _ => true | _ => false end
  | _ => false
  end.
Proof.
  intros H. destruct (symbol_cons w H) as (c & r & -> & Hc & Hr & _). cbn [app range_like]. rewrite Hc, drop_all by exact Hr.
  cbn [drop_while]. change (is_word "[") with false. cbn [andb]. reflexivity.
Qed.
Lemma range_like_plain w : symbol w -> range_like w = false.
Proof.
  intros H. destruct (symbol_cons w H) as (c & r & -> & Hc & Hr & _). cbn [range_like]. rewrite Hc.
  rewrite <- (app_nil_r r), drop_all by exact Hr. reflexivity.
Qed.
Definition short_ok (i : N) : bool :=
  match dec i ++ ["]"] with
  | d :: _ :: _ :: r => negb (is_digit d && match drop_while is_digit r with "]" :: _ => true | _ => false end)
  | _ => true
  end.
Lemma short_all : forallb (fun k => short_ok (N.of_nat k)) (seq 0 100) = true.
Proof. vm_compute. reflexivity. Qed.
Lemma below (b : nat) i : (i < N.of_nat b)%N -> In (N.to_nat i) (seq 0 b).
Proof. intros H. apply in_seq. lia. Qed.
Lemma range_like_element w i : symbol w -> (i < 100)%N -> range_like (w ++ "[" :: dec i ++ ["]"]) = false.
Proof.
  intros Hw Hi. rewrite range_like_app by exact Hw.
  assert (S1 : short_ok i = true).
  { pose proof (proj1 (forallb_forall _ _) short_all (N.to_nat i) (below 100 i Hi)) as H. cbn beta in H. rewrite N2Nat.id in H. exact H. }
  unfold short_ok in S1. destruct (dec i ++ ["]"]) as [|d [|x [|y r]]]; try reflexivity. apply negb_true_iff. exact S1.
Qed.
Lemma dec_single lo : (lo < 10)%N -> exists d, dec lo = [d] /\ is_digit d = true.
Proof.
  intros H. assert (A : forallb (fun k => match dec (N.of_nat k) with [d] => is_digit d | _ => false end) (seq 0 10) = true) by (vm_compute; reflexivity).
  pose proof (proj1 (forallb_forall _ _) A (N.to_nat lo) (below 10 lo H)) as B. cbn beta in B. rewrite N2Nat.id in B.
  destruct (dec lo) as [|d [|]]; try discriminate. exists d. auto.
Qed.
Lemma range_like_range w lo hi : symbol w -> (lo < 10)%N -> range_like (w ++ "[" :: dec lo ++ "." :: "." :: dec hi ++ ["]"]) = true.
Proof.
  intros Hw Hl. rewrite range_like_app by exact Hw. destruct (dec_single lo Hl) as (d & -> & Hd). cbn [app]. rewrite Hd.
  rewrite drop_all by apply dec_digits. reflexivity.
Qed.

(** ** What one line does *)
Definition effect (e : entry) : list (str * N) :=
  match e with
  | One s c => [(spelled s, c)]
  | Range w lo hi c =>
      map (fun k => (spelled (Element w (lo + N.of_nat k)), c + N.of_nat k)%N) (seq 0 (N.to_nat (hi + 1 - lo)))
  end.
Definition set_all (m : mapping) (l : list (str * N)) : mapping := fold_left (fun m p => map_set m (fst p) (snd p)) l m.
Lemma read_written m e : readable e -> read_line m (written e) = Some (set_all m (effect e)).
Proof.
  intros [Hs Hr]. unfold read_line. rewrite (written_line e Hs), written_name.
  rewrite before_app by apply names_no_colon, name_names, Hs.
  rewrite after_app by apply names_no_colon, name_names, Hs.
  rewrite before_none by (apply dec_no; reflexivity). rewrite int_dec.
  destruct e as [[w|w i] c|w lo hi c]; cbn [name_of spelled entry_symbol symbol_of column_of effect] in *.
  - rewrite range_like_plain by exact Hs. reflexivity.
  - rewrite range_like_element by assumption. reflexivity.
  - rewrite range_like_range by assumption. rewrite after_app by apply symbol_no_bracket, Hs.
    rewrite before_app by apply symbol_no_bracket, Hs.
    change (dec lo ++ "." :: "." :: dec hi ++ ["]"]) with (dec lo ++ ["."; "."] ++ dec hi ++ ["]"]). rewrite !app_assoc.
    rewrite before_app.
    2: { rewrite !forallb_app, !dec_no by reflexivity. reflexivity. }
    rewrite <- app_assoc. cbn [app]. rewrite split_dots_two by (apply dec_no; reflexivity). rewrite !int_dec.
    f_equal. unfold set_all. generalize (seq 0 (N.to_nat (hi + 1 - lo))). intros l. revert m.
    induction l as [|k l IH]; intros m; [reflexivity|]. cbn [fold_left map fst snd]. apply IH.
Qed.
Lemma read_all : forall es m, Forall readable es -> read_lines m (map written es) = Some (set_all m (flat_map effect es)).
Proof.
  induction es as [|e es IH]; intros m H; [reflexivity|]. inversion H; subst. cbn [map read_lines]. rewrite read_written by assumption.
  rewrite IH by assumption. unfold set_all. cbn [flat_map]. rewrite fold_left_app. reflexivity.
Qed.

(** ** Lookups *)
Lemma get_set m k v x : map_get (map_set m k v) x = if str_eqb k x then Some v else map_get m x.
Proof.
  induction m as [|[k' v'] m IH]; cbn; [reflexivity|].
  destruct (str_eqb k' k) eqn:E; cbn.
  - apply str_eqb_eq in E as ->. destruct (str_eqb k x); reflexivity.
  - destruct (str_eqb k' x) eqn:E'; [|exact IH]. apply str_eqb_eq in E' as ->.
    destruct (str_eqb k x) eqn:E2; [|reflexivity]. apply str_eqb_eq in E2 as ->. rewrite str_eqb_refl in E. discriminate.
Qed.
Lemma get_set_all : forall l m x v, map_get (set_all m l) x = Some v <->
  (exists a b, l = a ++ (x, v) :: b /\ ~ In x (map fst b)) \/ (map_get m x = Some v /\ ~ In x (map fst l)).
Proof.
  induction l as [|[k w] l IH]; intros m x v; cbn.
  - split; [intros H; right; auto|]. intros [(a & b & E & _)|[H _]]; [destruct a; discriminate|exact H].
  - change (fold_left _ l (map_set m k w)) with (set_all (map_set m k w) l). rewrite IH, get_set. split.
    + intros [(a & b & -> & N)|[H N]].
      * left. exists ((k, w) :: a), b. auto.
      * destruct (str_eqb k x) eqn:E.
        { apply str_eqb_eq in E as ->. injection H as ->. left. exists [], l. auto. }
        { right. split; [exact H|]. intros [->|F]; [rewrite str_eqb_refl in E; discriminate|contradiction]. }
    + intros [(a & b & E & N)|[H N]].
      * destruct a as [|p a]; injection E as E1 E2.
        { subst. right. rewrite str_eqb_refl. auto. }
        { subst. left. exists a, b. auto. }
      * right. destruct (str_eqb k x) eqn:E; [apply str_eqb_eq in E as ->; destruct N; auto|]. auto.
Qed.

Lemma spelled_inj s s' : symbol (symbol_of s) -> symbol (symbol_of s') -> spelled s = spelled s' -> s = s'.
Proof.
  assert (P : forall w w' t, symbol w -> symbol w' -> w = w' ++ "[" :: t -> False).
  { intros w w' t H _ E. apply symbol_no_bracket in H. rewrite E, forallb_app in H. apply andb_true_iff in H as [_ H].
    cbn in H. discriminate. }
  destruct s as [w|w i], s' as [w'|w' i']; cbn [symbol_of spelled]; intros H H' E.
  - congruence.
  - destruct (P _ _ _ H H' E).
  - symmetry in E. destruct (P _ _ _ H' H E).
  - assert (B : before "[" (w ++ "[" :: dec i ++ ["]"]) = before "[" (w' ++ "[" :: dec i' ++ ["]"])) by congruence.
    rewrite !before_app in B by (apply symbol_no_bracket; assumption). subst w'.
    apply app_inv_head in E. injection E as E. apply app_inj_tail in E as [E _]. apply dec_inj in E as ->. reflexivity.
Qed.

Lemma effect_gives e x col : In (x, col) (effect e) <-> exists s, x = spelled s /\ gives e s col.
Proof.
  destruct e as [s c|w lo hi c]; cbn [effect gives].
  - split.
    + intros [H|[]]. injection H as <- <-. exists s. auto.
    + intros (s' & -> & -> & ->). left; reflexivity.
  - rewrite in_map_iff. split.
    + intros (k & E & Hk). injection E as <- <-. apply in_seq in Hk. exists (Element w (lo + N.of_nat k)). split; [reflexivity|].
      exists (lo + N.of_nat k)%N. repeat split; lia.
    + intros (s & -> & i & -> & R & ->). exists (N.to_nat (i - lo)). split; [|apply in_seq; lia].
      f_equal; [|lia]. do 2 f_equal. lia.
Qed.
Lemma gives_symbol e s col : gives e s col -> symbol_of s = entry_symbol e.
Proof. destruct e as [s' c|w lo hi c]; cbn; [intros [-> _]; reflexivity|intros (i & -> & _); reflexivity]. Qed.
Lemma gives_unique e s c1 c2 : gives e s c1 -> gives e s c2 -> c1 = c2.
Proof.
  destruct e as [s' c|w lo hi c]; cbn; [intros [_ ->] [_ ->]; reflexivity|].
  intros (i & -> & _ & ->) (j & E & _ & ->). injection E as ->. reflexivity.
Qed.

Lemma readable_reads es : Forall readable es -> reads es.
Proof.
  intros H. exists (set_all [] (flat_map effect es)).
  assert (Sy : forall e, In e es -> symbol (entry_symbol e)) by (intros e He; rewrite Forall_forall in H; apply (H e He)).
  split; [|split].
  - unfold read_map. rewrite split_file.
    + apply read_all, H.
    + apply Forall_forall. intros e He. apply written_no_break, Sy, He.
  - intros s col Hs. rewrite get_set_all. split.
    + intros [(a & b & E & N)|[F _]]; [|discriminate].
      assert (G : forall es', incl es' es -> forall a b, flat_map effect es' = a ++ (spelled s, col) :: b -> ~ In (spelled s) (map fst b) ->
                exists before e after, es' = before ++ e :: after /\ gives e s col /\ forall e' c, In e' after -> ~ gives e' s c).
      { clear a b E N. induction es' as [|e es' IH]; intros I a b E N; [destruct a; discriminate|]. cbn [flat_map] in E.
        assert (C : (exists b', effect e = a ++ (spelled s, col) :: b' /\ b = b' ++ flat_map effect es') \/
                    (exists a', a = effect e ++ a' /\ flat_map effect es' = a' ++ (spelled s, col) :: b)).
        { revert a E. induction (effect e) as [|p l IHl]; intros a E; cbn in E.
          - right. exists a. auto.
          - destruct a as [|q a]; cbn in E; injection E as -> E.
            + left. exists l. auto.
            + destruct (IHl a E) as [(b' & -> & ->)|(a' & -> & ->)]; [left; exists b'; auto|right; exists a'; auto]. }
        destruct C as [(b' & E1 & ->)|(a' & -> & E2)].
        - exists [], e, es'. split; [reflexivity|]. split.
          + assert (Q : In (spelled s, col) (effect e)) by (rewrite E1; apply in_app_iff; right; left; reflexivity).
            apply effect_gives in Q as (s' & Es & G). apply spelled_inj in Es; [subst; exact G|exact Hs|].
            rewrite (gives_symbol _ _ _ G). apply Sy, I. left; reflexivity.
          + intros e' c He' G. apply N. rewrite map_app. apply in_app_iff. right. apply in_map_iff. exists (spelled s, c). split; [reflexivity|].
            apply in_flat_map. exists e'. split; [exact He'|]. apply effect_gives. exists s. auto.
        - destruct (IH (fun x Hx => I x (or_intror Hx)) a' b E2 N) as (be & e' & af & -> & G1 & G2).
          exists (e :: be), e', af. auto. }
      destruct (G es (incl_refl es) a b E N) as (be & e & af & Ee & G1 & G2). exists be, e, af. auto.
    + intros (be & e & af & -> & G1 & G2). left. rewrite flat_map_app. cbn [flat_map].
      assert (Q : In (spelled s, col) (effect e)) by (apply effect_gives; exists s; auto).
      assert (Nd : NoDup (map fst (effect e))).
      { assert (Se : symbol (entry_symbol e)) by (apply Sy, in_app_iff; right; left; reflexivity).
        destruct e as [s' c|w lo hi c]; cbn [effect]; [repeat constructor; intros []|].
        rewrite map_map. cbn [fst]. apply FinFun.Injective_map_NoDup; [|apply seq_NoDup].
        intros x y E. apply spelled_inj in E; [|exact Se|exact Se]. injection E as E. lia. }
      apply in_split in Q as (l1 & l2 & El). rewrite El in *. exists (flat_map effect be ++ l1), (l2 ++ flat_map effect af).
      split; [rewrite <- !app_assoc; reflexivity|]. rewrite map_app. rewrite in_app_iff. intros [F|F].
      * rewrite map_app in Nd. cbn [map fst] in Nd. apply NoDup_remove_2 in Nd. apply Nd, in_app_iff. auto.
      * apply in_map_iff in F as ([x c] & Ex & F). cbn in Ex. subst x. apply in_flat_map in F as (e' & He' & F).
        apply effect_gives in F as (s' & Es & G). apply spelled_inj in Es; [subst; exact (G2 e' c He' G)|exact Hs|].
        rewrite (gives_symbol _ _ _ G). apply Sy, in_app_iff. right; right; exact He'.
  - intros k col G. apply get_set_all in G as [(a & b & E & _)|[F _]]; [|discriminate].
    assert (Q : In (k, col) (flat_map effect es)) by (rewrite E; apply in_app_iff; right; left; reflexivity).
    apply in_flat_map in Q as (e & He & Q). apply effect_gives in Q as (s & -> & G). exists s. split; [|reflexivity].
    rewrite (gives_symbol _ _ _ G). apply Sy, He.
Qed.

(** ** Program signals *)
Lemma assign_spec m : forall ss, match assign_ids m ss with
  | Some l => Forall2 (fun s i => map_get m s = Some i) ss l
  | None => exists s, In s ss /\ map_get m s = None
  end.
Proof.
  induction ss as [|s ss IH]; cbn; [constructor|]. destruct (map_get m s) as [i|] eqn:E.
  - destruct (assign_ids m ss) as [l|]; [constructor; auto|]. destruct IH as (x & H1 & H2). exists x. auto.
  - exists s. auto.
Qed.

(** ** Generated files *)
Lemma write_file : forall ss i, write_map (number_signals i (map spelled ss)) =
  file (map (fun p => One (snd p) (i + N.of_nat (fst p))%N) (combine (seq 0 (length ss)) ss)).
Proof.
  unfold write_map, file.
  assert (G : forall ss i j, flat_map (fun p => fst p ++ ":" :: dec (snd p) ++ ["010"]) (number_signals (i + N.of_nat j) (map spelled ss)) =
    flat_map (fun e => written e ++ ["010"]) (map (fun p => One (snd p) (i + N.of_nat (fst p))%N) (combine (seq j (length ss)) ss))).
  { induction ss as [|s ss IH]; intros i j; [reflexivity|]. cbn [map number_signals flat_map length seq combine fst snd written].
    replace (i + N.of_nat j + 1)%N with (i + N.of_nat (S j))%N by lia. rewrite IH, <- !app_assoc. cbn [app]. rewrite <- !app_assoc. reflexivity. }
  intros ss i. specialize (G ss i O). cbn [N.of_nat] in G. rewrite N.add_0_r in G. exact G.
Qed.
Definition short (s : signal) : Prop := symbol (symbol_of s) /\ match s with Plain _ => True | Element _ i => (i < 100)%N end.
Lemma generated_reads ss : NoDup ss -> Forall short ss ->
  exists m, read_map (write_map (number_signals 0 (map spelled ss))) = Some m /\
    forall k s, nth_error ss k = Some s -> map_get m (spelled s) = Some (N.of_nat k).
Proof.
  intros Nd H. rewrite write_file. set (es := map _ _).
  destruct (readable_reads es) as (m & E & G & _).
  { apply Forall_forall. intros e He. apply in_map_iff in He as ([j s] & <- & Hp). apply in_combine_r in Hp.
    rewrite Forall_forall in H. destruct (H s Hp) as [H1 H2]. split; [exact H1|]. destruct s; exact H2. }
  exists m. split; [exact E|]. intros k s Hk. apply G.
  - rewrite Forall_forall in H. apply (H s). eapply nth_error_In, Hk.
  - unfold es. clear es E G H. assert (Q : forall j ss k, NoDup ss -> nth_error ss k = Some s ->
      lists (map (fun p => One (snd p) (0 + N.of_nat (fst p))%N) (combine (seq j (length ss)) ss)) s (N.of_nat (j + k))).
    { clear. intros j ss. revert j. induction ss as [|x ss IH]; intros j [|k] Nd Hk; try discriminate; cbn [length seq combine map fst snd].
      - injection Hk as ->. exists [], (One s (0 + N.of_nat j)%N), (map (fun p => One (snd p) (0 + N.of_nat (fst p))%N) (combine (seq (S j) (length ss)) ss)).
        split; [reflexivity|]. split; [split; [reflexivity|lia]|]. intros e' c He' G. apply in_map_iff in He' as ([a b] & <- & Hp).
        destruct G as [-> _]. cbn in *. apply in_combine_r in Hp. inversion Nd; contradiction.
      - inversion Nd; subst. destruct (IH (S j) k H2 Hk) as (be & e & af & Ee & G1 & G2).
        exists (One x (0 + N.of_nat j)%N :: be), e, af. cbn [app]. rewrite Ee. replace (j + S k) with (S j + k) by lia. auto. }
    apply (Q O ss k Nd Hk).
Qed.

(** ** Lines that are accepted *)
Lemma take_drop p : forall s, s = take_while p s ++ drop_while p s.
Proof. induction s as [|c s IH]; cbn; [reflexivity|]. destruct (p c); cbn; [f_equal; exact IH|reflexivity]. Qed.
Lemma take_while_all p : forall s, forallb p (take_while p s) = true.
Proof. induction s as [|c s IH]; cbn; [reflexivity|]. destruct (p c) eqn:E; cbn; [rewrite E; exact IH|reflexivity]. Qed.
Lemma drop_while_head p : forall s c r, drop_while p s = c :: r -> p c = false.
Proof.
  induction s as [|x s IH]; cbn; intros c r H; [discriminate|]. destruct (p x) eqn:E; [eapply IH, H|congruence].
Qed.
Lemma int_digits_form : forall s b l, int_digits s b = Some l ->
  exists num blanks, s = num ++ blanks /\ forallb is_blank blanks = true /\
    (if b then num = [] \/ numeral num \/ exists n, num = "_" :: n /\ numeral n else numeral num).
Proof.
  induction s as [|c s IH]; intros b l H.
  - cbn in H. destruct b; [|discriminate]. exists [], []. auto.
  - cbn [int_digits] in H. destruct (is_digit c) eqn:D.
    + destruct (int_digits s true) as [l'|] eqn:E; [|discriminate]. destruct (IH _ _ E) as (num & bl & -> & B & F).
      exists (c :: num), bl. split; [reflexivity|]. split; [exact B|].
      assert (N : numeral (c :: num)).
      { destruct F as [->|[F|(n & -> & F)]]; [apply num_digit|apply num_more|apply num_underscore]; assumption. }
      destruct b; [auto|exact N].
    + destruct (c =? "_") eqn:U.
      * apply Ascii.eqb_eq in U as ->. destruct b; [|discriminate]. destruct (IH _ _ H) as (num & bl & -> & B & F).
        exists ("_" :: num), bl. split; [reflexivity|]. split; [exact B|]. right. right. exists num. auto.
      * destruct b; [|discriminate]. cbn [andb] in H. destruct (forallb is_blank (c :: s)) eqn:B; [|discriminate].
        exists [], (c :: s). auto.
Qed.
Lemma read_line_form m line m' : read_line m line = Some m' -> map_entry_line line.
Proof.
  unfold read_line. destruct (map_line line) eqn:M; [|discriminate].
  destruct (int_of (before ":" (after ":" line))) as [sid|] eqn:N; [|discriminate]. intros _.
  unfold map_line in M. destruct line as [|c line]; [discriminate|]. apply andb_true_iff in M as [Hc M].
  assert (Nc : (c =? ":") = false) by apply (name_break c), (head_facts c Hc).
  assert (Hn := take_while_all is_name line). pose proof (take_drop is_name line) as E.
  set (name := take_while is_name line) in *. destruct (drop_while is_name line) as [|x r] eqn:Dw; [discriminate|].
  assert (x = ":") as ->.
  { clear - M. destruct x as [[] [] [] [] [] [] [] []]; try discriminate; reflexivity. }
  assert (A : after ":" (c :: line) = r).
  { rewrite E. change (c :: name ++ ":" :: r) with ((c :: name) ++ ":" :: r). apply after_app. cbn. rewrite Nc.
    apply names_no_colon, Hn. }
  rewrite A in N. unfold int_of in N. destruct (int_digits (before ":" r) false) as [l|] eqn:I; [|discriminate].
  destruct (int_digits_form _ _ _ I) as (num & blanks & Eb & B & F).
  exists c, name, num, blanks, (drop_while (fun x => negb (x =? ":")) r).
  split.
  { rewrite E at 1. f_equal. f_equal. f_equal. rewrite app_assoc, <- Eb. apply take_drop. }
  split; [exact Hc|]. split; [exact Hn|]. split; [exact F|]. split; [exact B|].
  destruct (drop_while _ r) as [|y z] eqn:Dr; [left; reflexivity|]. right. exists z. f_equal.
  apply drop_while_head in Dr. apply negb_false_iff, Ascii.eqb_eq in Dr. exact Dr.
Qed.
Lemma accepted_lines content m : read_map content = Some m -> Forall map_entry_line (split_lines content []).
Proof.
  unfold read_map. generalize (split_lines content []). intros ls. generalize (@nil (str * N)) at 1. revert m.
  induction ls as [|l ls IH]; intros m m0 H; [constructor|]. cbn in H. destruct (read_line m0 l) as [m1|] eqn:E; [|discriminate].
  constructor; [eapply read_line_form, E|eapply IH, H].
Qed.
