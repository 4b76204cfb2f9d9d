(** * Proofs about the text of the "print_stats" command *)
From Coq Require Import List Arith Bool Ascii String Lia.
From Verif Require Import StatsText StatsTextSpec.
Import ListNotations.
Local Open Scope nat_scope.
Local Open Scope list_scope.

Lemma starts_prefix a b : starts a b = true <-> prefix a b.
Proof.
  revert b. induction a as [|c a IH]; intros b; cbn.
  - split; [intros _; exists b; reflexivity|reflexivity].
  - destruct b as [|d b]; cbn; [split; [discriminate|intros [r H]; discriminate H]|].
    rewrite andb_true_iff, IH, Ascii.eqb_eq. split.
    + intros [-> [r ->]]. exists r. reflexivity.
    + intros [r H]. injection H as <- ->. split; [reflexivity|exists r; reflexivity].
Qed.
Lemma replace_skip old new x s : replace old new (x ++ s) (List.length x) = replace old new s 0.
Proof. induction x as [|c x IH]; cbn; [reflexivity|exact IH]. Qed.
Lemma replace_here h t new s : replace (h :: t) new ((h :: t) ++ s) 0 = new ++ replace (h :: t) new s 0.
Proof.
  cbn [app replace]. assert (E : starts (h :: t) (h :: t ++ s) = true) by (apply starts_prefix; exists s; reflexivity).
  rewrite E. f_equal. cbn [List.length]. rewrite Nat.sub_succ, Nat.sub_0_r. apply replace_skip.
Qed.
Lemma replace_plain h t new x s : ~ In h x -> replace (h :: t) new (x ++ s) 0 = x ++ replace (h :: t) new s 0.
Proof.
  induction x as [|c x IH]; cbn [app replace]; intros H; [reflexivity|].
  assert (E : starts (h :: t) (c :: x ++ s) = false).
  { cbn. destruct (Ascii.eqb_spec h c) as [->|]; [|reflexivity]. exfalso. apply H. left. reflexivity. }
  rewrite E, IH; [reflexivity|]. intros Hin. apply H. right. exact Hin.
Qed.

Definition str_dec : forall a b : str, {a = b} + {a <> b} := list_eq_dec ascii_dec.

(** ** A table of texts and their replacements, used one after the other *)
Definition mark (c : ascii) : Prop := c = "%"%char \/ c = "\"%char.
Definition no_mark (s : str) : Prop := forall c, mark c -> ~ In c s.
Lemma plain_no_mark s : plain s <-> no_mark s.
Proof.
  split.
  - intros [H1 H2] c [-> | ->]; assumption.
  - intros H. split; apply H; [left|right]; reflexivity.
Qed.
Definition marked (old : str) : Prop := exists h t, old = h :: t /\ mark h /\ no_mark t.

Inductive seg := Text (s : str) | Slot (old new : str).
Definition source (g : seg) : str := match g with Text s => s | Slot old _ => old end.
Definition target (g : seg) : str := match g with Text s => s | Slot _ new => new end.
(** Slots still in the table are not replaced yet. *)
Definition mem (old : str) (T : list (str * str)) : bool :=
  existsb (fun kv => if str_dec (fst kv) old then true else false) T.
Definition now (T : list (str * str)) (g : seg) : str :=
  match g with Text s => s | Slot old new => if mem old T then old else new end.

Lemma mem_in old T : mem old T = true <-> In old (map fst T).
Proof.
  unfold mem. rewrite existsb_exists, in_map_iff. split.
  - intros (kv & Hin & H). destruct (str_dec (fst kv) old) as [E|]; [|discriminate H]. eauto.
  - intros (kv & E & Hin). exists kv. split; [exact Hin|]. destruct (str_dec (fst kv) old); [reflexivity|contradiction].
Qed.

Definition seg_ok (g : seg) : Prop :=
  match g with Text s => no_mark s | Slot old new => marked old /\ no_mark new end.

Lemma prefix_app (s x y : str) : prefix s (x ++ y) -> prefix s x \/ exists s', s = x ++ s' /\ prefix s' y.
Proof.
  revert x. induction s as [|c s IH]; intros x [r H].
  - left. exists x. reflexivity.
  - destruct x as [|d x].
    + right. exists (c :: s). split; [reflexivity|]. exists r. exact H.
    + injection H as <- H. destruct (IH x) as [[r' E]|(s' & E & Hs')].
      * exists r. exact H.
      * left. exists r'. cbn. now rewrite E.
      * right. exists s'. cbn. split; [now rewrite E|exact Hs'].
Qed.
Lemma prefix_app_l (s x y : str) : prefix s x -> prefix s (x ++ y).
Proof. intros [r ->]. exists (r ++ y). now rewrite app_assoc. Qed.
Lemma prefix_app_r (s x y : str) : prefix s y -> prefix (x ++ s) (x ++ y).
Proof. intros [r ->]. exists r. now rewrite app_assoc. Qed.

Lemma now_target T gs s : Forall seg_ok gs -> no_mark s -> prefix s (flat_map (now T) gs) -> prefix s (flat_map target gs).
Proof.
  intros Hok. revert s. induction Hok as [|g gs Hg Hok IH]; cbn [flat_map]; intros s Hs H; [exact H|].
  assert (Hsame : now T g = target g -> prefix s (target g ++ flat_map target gs)).
  { intros E. rewrite E in H. apply prefix_app in H. destruct H as [H|(s' & -> & H)]; [now apply prefix_app_l|].
    apply prefix_app_r, IH; [|exact H]. intros c Hc Hin. apply (Hs c Hc). apply in_or_app. right. exact Hin. }
  destruct g as [x|old new]; [apply Hsame; reflexivity|]. cbn [now target] in *.
  destruct (mem old T); [|apply Hsame; reflexivity].
  destruct Hg as [(h & t & -> & Hh & _) _]. destruct s as [|c s]; [exists (new ++ flat_map target gs); reflexivity|].
  exfalso. destruct H as [r H]. injection H as -> _. apply (Hs c Hh). left. reflexivity.
Qed.

(** A slot is not continued to a longer one. *)
Fixpoint apart (T : list (str * str)) (gs : list seg) : Prop :=
  match gs with
  | [] => True
  | Text _ :: gs => apart T gs
  | Slot old _ :: gs =>
      (forall more, more <> [] -> In (old ++ more) (map fst T) -> ~ prefix more (flat_map target gs)) /\ apart T gs
  end.
(** No text of the table is the beginning of a later one. *)
Fixpoint ordered (T : list (str * str)) : Prop :=
  match T with
  | [] => True
  | kv :: T => (forall old, In old (map fst T) -> ~ prefix (fst kv) old) /\ ordered T
  end.
(** The slots are those of the table. *)
Definition slot_of (T : list (str * str)) (g : seg) : Prop :=
  match g with Text _ => True | Slot old new => forall new', In (old, new') T -> new' = new end.

Lemma replace_step old new T gs :
  marked old -> (forall o, In o (map fst T) -> ~ prefix old o) -> Forall seg_ok gs -> apart ((old, new) :: T) gs ->
  Forall (slot_of ((old, new) :: T)) gs ->
  replace old new (flat_map (now ((old, new) :: T)) gs) 0 = flat_map (now T) gs.
Proof.
  intros (h & t & Eold & Hh & Ht) Hord Hok. induction Hok as [|g gs Hg Hok IH]; intros Ha Hs; [reflexivity|].
  inversion Hs as [|x y Hg' Hs']; subst x y. cbn [flat_map].
  destruct g as [x|o n].
  - cbn [now]. rewrite Eold, replace_plain, <- Eold by (apply Hg; exact Hh). f_equal. apply IH; assumption.
  - cbn [apart] in Ha. destruct Ha as [Ha1 Ha2]. specialize (IH Ha2 Hs'). destruct Hg as [Ho Hn].
    destruct (str_dec old o) as [E|E].
    + subst o. assert (E1 : mem old ((old, new) :: T) = true) by (apply mem_in; left; reflexivity).
      assert (E2 : mem old T = false).
      { destruct (mem old T) eqn:Em; [|reflexivity]. apply mem_in in Em. exfalso. apply (Hord old Em). exists []. now rewrite app_nil_r. }
      cbn [now]. rewrite E1, E2. rewrite (Hg' new (or_introl eq_refl)) in *.
      rewrite Eold, replace_here, <- Eold. f_equal. exact IH.
    + assert (Em : mem o ((old, new) :: T) = mem o T).
      { unfold mem. cbn [existsb fst]. destruct (str_dec old o); [contradiction|reflexivity]. }
      cbn [now]. rewrite Em. destruct (mem o T) eqn:Emo.
      * destruct Ho as (h' & t' & Eo & Hh' & Ht').
        assert (Hno : ~ prefix old (o ++ flat_map (now ((old, new) :: T)) gs)).
        { intros Hp. apply prefix_app in Hp. destruct Hp as [Hp|(more & Em' & Hp)].
          - apply mem_in in Emo. exact (Hord o Emo Hp).
          - assert (Hm : more <> []) by (intros ->; rewrite app_nil_r in Em'; contradiction).
            apply (Ha1 more Hm); [rewrite <- Em'; left; reflexivity|].
            eapply now_target; [exact Hok| |exact Hp].
            rewrite Em', Eo in Eold. cbn in Eold. injection Eold as _ Et.
            intros c Hc Hin. apply (Ht c Hc). rewrite <- Et. apply in_or_app. right. exact Hin. }
        rewrite Eo in *. cbn [app] in *. cbn [replace].
        destruct (starts old (h' :: t' ++ flat_map (now ((old, new) :: T)) gs)) eqn:Es.
        { exfalso. apply Hno. apply starts_prefix. exact Es. }
        f_equal. rewrite Eold, replace_plain, <- Eold by (apply Ht'; exact Hh). f_equal. exact IH.
      * rewrite Eold, replace_plain, <- Eold by (apply Hn; exact Hh). f_equal. exact IH.
Qed.

Lemma apart_cons kv T gs : apart (kv :: T) gs -> apart T gs.
Proof.
  induction gs as [|[x|o n] gs IH]; cbn [apart]; auto. intros [H1 H2]. split; [|auto].
  intros more Hm Hin. apply H1; [exact Hm|]. right. exact Hin.
Qed.
Lemma slot_cons kv T g : slot_of (kv :: T) g -> slot_of T g.
Proof. destruct g; cbn; auto. Qed.
Lemma replace_all T gs : Forall marked (map fst T) -> ordered T -> Forall seg_ok gs -> apart T gs -> Forall (slot_of T) gs ->
  fold_left (fun text kv => replace (fst kv) (snd kv) text 0) T (flat_map (now T) gs) = flat_map target gs.
Proof.
  induction T as [|[old new] T IH]; cbn [map ordered fold_left fst snd]; intros Hm Ho Hok Ha Hs.
  - apply flat_map_ext. intros [x|o n]; reflexivity.
  - inversion Hm as [|x y Hm1 Hm2]; subst x y. destruct Ho as [Ho1 Ho2].
    rewrite replace_step; auto. apply IH; auto.
    + eapply apart_cons; exact Ha.
    + eapply Forall_impl; [|exact Hs]. intros g. apply slot_cons.
Qed.

(** ** The table of the statistics *)
Definition entry (values : string -> str) (kv : string * string) : str * str := ("%"%char :: s_ (fst kv), values (snd kv)).
Definition escapes : list (str * str) :=
  [(["\"; "n"], ["010"]); (["\"; """"], [""""]); (["\"; "t"], ["009"])]%char.
Definition table (values : string -> str) : list (str * str) := map (entry values) stats_format_map ++ escapes.
Lemma format_table values text :
  format values text = fold_left (fun text kv => replace (fst kv) (snd kv) text 0) (table values) text.
Proof. reflexivity. Qed.

(** Checked by computation: no key has a mark, none begins a later one. *)
Definition olds : list str := map (fun kv => "%"%char :: s_ (fst kv)) stats_format_map ++ map fst escapes.
Lemma table_olds values : map fst (table values) = olds.
Proof. unfold table, olds. rewrite map_app, map_map. reflexivity. Qed.
Definition is_mark (c : ascii) : bool := Ascii.eqb c "%" || Ascii.eqb c "\".
Lemma is_mark_iff c : is_mark c = true <-> mark c.
Proof. unfold is_mark, mark. rewrite orb_true_iff, !Ascii.eqb_eq. reflexivity. Qed.
Definition markedb (old : str) : bool :=
  match old with [] => false | h :: t => is_mark h && negb (existsb is_mark t) end.
Lemma markedb_marked old : markedb old = true -> marked old.
Proof.
  destruct old as [|h t]; [discriminate|]. cbn. rewrite andb_true_iff, negb_true_iff. intros [Hh Ht].
  exists h, t. split; [reflexivity|]. split; [apply is_mark_iff; exact Hh|]. intros c Hc Hin.
  assert (E : existsb is_mark t = true) by (apply existsb_exists; exists c; split; [exact Hin|apply is_mark_iff; exact Hc]).
  congruence.
Qed.
Fixpoint orderedb (l : list str) : bool :=
  match l with [] => true | o :: l => forallb (fun o' => negb (starts o o')) l && orderedb l end.
Lemma orderedb_ordered T : orderedb (map fst T) = true -> ordered T.
Proof.
  induction T as [|kv T IH]; cbn [map orderedb ordered]; [auto|]. rewrite andb_true_iff, forallb_forall. intros [H1 H2].
  split; [|auto]. intros old Hin Hp. specialize (H1 old Hin). apply starts_prefix in Hp. rewrite Hp in H1. discriminate H1.
Qed.
Lemma table_marked values : Forall marked (map fst (table values)).
Proof.
  rewrite table_olds. apply Forall_forall. intros o Hin. apply markedb_marked.
  assert (E : forallb markedb olds = true) by (vm_compute; reflexivity). rewrite forallb_forall in E. auto.
Qed.
Lemma table_ordered values : ordered (table values).
Proof. apply orderedb_ordered. rewrite table_olds. vm_compute. reflexivity. Qed.
Lemma ordered_unique T old n1 n2 : ordered T -> In (old, n1) T -> In (old, n2) T -> n1 = n2.
Proof.
  induction T as [|kv T IH]; cbn [ordered In]; [intros _ []|]. intros [Ho1 Ho2].
  assert (Hc : forall n, In (old, n) T -> fst kv = old -> False).
  { intros n Hin E. apply (Ho1 old); [change old with (fst (old, n)); apply in_map; exact Hin|]. exists []. now rewrite app_nil_r. }
  intros [-> |H1] [E|H2].
  - congruence.
  - exfalso. exact (Hc n2 H2 eq_refl).
  - subst kv. exfalso. exact (Hc n1 H1 eq_refl).
  - auto.
Qed.

(** ** Pieces as segments *)
Definition seg_of (values : string -> str) (p : piece) : seg :=
  match p with Plain s => Text s | p => Slot (spelled p) (printed values p) end.
Lemma attribute_in key a : attribute key = Some a -> In (key, a) stats_format_map.
Proof.
  unfold attribute. destruct (find _ stats_format_map) as [[k b]|] eqn:E; [|discriminate]. cbn. intros H. injection H as <-.
  apply find_some in E. destruct E as [E1 E2]. cbn in E2. apply String.eqb_eq in E2. subst k. exact E1.
Qed.
Lemma attribute_some key a : In (key, a) stats_format_map -> attribute key <> None.
Proof.
  intros H. unfold attribute. destruct (find _ stats_format_map) eqn:E; [discriminate|].
  pose proof (find_none _ _ E _ H) as X. cbn in X. rewrite String.eqb_refl in X. discriminate X.
Qed.
Lemma piece_entry values p : proper p -> match p with Plain _ => True | _ => In (spelled p, printed values p) (table values) end.
Proof.
  destruct p as [s|key| | |]; intros H; [exact I| | | |].
  2-4: apply in_or_app; right; cbn; auto.
  cbn [proper] in H. cbn [spelled printed]. destruct (attribute key) as [a|] eqn:E; [|congruence].
  apply in_or_app. left. apply in_map_iff. exists (key, a). split; [reflexivity|]. apply attribute_in, E.
Qed.
Lemma values_no_mark values p : (forall a, plain (values a)) -> proper p -> no_mark (printed values p).
Proof.
  intros Hv Hp. apply plain_no_mark. destruct p as [s|key| | |]; cbn [printed].
  - exact Hp.
  - cbn in Hp. destruct (attribute key); [apply Hv|congruence].
  - split; intros [H|[]]; discriminate H.
  - split; intros [H|[]]; discriminate H.
  - split; intros [H|[]]; discriminate H.
Qed.

Lemma table_key values o : In ("%"%char :: o) (map fst (table values)) -> exists key, attribute key <> None /\ o = s_ key.
Proof.
  unfold table. rewrite map_app, in_app_iff, map_map. intros [H|H].
  - apply in_map_iff in H. destruct H as ([k a] & E & Hin). cbn in E. injection E as <-. exists k. split; [|reflexivity].
    eapply attribute_some; exact Hin.
  - cbn in H. destruct H as [H|[H|[H|[]]]]; discriminate H.
Qed.
Lemma escape_key values o : In ("\"%char :: o) (map fst (table values)) -> List.length o = 1.
Proof.
  unfold table. rewrite map_app, in_app_iff, map_map. intros [H|H].
  - apply in_map_iff in H. destruct H as ([k a] & E & Hin). cbn in E. discriminate E.
  - cbn in H. destruct H as [H|[H|[H|[]]]]; injection H as <-; reflexivity.
Qed.

Lemma target_output values ps : flat_map target (map (seg_of values) ps) = output values ps.
Proof. unfold output. rewrite flat_map_concat_map, map_map, <- flat_map_concat_map. apply flat_map_ext. intros []; reflexivity. Qed.

Lemma pieces_apart values ps : unambiguous values ps -> apart (table values) (map (seg_of values) ps).
Proof.
  induction ps as [|p ps IH]; intros H; cbn [map apart]; [exact Logic.I|].
  assert (Hps : unambiguous values ps).
  { intros before key rest E. apply (H (p :: before) key rest). rewrite E. reflexivity. }
  assert (Hesc : forall c more, more <> [] -> In ("\"%char :: c :: more) (map fst (table values)) -> False).
  { intros c more Hm Hin. apply escape_key in Hin. cbn in Hin. destruct more; [contradiction|discriminate Hin]. }
  destruct p as [s|key| | |]; cbn [seg_of]; try (apply IH; exact Hps); (split; [|apply IH; exact Hps]);
    intros more Hm Hin; rewrite target_output; cbn [spelled app] in Hin.
  - apply table_key in Hin. destruct Hin as (longer & Hl & E).
    apply (H [] key ps eq_refl longer more Hl); [symmetry; exact E|exact Hm].
  - exfalso. exact (Hesc _ _ Hm Hin).
  - exfalso. exact (Hesc _ _ Hm Hin).
  - exfalso. exact (Hesc _ _ Hm Hin).
Qed.

Lemma format_output values ps : (forall a, plain (values a)) -> Forall proper ps -> unambiguous values ps ->
  format values (template ps) = output values ps.
Proof.
  intros Hv Hp Hu. rewrite format_table.
  replace (template ps) with (flat_map (now (table values)) (map (seg_of values) ps)).
  - rewrite replace_all.
    + apply target_output.
    + apply table_marked.
    + apply table_ordered.
    + apply Forall_forall. intros g Hg. apply in_map_iff in Hg. destruct Hg as (p & <- & Hin).
      rewrite Forall_forall in Hp. specialize (Hp p Hin). pose proof (piece_entry values p Hp) as He.
      pose proof (values_no_mark values p Hv Hp) as Hn. pose proof (table_marked values) as Hm. rewrite Forall_forall in Hm.
      assert (Hmp : In (spelled p, printed values p) (table values) -> marked (spelled p)).
      { intros Hi. apply Hm. change (spelled p) with (fst (spelled p, printed values p)). apply in_map, Hi. }
      destruct p; cbn [seg_of seg_ok]; auto.
    + apply pieces_apart, Hu.
    + apply Forall_forall. intros g Hg. apply in_map_iff in Hg. destruct Hg as (p & <- & Hin).
      rewrite Forall_forall in Hp. specialize (Hp p Hin). pose proof (piece_entry values p Hp) as He.
      destruct p; cbn [seg_of slot_of]; auto; intros new' Hin'; eapply ordered_unique; eauto using table_ordered.
  - rewrite flat_map_concat_map, map_map, <- flat_map_concat_map. unfold template.
    clear Hu. induction Hp as [|p ps Hp1 Hp IH]; cbn [flat_map]; [reflexivity|]. rewrite IH. f_equal.
    pose proof (piece_entry values p Hp1) as He.
    assert (Hmem : In (spelled p, printed values p) (table values) -> now (table values) (Slot (spelled p) (printed values p)) = spelled p).
    { intros Hi. cbn [now]. assert (E : mem (spelled p) (table values) = true).
      { apply mem_in. change (spelled p) with (fst (spelled p, printed values p)). apply in_map, Hi. }
      rewrite E. reflexivity. }
    destruct p; cbn [seg_of]; auto.
Qed.

(** ** Keys that begin longer keys *)
Lemma longer_keys : forallb (fun k => forallb (fun l => negb (starts (s_ (fst k)) (s_ (fst l))) || String.eqb (fst k) (fst l)
  || String.eqb (fst k) "asmtl" && String.eqb (fst l) "asmtltemp") stats_format_map) stats_format_map = true.
Proof. vm_compute. reflexivity. Qed.
Lemma continued key longer more : attribute key <> None -> attribute longer <> None ->
  s_ longer = s_ key ++ more -> more <> [] -> key = "asmtl"%string /\ more = s_ "temp".
Proof.
  intros Hk Hl E Hm. destruct (attribute key) as [a|] eqn:Ek; [|congruence]. destruct (attribute longer) as [b|] eqn:El; [|congruence].
  apply attribute_in in Ek. apply attribute_in in El. pose proof longer_keys as H. rewrite forallb_forall in H.
  specialize (H _ Ek). cbn beta in H. rewrite forallb_forall in H. specialize (H _ El). cbn [fst] in H.
  assert (Es : starts (s_ key) (s_ longer) = true) by (apply starts_prefix; exists more; exact E).
  rewrite Es in H. cbn [negb orb] in H. apply orb_prop in H. destruct H as [H|H].
  - apply String.eqb_eq in H. subst longer. exfalso. apply Hm. apply (app_inv_head (s_ key)). rewrite app_nil_r. symmetry. exact E.
  - apply andb_prop in H. destruct H as [H1 H2]. apply String.eqb_eq in H1. apply String.eqb_eq in H2. subst.
    split; [reflexivity|]. apply (app_inv_head (s_ "asmtl")). rewrite <- E. reflexivity.
Qed.
Lemma format_simple values ps : (forall a, plain (values a)) -> Forall proper ps -> ~ In (Stat "asmtl") ps ->
  format values (template ps) = output values ps.
Proof.
  intros Hv Hp Hn. apply format_output; auto. intros before key rest E longer more Hl El Hm.
  assert (Hin : In (Stat key) ps) by (rewrite E; apply in_or_app; right; left; reflexivity).
  rewrite Forall_forall in Hp. destruct (continued key longer more (Hp _ Hin) Hl El Hm) as [-> _]. contradiction.
Qed.
