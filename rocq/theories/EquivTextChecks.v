(** * Equivalence files: from the text to the answer, and texts read otherwise (proofs) *)
From Coq Require Import List Arith NArith ZArith Bool Ascii String Lia.
From Verif Require Import Mltl MapFile SmtSpec SymSmt SymSmtSpec SymSmtQueries EquivText EquivTextSpec EquivTextProofs.
Import ListNotations.
Local Open Scope list_scope.
Local Open Scope nat_scope.

Definition as_trees (name : nat -> bool * N) (fl : equiv_file) : list tree * list tree :=
  (map constraint_tree (constraints fl), map (formula_tree name) (formulas fl)).
Lemma text_file name s fl fl' : (forall a b, name a = name b -> a = b) -> written name s fl ->
  read_equiv s = Some (as_trees name fl') -> fl' = fl.
Proof.
  intros Hn W R. apply read_written in W. rewrite W in R. unfold as_trees in R. injection R as Ec Ef.
  apply (map_inj _ constraint_tree_inj) in Ec. apply (map_inj _ (formula_tree_inj name Hn)) in Ef.
  destruct fl, fl'. cbn in *. congruence.
Qed.
Lemma text_verdict name s fl fl' answers : (forall a b, name a = name b -> a = b) -> written name s fl ->
  (forall p, In p (formulas fl) -> no_mission fl p) -> (forall p, In p (formulas fl) -> starts_later fl p) ->
  read_equiv s = Some (as_trees name fl') ->
  Forall2 (fun pq a => exists r, a = Answered r /\ SymSmtSpec.right (squery false fl' (sdiffer (fst pq) (snd pq))) r)
          (adjacent (formulas fl')) answers ->
  (fst (check_equiv answers) = Equiv -> all_equivalent fl) /\
  (fst (check_equiv answers) = NotEquiv ->
   exists M v p q, In (p, q) (adjacent (formulas fl)) /\ admits fl p q M v /\ ~ equivalent (instance M v p) (instance M v q)).
Proof.
  intros Hn W Hm Hl R H. rewrite (text_file name s fl fl' Hn W R) in H.
  exact (conj (file_equivalent fl answers Hm Hl H) (file_different fl answers Hm Hl H)).
Qed.

(** ** "c: b0 + b1 * 2 = 4" *)
Definition product_text : str := quoted "c: b0 + b1 * 2 = 4" ++ ["010"%char].
Definition product_tokens : list token := [TBound 0; TOp OAdd; TBound 1; TOp OMul; TNum 2; TOp OEq; TNum 4].
Definition product_c := Constr Req (BAdd (BVar 0) (BMul (BVar 1) (BNum 2))) (BNum 4).
Definition product_read := Constr Req (BMul (BAdd (BVar 0) (BVar 1)) (BNum 2)) (BNum 4).
Lemma product_spells : spells product_text (TConstraint :: product_tokens ++ [TNewline]).
Proof.
  assert (B : forall t s ts, spells s ts -> apart t (" "%char :: s) -> spells (spelling t ++ " "%char :: s) (t :: ts)).
  { intros t s ts H A. apply sp_token; [apply sp_blank; auto|exact A]. }
  assert (N : forall t s ts, spells s ts -> apart t s -> spells (spelling t ++ s) (t :: ts)) by (intros; apply sp_token; assumption).
  unfold product_text, product_tokens. cbn [app].
  refine (B TConstraint _ _ _ _); [|exact Logic.I]. refine (B (TBound 0) _ _ _ _); [|reflexivity].
  refine (B (TOp OAdd) _ _ _ _); [|exact Logic.I]. refine (B (TBound 1) _ _ _ _); [|reflexivity].
  refine (B (TOp OMul) _ _ _ _); [|exact Logic.I]. refine (B (TNum 2) _ _ _ _); [|reflexivity].
  refine (B (TOp OEq) _ _ _ _); [|exact Logic.I]. refine (N (TNum 4) _ _ _ _); [|reflexivity].
  refine (N TNewline [] [] sp_nil Logic.I).
Qed.
Lemma c_up l m ts e : l <= m -> c_term m ts e -> c_term l ts e.
Proof. induction 1 as [|m _ IH]; [auto|]. intros H. apply IH, ct_higher, H. Qed.
Lemma product_in_c : c_term 5 product_tokens (constraint_tree product_c).
Proof.
  apply (ct_equal OEq [TBound 0; TOp OAdd; TBound 1; TOp OMul; TNum 2] _ [TNum 4] (Num 4)); [constructor| |].
  - apply (c_up 5 7); [lia|]. apply (ct_sum OAdd [TBound 0] (Bound 0) [TBound 1; TOp OMul; TNum 2]); [auto| |].
    + apply (c_up 7 9); [lia|constructor].
    + apply (ct_product OMul [TBound 1] (Bound 1) [TNum 2] (Num 2)); [auto| |constructor]. apply (c_up 8 9); [lia|constructor].
  - apply (c_up 6 9); [lia|constructor].
Qed.
Lemma product_refuted : exists s ts c c' M v, spells s (TConstraint :: ts ++ [TNewline]) /\
  c_term 5 ts (constraint_tree c) /\ read_equiv s = Some ([constraint_tree c'], []) /\ meets M v c /\ ~ meets M v c'.
Proof.
  exists product_text, product_tokens, product_c, product_read, 0, (fun n => if n =? 0 then 2 else 1).
  split; [exact product_spells|]. split; [exact product_in_c|]. split; [vm_compute; reflexivity|].
  split; [reflexivity|]. unfold meets. cbn. lia.
Qed.

(** ** Characters outside the language, comments and empty lines *)
Lemma illegal_refuted : exists s p, (forall ts, ~ spells s ts) /\ read_equiv s = Some ([], [p]).
Proof.
  exists (quoted "a0 @" ++ ["010"%char]), (Atom 0). split; [|vm_compute; reflexivity]. intros ts H.
  assert (NoAt : forall s ts, spells s ts -> ~ In "@"%char s \/ In "#"%char s).
  { clear. intros s ts H. induction H as [|c s ts Hc _ IH|body s ts _ _ _|t s ts _ IH _].
    - left. intros [].
    - destruct IH as [IH|IH]; [left|right; right; exact IH]. intros [E|E]; [|exact (IH E)]. destruct Hc as [-> | ->]; discriminate E.
    - right. left. reflexivity.
    - destruct IH as [IH|IH]; [|right; apply in_or_app; right; exact IH]. left. intros E. apply in_app_or in E. destruct E as [E|E]; [|exact (IH E)].
      assert (D : forall n, ~ In "@"%char (dec n)).
      { intros n K. pose proof (MapProofs.dec_digits n) as A. rewrite forallb_forall in A. specialize (A _ K). discriminate A. }
      destruct t as [| |o|[]|[]|[]|n|n|n|n| | | | | | | | |]; cbn in E;
        try (destruct o; cbn in E); try exact (D _ E); repeat (destruct E as [E|E]; [discriminate E|]); try exact (D _ E); exact E. }
  destruct (NoAt _ _ H) as [K|K]; [apply K; cbn; tauto|]. cbn in K. intuition discriminate.
Qed.
Lemma comment_refuted : exists s s', read_equiv (s ++ ["010"%char]) <> None /\
  (exists body, s' = s ++ quoted " #" ++ body /\ ~ In "010"%char body) /\
  read_equiv (s' ++ ["010"%char]) = None.
Proof.
  exists (quoted "G[0,b0] a0"), (quoted "G[0,b0] a0 # always"). split; [vm_compute; discriminate|].
  split; [|vm_compute; reflexivity]. exists (quoted " always"). split; [reflexivity|]. cbn. intuition discriminate.
Qed.
Lemma empty_line_refuted : exists s s', read_equiv (s ++ s') <> None /\ read_equiv (s ++ "010"%char :: s') = None.
Proof.
  exists (quoted "a0" ++ ["010"%char]), (quoted "a1" ++ ["010"%char]). split; [vm_compute; discriminate|vm_compute; reflexivity].
Qed.
