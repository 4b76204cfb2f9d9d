(** * C2PO files (proofs): tokens *)
From Coq Require Import List Arith NArith ZArith Bool Ascii String Lia.
Require Verif.MltlTextProofs.
Require Import Verif.MapFile Verif.MapProofs Verif.C2poText Verif.C2poSpec.
Import ListNotations.
Local Open Scope list_scope.
Local Open Scope char_scope.

Lemma lex_skip : forall a s, lex (a ++ s) (List.length a) = lex s 0.
Proof. induction a as [|c a IH]; intros s; [reflexivity|]. cbn [app List.length lex]. apply IH. Qed.
Definition blank (c : ascii) : bool := (c =? " ") || (c =? "009").
Lemma lex_at t c r s : blank c = false -> token_at (c :: r ++ s) = Some (Some t, List.length (c :: r)) ->
  lex (c :: r ++ s) 0 = t :: lex s 0.
Proof.
  intros B T. cbn [lex]. change (((c =? " ") || (c =? "009")) = false) in B. rewrite B, T. cbn [List.length pred].
  rewrite lex_skip. reflexivity.
Qed.
Lemma begins_not p c s : ~ begins p (c :: s) -> p c = false.
Proof. cbn. intros H. destruct (p c); [exfalso; apply H; reflexivity|reflexivity]. Qed.
Lemma take_exact p w s : forallb p w = true -> ~ begins p s -> take_while p (w ++ s) = w.
Proof.
  intros H N. rewrite take_all by exact H. destruct s as [|c s]; cbn; [apply app_nil_r|]. rewrite (begins_not _ _ _ N). apply app_nil_r.
Qed.

(** ** Words *)
Definition prev_at (s : str) : bool := match s with "p" :: "r" :: "e" :: "v" :: _ => true | _ => false end.
Ltac letters c H := destruct c as [[] [] [] [] [] [] [] []]; vm_compute in H; try discriminate H.
Lemma symbol_word c r : is_head c = true -> prev_at (c :: r) = false ->
  token_at (c :: r) = Some (Some (word (take_while is_word (c :: r))), List.length (take_while is_word (c :: r))).
Proof.
  intros H P. letters c H; try reflexivity.
  destruct r as [|c1 r]; [reflexivity|]. destruct (ascii_dec c1 "r") as [->|N1];
    [|destruct c1 as [[] [] [] [] [] [] [] []]; try reflexivity; exfalso; apply N1; reflexivity].
  destruct r as [|c2 r]; [reflexivity|]. destruct (ascii_dec c2 "e") as [->|N2];
    [|destruct c2 as [[] [] [] [] [] [] [] []]; try reflexivity; exfalso; apply N2; reflexivity].
  destruct r as [|c3 r]; [reflexivity|]. destruct (ascii_dec c3 "v") as [->|N3];
    [|destruct c3 as [[] [] [] [] [] [] [] []]; try reflexivity; exfalso; apply N3; reflexivity].
  discriminate.
Qed.
Lemma head_word c : is_head c = true -> is_word c = true /\ blank c = false.
Proof. intros H. letters c H; split; reflexivity. Qed.
Lemma prev_firstn w s : firstn 4 w <> quoted "prev" -> ~ begins is_word s -> w <> [] -> prev_at (w ++ s) = false.
Proof.
  intros F N W. destruct (prev_at (w ++ s)) eqn:E; [|reflexivity]. exfalso.
  assert (X : forall l, prev_at l = true -> exists r, l = "p" :: "r" :: "e" :: "v" :: r).
  { intros l H. destruct l as [|c0 l]; [discriminate|].
    destruct c0 as [[] [] [] [] [] [] [] []]; try discriminate H. destruct l as [|c1 l]; [discriminate|].
    destruct c1 as [[] [] [] [] [] [] [] []]; try discriminate H. destruct l as [|c2 l]; [discriminate|].
    destruct c2 as [[] [] [] [] [] [] [] []]; try discriminate H. destruct l as [|c3 l]; [discriminate|].
    destruct c3 as [[] [] [] [] [] [] [] []]; try discriminate H. eauto. }
  destruct (X _ E) as (r & Er).
  destruct w as [|c0 [|c1 [|c2 [|c3 w]]]]; cbn [app] in Er; [exact (W eq_refl)| | | |].
  - injection Er as -> ->. apply N. reflexivity.
  - injection Er as -> -> ->. apply N. reflexivity.
  - injection Er as -> -> -> ->. apply N. reflexivity.
  - injection Er as -> -> -> -> _. apply F. reflexivity.
Qed.
Lemma word_at w s : identifier w -> firstn 4 w <> quoted "prev" -> ~ begins is_word s ->
  lex (w ++ s) 0 = word w :: lex s 0.
Proof.
  intros H F N. destruct w as [|c w]; [destruct H|]. destruct H as [Hc Hw]. destruct (head_word c Hc) as [Wc Bc]. cbn [app].
  assert (T : take_while is_word (c :: w ++ s) = c :: w).
  { change (c :: w ++ s) with ((c :: w) ++ s). apply take_exact; [cbn [forallb]; rewrite Wc; exact Hw|exact N]. }
  apply lex_at; [exact Bc|]. rewrite symbol_word; [rewrite T; reflexivity|exact Hc|].
  apply (prev_firstn (c :: w)); [exact F|exact N|discriminate].
Qed.
Lemma word_name w : usable_name w -> word w = TSym w.
Proof.
  intros ((_ & D) & T1 & T2 & _). unfold word.
  destruct (find _ keywords) as [p|] eqn:E; [|reflexivity]. exfalso. apply find_some in E. destruct E as [I Q]. apply String.eqb_eq in Q.
  assert (W : w = list_ascii_of_string (fst p)) by (rewrite Q, list_ascii_of_string_of_list_ascii; reflexivity). clear Q. subst w.
  cbn [keywords In] in I. repeat (destruct I as [<-|I]); [..|contradiction];
    first [apply T1; reflexivity|apply T2; reflexivity|apply D; unfold documented_words; cbn [map In]; auto 30].
Qed.

(** ** Numbers *)
Lemma token_num s : match s with "-" :: "-" :: _ => False | "010" :: _ => False | _ => True end ->
  token_at s = match decimal_at s with
      | Some t => Some (Some (TDec t), List.length t)
      | None =>
          match numeral_at s with
          | Some (z, n) => Some (Some (TNum z), n)
          | None => option_map (fun p => (Some (fst p), snd p)) (symbol_at s)
          end
      end.
Proof.
  intros H. destruct s as [|c s]; [reflexivity|].
  destruct c as [[] [] [] [] [] [] [] []]; try reflexivity; try contradiction.
  destruct s as [|c s]; [reflexivity|]. destruct c as [[] [] [] [] [] [] [] []]; try reflexivity; contradiction.
Qed.
Lemma digit_plain c : is_digit c = true -> blank c = false /\ c <> "-" /\ c <> "." /\ c <> "010".
Proof. intros H. letters c H; repeat split; discriminate. Qed.
Lemma match_minus {A} (s : str) (a : str -> A) (b : A) : match s with "-" :: _ => False | _ => True end ->
  match s with "-" :: r => a r | _ => b end = b.
Proof. destruct s as [|c s]; [reflexivity|]. destruct c as [[] [] [] [] [] [] [] []]; try reflexivity. intros []. Qed.
Lemma not_minus (s : str) : (match s with c :: _ => c <> "-" | [] => True end) -> match s with "-" :: _ => False | _ => True end.
Proof. destruct s as [|c s]; [auto|]. intros H. destruct c as [[] [] [] [] [] [] [] []]; try exact I. apply H. reflexivity. Qed.
Lemma match_dot {A} (s : str) (a : str -> A) (b : A) : ~ begins (one_of ".") s -> match s with "." :: r => a r | _ => b end = b.
Proof.
  destruct s as [|c s]; [reflexivity|]. intros H. destruct c as [[] [] [] [] [] [] [] []]; try reflexivity. exfalso. apply H. reflexivity.
Qed.
Definition unsigned (r : str) : option str :=
  let d := take_while is_digit r in
  match skipn (List.length d) r with
  | "." :: r => match take_while is_digit r with [] => None | f => Some (d ++ "." :: f) end
  | _ => None
  end.
Lemma decimal_minus r : decimal_at ("-" :: r) = option_map (cons "-") (unsigned r).
Proof.
  unfold decimal_at, unsigned. destruct (skipn _ r) as [|c s]; [reflexivity|].
  destruct c as [[] [] [] [] [] [] [] []]; try reflexivity. destruct (take_while is_digit s); reflexivity.
Qed.
Lemma decimal_plain r : match r with "-" :: _ => False | _ => True end -> decimal_at r = unsigned r.
Proof.
  intros H. unfold decimal_at, unsigned. rewrite (match_minus r (fun r => (["-"], r)) ([], r) H). reflexivity.
Qed.
Lemma unsigned_at d f s : forallb is_digit d = true -> forallb is_digit f = true -> f <> [] -> ~ begins is_digit s ->
  unsigned (d ++ "." :: f ++ s) = Some (d ++ "." :: f).
Proof.
  intros D F E N. unfold unsigned. rewrite take_exact by (exact D || (cbn; discriminate)).
  rewrite skipn_app, skipn_all, Nat.sub_diag. cbn [skipn app]. rewrite take_exact by assumption. destruct f; [congruence|reflexivity].
Qed.
Lemma unsigned_none d s : forallb is_digit d = true -> ~ begins is_digit s -> ~ (begins (one_of ".") s /\ begins is_digit (tl s)) ->
  unsigned (d ++ s) = None.
Proof.
  intros D N P. unfold unsigned. rewrite take_exact by assumption. rewrite skipn_app, skipn_all, Nat.sub_diag. cbn [skipn app].
  destruct s as [|c s]; [reflexivity|]. destruct c as [[] [] [] [] [] [] [] []]; try reflexivity.
  destruct s as [|c s]; [reflexivity|]. cbn [take_while]. destruct (is_digit c) eqn:E; [|reflexivity]. exfalso. apply P. cbn. auto.
Qed.
Lemma lex_decimal t s : decimal t -> ~ begins is_digit s -> lex (t ++ s) 0 = TDec t :: lex s 0.
Proof.
  intros (sign & d & f & -> & Sg & D & F & E) N.
  assert (U : unsigned ((d ++ "." :: f) ++ s) = Some (d ++ "." :: f)).
  { rewrite <- app_assoc. cbn [app]. apply unsigned_at; assumption. }
  assert (Hd : exists c r, d ++ "." :: f = c :: r /\ (is_digit c = true \/ c = ".")).
  { destruct d as [|c d]; [exists ".", f; auto|]. cbn [forallb] in D. apply andb_prop in D. exists c, (d ++ "." :: f). cbn. tauto. }
  destruct Hd as (c & r & Er & Hc). rewrite Er in *.
  assert (P : c <> "-" /\ c <> "010" /\ blank c = false).
  { destruct Hc as [Hc | ->]; [destruct (digit_plain c Hc) as (P1 & P2 & _ & P4)|]; repeat split; auto; discriminate. }
  destruct P as (P1 & P2 & P3). destruct Sg as [-> | ->]; cbn [app] in *.
  - apply lex_at; [exact P3|]. rewrite token_num, decimal_plain, U; [reflexivity| |].
    + exact (not_minus (c :: r ++ s) P1).
    + destruct c as [[] [] [] [] [] [] [] []]; try exact I; exfalso; first [apply P1; reflexivity|apply P2; reflexivity].
  - apply (lex_at _ "-" (c :: r)); [reflexivity|]. cbn [app]. rewrite token_num, decimal_minus, U; [reflexivity|].
    destruct c as [[] [] [] [] [] [] [] []]; try exact I; exfalso; apply P1; reflexivity.
Qed.
Lemma positive_at_dec n s : n <> 0%N -> ~ begins is_digit s -> positive_at (dec n ++ s) = Some (Z.of_N n, List.length (dec n)).
Proof.
  intros H N. destruct (dec_cons n) as (c & r & E & Hc). unfold positive_at.
  assert (T : take_while is_digit (dec n ++ s) = dec n) by (apply take_exact; [apply dec_digits|exact N]).
  pose proof (dec_inv n) as V. rewrite E in T, V |- *. cbn [app] in T |- *. rewrite Hc, T.
  destruct (Ascii.eqb_spec c "0") as [->|_]; [destruct (MltlTextProofs.dec_zero n r E); contradiction|]. cbn [negb andb].
  rewrite V. reflexivity.
Qed.
Lemma lex_numeral z s : ~ begins is_digit s -> ~ (begins (one_of ".") s /\ begins is_digit (tl s)) ->
  lex (int_text z ++ s) 0 = TNum z :: lex s 0.
Proof.
  intros N P. unfold int_text. destruct (Z.ltb_spec z 0) as [Hz|Hz].
  - cbn [app]. destruct (dec_cons (Z.to_N (- z))) as (c & r & E & Hc). destruct (digit_plain c Hc) as (_ & P1 & _ & P2).
    apply (lex_at _ "-" (dec (Z.to_N (- z)))); [reflexivity|]. rewrite token_num.
    + rewrite decimal_minus, unsigned_none by (apply dec_digits || assumption). cbn [option_map numeral_at].
      rewrite positive_at_dec by (assumption || lia). cbn [option_map fst snd List.length]. rewrite Z2N.id by lia. rewrite Z.opp_involutive. reflexivity.
    + rewrite E. cbn [app]. destruct c as [[] [] [] [] [] [] [] []]; try exact I. apply P1. reflexivity.
  - destruct (dec_cons (Z.to_N z)) as (c & r & E & Hc). destruct (digit_plain c Hc) as (B & P1 & _ & P2).
    assert (U : unsigned (dec (Z.to_N z) ++ s) = None) by (apply unsigned_none; [apply dec_digits|assumption|assumption]).
    assert (Q : numeral_at (dec (Z.to_N z) ++ s) = Some (z, List.length (dec (Z.to_N z)))).
    { destruct (Z.eq_dec z 0) as [->|Nz]; [reflexivity|]. pose proof (positive_at_dec (Z.to_N z) s ltac:(lia) N) as Q.
      rewrite Z2N.id in Q by exact Hz. rewrite <- Q. rewrite E. cbn [app].
      letters c Hc; try reflexivity. exfalso. destruct (MltlTextProofs.dec_zero _ _ E) as [K _]. lia. }
    rewrite E in *. cbn [app] in *. apply lex_at; [exact B|].
    rewrite token_num; [|destruct c as [[] [] [] [] [] [] [] []]; try exact I; exfalso; first [apply P1; reflexivity|apply P2; reflexivity]].
    rewrite decimal_plain by exact (not_minus (c :: r ++ s) P1). rewrite U, Q. reflexivity.
Qed.

(** ** Every token *)
Ltac next s N := destruct s as [|c s]; [reflexivity|]; destruct c as [[] [] [] [] [] [] [] []]; try reflexivity; exfalso; apply N; reflexivity.
Lemma lex_token t s : well_spelled t -> separate t s -> lex (spelling t ++ s) 0 = t :: lex s 0.
Proof.
  assert (Wd : forall k t', word (quoted k) = t' -> identifier (quoted k) -> firstn 4 (quoted k) <> quoted "prev" -> ~ begins is_word s ->
    lex (quoted k ++ s) 0 = t' :: lex s 0).
  { intros k t' <- Id Fp N. apply word_at; assumption. }
  intros W N. destruct t; cbn [spelling]; cbn [separate well_spelled] in N, W.
  - destruct k; apply Wd; try reflexivity; try (split; reflexivity); try discriminate; exact N.
  - destruct k; apply Wd; try reflexivity; try (split; reflexivity); try discriminate; exact N.
  - destruct k; apply Wd; try reflexivity; try (split; reflexivity); try discriminate; exact N.
  - apply Wd; try reflexivity; try (split; reflexivity); try discriminate; exact N.
  - destruct k; apply Wd; try reflexivity; try (split; reflexivity); try discriminate; exact N.
  - destruct k; apply Wd; try reflexivity; try (split; reflexivity); try discriminate; exact N.
  - apply Wd; try reflexivity; try (split; reflexivity); try discriminate; exact N.
  - apply Wd; try reflexivity; try (split; reflexivity); try discriminate; exact N.
  - apply Wd; try reflexivity; try (split; reflexivity); try discriminate; exact N.
  - next s N.
  - reflexivity.
  - destruct o; try reflexivity; try (next s N); apply Wd; try reflexivity; try (split; reflexivity); try discriminate; exact N.
  - destruct f; apply Wd; try reflexivity; try (split; reflexivity); try discriminate; exact N.
  - reflexivity.
  - reflexivity.
  - reflexivity.
  - pose proof W as ((Id & _) & _ & _ & Fp). rewrite word_at by assumption. rewrite word_name by exact W. reflexivity.
  - apply lex_decimal; assumption.
  - apply lex_numeral; apply N.
  - reflexivity.
  - next s N.
  - next s N.
  - reflexivity.
  - reflexivity.
  - reflexivity.
  - reflexivity.
  - reflexivity.
  - reflexivity.
  - reflexivity.
  - reflexivity.
Qed.
Lemma lex_comment body s : ~ In "010" body -> (s = [] \/ begins (Ascii.eqb "010") s) -> lex ("-" :: "-" :: body ++ s) 0 = lex s 0.
Proof.
  intros H E.
  assert (T : take_while (fun c => negb (c =? "010")) (body ++ s) = body).
  { apply take_exact.
    - apply forallb_forall. intros c Hc. destruct (Ascii.eqb_spec c "010") as [->|_]; [contradiction|reflexivity].
    - destruct E as [->|E]; [intros []|]. destruct s as [|c s]; [intros []|]. unfold begins in *. apply Ascii.eqb_eq in E. subst c. discriminate. }
  change (match token_at ("-" :: "-" :: body ++ s) with
          | Some (Some t, n) => t :: lex ("-" :: body ++ s) (pred n)
          | Some (None, n) => lex ("-" :: body ++ s) (pred n)
          | None => lex ("-" :: body ++ s) 0
          end = lex s 0).
  change (token_at ("-" :: "-" :: body ++ s)) with (Some (@None token, S (S (List.length (take_while (fun c => negb (c =? "010")) (body ++ s)))))).
  rewrite T. cbn [pred lex]. apply lex_skip.
Qed.
Lemma lex_spells s ts : spells s ts -> lex s 0 = ts.
Proof.
  induction 1 as [|c s ts H _ IH|body s ts H E _ IH|t s ts W N _ IH]; [reflexivity| | |].
  - destruct H as [H|[->| ->]]; [|exact IH|exact IH]. unfold one_of in H. cbn [list_ascii_of_string existsb] in H. rewrite orb_false_r in H.
    apply Ascii.eqb_eq in H. subst c. exact IH.
  - rewrite lex_comment by assumption. exact IH.
  - rewrite lex_token by assumption. congruence.
Qed.

(** ** What the lexer makes *)
Lemma take_forall p s : forallb p (take_while p s) = true.
Proof. induction s as [|c s IH]; [reflexivity|]. cbn. destruct (p c) eqn:E; [cbn; rewrite E; exact IH|reflexivity]. Qed.
Lemma unsigned_decimal r t : unsigned r = Some t -> exists d f, t = d ++ "." :: f /\ forallb is_digit d = true /\ forallb is_digit f = true /\ f <> [].
Proof.
  unfold unsigned. intros H. destruct (skipn _ r) as [|c s]; [discriminate|]. destruct c as [[] [] [] [] [] [] [] []]; try discriminate.
  pose proof (take_forall is_digit s) as F. destruct (take_while is_digit s) as [|c f] eqn:E; [discriminate|]. injection H as <-.
  exists (take_while is_digit r), (c :: f). repeat split; [apply take_forall|exact F|discriminate].
Qed.
Lemma decimal_at_decimal s t : decimal_at s = Some t -> decimal t.
Proof.
  intros H. destruct s as [|c s]; [discriminate|]. destruct (ascii_dec c "-") as [->|N].
  - rewrite decimal_minus in H. destruct (unsigned s) as [u|] eqn:U; [|discriminate]. injection H as <-.
    destruct (unsigned_decimal _ _ U) as (d & f & -> & D). exists ["-"], d, f. split; [reflexivity|]. split; [right; reflexivity|exact D].
  - rewrite decimal_plain in H by exact (not_minus (c :: s) N). destruct (unsigned_decimal _ _ H) as (d & f & -> & D).
    exists [], d, f. split; [reflexivity|]. split; [left; reflexivity|exact D].
Qed.
Lemma word_usable c w : is_head c = true -> forallb is_word w = true -> firstn 4 (c :: w) <> quoted "prev" -> well_spelled (word (c :: w)).
Proof.
  intros Hc Hw F. destruct (word (c :: w)) eqn:E; try exact I.
  - assert (s = c :: w) as ->.
    { unfold word in E. destruct (find _ keywords) as [p|] eqn:Ef; [|congruence]. apply find_some in Ef. destruct Ef as [K _].
      cbn [keywords In] in K. repeat (destruct K as [<-|K]); [..|contradiction]; discriminate. }
    repeat split; try assumption.
    + intros D. unfold documented_words in D. cbn [map In] in D.
      repeat (destruct D as [D|D]); [..|contradiction]; rewrite <- D in E, F; try discriminate E; apply F; reflexivity.
    + intros X. rewrite X in E. discriminate.
    + intros X. rewrite X in E. discriminate.
  - unfold word in E. destruct (find _ keywords) as [p|] eqn:Ef; [|congruence]. apply find_some in Ef. destruct Ef as [K _].
    cbn [keywords In] in K. repeat (destruct K as [<-|K]); [..|contradiction]; discriminate.
Qed.
Lemma symbol_spelled s t n : symbol_at s = Some (t, n) -> well_spelled t.
Proof.
  destruct s as [|c r]; [discriminate|]. destruct (is_head c) eqn:Hc.
  - destruct (prev_at (c :: r)) eqn:P.
    + intros H. destruct c as [[] [] [] [] [] [] [] []]; try discriminate P. destruct r as [|c1 r]; [discriminate|].
      destruct c1 as [[] [] [] [] [] [] [] []]; try discriminate P. destruct r as [|c2 r]; [discriminate|].
      destruct c2 as [[] [] [] [] [] [] [] []]; try discriminate P. destruct r as [|c3 r]; [discriminate|].
      destruct c3 as [[] [] [] [] [] [] [] []]; try discriminate P. injection H as <- <-. exact I.
    + pose proof (symbol_word c r Hc P) as T. intros H.
      assert (X : token_at (c :: r) = option_map (fun p => (Some (fst p), snd p)) (symbol_at (c :: r))).
      { clear T H P. letters c Hc; reflexivity. }
      rewrite X, H in T. cbn [option_map fst snd] in T. injection T as -> ->. cbn [take_while].
      destruct (head_word c Hc) as [Wc _]. rewrite Wc. apply word_usable; [exact Hc|apply take_forall|].
      intros F. cbn [firstn] in F.
      assert (K : prev_at (c :: take_while is_word r) = true).
      { destruct (take_while is_word r) as [|c1 [|c2 [|c3 w]]]; cbn [firstn] in F; try discriminate F. injection F as -> -> -> ->. reflexivity. }
      clear - K P.
      destruct c as [[] [] [] [] [] [] [] []]; try discriminate K.
      destruct r as [|c1 r]; [discriminate|]. cbn [take_while] in K. destruct (is_word c1); [|destruct c1 as [[] [] [] [] [] [] [] []]; discriminate].
      destruct c1 as [[] [] [] [] [] [] [] []]; try discriminate K.
      destruct r as [|c2 r]; [discriminate|]. cbn [take_while] in K. destruct (is_word c2); [|destruct c2 as [[] [] [] [] [] [] [] []]; discriminate].
      destruct c2 as [[] [] [] [] [] [] [] []]; try discriminate K.
      destruct r as [|c3 r]; [discriminate|]. cbn [take_while] in K. destruct (is_word c3); [|destruct c3 as [[] [] [] [] [] [] [] []]; discriminate].
      destruct c3 as [[] [] [] [] [] [] [] []]; try discriminate K. discriminate P.
  - intros H.
    assert (Fin : forall (x y : option (token * nat)), x = Some (t, n) -> match x with Some (TSym _, _) | Some (TDec _, _) => False | _ => True end -> well_spelled t).
    { intros x _ -> G. destruct t; try exact I; contradiction. }
    apply (Fin (symbol_at (c :: r)) None H). clear H Fin.
    destruct c as [[] [] [] [] [] [] [] []]; try (vm_compute in Hc; discriminate Hc); try exact I;
      (destruct r as [|c1 r]; [exact I|destruct c1 as [[] [] [] [] [] [] [] []]; try exact I;
         (destruct r as [|c2 r]; [exact I|destruct c2 as [[] [] [] [] [] [] [] []]; exact I])]).
Qed.
Lemma token_spelled s t n : token_at s = Some (Some t, n) -> well_spelled t.
Proof.
  intros H.
  assert (G : match s with "-" :: "-" :: _ => False | "010" :: _ => False | _ => True end).
  { destruct s as [|c s]; [exact I|]. destruct c as [[] [] [] [] [] [] [] []]; try exact I; try discriminate H.
    destruct s as [|c s]; [exact I|]. destruct c as [[] [] [] [] [] [] [] []]; try exact I; discriminate H. }
  rewrite token_num in H by exact G. destruct (decimal_at s) as [d|] eqn:D; [injection H as <- _; exact (decimal_at_decimal _ _ D)|].
  destruct (numeral_at s) as [[z k]|]; [injection H as <- _; exact I|].
  destruct (symbol_at s) as [[u k]|] eqn:Y; [|discriminate]. injection H as <- _. exact (symbol_spelled _ _ _ Y).
Qed.
Lemma lex_spelled : forall s k, Forall well_spelled (lex s k).
Proof.
  induction s as [|c s IH]; intros k; [constructor|]. cbn [lex]. destruct k as [|k]; [|apply IH].
  destruct ((c =? " ") || (c =? "009")); [apply IH|]. destruct (token_at (c :: s)) as [[[t|] n]|] eqn:T; try apply IH.
  constructor; [exact (token_spelled _ _ _ T)|apply IH].
Qed.
