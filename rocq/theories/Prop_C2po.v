(** * C49-C52: C2PO files *)
From Coq Require Import List Arith NArith ZArith Bool Ascii String.
Require Import Verif.MapFile Verif.C2poText Verif.C2poSpec Verif.C2poProofs Verif.C2poFiles Verif.C2poLex Verif.C2poWrite Verif.C2poRoundTrip Verif.C2poChecks.
Import ListNotations.
Local Open Scope list_scope.

(** ** C49: how files are read *)
(** An expression is read exactly if the grammar derives it, up to a token that
    does not continue it. *)
Theorem C49_expressions : forall mission py sigs ts e rest,
  parse_expr mission py sigs ts = Some (e, rest) <->
  exists used, ts = used ++ rest /\ reads mission py sigs used e /\ stops rest.
Proof. exact expr_exact. Qed.
Print Assumptions C49_expressions.

Theorem C49_files : forall mission py ts p,
  parse_tokens mission py ts = Some p <-> file mission py [] 0 ts p.
Proof. exact file_iff. Qed.
Print Assumptions C49_files.

Theorem C49_one_reading : forall mission py ts p q,
  file mission py [] 0 ts p -> file mission py [] 0 ts q -> p = q.
Proof. exact file_unique. Qed.
Print Assumptions C49_one_reading.

Theorem C49_one_expression : forall mission py sigs ts e f,
  reads mission py sigs ts e -> reads mission py sigs ts f -> e = f.
Proof. exact reads_unique. Qed.
Print Assumptions C49_one_expression.

(** Temporal operators bind more tightly than && and less tightly than relations. *)
Example grouping_temporal : alone "G[3] x > y && b" = Some (COp And [CT1 UG 0 3 (COp Gt [var "x"; var "y"]); var "b"]).
Proof. vm_compute. reflexivity. Qed.
(** Prefix operators reach as far to the right as tighter operators do. *)
Example grouping_until : alone "! a U[1,M] F[2] b || c" =
  Some (COp Or [CT2 BU 1 100 (CPre PNot (var "a")) (CT1 UF 0 2 (var "b")); var "c"]).
Proof. vm_compute. reflexivity. Qed.
(** Implications group to the left, and pow binds like multiplication. *)
Example grouping_left : alone "a -> b -> c" = Some (COp Impl [COp Impl [var "a"; var "b"]; var "c"]).
Proof. vm_compute. reflexivity. Qed.
Example grouping_pow : alone "2 * x pow 2 == 8" =
  Some (COp Eq [COp Pow [COp Mul [CInt 2; var "x"]; CInt 2]; CInt 8]).
Proof. vm_compute. reflexivity. Qed.
Example grouping_phrase : reads None plain [] [TSym (quoted "a"); TOp Or; TSym (quoted "b"); TOp And; TNot; TSym (quoted "c")]
  (COp Or [var "a"; COp And [var "b"; CPre PNot (var "c")]]).
Proof. apply expr_reads. vm_compute. reflexivity. Qed.
Example sections_read : read "INPUT a, b: bool; x: int[2]; DEFINE d := a && x[0] > 1; FTSPEC l: F[5] d; foreach(i : x)(i > 2);" =
  Some [SInput [([quoted "a"; quoted "b"], TyName (quoted "bool")); ([quoted "x"], TyArr (TyName (quoted "int")) (Some 2))];
        SDefine [(quoted "d", COp And [signal "a"; COp Gt [CIdx (var "x") 0; CInt 1]])];
        SSpec true [Formula (quoted "l") 0 (CT1 UF 0 5 (var "d"));
                    Formula (quoted "__f1__") 1 (CQuant ForEach (quoted "i") (var "x") (COp Gt [var "i"; CInt 2]))]].
Proof. vm_compute. reflexivity. Qed.
Example sections_rejected : read "INPUT FTSPEC a;" = None /\ read "FTSPEC a U b;" = None /\ read "FTSPEC F[-1] a;" = None.
Proof. vm_compute. auto. Qed.

(** ** C50: words, numbers, blanks and comments *)
(** Partial: of the names that language.md allows, those of [usable_name]. *)
Theorem C50_spelling_partial : forall s ts, spells s ts -> lex s 0 = ts.
Proof. exact lex_spells. Qed.
Print Assumptions C50_spelling_partial.

Theorem C50_layout : forall mission py s t ts, spells s ts -> spells t ts ->
  parse_c2po mission py s = parse_c2po mission py t.
Proof. exact layout_irrelevant. Qed.
Print Assumptions C50_layout.

(** Names and decimals come out of the lexer only as such. *)
Theorem C50_names_sound : forall s, Forall well_spelled (lex s 0).
Proof. exact (fun s => lex_spelled s 0). Qed.
Print Assumptions C50_names_sound.

Definition newline : string := String "010"%char "".
Example spelling_sample : spells (quoted ("x1 <=-2 -- limit" ++ newline ++ "&&1.5<y"))
  [TSym (quoted "x1"); TOp Le; TNum (-2); TOp And; TDec (quoted "1.5"); TOp Lt; TSym (quoted "y")].
Proof.
  assert (U : forall s, identifier (quoted s) -> (forall w, In w documented_words -> quoted s <> w) -> firstn 4 (quoted s) <> quoted "prev" ->
    quoted s <> quoted "T" -> quoted s <> quoted "TAU" -> usable_name (quoted s)).
  { intros s H D P T1 T2. repeat split; auto. intros K. exact (D _ K eq_refl). }
  change (quoted ("x1 <=-2 -- limit" ++ newline ++ "&&1.5<y")) with
    (quoted "x1" ++ " "%char :: quoted "<=" ++ quoted "-2" ++ " "%char :: ("-"%char :: "-"%char :: quoted " limit" ++
     "010"%char :: quoted "&&" ++ quoted "1.5" ++ quoted "<" ++ quoted "y" ++ [])).
  apply (sp_token (TSym (quoted "x1"))); [|intros K; discriminate K|].
  { apply U; try discriminate; [split; reflexivity|]. intros w H K. subst w. cbn in H. repeat (destruct H as [H|H]; [discriminate|]). exact H. }
  apply sp_blank; [left; reflexivity|]. apply (sp_token (TOp Le)); [exact I|exact I|].
  apply (sp_token (TNum (-2))); [exact I|split; [intros K; discriminate K|intros [K _]; discriminate K]|].
  apply sp_blank; [left; reflexivity|]. apply (sp_comment (quoted " limit")).
  { cbn. intros K. repeat (destruct K as [K|K]; [discriminate|]). exact K. }
  { right. reflexivity. }
  apply sp_blank; [right; right; reflexivity|]. apply (sp_token (TOp And)); [exact I|exact I|].
  apply (sp_token (TDec (quoted "1.5"))); [|intros K; discriminate K|].
  { exists [], (quoted "1"), (quoted "5"). repeat split; auto. discriminate. }
  apply (sp_token (TOp Lt)); [exact I|intros K; discriminate K|].
  apply (sp_token (TSym (quoted "y"))); [|intros []|constructor].
  apply U; try discriminate; [split; reflexivity|]. intros w H K. subst w. cbn in H. repeat (destruct H as [H|H]; [discriminate|]). exact H.
Qed.

(** Names that language.md allows but that no file can use: [T], [TAU], and every
    name that begins with prev. *)
Theorem C50_names_refuted : exists s, documented_name s /\ lex s 0 = [TPrev; TSym (quoted "ious")].
Proof. exact previous_split. Qed.
Print Assumptions C50_names_refuted.
Theorem C50_prev_names_refuted : forall r, lex (quoted "prev" ++ r) 0 = TPrev :: lex r 0.
Proof. exact prev_first. Qed.
Print Assumptions C50_prev_names_refuted.
Example previous_rejected : read "INPUT previous: bool; FTSPEC previous;" = None /\ read "INPUT T: bool; FTSPEC T;" = None.
Proof. vm_compute. auto. Qed.
(** A character that starts no token is reported, and the file is read without it. *)
Theorem C50_illegal_refuted : exists s t p, s <> t /\ read s = Some p /\ read t = Some p /\
  s = "INPUT x: int; FTSPEC x =< 5;"%string /\ t = "INPUT x: int; FTSPEC x < 5;"%string.
Proof. exact illegal_skipped. Qed.
Print Assumptions C50_illegal_refuted.
(** A minus sign before a digit belongs to the number, whatever stands before it. *)
Theorem C50_minus_refuted : alone "x-1 > 5" = None /\ alone "x - 1 > 5" = Some (COp Gt [COp Sub [var "x"; CInt 1]; CInt 5]).
Proof. exact minus_glued. Qed.
Print Assumptions C50_minus_refuted.

(** ** C51: written programs read back *)
(** Partial: for what [writable_section] allows. *)
Theorem C51_written_partial : forall mission py p,
  proper py [] 0 p -> Forall writable_section p ->
  parse_c2po mission py (write_c2po p) = Some (map nested_section p).
Proof. exact write_reads. Qed.
Print Assumptions C51_written_partial.

Theorem C51_read_again_partial : forall mission py content p,
  floats_settle py -> parse_c2po mission py content = Some p -> Forall writable_section p ->
  parse_c2po mission py (write_c2po p) = Some p.
Proof. exact read_write_read. Qed.
Print Assumptions C51_read_again_partial.

Definition sample : string :=
  "STRUCT P: { u, v: int; w: bool[]; }; INPUT a, b: bool; x: int[2]; DEFINE d := a && x[0] > -1.5; p := P(1, 2 + 3, {a, b}); FTSPEC l: F[5] d U[1,M] !b; prev(0, p.u) == 1 -> foreach(i : x)(i > 2); PTSPEC c: O[2,3] a => sqrt(1 + abs(-x[0] * 2)) < 5.0;".
Example sample_read : exists p, read sample = Some p /\ Forall writable_section p /\ List.length (numbers p) = 5.
Proof.
  eexists. split; [vm_compute; reflexivity|]. split; [|reflexivity]. repeat constructor; try discriminate; cbn.
  all: try (exists [], (quoted "5"), (quoted "0"); repeat split; auto; discriminate).
  all: try (exists (quoted "-"), (quoted "1"), (quoted "5"); repeat split; auto; discriminate).
Qed.
Example sample_again : match read sample with Some p => parse_c2po (Some 100) plain (write_c2po p) = Some p | None => False end.
Proof. vm_compute. reflexivity. Qed.

(** What is written in another language, or not at all. *)
Theorem C51_function_refuted : exists s, again s = Some None /\ s = "INPUT x: int; FTSPEC sqrt(x) > 2;"%string.
Proof. exact function_lost. Qed.
Print Assumptions C51_function_refuted.
Theorem C51_count_refuted : exists s, again s = Some None /\ s = "INPUT x: int[3]; FTSPEC foratleast(i : x, 2)(i > 0);"%string.
Proof. exact count_lost. Qed.
Print Assumptions C51_count_refuted.
Theorem C51_enum_refuted : exists s, again s = Some None /\ s = "ENUM E: { A, B }; FTSPEC A == B;"%string.
Proof. exact enum_lost. Qed.
Print Assumptions C51_enum_refuted.
Theorem C51_call_refuted : exists s, again s = Some None /\ s = "STRUCT P: { }; DEFINE p := P(); FTSPEC true;"%string.
Proof. exact call_lost. Qed.
Print Assumptions C51_call_refuted.
(** For every [py] that writes this float with an exponent, as Python does. *)
Theorem C51_float_refuted : forall py, py (quoted "0.00001") = quoted "1e-05" ->
  exists s p, parse_c2po None py s = Some p /\ parse_c2po None py (write_c2po p) = None.
Proof. exact float_lost. Qed.
Print Assumptions C51_float_refuted.
Theorem C51_label_refuted : exists s p q, read s = Some p /\ parse_c2po (Some 100) plain (write_c2po p) = Some q /\ p <> q /\
  s = "FTSPEC __a__: true; G[3] __a__;"%string.
Proof. exact label_lost. Qed.
Print Assumptions C51_label_refuted.

(** ** C52: the ids of the specifications *)
Theorem C52_ids : forall mission py content p, parse_c2po mission py content = Some p ->
  numbers p = seq 0 (List.length (numbers p)).
Proof. exact ids_in_order. Qed.
Print Assumptions C52_ids.
(** language.md's example, and a contract with its three ids *)
Example ids_documented : option_map numbers (read "FTSPEC p U[0,5] q; F[0,5] (i > j); PTSPEC O[0,5] (x < y);") = Some [0; 1; 2].
Proof. vm_compute. reflexivity. Qed.
Example ids_contract : option_map numbers (read "FTSPEC a; c: p => q; b;") = Some [0; 1; 2; 3; 4].
Proof. vm_compute. reflexivity. Qed.
(** The label made for a specification without one can be another's label. *)
Theorem C52_labels_refuted : exists s l e f, read s = Some [SSpec true [Formula l 0 e; Formula l 1 f]] /\ s = "FTSPEC __f1__: a; b;"%string.
Proof. exact labels_clash. Qed.
Print Assumptions C52_labels_refuted.
