(** * C2PO files (proofs): consequences, and files of the refutations *)
From Coq Require Import List Arith NArith ZArith Bool Ascii String Lia.
Require Import Verif.MapFile Verif.C2poText Verif.C2poSpec Verif.C2poProofs Verif.C2poFiles Verif.C2poLex Verif.C2poWrite Verif.C2poRoundTrip.
Import ListNotations.
Local Open Scope list_scope.

Lemma stops_ends rest : stops rest <-> ends rest.
Proof.
  unfold ends, follow, stops. destruct rest as [|t rest]; [tauto|]. destruct t; cbn; try (split; intros; (reflexivity || lia)).
  all: try (split; [discriminate|lia]). destruct o; cbn; split; intros; (discriminate || lia).
Qed.
Lemma expr_exact mission py sigs ts e rest : parse_expr mission py sigs ts = Some (e, rest) <->
  exists used, ts = used ++ rest /\ reads mission py sigs used e /\ stops rest.
Proof.
  rewrite expr_iff. unfold result. split; intros (used & E & R & S); exists used; (split; [exact E|split; [exact R|]]); apply stops_ends; exact S.
Qed.
Lemma file_unique mission py ts p q : file mission py [] 0 ts p -> file mission py [] 0 ts q -> p = q.
Proof. intros P Q. apply file_iff in P, Q. congruence. Qed.
Lemma expr_reads mission py sigs ts e : parse_expr mission py sigs ts = Some (e, []) -> reads mission py sigs ts e.
Proof. intros H. apply expr_exact in H. destruct H as (used & -> & R & _). rewrite app_nil_r. exact R. Qed.
Lemma reads_unique mission py sigs ts e f : reads mission py sigs ts e -> reads mission py sigs ts f -> e = f.
Proof.
  intros E F. pose proof (expr_complete mission py sigs ts e [] E I) as P. rewrite (expr_complete mission py sigs ts f [] F I) in P. congruence.
Qed.
Lemma layout_irrelevant mission py s t ts : spells s ts -> spells t ts -> parse_c2po mission py s = parse_c2po mission py t.
Proof. intros S T. unfold parse_c2po. rewrite (lex_spells _ _ S), (lex_spells _ _ T). reflexivity. Qed.
Lemma ids_in_order mission py content p : parse_c2po mission py content = Some p -> numbers p = seq 0 (List.length (numbers p)).
Proof. intros H. unfold parse_c2po in H. apply file_iff in H. exact (file_numbers _ _ _ _ _ _ H). Qed.

(** Files the examples use: [str(float(t))] matters only for floats. *)
Definition plain (t : str) : str := t.
Definition read (s : string) : option (list section) := parse_c2po (Some 100) plain (quoted s).
Definition var (s : string) : cx := CVar (quoted s).
Definition signal (s : string) : cx := CSig (quoted s).
Definition alone (s : string) : option cx :=
  match read ("FTSPEC " ++ s ++ ";") with Some [SSpec true [Formula _ 0 e]] => Some e | _ => None end.
Definition again (s : string) : option (option (list section)) := option_map (fun p => parse_c2po (Some 100) plain (write_c2po p)) (read s).

Lemma prev_first r : lex (quoted "prev" ++ r) 0 = TPrev :: lex r 0.
Proof. exact (lex_token TPrev r I I). Qed.
Lemma previous_split : exists s, documented_name s /\ lex s 0 = [TPrev; TSym (quoted "ious")].
Proof.
  exists (quoted "previous"). split; [|vm_compute; reflexivity]. split; [split; reflexivity|]. intros H. vm_compute in H.
  repeat (destruct H as [H|H]; [discriminate|]). exact H.
Qed.
Lemma illegal_skipped : exists s t p, s <> t /\ read s = Some p /\ read t = Some p /\
  s = "INPUT x: int; FTSPEC x =< 5;"%string /\ t = "INPUT x: int; FTSPEC x < 5;"%string.
Proof. exists "INPUT x: int; FTSPEC x =< 5;"%string, "INPUT x: int; FTSPEC x < 5;"%string. eexists. split; [|split; [vm_compute; reflexivity|split; [vm_compute; reflexivity|split; reflexivity]]]. discriminate. Qed.
Lemma minus_glued : alone "x-1 > 5" = None /\ alone "x - 1 > 5" = Some (COp Gt [COp Sub [var "x"; CInt 1]; CInt 5]).
Proof. vm_compute. auto. Qed.
Lemma function_lost : exists s, again s = Some None /\ s = "INPUT x: int; FTSPEC sqrt(x) > 2;"%string.
Proof. exists "INPUT x: int; FTSPEC sqrt(x) > 2;"%string. split; [|reflexivity]. vm_compute. reflexivity. Qed.
Lemma count_lost : exists s, again s = Some None /\ s = "INPUT x: int[3]; FTSPEC foratleast(i : x, 2)(i > 0);"%string.
Proof. exists "INPUT x: int[3]; FTSPEC foratleast(i : x, 2)(i > 0);"%string. split; [|reflexivity]. vm_compute. reflexivity. Qed.
Lemma enum_lost : exists s, again s = Some None /\ s = "ENUM E: { A, B }; FTSPEC A == B;"%string.
Proof. exists "ENUM E: { A, B }; FTSPEC A == B;"%string. split; [|reflexivity]. vm_compute. reflexivity. Qed.
Lemma call_lost : exists s, again s = Some None /\ s = "STRUCT P: { }; DEFINE p := P(); FTSPEC true;"%string.
Proof. exists "STRUCT P: { }; DEFINE p := P(); FTSPEC true;"%string. split; [|reflexivity]. vm_compute. reflexivity. Qed.
Lemma float_lost py : py (quoted "0.00001") = quoted "1e-05" ->
  exists s p, parse_c2po None py s = Some p /\ parse_c2po None py (write_c2po p) = None.
Proof.
  intros H. exists (quoted "INPUT x: float; FTSPEC x > 0.00001;").
  exists [SInput [([quoted "x"], TyName (quoted "float"))]; SSpec true [Formula (fresh_label 0) 0 (COp Gt [CSig (quoted "x"); CFloat (quoted "1e-05")])]].
  split; [|vm_compute; reflexivity].
  vm_compute. vm_compute in H. rewrite H. reflexivity.
Qed.
Lemma label_lost : exists s p q, read s = Some p /\ parse_c2po (Some 100) plain (write_c2po p) = Some q /\ p <> q /\
  s = "FTSPEC __a__: true; G[3] __a__;"%string.
Proof.
  exists "FTSPEC __a__: true; G[3] __a__;"%string. eexists _, _. split; [vm_compute; reflexivity|]. split; [vm_compute; reflexivity|]. split; [|reflexivity]. vm_compute. discriminate.
Qed.
Lemma labels_clash : exists s l e f, read s = Some [SSpec true [Formula l 0 e; Formula l 1 f]] /\ s = "FTSPEC __f1__: a; b;"%string.
Proof. exists "FTSPEC __f1__: a; b;"%string. eexists _, _, _. split; [|reflexivity]. vm_compute. reflexivity. Qed.
