(** * C57: default queue sizes, and names for formulas

    As in C53 (Prop_Text.v), with the queues that the compiler sizes from the delays it
    recorded when it parsed the formulas: [compile_recorded] (Recorded.v); [const] is
    --scq-constant, 0 by default.  [instant_names p]: the names that are mentioned
    stand for formulas without temporal operators (RecordedSpec.v); [modest_formula] is
    asked of future-time specifications, [flat_formula] of past-time ones
    (DefaultSpec.v). *)
From Coq Require Import List Arith NArith ZArith Bool Ascii String Lia.
Require Import Verif.MapFile Verif.Mltl Verif.Transform Verif.Pipeline Verif.Binary Verif.BinarySpec Verif.Assembly Verif.Layout Verif.LayoutSpec.
Require Import Verif.Scq Verif.Engine Verif.Monitoring Verif.EndToEnd Verif.TightSize Verif.DefaultSpec.
Require Import Verif.RustEngine Verif.RustLayout Verif.RustLayoutSpec.
Require Import Verif.CsvTrace Verif.CsvSpec Verif.C2poText Verif.C2poChecks Verif.Elaborate Verif.ElaborateSpec Verif.TextSpec.
Require Import Verif.Prop_Text Verif.Recorded Verif.RecordedSpec Verif.RecordedReports.
Import ListNotations.
Local Existing Instance C_monitor.
Local Open Scope list_scope.
Local Open Scope nat_scope.

(** Under the default options the reports are in order, true of what the file says,
    and there when due. *)
Theorem C57_default_options_partial mission py const size names cells table content trace p aux :
  parse_c2po mission py content = Some p -> boolean_file names p -> instant_names p ->
  trace_text size (Some cells) table trace -> Forall2 header_cell names cells -> NoDup names ->
  Forall (fun row => plain_row row /\ List.length row = List.length names) table ->
  (0 <= const)%Z ->
  exists m specs, parse_trace (used p) trace = Mapped m (List.length table) /\ elaborate m p = Some specs /\ map fst specs = kinds p /\
  (Forall (fun s : bool * item => let e := compile_expr (snd (snd s)) in if fst s then modest_formula e else flat_formula e) specs ->
   exists depth0, forall depth, depth0 <= depth -> exists fuel0 asm,
    (forall fuel, fuel0 <= fuel -> compile_recorded mission py const depth fuel content trace = Some asm) /\
    forall bytes, Forall fits asm -> (arena_slots asm < 2 ^ 32)%Z -> assemble_binary asm aux = Some bytes ->
    exists prog confs passes0, boot bytes = Some (prog, confs) /\
      forall passes, passes0 <= passes ->
      exists atoms mon, c_atoms size trace = Some atoms /\ run passes atoms prog (init prog confs) = Some mon /\
        forall v, agrees names table v ->
        Forall2 (answers (fun k => reports k mon) (List.length table)) specs (meanings (fun s t => v s t = true) p)).
Proof. exact (default_text_to_reports mission py const size names cells table content trace p aux). Qed.
Print Assumptions C57_default_options_partial.

(** The same for the Rust monitor, on tables of integers of 32 bits. *)
Theorem C57_rust_default_options_partial mission py const size names cells table values content trace p aux :
  parse_c2po mission py content = Some p -> boolean_file names p -> instant_names p ->
  trace_text size (Some cells) table trace -> Forall2 header_cell names cells -> NoDup names ->
  Forall (fun row => List.length row = List.length names) table ->
  Forall2 (Forall2 integer) table values -> Forall (Forall (fun z => (- 2 ^ 31 <= z < 2 ^ 31)%Z)) values ->
  (0 <= const)%Z ->
  exists m specs, parse_trace (used p) trace = Mapped m (List.length table) /\ elaborate m p = Some specs /\ map fst specs = kinds p /\
  (Forall (fun s : bool * item => let e := compile_expr (snd (snd s)) in if fst s then modest_formula e else flat_formula e) specs ->
   exists depth0, forall depth, depth0 <= depth -> exists fuel0 asm,
    (forall fuel, fuel0 <= fuel -> compile_recorded mission py const depth fuel content trace = Some asm) /\
    forall bytes, Forall fits asm -> Forall small aux -> (arena_slots asm < 2 ^ 32)%Z -> assemble_binary asm aux = Some bytes ->
    exists prog confs passes0, rust_boot bytes = Some (prog, confs) /\
      forall passes, passes0 <= passes ->
      exists atoms mon, rust_atoms trace = Some atoms /\ RustEngine.rust_run passes (rust_rows atoms) prog (rust_init prog confs) = Finished mon /\
        forall v, agrees names table v ->
        Forall2 (answers (fun k => reports k mon) (List.length table)) specs (meanings (fun s t => v s t = true) p)).
Proof. exact (rust_default_text_to_reports mission py const size names cells table values content trace p aux). Qed.
Print Assumptions C57_rust_default_options_partial.

(** ** Example: a definition without temporal operators, and formulas that wait *)
Definition default_file : str := quoted ("INPUT p, q: bool;" ++ nl ++ "DEFINE r := p -> q;" ++ nl ++ "FTSPEC" ++ nl ++
  "  p && !(F[0,5] q);" ++ nl ++ "  G[0,2] (r || !p);" ++ nl ++
  "PTSPEC" ++ nl ++ "  O[1,3] p && !q;" ++ nl)%string.
Definition default_program : list section :=
  [SInput [([quoted "p"; quoted "q"], TyName (quoted "bool"))];
   SDefine [(quoted "r", COp Impl [CSig (quoted "p"); CSig (quoted "q")])];
   SSpec true [Formula (quoted "__f0__") 0 (COp And [CSig (quoted "p"); CPre PNot (CT1 UF 0 5 (CSig (quoted "q")))]);
               Formula (quoted "__f1__") 1 (CT1 UG 0 2 (COp Or [CVar (quoted "r"); CPre PNot (CSig (quoted "p"))]))];
   SSpec false [Formula (quoted "__f2__") 2 (COp And [CT1 UO 1 3 (CSig (quoted "p")); CPre PNot (CSig (quoted "q"))])]].
Example C57_read : parse_c2po None C2poChecks.plain default_file = Some default_program.
Proof. vm_compute. reflexivity. Qed.
Example C57_boolean : boolean_file the_names default_program /\ instant_names default_program.
Proof.
  split.
  - split; [repeat constructor; cbn; intuition discriminate|]. exists (fun x => negb (str_eqb x (quoted "__f2__"))). cbn.
    repeat split; auto; try lia; try (intros; discriminate); repeat constructor.
  - intros x e He [<-|[]]. cbn in He. destruct He as [H|[H|[H|[H|[]]]]]; [injection H as <-; reflexivity|discriminate H..].
Qed.
Definition the_map : mapping := [(quoted "q", 0%N); (quoted "p", 1%N)].
Definition the_specs : list (bool * item) := match elaborate the_map default_program with Some l => l | None => [] end.
Example C57_modest : parse_trace (used default_program) trace_file = Mapped the_map 5 /\ List.length the_specs = 3 /\
  elaborate the_map default_program = Some the_specs /\
  Forall (fun s : bool * item => let e := compile_expr (snd (snd s)) in if fst s then modest_formula e else flat_formula e) the_specs.
Proof.
  split; [vm_compute; reflexivity|]. split; [vm_compute; reflexivity|]. split; [vm_compute; reflexivity|].
  let l := eval vm_compute in the_specs in change the_specs with l.
  repeat (apply Forall_cons; [vm_compute; repeat split; try (intros; lia); try (intros; discriminate); try (eexists; reflexivity)|]). apply Forall_nil.
Qed.

(** ** Reports with the default options *)
Definition default_reports (content trace : str) (ks : list nat) : option (list (list verdict)) :=
  match compile_recorded None C2poChecks.plain 0 20 100 content trace with
  | Some asm =>
      match assemble_binary asm [] with
      | Some b => match boot b, c_atoms 100 trace with
                  | Some (prog, confs), Some atoms => option_map (fun m => map (fun k => reports k m) ks) (run 20 atoms prog (init prog confs))
                  | _, _ => None
                  end
      | None => None
      end
  | None => None
  end.
Definition rain : str := quoted ("#q,p" ++ nl ++ "0,1" ++ nl ++ "0,0" ++ nl ++ "0,0" ++ nl ++ "0,0" ++ nl ++ "0,0" ++ nl ++ "0,0" ++ nl ++ "0,0" ++ nl)%string.
Definition rain_table : list (list str) := map (map quoted) [["0"; "1"]; ["0"; "0"]; ["0"; "0"]; ["0"; "0"]; ["0"; "0"]; ["0"; "0"]; ["0"; "0"]]%string.
Example C57_reports : default_reports default_file rain [0; 1; 2] =
  Some [[(true, 0); (false, 5); (false, 6)]; [(false, 0); (true, 1); (true, 2); (true, 3); (true, 4)]; [(false, 0); (true, 1); (true, 2); (true, 3); (false, 4); (false, 5); (false, 6); (false, 7)]].
Proof. vm_compute. reflexivity. Qed.

Definition rust_default_reports (content trace : str) (ks : list nat) : option (list (list verdict)) :=
  match compile_recorded None C2poChecks.plain 0 20 100 content trace with
  | Some asm =>
      match assemble_binary asm [] with
      | Some b => match rust_boot b, rust_atoms trace with
                  | Some (prog, confs), Some atoms =>
                      match RustEngine.rust_run 20 (rust_rows atoms) prog (rust_init prog confs) with
                      | Finished m => Some (map (fun k => reports k m) ks)
                      | _ => None
                      end
                  | _, _ => None
                  end
      | None => None
      end
  | None => None
  end.
Example C57_rust_reports : rust_default_reports default_file rain [0; 1; 2] =
  Some [[(true, 0); (false, 5); (false, 6)]; [(false, 0); (true, 1); (true, 2); (true, 3); (true, 4)]; [(false, 0); (true, 1); (true, 2); (true, 3); (false, 4); (false, 5); (false, 6); (false, 7)]].
Proof. vm_compute. reflexivity. Qed.

(** ** The finding: a name for a formula that waits *)
(** The compiler records the delay of [p && !late] with delay 0 for [late], and does
    not record it again when it puts the formula in place of its name (cpt.py 42-43,
    87-105, 526-527; desugar.py 12-20; scq.py 41-42): [p] gets
    a queue of one slot, and its verdicts are gone when those of [late] come.  The file
    with the formula written out means the same and gets true reports. *)
Definition named_file : str := quoted ("INPUT p, q: bool;" ++ nl ++ "FTSPEC" ++ nl ++ "  late: F[0,5] q;" ++ nl ++ "  p && !late;" ++ nl)%string.
Definition written_file : str := quoted ("INPUT p, q: bool;" ++ nl ++ "FTSPEC" ++ nl ++ "  late: F[0,5] q;" ++ nl ++ "  p && !(F[0,5] q);" ++ nl)%string.
Definition with_second (e : cx) : list section :=
  [SInput [([quoted "p"; quoted "q"], TyName (quoted "bool"))];
   SSpec true [Formula (quoted "late") 0 (CT1 UF 0 5 (CSig (quoted "q"))); Formula (quoted "__f1__") 1 (COp And [CSig (quoted "p"); CPre PNot e])]].
Definition named_program : list section := with_second (CVar (quoted "late")).
Definition written_program : list section := with_second (CT1 UF 0 5 (CSig (quoted "q"))).
Example C57_rain : trace_text 100 (Some the_names) rain_table rain /\ Forall2 header_cell the_names the_names.
Proof.
  split.
  - exists (map quoted ["0,1"; "0,0"; "0,0"; "0,0"; "0,0"; "0,0"; "0,0"]%string). split; [|split].
    + repeat (apply Forall2_cons; [apply two_cells|]). apply Forall2_nil.
    + repeat (apply Forall_cons; [unfold fits_in; cbn; lia|]). apply Forall_nil.
    + exists (quoted "q,p"). split; [apply (two_cells "q" "p")|]. split; [unfold fits_in; cbn; lia|].
      apply (file_line (quoted "#q,p")). apply (file_line (quoted "0,1")). do 6 apply (file_line (quoted "0,0")). apply file_end.
  - apply Forall2_cons; [|apply Forall2_cons; [|apply Forall2_nil]]; (split; [discriminate|split; [apply name_check; reflexivity|]]);
      exists [], []; repeat split; repeat constructor.
Qed.
Definition rain_values (s : str) (t : nat) : bool := str_eqb s (quoted "p") && (t =? 0).
Theorem C57_named_formula_refuted :
  exists p p', parse_c2po None C2poChecks.plain named_file = Some p /\ parse_c2po None C2poChecks.plain written_file = Some p' /\
    boolean_file the_names p /\ boolean_file the_names p' /\ future_only p /\ future_only p' /\
    (forall v, Forall2 (fun P Q => fst P = fst Q /\ forall t, snd P t <-> snd Q t) (meanings v p) (meanings v p')) /\
    (exists specs, elaborate the_map p = Some specs /\ elaborate the_map p' = Some specs /\
                   Forall (fun s => modest_formula (compile_expr (snd (snd s)))) specs) /\
    agrees the_names rain_table rain_values /\
    (exists P, nth_error (meanings (fun s t => rain_values s t = true) p) 1 = Some (1, P) /\ P 0) /\
    (exists r, default_reports named_file rain [1] = Some [r] /\ reported r 0 false) /\
    (exists r, rust_default_reports named_file rain [1] = Some [r] /\ reported r 0 false) /\
    (exists r, default_reports written_file rain [1] = Some [r] /\ reported r 0 true).
Proof.
  exists named_program, written_program.
  split; [vm_compute; reflexivity|]. split; [vm_compute; reflexivity|].
  split; [split; [repeat constructor; cbn; intuition discriminate|exists (fun _ => true); cbn; repeat split; auto; try lia; repeat constructor]|].
  split; [split; [repeat constructor; cbn; intuition discriminate|exists (fun _ => true); cbn; repeat split; auto; try lia; repeat constructor]|].
  split; [intros l; cbn; intuition discriminate|]. split; [intros l; cbn; intuition discriminate|].
  split.
  { intros v. cbn. apply Forall2_cons; [split; [reflexivity|intros t; cbn; tauto]|]. apply Forall2_cons; [|apply Forall2_nil]. split; [reflexivity|]. intros t. cbn.
    assert (D : define v ["l"; "a"; "t"; "e"]%char (fun t => exists i, t + 0 <= i <= t + 5 /\ v ["q"%char] i) ["l"; "a"; "t"; "e"]%char t <->
                exists i, t + 0 <= i <= t + 5 /\ v ["q"%char] i) by (unfold define; intuition congruence).
    rewrite D. clear D. unfold define. split; intros [A B]; (split; [exact A|]); intros (i & Hi & C); apply B; exists i; (split; [exact Hi|]).
    - destruct C as [[C _]|[_ C]]; [discriminate C|exact C].
    - right. split; [discriminate|exact C]. }
  split.
  { eexists. split; [vm_compute; reflexivity|]. split; [vm_compute; reflexivity|].
    repeat (apply Forall_cons; [vm_compute; repeat split; try (intros; lia); try (intros; discriminate); try (eexists; reflexivity)|]). apply Forall_nil. }
  split.
  { intros t row j cell s Ht Hj Hs.
    assert (T7 : forall P : nat -> Prop, P 0 -> P 1 -> P 2 -> P 3 -> P 4 -> P 5 -> P 6 -> P t).
    { intros P P0 P1 P2 P3 P4 P5 P6. do 7 (destruct t as [|t]; [assumption|]). destruct t; discriminate Ht. }
    revert Ht. pattern t. apply T7; intros Ht; injection Ht as <-; (destruct j as [|[|j]]; [| |destruct j; discriminate Hs]); injection Hs as <-; injection Hj as <-;
      vm_compute; intuition discriminate. }
  split.
  { eexists. split; [reflexivity|]. cbn. unfold define. split; [right; split; [discriminate|reflexivity]|]. intros [[_ (i & _ & Hi)]|[H _]]; [discriminate Hi|]. apply H. reflexivity. }
  split; [|split].
  - eexists. split; [vm_compute; reflexivity|]. exists [], 1. eexists. split; [reflexivity|]. split; [lia|]. intros v [].
  - eexists. split; [vm_compute; reflexivity|]. exists [], 1. eexists. split; [reflexivity|]. split; [lia|]. intros v [].
  - eexists. split; [vm_compute; reflexivity|]. exists [], 0. eexists. split; [reflexivity|]. split; [lia|]. intros v [].
Qed.
Print Assumptions C57_named_formula_refuted.

(** ** Another finding: past-time formulas *)
(** No name is involved.  When p turns false at 2, O[0,3] (H[0,1] p), still true at
    4, is known to be false for 5 and 6 at once; the recorded delays give it one slot. *)
Definition past_file : str := quoted ("INPUT p, q: bool;" ++ nl ++ "PTSPEC" ++ nl ++ "  O[0,3] (H[0,1] p) && q;" ++ nl)%string.
Definition past_program : list section :=
  [SInput [([quoted "p"; quoted "q"], TyName (quoted "bool"))];
   SSpec false [Formula (quoted "__f0__") 0 (COp And [CT1 UO 0 3 (CT1 UH 0 1 (CSig (quoted "p"))); CSig (quoted "q")])]].
Definition dry : str := quoted ("#q,p" ++ nl ++ "1,1" ++ nl ++ "1,1" ++ nl ++ "1,0" ++ nl ++ "1,0" ++ nl ++ "1,0" ++ nl ++ "1,0" ++ nl)%string.
Definition dry_table : list (list str) := map (map quoted) [["1"; "1"]; ["1"; "1"]; ["1"; "0"]; ["1"; "0"]; ["1"; "0"]; ["1"; "0"]]%string.
Definition dry_values (s : str) (t : nat) : bool := str_eqb s (quoted "q") || (t <? 2).
Theorem C57_past_formula_refuted :
  exists p, parse_c2po None C2poChecks.plain past_file = Some p /\ boolean_file the_names p /\ instant_names p /\
    trace_text 100 (Some the_names) dry_table dry /\ agrees the_names dry_table dry_values /\
    (exists P, nth_error (meanings (fun s t => dry_values s t = true) p) 0 = Some (0, P) /\ P 4) /\
    (exists r, default_reports past_file dry [0] = Some [r] /\ reported r 4 false) /\
    (exists r, rust_default_reports past_file dry [0] = Some [r] /\ reported r 4 false).
Proof.
  exists past_program. split; [vm_compute; reflexivity|].
  split; [split; [repeat constructor; cbn; intuition discriminate|exists (fun _ => false); cbn; repeat split; auto; try lia; repeat constructor]|].
  split; [intros x e He []|].
  split.
  { exists (map quoted ["1,1"; "1,1"; "1,0"; "1,0"; "1,0"; "1,0"]%string). split; [|split].
    + repeat (apply Forall2_cons; [apply two_cells|]). apply Forall2_nil.
    + repeat (apply Forall_cons; [unfold fits_in; cbn; lia|]). apply Forall_nil.
    + exists (quoted "q,p"). split; [apply (two_cells "q" "p")|]. split; [unfold fits_in; cbn; lia|].
      apply (file_line (quoted "#q,p")). do 2 apply (file_line (quoted "1,1")). do 4 apply (file_line (quoted "1,0")). apply file_end. }
  split.
  { intros t row j cell s Ht Hj Hs.
    assert (T6 : forall P : nat -> Prop, P 0 -> P 1 -> P 2 -> P 3 -> P 4 -> P 5 -> P t).
    { intros P P0 P1 P2 P3 P4 P5. do 6 (destruct t as [|t]; [assumption|]). destruct t; discriminate Ht. }
    revert Ht. pattern t. apply T6; intros Ht; injection Ht as <-; (destruct j as [|[|j]]; [| |destruct j; discriminate Hs]); injection Hs as <-; injection Hj as <-;
      vm_compute; intuition discriminate. }
  split.
  { eexists. split; [reflexivity|]. cbn. split; [|reflexivity]. exists 1. split; [lia|]. intros j Hj. unfold dry_values. cbn. apply Nat.leb_le. lia. }
  split.
  - eexists. split; [vm_compute; reflexivity|]. cbn. eexists [_; _; _; _], 5, _. split; [reflexivity|]. split; [lia|]. cbn. intros v Hv. intuition (subst; cbn; lia).
  - eexists. split; [vm_compute; reflexivity|]. cbn. eexists [_; _; _; _], 5, _. split; [reflexivity|]. split; [lia|]. cbn. intros v Hv. intuition (subst; cbn; lia).
Qed.
Print Assumptions C57_past_formula_refuted.
