(** * C53: from the text of a specification and of a trace to true reports

    [parse_c2po] reads the file, [meanings] is what its specifications say, by id
    (ElaborateSpec.v); [boolean_file names p]: Boolean inputs, definitions and
    future-time and past-time specifications over inputs that have a column, no name
    used by both kinds; [need], [answers]: TextSpec.v; [trace_text],
    [header_cell]: the text of the trace (CsvSpec.v); [agrees]: the truth values in
    its cells; [compile_files] is the compiler, [boot] and [run] the C monitor,
    [rust_boot] and [rust_run] the Rust one. *)
From Coq Require Import List Arith NArith ZArith Bool Ascii String Lia.
Require Import Verif.MapFile Verif.Mltl Verif.Transform Verif.Pipeline Verif.Binary Verif.BinarySpec Verif.Assembly Verif.Layout Verif.LayoutSpec.
Require Import Verif.Scq Verif.Engine Verif.Monitoring Verif.EndToEnd Verif.RustEngine Verif.RustLayout Verif.RustLayoutSpec.
Require Import Verif.CsvTrace Verif.CsvSpec Verif.C2poText Verif.C2poChecks Verif.Elaborate Verif.ElaborateSpec Verif.TextSpec Verif.TextReports.
Import ListNotations.
Local Existing Instance C_monitor.
Local Open Scope list_scope.
Local Open Scope nat_scope.

(** The compiler accepts the pair of files; and however the trace goes on after its
    last row, the reports of the C monitor are in order, true of what the file says,
    and there when due: for every time whose delay has passed, without delay for
    past-time specifications. *)
Theorem C53_text_to_reports_partial mission py wpd_of bpd_of const size names cells table content trace p aux :
  parse_c2po mission py content = Some p -> boolean_file names p ->
  trace_text size (Some cells) table trace -> Forall2 header_cell names cells -> NoDup names ->
  Forall (fun row => plain_row row /\ List.length row = List.length names) table ->
  (0 <= const)%Z ->
  exists m specs, parse_trace (used p) trace = Mapped m (List.length table) /\ elaborate m p = Some specs /\ map fst specs = kinds p /\
  (Forall (fun s => (need s < const)%Z) specs ->
   exists depth0, forall depth, depth0 <= depth -> exists fuel0 asm,
    (forall fuel, fuel0 <= fuel -> compile_files mission py wpd_of bpd_of const depth fuel content trace = Some asm) /\
    forall bytes, Forall fits asm -> (arena_slots asm < 2 ^ 32)%Z -> assemble_binary asm aux = Some bytes ->
    exists prog confs passes0, boot bytes = Some (prog, confs) /\
      forall passes, passes0 <= passes ->
      exists atoms mon, c_atoms size trace = Some atoms /\ run passes atoms prog (init prog confs) = Some mon /\
        forall v, agrees names table v ->
        Forall2 (answers (fun k => reports k mon) (List.length table)) specs (meanings (fun s t => v s t = true) p)).
Proof. exact (text_to_reports mission py wpd_of bpd_of const size names cells table content trace p aux). Qed.
Print Assumptions C53_text_to_reports_partial.

(** The same for the Rust monitor, on tables of integers of 32 bits. *)
Theorem C53_rust_text_to_reports_partial mission py wpd_of bpd_of const size names cells table values content trace p aux :
  parse_c2po mission py content = Some p -> boolean_file names p ->
  trace_text size (Some cells) table trace -> Forall2 header_cell names cells -> NoDup names ->
  Forall (fun row => List.length row = List.length names) table ->
  Forall2 (Forall2 integer) table values -> Forall (Forall (fun z => (- 2 ^ 31 <= z < 2 ^ 31)%Z)) values ->
  (0 <= const)%Z ->
  exists m specs, parse_trace (used p) trace = Mapped m (List.length table) /\ elaborate m p = Some specs /\ map fst specs = kinds p /\
  (Forall (fun s => (need s < const)%Z) specs ->
   exists depth0, forall depth, depth0 <= depth -> exists fuel0 asm,
    (forall fuel, fuel0 <= fuel -> compile_files mission py wpd_of bpd_of const depth fuel content trace = Some asm) /\
    forall bytes, Forall fits asm -> Forall small aux -> (arena_slots asm < 2 ^ 32)%Z -> assemble_binary asm aux = Some bytes ->
    exists prog confs passes0, rust_boot bytes = Some (prog, confs) /\
      forall passes, passes0 <= passes ->
      exists atoms mon, rust_atoms trace = Some atoms /\ RustEngine.rust_run passes (rust_rows atoms) prog (rust_init prog confs) = Finished mon /\
        forall v, agrees names table v ->
        Forall2 (answers (fun k => reports k mon) (List.length table)) specs (meanings (fun s t => v s t = true) p)).
Proof. exact (rust_text_to_reports mission py wpd_of bpd_of const size names cells table values content trace p aux). Qed.
Print Assumptions C53_rust_text_to_reports_partial.

(** ** Example: columns in another order than the declarations, definitions, a label
    used by another specification, and a past-time section between two others *)
Definition nl : string := String "010"%char EmptyString.
Definition spec_file : str := quoted ("INPUT p, q: bool;" ++ nl ++ "DEFINE r := p -> q; s := O[0,2] q;" ++ nl ++ "FTSPEC" ++ nl ++
  "  G[0,2] (r && F[0,1] p);" ++ nl ++ "  late: p U[0,1] q;" ++ nl ++ "PTSPEC" ++ nl ++ "  H[0,1] s && p;" ++ nl ++
  "FTSPEC" ++ nl ++ "  G[1,1] late;" ++ nl)%string.
Definition trace_file : str := quoted ("# q ,p" ++ nl ++ "1,0" ++ nl ++ "0,1" ++ nl ++ "1,1" ++ nl ++ "0,0" ++ nl ++ "1,7" ++ nl)%string.
Definition the_program : list section :=
  [SInput [([quoted "p"; quoted "q"], TyName (quoted "bool"))];
   SDefine [(quoted "r", COp Impl [CSig (quoted "p"); CSig (quoted "q")]); (quoted "s", CT1 UO 0 2 (CSig (quoted "q")))];
   SSpec true [Formula (quoted "__f0__") 0 (CT1 UG 0 2 (COp And [CVar (quoted "r"); CT1 UF 0 1 (CSig (quoted "p"))]));
               Formula (quoted "late") 1 (CT2 BU 0 1 (CSig (quoted "p")) (CSig (quoted "q")))];
   SSpec false [Formula (quoted "__f2__") 2 (COp And [CT1 UH 0 1 (CVar (quoted "s")); CSig (quoted "p")])];
   SSpec true [Formula (quoted "__f3__") 3 (CT1 UG 1 1 (CVar (quoted "late")))]].
Definition the_names : list str := [quoted "q"; quoted "p"].
Definition the_cells : list str := [quoted " q "; quoted "p"].
Definition the_table : list (list str) :=
  map (map quoted) [["1"; "0"]; ["0"; "1"]; ["1"; "1"]; ["0"; "0"]; ["1"; "7"]]%string.
Example C53_read : parse_c2po None C2poChecks.plain spec_file = Some the_program.
Proof. vm_compute. reflexivity. Qed.
Example C53_boolean : boolean_file the_names the_program.
Proof.
  split; [repeat constructor; cbn; intuition discriminate|].
  exists (fun x => negb (existsb (str_eqb x) (map quoted ["s"; "__f2__"]%string))). cbn.
  repeat split; auto; try lia; try (intros; discriminate); repeat constructor.
Qed.
Definition two_cells (a b : string) : line_text [quoted a; quoted b] (quoted a ++ ","%char :: quoted b) := line_more (quoted a) _ _ (line_one (quoted b)).
Example C53_trace : trace_text 100 (Some the_cells) the_table trace_file.
Proof.
  exists (map quoted ["1,0"; "0,1"; "1,1"; "0,0"; "1,7"]%string). split; [|split].
  - repeat (apply Forall2_cons; [apply two_cells|]). apply Forall2_nil.
  - repeat (apply Forall_cons; [unfold fits_in; cbn; lia|]). apply Forall_nil.
  - exists (quoted " q ,p"). split; [apply (two_cells " q " "p")|]. split; [unfold fits_in; cbn; lia|].
    apply (file_line (quoted "# q ,p")). apply (file_line (quoted "1,0")). apply (file_line (quoted "0,1")). apply (file_line (quoted "1,1")).
    apply (file_line (quoted "0,0")). apply (file_line (quoted "1,7")). apply file_end.
Qed.
Lemma name_check l : forallb (fun c => negb (existsb (Ascii.eqb c) [" "; "009"; ","; "000"; "010"; "011"; "012"; "013"; "028"; "029"; "030"; "031"]%char)) l = true ->
  Forall name_char l.
Proof.
  intros H. apply Forall_forall. intros c Hc. rewrite forallb_forall in H. specialize (H c Hc). clear Hc.
  destruct c as [[] [] [] [] [] [] [] []]; try discriminate H;
    (split; [repeat split; [discriminate|discriminate|cbn; intuition discriminate]|split; [intros [X|X]; discriminate|discriminate]]).
Qed.
Example C53_header : Forall2 header_cell the_names the_cells /\ NoDup the_names.
Proof.
  split; [|repeat constructor; cbn; intuition discriminate].
  apply Forall2_cons; [|apply Forall2_cons; [|apply Forall2_nil]]; (split; [discriminate|split; [apply name_check; reflexivity|]]).
  - exists [" "%char], [" "%char]. repeat split; repeat constructor.
  - exists [], []. repeat split; repeat constructor.
Qed.
Example C53_rows : Forall (fun row => plain_row row /\ List.length row = List.length the_names) the_table.
Proof.
  assert (D : forall c : ascii, forallb (fun c => negb (existsb (Ascii.eqb c) [" "; "009"; ","; "000"; "010"; "011"; "012"; "013"; "028"; "029"; "030"; "031"]%char)) [c] = true ->
              CsvSpec.plain [c]).
  { intros c H. split; [discriminate|]. eapply Forall_impl; [|apply name_check, H]. intros x [X _]. exact X. }
  repeat (apply Forall_cons; [split; [split; [repeat (apply Forall_cons; [apply D; reflexivity|]); apply Forall_nil|]|reflexivity];
    do 3 eexists; split; [reflexivity|split; discriminate]|]). apply Forall_nil.
Qed.
Example C53_values : Forall2 (Forall2 integer) the_table [[1; 0]; [0; 1]; [1; 1]; [0; 0]; [1; 7]]%Z.
Proof.
  assert (D : forall c d, (0 <= d <= 9)%Z -> N_of_ascii c = (48 + Z.to_N d)%N -> integer [c] d) by (intros; apply integer_plus, digits_one; split; assumption).
  repeat (apply Forall2_cons; [repeat (apply Forall2_cons; [apply D; [lia|reflexivity]|]); apply Forall2_nil|]). apply Forall2_nil.
Qed.
Definition binary : option (list Z) :=
  match compile_files None C2poChecks.plain (fun _ => 0%Z) (fun _ => 0%Z) 8 20 100 spec_file trace_file with
  | Some asm => assemble_binary asm []
  | None => None
  end.
Definition verdicts : list (list verdict) :=
  [[(false, 1); (true, 2)]; [(true, 0); (true, 2); (false, 3); (true, 4)];
   [(false, 0); (true, 1); (true, 2); (false, 3); (true, 4)]; [(true, 1); (false, 2); (true, 3)]].
Example C53_c_reports :
  (exists asm, compile_files None C2poChecks.plain (fun _ => 0%Z) (fun _ => 0%Z) 8 20 100 spec_file trace_file = Some asm /\
     List.length asm = 42 /\ Forall fits asm /\ (arena_slots asm < 2 ^ 32)%Z) /\
  match binary with
  | Some b => match boot b, c_atoms 100 trace_file with
              | Some (prog, confs), Some atoms => option_map (fun m => map (fun k => reports k m) [0; 1; 2; 3]) (run 20 atoms prog (init prog confs))
              | _, _ => None
              end
  | None => None
  end = Some verdicts.
Proof.
  split; [|vm_compute; reflexivity]. eexists. split; [vm_compute; reflexivity|]. split; [reflexivity|]. split; [|vm_compute; reflexivity].
  repeat (apply Forall_cons; [vm_compute; intuition congruence|]). apply Forall_nil.
Qed.
Example C53_rust_reports :
  match binary with
  | Some b => match rust_boot b, rust_atoms trace_file with
              | Some (prog, confs), Some atoms =>
                  match RustEngine.rust_run 20 (rust_rows atoms) prog (rust_init prog confs) with
                  | Finished m => Some (map (fun k => reports k m) [0; 1; 2; 3])
                  | _ => None
                  end
              | _, _ => None
              end
  | None => None
  end = Some verdicts.
Proof. vm_compute. reflexivity. Qed.
