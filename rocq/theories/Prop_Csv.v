(** * Trace files: C46, C47, C48

    [size] is the monitor's line buffer (BUFSIZ).  [c_read] and [c_atoms] are the
    C monitor, [parse_trace] and [generate_trace] the compiler, [rust_atoms] the
    Rust monitor. *)
From Coq Require Import List Arith NArith ZArith Bool Ascii Lia.
Require Import Verif.Mltl Verif.MltlShape Verif.Transform Verif.Pipeline Verif.Graph Verif.GraphSpec.
Require Import Verif.Binary Verif.BinarySpec Verif.Assembly Verif.Layout Verif.AssemblySpec Verif.LayoutSpec.
Require Import Verif.Scq Verif.Engine Verif.Monitoring Verif.EndToEnd.
Require Import Verif.MapFile Verif.Booleanizer Verif.BooleanizerSpec Verif.RustBooleanizer.
Require Import Verif.CsvTrace Verif.CsvSpec Verif.CsvProofs Verif.CsvHeader Verif.CsvAgree Verif.CsvStamps Verif.CsvReports.
Import ListNotations.
Local Existing Instance C_monitor.
Local Open Scope nat_scope.
Local Open Scope char_scope.

(** C46: the C monitor performs one step per row, in order, with its cells. *)
Theorem C46_reader_partial size header rows s :
  trace_text size header rows s -> header_ok header -> Forall plain_row rows -> c_read size s = Some (stamped 0 rows).
Proof. exact (read_table size header rows s). Qed.
Print Assumptions C46_reader_partial.

(** C46: the compiler gives the signal named in column [j] the number [j], and at
    time [t] the monitor reads its cell of row [t]. *)
Theorem C46_columns_partial size names cells rows s signals :
  trace_text size (Some cells) rows s -> Forall2 header_cell names cells -> NoDup names -> incl signals names ->
  Forall plain_row rows ->
  (exists m, parse_trace signals s = Mapped m (length rows) /\
     forall j n, nth_error names j = Some n -> map_get m n = Some (N.of_nat j)) /\
  (exists atoms, c_atoms size s = Some atoms /\ length atoms = length rows /\
     forall t row j cell g, nth_error rows t = Some row -> nth_error row j = Some cell ->
       (nth t atoms g j = true <-> cell <> ["0"])).
Proof.
  exact (fun H F D I P => conj (header_columns size names cells rows s signals H F D I P)
                               (atoms_table size (Some cells) rows s H (proj2 (strip_cells names cells F)) P)).
Qed.
Print Assumptions C46_columns_partial.

(** C46: with the booleanizer, signals get the numbers in their column. *)
Theorem C46_numbers_partial sf types size header rows s :
  trace_text size header rows s -> header_ok header -> Forall plain_row rows ->
  typed_cells sf types rows -> (forall k, (k < 0)%Z -> types k = types 0%Z) ->
  exists inp, c_inputs sf (zeros types) size s = Some inp /\ typed types inp /\
    forall t row j cell, nth_error rows t = Some row -> nth_error row j = Some cell ->
      (forall z, integer cell z -> types (Z.of_nat j) = true -> inp t (Z.of_nat j) = VInt z) /\
      (forall b, sf cell = Some b -> types (Z.of_nat j) = false -> inp t (Z.of_nat j) = VFloat b).
Proof. exact (typed_inputs sf types size header rows s). Qed.
Print Assumptions C46_numbers_partial.

(** C46: signals without a cell in a row keep their value (at first false). *)
Theorem C46_short_rows size header rows s : trace_text size header rows s -> header_ok header -> Forall plain_row rows ->
  exists atoms, c_atoms size s = Some atoms /\
    forall t row j g, nth_error rows t = Some row -> nth_error row j = None ->
      nth t atoms g j = match t with O => false | S t' => nth t' atoms g j end.
Proof. exact (short_rows size header rows s). Qed.
Print Assumptions C46_short_rows.

(** C46: rows with time stamps are handed over at these times, the value behind
    the stamp as signal 0. *)
Theorem C46_time_stamps size stamps rows lines s :
  Forall2 (fun sr l => timed_line (fst sr) (snd sr) l) (combine stamps rows) lines -> length stamps = length rows ->
  Forall (fits_in size) lines -> file_text lines s -> c_read size s = Some (combine (clock 0 stamps) rows).
Proof. exact (read_timed size stamps rows lines s). Qed.
Print Assumptions C46_time_stamps.

(** C46: without a header the compiler takes the number of rows for the length of
    the trace. *)
Theorem C46_no_header size rows s signals : trace_text size None rows s -> Forall plain_row rows -> rows <> [] ->
  parse_trace signals s = NoHeader (length rows).
Proof. exact (no_header size rows s signals). Qed.
Print Assumptions C46_no_header.

(** C39, C46: from formulas and a trace file to reports. *)
Theorem C39_csv_to_reports h T cls wpd_of bpd_of const ft pt specs aux :
  denotes h T -> well_shaped h -> nkind (h ft) = KSet -> nkind (h pt) = KSet ->
  named_apart h cls -> cls ft = CSet -> cls pt = CSet -> nchildren (h pt) = [] ->
  tl_shaped h cls -> (forall n, reachable h [ft] n -> assemblable h cls ft_code n) ->
  Forall2 (spec_of compile_expr h cls) (nchildren (h ft)) specs -> NoDup (map fst specs) ->
  Forall (fun s => legal (snd s) /\ all_nodes rewrite_source_op (snd s) /\
                   monitorable (compile_expr (snd s)) /\ (wpd (compile_expr (snd s)) < const)%Z) specs ->
  (0 <= const)%Z ->
  exists depth0, forall depth, depth0 <= depth -> exists fuel0 h' asm,
    (forall fuel, fuel0 <= fuel -> optimize_cse depth fuel h ft pt = Some h' /\
                                   gen_assembly fuel h' cls wpd_of bpd_of const ft pt = Some asm) /\
    forall bytes, Forall fits asm -> (arena_slots asm < 2 ^ 32)%Z -> assemble_binary asm aux = Some bytes ->
    exists prog confs passes0, boot bytes = Some (prog, confs) /\
      forall size header table s passes, passes0 <= passes ->
      trace_text size header table s -> header_ok header -> Forall plain_row table ->
      exists atoms tr m, c_atoms size s = Some atoms /\ run passes atoms prog (init prog confs) = Some m /\
        (forall t row j cell, nth_error table t = Some row -> nth_error row j = Some cell ->
           (tr t j = true <-> cell <> ["0"])) /\
        forall num e, In (num, e) specs ->
          increasing (reports (Z.to_nat num) m) /\
          (forall t b, reported (reports (Z.to_nat num) m) t b -> (b = true <-> sat tr e t) /\ t < length table) /\
          (forall t, (Z.of_nat t + wpd (compile_expr e) < Z.of_nat (length table))%Z ->
             exists b, reported (reports (Z.to_nat num) m) t b).
Proof. exact (csv_to_reports h T cls wpd_of bpd_of const ft pt specs aux). Qed.
Print Assumptions C39_csv_to_reports.

Definition newline : ascii := "010".
(** The file
    # a ,b
    1,0
    12,-7
    without a newline at the end. *)
Definition sample : text :=
  ["#"; " "; "a"; " "; ","; "b"; newline; "1"; ","; "0"; newline; "1"; "2"; ","; "-"; "7"].
Definition sample_rows : list (list text) := [[["1"]; ["0"]]; [["1"; "2"]; ["-"; "7"]]].
Definition sample_header : list text := [[" "; "a"; " "]; ["b"]].
Lemma ordinary_check l : forallb (fun c => negb (existsb (Ascii.eqb c) [","; "000"; "010"; "011"; "012"; "013"; "028"; "029"; "030"])) l = true -> Forall ordinary l.
Proof.
  intros H. apply Forall_forall. intros c Hc. rewrite forallb_forall in H. specialize (H c Hc). clear Hc.
  destruct c as [[] [] [] [] [] [] [] []]; try discriminate H; (repeat split; [discriminate|discriminate|cbn; intuition discriminate]).
Qed.
Example C46_hypotheses :
  trace_text 8 (Some sample_header) sample_rows sample /\ Forall2 header_cell [["a"]; ["b"]] sample_header /\
  NoDup [["a"]; ["b"]] /\ incl [["b"]] [["a"]; ["b"]] /\ Forall plain_row sample_rows.
Proof.
  split; [|split; [|split; [|split]]].
  - exists [["1"; ","; "0"]; ["1"; "2"; ","; "-"; "7"]]. split; [|split].
    + constructor; [apply (line_more ["1"] [["0"]]), line_one|].
      constructor; [apply (line_more ["1"; "2"] [["-"; "7"]]), line_one|constructor].
    + repeat constructor; unfold fits_in; cbn; lia.
    + exists [" "; "a"; " "; ","; "b"]. split; [apply (line_more [" "; "a"; " "] [["b"]]), line_one|].
      split; [unfold fits_in; cbn; lia|]. apply (file_line ["#"; " "; "a"; " "; ","; "b"]).
      apply (file_line ["1"; ","; "0"]). apply file_last. discriminate.
  - constructor; [|constructor; [|constructor]]; (split; [discriminate|split]).
    + constructor; [|constructor]. split; [exact (Forall_inv (ordinary_check ["a"] eq_refl))|]. split; [intros [X|X]; discriminate|discriminate].
    + exists [" "], [" "]. repeat split; repeat constructor.
    + constructor; [|constructor]. split; [exact (Forall_inv (ordinary_check ["b"] eq_refl))|]. split; [intros [X|X]; discriminate|discriminate].
    + exists [], []. repeat split; repeat constructor.
  - repeat constructor; cbn; intuition discriminate.
  - intros x [<-|[]]. cbn. auto.
  - constructor; [|constructor; [|constructor]]; (split; [constructor; [|constructor; [|constructor]]; (split; [discriminate|apply ordinary_check; reflexivity])|]).
    + exists "1", [], [["0"]]. repeat split; discriminate.
    + exists "1", ["2"], [["-"; "7"]]. repeat split; discriminate.
Qed.
Example C46_sample :
  c_read 8 sample = Some [(0%Z, [["1"]; ["0"]]); (1%Z, [["1"; "2"]; ["-"; "7"]])] /\
  parse_trace [["b"]] sample = Mapped [(["a"], 0%N); (["b"], 1%N)] 2.
Proof. split; vm_compute; reflexivity. Qed.

(** Rows at 0, 7 and 8; the last has no cell for signal 1. *)
Example C46_time_stamps_case :
  let lines := [["1"; ","; "0"]; ["@"; "7"; " "; "0"; ","; "1"]; ["1"]] in
  let stamps := [None; Some 7%Z; None] in
  let rows := [[["1"]; ["0"]]; [["0"]; ["1"]]; [["1"]]] in
  Forall2 (fun sr l => timed_line (fst sr) (snd sr) l) (combine stamps rows) lines /\
  combine (clock 0 stamps) rows = [(0%Z, [["1"]; ["0"]]); (7%Z, [["0"]; ["1"]]); (8%Z, [["1"]])] /\
  option_map (map (fun row => map row [0; 1])) (c_atoms 20 (join newline lines)) = Some [[true; false]; [false; true]; [true; true]].
Proof.
  cbv zeta. split; [|split; vm_compute; reflexivity].
  assert (P : forall c, forallb (fun c => negb (existsb (Ascii.eqb c) [","; "000"; "010"; "011"; "012"; "013"; "028"; "029"; "030"])) [c] = true -> plain [c]).
  { intros c H. split; [discriminate|apply ordinary_check; exact H]. }
  constructor; [|constructor; [|constructor; [|constructor]]]; cbn [fst snd].
  - apply timed_next; [|apply (line_more ["1"] [["0"]]), line_one]. split; [constructor; [|constructor; [|constructor]]; apply P; reflexivity|].
    exists "1", [], [["0"]]. repeat split; discriminate.
  - apply (timed_at 7 ["7"] 0); try (apply P; reflexivity); try lia.
    + apply digits_one. split; [lia|reflexivity].
    + cbn. intuition discriminate.
    + constructor; [apply P; reflexivity|constructor].
    + apply (line_more ["@"; "7"; " "; "0"] [["1"]]), line_one.
  - apply timed_next; [|apply line_one]. split; [constructor; [|constructor]; apply P; reflexivity|].
    exists "1", [], []. repeat split; discriminate.
Qed.

(** C46 fails for empty cells: the cells after one move to the left. *)
Theorem C46_empty_cell_refuted :
  exists s, file_text [["#"; "a"; ","; "b"; ","; "c"]; ["1"; ","; ","; "0"]] s /\
    parse_trace [["b"]] s = Mapped [(["a"], 0%N); (["b"], 1%N); (["c"], 2%N)] 1 /\
    c_read 100 s = Some [(0%Z, [["1"]; ["0"]])].
Proof.
  exists (["#"; "a"; ","; "b"; ","; "c"] ++ newline :: ["1"; ","; ","; "0"] ++ [newline]).
  split; [repeat constructor|]. split; vm_compute; reflexivity.
Qed.
Print Assumptions C46_empty_cell_refuted.

(** C46 fails for blanks before a zero, as in the documentation
    (signal_mapping.md 53-56: # p,q,... then rows that start with two blanks): p is
    0 in the file and true in the monitor. *)
Theorem C46_documented_example_refuted :
  exists s, file_text [["#"; " "; "p"; ","; "q"]; [" "; " "; "0"; ","; "1"]] s /\
    parse_trace [["p"]; ["q"]] s = Mapped [(["p"], 0%N); (["q"], 1%N)] 1 /\
    option_map (map (fun row => map row (seq 0 2))) (c_atoms 100 s) = Some [[true; true]].
Proof.
  exists (["#"; " "; "p"; ","; "q"] ++ newline :: [" "; " "; "0"; ","; "1"] ++ [newline]).
  split; [repeat constructor|]. split; vm_compute; reflexivity.
Qed.
Print Assumptions C46_documented_example_refuted.

(** C46 fails for a row longer than the buffer, however large the buffer is. *)
Theorem C46_long_line_refuted size : 2 <= size -> exists row line s,
  plain_row row /\ line_text row line /\ file_text [line] s /\ c_read size s <> Some (stamped 0 [row]).
Proof. exact (long_line size). Qed.
Print Assumptions C46_long_line_refuted.

(** C46 fails for real columns with a number without a decimal point: it is
    stored as an integer, whatever the library reads it as. *)
Theorem C46_whole_float_refuted :
  exists cell, integer cell 5 /\ forall sf, c_value sf cell = Some (VInt 5).
Proof. exists ["5"]. split; [apply integer_plus, digits_one; split; [lia|reflexivity]|reflexivity]. Qed.
Print Assumptions C46_whole_float_refuted.

(** A repeated name is an error rather than the right-most column (trace.py
    51-54). *)
Theorem C46_repeated_name_refuted :
  exists s, file_text [["#"; "a"; ","; "a"]; ["1"; ","; "0"]] s /\ parse_trace [["a"]] s = TraceError.
Proof. exists (["#"; "a"; ","; "a"] ++ newline :: ["1"; ","; "0"]). split; [constructor; constructor; discriminate|reflexivity]. Qed.
Print Assumptions C46_repeated_name_refuted.

(** C47: in a generated trace the monitor reads for each signal the value
    generated for it, when the signals are numbered without gaps; read back, the
    header gives each signal its number. *)
Theorem C47_generated_partial m signals cell n size :
  signals <> [] -> dense (map_get m) signals ->
  (forall s, In s signals -> s <> [] /\ Forall name_char s) ->
  (forall t s, In s signals -> plain (cell t s) /\ hd_error (cell t s) <> Some "#" /\ hd_error (cell t s) <> Some "@") ->
  exists text rows, generate_trace m signals cell n = Some text /\ length rows = n /\
    (forall t s, t < n -> In s signals -> exists row j, nth_error rows t = Some row /\ map_get m s = Some (N.of_nat j) /\
       nth_error row j = Some (cell t s)) /\
    (exists m', parse_trace signals text = Mapped m' n /\ forall s, In s signals -> map_get m' s = map_get m s) /\
    ((forall line, In line (split_lines text []) -> fits_in size line) ->
     c_read size text = Some (stamped 0 rows)).
Proof. exact (generated m signals cell n size). Qed.
Print Assumptions C47_generated_partial.

(** Signals b:0 and a:1 declared in the other order. *)
Definition sample_map : list (text * N) := [(["b"], 0%N); (["a"], 1%N)].
Definition sample_cell (t : nat) (s : text) : text := match s, t with ["a"], O => ["1"] | ["a"], _ => ["0"] | _, _ => ["4"; "2"] end.
Example C47_hypotheses : dense (map_get sample_map) [["a"]; ["b"]].
Proof.
  split; [repeat constructor; cbn; intuition discriminate|]. split.
  - intros s [<-|[<-|[]]]; eexists; split; try reflexivity; lia.
  - intros s s' [<-|[<-|[]]] [<-|[<-|[]]]; vm_compute; congruence.
Qed.
Example C47_sample : generate_trace sample_map [["a"]; ["b"]] sample_cell 2 =
  Some ["#"; "b"; ","; "a"; newline; "4"; "2"; ","; "1"; newline; "4"; "2"; ","; "0"].
Proof. vm_compute. reflexivity. Qed.

(** C47 fails for maps with gaps: signal b has number 5, its values are in
    column 1. *)
Theorem C47_gap_refuted :
  exists m signals cell s, assign_ids m signals <> None /\ generate_trace m signals cell 1 = Some s /\
    map_get m ["b"] = Some 5%N /\ cell 0 ["b"] = ["7"] /\
    c_read 100 s = Some [(0%Z, [["1"]; ["7"]])] /\ exists m', parse_trace signals s = Mapped m' 1 /\ map_get m' ["b"] <> map_get m ["b"].
Proof.
  exists [(["a"], 0%N); (["b"], 5%N)], [["a"]; ["b"]], (fun _ s => match s with ["a"] => ["1"] | _ => ["7"] end).
  eexists. split; [discriminate|]. split; [vm_compute; reflexivity|]. split; [reflexivity|]. split; [reflexivity|].
  split; [vm_compute; reflexivity|]. eexists. split; [vm_compute; reflexivity|discriminate].
Qed.
Print Assumptions C47_gap_refuted.

(** C48: on tables of integers both monitors load the same atomics. *)
Theorem C48_readers_agree_partial size header rows values s w :
  trace_text size header rows s -> header_ok header ->
  Forall2 (Forall2 integer) rows values -> Forall (Forall (fun z => (- 2 ^ 31 <= z < 2 ^ 31)%Z)) values ->
  Forall (fun r => length r = S w) rows ->
  exists atoms, c_atoms size s = Some atoms /\ length atoms = length values /\
    rust_atoms s = Some (map (map nonzero) values) /\
    forall t row j z g, nth_error values t = Some row -> nth_error row j = Some z -> nth t atoms g j = nonzero z.
Proof. exact (readers_agree size header rows values s w). Qed.
Print Assumptions C48_readers_agree_partial.

(** C48: and with the booleanizer the same numbers, from integers and from
    numbers with a decimal point. *)
Theorem C48_same_numbers sf old s :
  (forall z, integer s z -> (- 2 ^ 31 <= z < 2 ^ 31)%Z ->
     c_value sf s = Some (VInt z) /\ exists v, rust_value sf old s = Some v /\ r_i v = z) /\
  (forall b, In "." s -> sf s = Some b ->
     c_value sf s = Some (VFloat b) /\ exists v, rust_value sf old s = Some v /\ r_f v = b).
Proof. exact (same_values sf old s). Qed.
Print Assumptions C48_same_numbers.

Example C48_hypotheses : Forall2 (Forall2 integer) sample_rows [[1; 0]; [12; -7]]%Z.
Proof.
  assert (D : forall c d, (0 <= d <= 9)%Z -> N_of_ascii c = (48 + Z.to_N d)%N -> digits [c] d) by (intros; apply digits_one; split; assumption).
  repeat apply Forall2_cons; try apply Forall2_nil.
  - apply integer_plus, D; [lia|reflexivity].
  - apply integer_plus, D; [lia|reflexivity].
  - apply integer_plus, (digits_more ["1"] 1 "2" 2); [apply D; [lia|reflexivity]|lia|split; [lia|reflexivity]].
  - apply (integer_minus ["7"] 7); [apply D; [lia|reflexivity]|lia].
Qed.
Example C48_sample : rust_atoms sample = Some [[true; false]; [true; true]] /\
  option_map (map (fun row => map row (seq 0 2))) (c_atoms 8 sample) = Some [[true; false]; [true; true]].
Proof. split; vm_compute; reflexivity. Qed.

(** C48 fails for a blank after the comma, a carriage return at the end of the
    line and a leading zero: the C monitor takes these zeros as true. *)
Theorem C48_zeros_refuted :
  exists s1 s2 s3,
    s1 = ["1"; ","; " "; "0"; newline] /\ s2 = ["1"; ","; "0"; "013"; newline] /\ s3 = ["1"; ","; "0"; "0"; newline] /\
    Forall (fun s => rust_atoms s = Some [[true; false]] /\
                     option_map (map (fun row => map row (seq 0 2))) (c_atoms 100 s) = Some [[true; true]]) [s1; s2; s3].
Proof. do 3 eexists. do 3 (split; [reflexivity|]). repeat constructor; vm_compute; reflexivity. Qed.
Print Assumptions C48_zeros_refuted.

(** C48 fails for comments after the first row: to the C monitor they are rows. *)
Theorem C48_comment_refuted :
  exists s, file_text [["0"]; ["#"; "x"]; ["0"]] s /\ rust_atoms s = Some [[false]; [false]] /\
    option_map (map (fun row => map row (seq 0 1))) (c_atoms 100 s) = Some [[false]; [true]; [false]].
Proof.
  exists (["0"] ++ newline :: ["#"; "x"] ++ newline :: ["0"]).
  split; [apply file_line, file_line, file_last; discriminate|]. split; vm_compute; reflexivity.
Qed.
Print Assumptions C48_comment_refuted.
