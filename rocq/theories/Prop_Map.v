(** * C37: signal map files *)
From Coq Require Import List NArith Bool Ascii String.
Require Import Verif.MapFile Verif.MapSpec Verif.MapProofs.
Import ListNotations.
Local Open Scope string_scope.

Local Notation text := list_ascii_of_string.
Local Notation newline := (String "010" EmptyString).

(** The claim at full strength, [forall es, reads es] for entries with well
    formed symbols, is false; it holds for the [readable] entries: plain symbols,
    elements up to 99, and ranges that start at 0 to 9 (with any end). *)
Theorem C37_reads_partial : forall es, Forall readable es -> reads es.
Proof. exact readable_reads. Qed.
Print Assumptions C37_reads_partial.

Example C37_ex_readable : Forall readable [One (Plain (text "speed")) 4; Range (text "a") 8 12 7; One (Element (text "a") 9) 1].
Proof. repeat constructor. Qed.
Example C37_ex_read :
  read_map (file [One (Plain (text "speed")) 4; Range (text "a") 8 12 7; One (Element (text "a") 9) 1]) =
  Some [(text "speed", 4); (text "a[8]", 7); (text "a[9]", 1); (text "a[10]", 9); (text "a[11]", 10); (text "a[12]", 11)]%N.
Proof. vm_compute. reflexivity. Qed.
Example C37_ex_text : file [One (Plain (text "speed")) 4; Range (text "a") 8 12 7] = text ("speed:4" ++ newline ++ "a[8..12]:7" ++ newline).
Proof. vm_compute. reflexivity. Qed.

(** Entries with symbols that the parser accepts for which the reader is wrong:
    a range from 10 is taken for a signal of that name, a third digit in an index
    is an error, although elements 100 and up can be declared. *)
Theorem C37_range_refuted : exists e, symbol (entry_symbol e) /\ ~ reads [e].
Proof.
  exists (Range (text "a") 10 12 0). split; [vm_compute; auto|]. intros (m & E & G & _).
  assert (F : map_get m (spelled (Element (text "a") 11)) = Some 1%N).
  { apply G; [vm_compute; auto|]. exists [], (Range (text "a") 10 12 0), []. split; [reflexivity|]. split; [|intros ? ? []].
    exists 11%N. repeat split; discriminate. }
  vm_compute in E. injection E as <-. vm_compute in F. discriminate.
Qed.
Theorem C37_index_refuted : exists s col, symbol (symbol_of s) /\ read_map (file [One s col]) = None.
Proof. exists (Element (text "a") 100), 5%N. split; vm_compute; auto. Qed.
Print Assumptions C37_range_refuted.
Print Assumptions C37_index_refuted.
Example C37_ex_range_taken_literally :
  read_map (text "a[10..12]:0") = Some [(text "a[10..12]", 0%N)].
Proof. vm_compute. reflexivity. Qed.
Example C37_ex_rejected :
  map (fun s => read_map (text s)) ["a[0][1]:5"; "a:1" ++ newline ++ newline ++ "b:2"; "a:"; "1a:2"; "a:1 "] =
  [None; None; None; None; Some [(text "a", 1%N)]].
Proof. vm_compute. reflexivity. Qed.

(** A file that is accepted consists of lines with a name, a colon and a number;
    any other line makes the compiler refuse the file. *)
Theorem C37_accepted_lines content m :
  read_map content = Some m -> Forall map_entry_line (split_lines content []).
Proof. exact (accepted_lines content m). Qed.
Print Assumptions C37_accepted_lines.
Example C37_ex_accepted :
  exists m, read_map (text ("a:1_0" ++ newline ++ "b:2:junk")) = Some m /\ map_get m (text "a") = Some 10%N.
Proof. eexists. split; vm_compute; reflexivity. Qed.

(** Compiling gives every signal of the program the id that the map has for its
    name; it fails exactly when one is missing. *)
Theorem C37_assigned_or_reported : forall m signals,
  match assign_ids m signals with
  | Some ids => Forall2 (fun s i => map_get m s = Some i) signals ids
  | None => exists s, In s signals /\ map_get m s = None
  end.
Proof. exact assign_spec. Qed.
Print Assumptions C37_assigned_or_reported.
Example C37_ex_missing : assign_ids [(text "a", 3%N)] [text "a"; text "b"] = None /\ assign_ids [(text "a", 3%N)] [text "a"] = Some [3%N].
Proof. vm_compute. auto. Qed.

(** The generated map of a program whose arrays have at most 100 elements reads
    back with column k for the k-th signal; with more it does not read back. *)
Theorem C37_generated_partial : forall signals, NoDup signals -> Forall short signals ->
  exists m, read_map (write_map (number_signals 0 (map spelled signals))) = Some m /\
    forall k s, nth_error signals k = Some s -> map_get m (spelled s) = Some (N.of_nat k).
Proof. exact generated_reads. Qed.
Print Assumptions C37_generated_partial.
Theorem C37_generated_refuted : exists w n, symbol w /\
  read_map (write_map (number_signals 0 (map spelled (Plain w :: map (fun i => Element w (N.of_nat i)) (seq 0 n))))) = None.
Proof. exists (text "a"), 101. split; vm_compute; auto. Qed.
Print Assumptions C37_generated_refuted.
Example C37_ex_generated : short (Plain (text "a")) /\ short (Element (text "a") 99) /\
  write_map (number_signals 0 (map spelled [Plain (text "b"); Element (text "a") 99])) = text ("b:0" ++ newline ++ "a[99]:1" ++ newline).
Proof. vm_compute. auto 10. Qed.
