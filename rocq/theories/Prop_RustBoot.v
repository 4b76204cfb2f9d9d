(** * The Rust monitor from binary to reports: C19, C30 and C39

    [rust_boot] is what the Rust loader makes of a binary, as [boot] for the C
    one; [rust_blocks] are the control blocks of its queues, [None] if a sum of
    u32 overflows.  The remaining notions are those of [Prop_EndToEnd],
    [Prop_Rust] and [Prop_RustBz].  [RustEngine.rust_run] is the temporal engine
    and [rust_bz_rows] the rows the booleanizer hands to it. *)
From Coq Require Import List Arith ZArith Bool Ascii Lia.
Require Import Verif.Mltl Verif.MltlShape Verif.Transform Verif.Pipeline Verif.Graph Verif.GraphSpec.
Require Import Verif.Binary Verif.BinarySpec Verif.Assembly Verif.Layout Verif.AssemblySpec Verif.LayoutSpec.
Require Import Verif.Scq Verif.Engine Verif.Monitoring Verif.EndToEnd.
Require Import Verif.Booleanizer Verif.BooleanizerSpec Verif.BooleanizerProofs Verif.BooleanizerChain.
Require Import Verif.RustEngine Verif.RustBooleanizer Verif.RustBzSpec Verif.RustLayout Verif.RustLayoutSpec Verif.RustBoot.
Require Verif.Prop_Assembly Verif.Prop_EndToEnd Verif.Prop_Booleanizer.
Import ListNotations.
Local Open Scope Z_scope.

(** C19 for the Rust monitor: every queue has its own slots inside the queue
    memory of the generated size, and its bounds. *)
Theorem C19_rust_queue_memory h T cls wpd bpd const ft pt aux :
  denotes h T -> tl_shaped h cls ->
  (forall n, reachable h [ft] n -> assemblable h cls ft_code n) ->
  (forall n, reachable h [pt] n -> assemblable h cls pt_code n) ->
  (forall n, reachable h [ft] n -> reachable h [pt] n -> owns (cls n) = false) ->
  0 <= const ->
  exists fuel0 nodes owners asm,
    (forall fuel, (fuel0 <= fuel)%nat -> gen_assembly fuel h cls wpd bpd const ft pt = Some asm) /\
    (forall n, In n owners <-> (reachable h [ft] n \/ reachable h [pt] n) /\ owns (cls n) = true) /\
    (forall bytes, Forall fits asm -> Forall small aux -> max_queue_slots asm < 2 ^ 32 -> assemble_binary asm aux = Some bytes ->
     exists acts b, rust_load bytes = Some acts /\ rust_blocks acts = Some b /\
       forall k n, nth_error owners k = Some n ->
         rust_queue_at cls (scq_size h cls wpd bpd const nodes) (max_queue_slots asm) owners b k n).
Proof. exact (rust_graph_queues h T cls wpd bpd const ft pt aux). Qed.
Print Assumptions C19_rust_queue_memory.

(** C30: both loaders make the same program of an assembled binary. *)
Theorem C30_same_program h T cls wpd bpd const ft pt aux :
  denotes h T -> tl_shaped h cls ->
  (forall n, reachable h [ft] n -> assemblable h cls ft_code n) ->
  (forall n, reachable h [pt] n -> assemblable h cls pt_code n) ->
  (forall n, reachable h [ft] n -> reachable h [pt] n -> owns (cls n) = false) ->
  (forall n, reachable h [ft] n \/ reachable h [pt] n -> engine_node cls n) ->
  0 <= const ->
  exists fuel0 asm, (forall fuel, (fuel0 <= fuel)%nat -> gen_assembly fuel h cls wpd bpd const ft pt = Some asm) /\
    forall bytes, Forall fits asm -> Forall small aux -> arena_slots asm < 2 ^ 32 -> assemble_binary asm aux = Some bytes ->
      rust_boot bytes = boot bytes /\ exists prog confs, boot bytes = Some (prog, confs).
Proof. exact (graph_same h T cls wpd bpd const ft pt aux). Qed.
Print Assumptions C30_same_program.

(** C39 for the Rust monitor: no panic, every step ends, and every formula's
    reports are in order, true of the source formula, and arrive within the
    compiler's worst-case delay. *)
Theorem C39_rust_end_to_end h T cls wpd_of bpd_of const ft pt specs aux :
  denotes h T -> well_shaped h -> nkind (h ft) = KSet -> nkind (h pt) = KSet ->
  named_apart h cls -> cls ft = CSet -> cls pt = CSet -> nchildren (h pt) = [] ->
  tl_shaped h cls -> (forall n, reachable h [ft] n -> assemblable h cls ft_code n) ->
  Forall2 (spec_of compile_expr h cls) (nchildren (h ft)) specs -> NoDup (map fst specs) ->
  Forall (fun s => legal (snd s) /\ all_nodes rewrite_source_op (snd s) /\
                   monitorable (compile_expr (snd s)) /\ wpd (compile_expr (snd s)) < const) specs ->
  0 <= const ->
  exists depth0, forall depth, (depth0 <= depth)%nat -> exists fuel0 h' asm,
    (forall fuel, (fuel0 <= fuel)%nat -> optimize_cse depth fuel h ft pt = Some h' /\
                                         gen_assembly fuel h' cls wpd_of bpd_of const ft pt = Some asm) /\
    forall bytes, Forall fits asm -> Forall small aux -> arena_slots asm < 2 ^ 32 -> assemble_binary asm aux = Some bytes ->
    exists prog confs passes0, rust_boot bytes = Some (prog, confs) /\
      forall tr n passes, (passes0 <= passes)%nat ->
      exists m, RustEngine.rust_run passes (rows tr n) prog (rust_init prog confs) = Finished m /\
        forall num e, In (num, e) specs ->
          increasing (reports (Z.to_nat num) m) /\
          (forall t b, reported (reports (Z.to_nat num) m) t b -> (b = true <-> sat tr e t) /\ (t < n)%nat) /\
          (forall t, Z.of_nat t + wpd (compile_expr e) < Z.of_nat n -> exists b, reported (reports (Z.to_nat num) m) t b).
Proof. exact (rust_end_to_end h T cls wpd_of bpd_of const ft pt specs aux). Qed.
Print Assumptions C39_rust_end_to_end.

(** C39 for the Rust monitor from signals. *)
Theorem C39_rust_signals_to_reports h T cls types wpd_of bpd_of const ft pt specs aux :
  denotes h T -> cls ft = CSet -> cls pt = CSet -> nchildren (h pt) = [] ->
  tl_shaped h cls -> (forall n, reachable h [ft] n -> assemblable h cls ft_code n) ->
  Forall2 (spec_of compile_expr h cls) (nchildren (h ft)) specs -> NoDup (map fst specs) ->
  Forall (fun s => legal (snd s) /\ all_nodes rewrite_source_op (snd s) /\
                   monitorable (compile_expr (snd s)) /\ wpd (compile_expr (snd s)) < const) specs ->
  0 <= const -> numeric h cls types (reachable h [ft]) ->
  exists fuel0 asm, (forall fuel, (fuel0 <= fuel)%nat -> gen_assembly fuel h cls wpd_of bpd_of const ft pt = Some asm) /\
  forall bytes, Forall fits asm -> Forall small aux -> arena_slots asm < 2 ^ 32 -> assemble_binary asm aux = Some bytes ->
  exists acts prog confs passes0, rust_load bytes = Some acts /\ rust_boot bytes = Some (prog, confs) /\
    forall F le inp n passes, typed types inp -> Z.of_nat n <= 2 ^ 31 -> (passes0 <= passes)%nat ->
    (forall t x e int, (t < n)%nat -> reachable h [ft] x -> stands h cls types x e int -> exists v, saturated F le inp t e v) ->
    exists rs tr m, rust_bz_rows F le acts inp n = Some rs /\
      RustEngine.rust_run passes rs prog (rust_init prog confs) = Finished m /\
      (forall t a k x e, (t < n)%nat -> reachable h [ft] k -> cls k = CAtomic a -> nchildren (h k) = [x] ->
         stands h cls types x e true -> 0 <= a ->
         exists v, saturated F le inp t e (VInt v) /\ tr t (Z.to_nat a) = negb (v =? 0)) /\
      forall num e, In (num, e) specs ->
        increasing (reports (Z.to_nat num) m) /\
        (forall t b, reported (reports (Z.to_nat num) m) t b -> (b = true <-> sat tr e t) /\ (t < n)%nat) /\
        (forall t, Z.of_nat t + wpd (compile_expr e) < Z.of_nat n -> exists b, reported (reports (Z.to_nat num) m) t b).
Proof. exact (rust_signals_to_reports h T cls types wpd_of bpd_of const ft pt specs aux). Qed.
Print Assumptions C39_rust_signals_to_reports.

(** ** Examples, on the graphs of [Prop_Assembly], [Prop_EndToEnd] and
    [Prop_Booleanizer], whose hypotheses are established there. *)
Example C30_engine_nodes : forall n, engine_node Prop_Assembly.demo_cls n.
Proof. intros n. do 10 (destruct n as [|n]; [exact I|]). exact I. Qed.
Example C19_rust_case : exists bytes,
  Forall fits Prop_Assembly.demo_asm /\ max_queue_slots Prop_Assembly.demo_asm = 32 /\
  assemble_binary Prop_Assembly.demo_asm [] = Some bytes /\
  match rust_load bytes with
  | Some acts =>
      option_map (fun b => map (fun k => (rb_queue (b (Z.of_nat k)), rb_length (b (Z.of_nat k)), rb_lb (b (Z.of_nat k)), rb_ub (b (Z.of_nat k)))) (seq 0 8))
        (rust_blocks acts)
  | None => None
  end =
  Some [(0, 4, infinity_word, infinity_word); (4, 4, infinity_word, infinity_word); (8, 4, infinity_word, infinity_word);
        (12, 4, 0, 2); (16, 4, infinity_word, infinity_word); (20, 4, infinity_word, infinity_word);
        (24, 4, infinity_word, infinity_word); (28, 4, infinity_word, infinity_word)] /\
  option_map fst (rust_boot bytes) = option_map fst (boot bytes) /\ option_map (fun p => nth 3 (snd p) (QConf 0 0 0)) (rust_boot bytes) = Some (QConf 4 0 2).
Proof.
  eexists. split; [|split; [reflexivity|split; [vm_compute; reflexivity|]]].
  - repeat constructor; cbn; unfold word, small; lia.
  - split; [vm_compute; reflexivity|]. split; vm_compute; reflexivity.
Qed.
(** The same reports as the C monitor's on these rows ([Prop_EndToEnd.C39_case]). *)
Example C39_rust_case :
  match Prop_EndToEnd.e2e_bytes with
  | Some bytes =>
      match rust_boot bytes with
      | Some (prog, confs) =>
          match RustEngine.rust_run 20 (rows Prop_EndToEnd.e2e_trace 6) prog (rust_init prog confs) with
          | Finished m => Some (reports 0 m, reports 1 m)
          | _ => None
          end
      | None => None
      end
  | None => None
  end = Some ([(false, 0); (true, 3); (true, 4); (true, 5)]%nat,
              [(true, 0); (true, 1); (true, 2); (false, 3); (false, 4); (false, 5)]%nat).
Proof. vm_compute. reflexivity. Qed.
(** F[0,1] (prev(2, y + 1) > 2), y + 1 > 2 and x > y + 1: at step 0 the sum
    saturates, so the second formula is true there (false in the C monitor,
    whose sum wraps around). *)
Definition none_le (_ _ : Z) : bool := false.
Example C39_rust_signals :
  match gen_assembly 100 Prop_Booleanizer.bzg Prop_Booleanizer.bz_cls (fun _ => 0) (fun _ => 0) 2 0 1 with
  | Some asm =>
      match assemble_binary asm [] with
      | Some bytes =>
          match rust_load bytes, rust_boot bytes with
          | Some acts, Some (prog, confs) =>
              match rust_bz_rows Prop_Booleanizer.no_floats none_le acts Prop_Booleanizer.bz_inputs 4 with
              | Some rs =>
                  match RustEngine.rust_run 20 rs prog (rust_init prog confs) with
                  | Finished m => Some (reports 0 m, reports 1 m, reports 2 m)
                  | _ => None
                  end
              | None => None
              end
          | _, _ => None
          end
      | None => None
      end
  | None => None
  end = Some ([(true, 1); (true, 2)]%nat, [(true, 0); (true, 1); (false, 2); (false, 3)]%nat,
              [(false, 0); (false, 1); (true, 2); (true, 3)]%nat).
Proof. vm_compute. reflexivity. Qed.
