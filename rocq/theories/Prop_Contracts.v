(** * C12, C42: contracts; C41: names in reports *)
From Coq Require Import List Arith ZArith Bool String Lia.
Require Import Verif.Mltl Verif.MltlShape Verif.Transform Verif.Pipeline Verif.Graph Verif.GraphSpec.
Require Import Verif.Binary Verif.BinarySpec Verif.Assembly Verif.Layout Verif.AssemblySpec Verif.LayoutSpec.
Require Import Verif.Scq Verif.Engine Verif.Monitoring Verif.EndToEnd.
Require Import Verif.Contracts Verif.ContractSpec Verif.ContractProofs.
Import ListNotations.
Local Existing Instance C_monitor.
Local Open Scope nat_scope.
Local Open Scope string_scope.

(** Each contract is replaced, where it stands, by its three formulas, whatever
    else the program contains; nothing else changes. *)
Theorem C12_expanded_in_place p :
  resolve_contracts p = Some (Prog (flat_map monitored_as (ft_specs p)) (flat_map monitored_as (pt_specs p))).
Proof. exact (resolved p). Qed.
Print Assumptions C12_expanded_in_place.

(** At every time a contract has exactly one status. *)
Theorem C12_one_status tr a g t : exists s, has_status tr a g t s /\ forall s', has_status tr a g t s' -> s' = s.
Proof. exact (one_status tr a g t). Qed.
Print Assumptions C12_one_status.

(** What the monitor prints about a contract is its status, and the status at
    every time reported is printed, for contracts with distinct labels and a
    contract table with one entry to spare. *)
Theorem C12_lines_true ss tr out bound p' :
  resolve_contracts (program_of (parse_sections 0 ss)) = Some p' ->
  (forall n e, In (n, e) (formulas p') -> true_reports tr out n e) ->
  NoDup (contract_labels ss) -> List.length (contract_labels ss) < bound ->
  forall l a g, declared ss l a g ->
  forall s t, In (l, s, t) (contract_lines (loaded_contracts bound (contract_table (parse_sections 0 ss))) out) ->
  has_status tr a g t s.
Proof. exact (lines_sound ss tr out bound p'). Qed.
Theorem C42_lines_complete ss tr out bound p' :
  resolve_contracts (program_of (parse_sections 0 ss)) = Some p' ->
  (forall n e, In (n, e) (formulas p') -> true_reports tr out n e) ->
  NoDup (contract_labels ss) -> List.length (contract_labels ss) < bound ->
  forall l a g, declared ss l a g ->
  forall s t, (forall n e, In (n, e) (formulas p') -> exists b, reported (out_of n out) t b) -> has_status tr a g t s ->
  exists u, (t <= u)%nat /\ In (l, s, u) (contract_lines (loaded_contracts bound (contract_table (parse_sections 0 ss))) out) /\
    forall t', (t <= t' <= u)%nat -> has_status tr a g t' s.
Proof. exact (lines_complete ss tr out bound p'). Qed.
Print Assumptions C12_lines_true.
Print Assumptions C42_lines_complete.

(** The same from the source file to the printed lines of a future-time
    program, through every stage of C39. *)
Theorem C12_end_to_end ss p' bound h T cls wpd_of bpd_of const ft pt specs aux :
  let secs := parse_sections 0 ss in
  resolve_contracts (program_of secs) = Some p' -> NoDup (contract_labels ss) -> (List.length (contract_labels ss) < bound)%nat ->
  specs = map (fun f => (Z.of_nat (fst f), snd f)) (formulas p') ->
  denotes h T -> well_shaped h -> nkind (h ft) = KSet -> nkind (h pt) = KSet ->
  named_apart h cls -> cls ft = CSet -> cls pt = CSet -> nchildren (h pt) = [] ->
  tl_shaped h cls -> (forall n, reachable h [ft] n -> assemblable h cls ft_code n) ->
  Forall2 (spec_of compile_expr h cls) (nchildren (h ft)) specs ->
  Forall (fun s => legal (snd s) /\ all_nodes rewrite_source_op (snd s) /\
                   monitorable (compile_expr (snd s)) /\ (wpd (compile_expr (snd s)) < const)%Z) specs ->
  (0 <= const)%Z ->
  exists depth0, forall depth, (depth0 <= depth)%nat -> exists fuel0 h' asm,
    (forall fuel, (fuel0 <= fuel)%nat -> optimize_cse depth fuel h ft pt = Some h' /\
                                         gen_assembly fuel h' cls wpd_of bpd_of const ft pt = Some asm) /\
    forall bytes, Forall fits asm -> (arena_slots asm < 2 ^ 32)%Z -> assemble_binary asm aux = Some bytes ->
    exists prog confs passes0, boot bytes = Some (prog, confs) /\
      forall tr n passes, (passes0 <= passes)%nat ->
      exists m, run passes (rows tr n) prog (init prog confs) = Some m /\
        forall l a g, declared ss l a g ->
          let lines := contract_lines (loaded_contracts bound (contract_table secs)) (m_out m) in
          (forall s t, In (l, s, t) lines -> has_status tr a g t s) /\
          (forall s t, (Z.of_nat t + const <= Z.of_nat n)%Z -> has_status tr a g t s ->
             exists u, (t <= u)%nat /\ In (l, s, u) lines /\ forall t', (t <= t' <= u)%nat -> has_status tr a g t' s).
Proof. exact (contract_end_to_end ss p' bound h T cls wpd_of bpd_of const ft pt specs aux). Qed.
Print Assumptions C12_end_to_end.

(** A file with two contracts, its formulas, and lines for a trace in which atom
    0 holds at 1, 2, 3 and atom 1 at 2, 3. *)
Definition agc : list section :=
  [(true, [DContract "c" (EAtom 0) (EAtom 1); DFormula None (EAtom 2); DContract "d" (EAtom 1) (EG 0 2 (EAtom 0))])].
Example C12_ex_formulas :
  option_map formulas (resolve_contracts (program_of (parse_sections 0 agc))) =
  Some [(0, EAtom 0); (1, EImpl (EAtom 0) (EAtom 1)); (2, EAnd [EAtom 0; EAtom 1]); (3, EAtom 2);
        (4, EAtom 1); (5, EImpl (EAtom 1) (EG 0 2 (EAtom 0))); (6, EAnd [EAtom 1; EG 0 2 (EAtom 0)])] /\
  option_map formula_names (resolve_contracts (program_of (parse_sections 0 agc))) =
  Some ["__c_active__"; "__c_valid__"; "__c_verified__"; "__f3__"; "__d_active__"; "__d_valid__"; "__d_verified__"].
Proof. vm_compute. auto. Qed.
Example C12_ex_labels : NoDup (contract_labels agc) /\ declared agc "d" (EAtom 1) (EG 0 2 (EAtom 0)).
Proof.
  split; [repeat constructor; cbn; intuition discriminate|]. exists true. eexists. split; [left; reflexivity|]. cbn. auto.
Qed.
Definition agc_out : list (nat * verdict) :=
  [(0, (false, 0)); (1, (true, 0)); (2, (false, 0)); (0, (true, 1)); (1, (false, 1)); (2, (false, 1));
   (0, (true, 3)); (1, (true, 3)); (2, (true, 3))].
Definition agc_trace : trace := fun t a => match a with 0 => (1 <=? t) && (t <=? 3) | 1 => (2 <=? t) && (t <=? 3) | _ => false end%nat.
Example C12_ex_reports : forall p' n e, resolve_contracts (program_of (parse_sections 0 agc)) = Some p' -> In (n, e) (formulas p') ->
  true_reports agc_trace agc_out n e.
Proof.
  assert (R : forall (x y z : bool) (P : nat -> Prop) t b, reported [(x, 0%nat); (y, 1%nat); (z, 3%nat)] t b ->
    (x = true <-> P 0%nat) -> (y = true <-> P 1%nat) -> (z = true <-> P 2%nat) -> (z = true <-> P 3%nat) -> (b = true <-> P t)).
  { intros x y z P t b (be & u & af & E & Hu & Hb) P0 P1 P2 P3.
    destruct be as [|v [|v' [|v'' [|]]]]; cbn in E; injection E as E; subst; cbn in Hb; try discriminate.
    - replace t with 0%nat by lia. exact P0.
    - pose proof (Hb _ (or_introl eq_refl)) as H. cbn in H. replace t with 1%nat by lia. exact P1.
    - pose proof (Hb _ (or_intror (or_introl eq_refl))) as H. cbn in H. assert (t = 2 \/ t = 3)%nat as [->| ->] by lia; assumption. }
  assert (N : forall (P : nat -> Prop) t b, reported [] t b -> (b = true <-> P t)).
  { intros P t b (be & u & af & E & _). destruct be; discriminate. }
  intros p' n e E H. vm_compute in E. injection E as <-. cbn in H.
  repeat (destruct H as [H|H]; [injection H as <- <-; split; [cbn; lia|]; intros t b Hr;
    first [apply N, Hr|apply (R _ _ _ (fun t => sat agc_trace _ t) t b Hr); cbn; intuition discriminate]|]). destruct H.
Qed.
Example C12_ex_lines :
  contract_lines (loaded_contracts 3 (contract_table (parse_sections 0 agc))) agc_out =
  [("c", Inactive, 0); ("c", Invalid, 1); ("c", Verified, 3)].
Proof. vm_compute. reflexivity. Qed.

(** The generated bound (assemble.py 1184-1188) is the number of contracts: the C
    loader then leaves out the last one, and its status is never printed. *)
Theorem C42_generated_bound_refuted : exists ss l a g, declared ss l a g /\ NoDup (contract_labels ss) /\
  let secs := parse_sections 0 ss in
  forall out s t, ~ In (l, s, t) (contract_lines (loaded_contracts (List.length (contract_table secs)) (contract_table secs)) out).
Proof.
  exists [(true, [DContract "c" (EAtom 0) (EAtom 1)])], "c", (EAtom 0), (EAtom 1). split; [|split].
  - exists true. eexists. split; [left; reflexivity|left; reflexivity].
  - repeat constructor. intros [].
  - intros secs out s t H. cbv in H. induction out as [|r out IH]; [exact H|apply IH, H].
Qed.
Print Assumptions C42_generated_bound_refuted.
(** Labels are only checked within a section (type_check.py 680): of two
    contracts with one label in different sections the first is never printed. *)
Theorem C42_same_label_refuted : exists ss, List.length (contract_labels ss) = 2 /\
  contract_table (parse_sections 0 ss) = [Entry "c" 3 4 5] /\
  contract_lines (contract_table (parse_sections 0 ss)) [(0, (false, 0)); (1, (true, 0)); (2, (false, 0))] = [].
Proof.
  exists [(true, [DContract "c" (EAtom 0) (EAtom 1)]); (false, [DContract "c" (EAtom 1) (EAtom 0)])]. vm_compute. auto.
Qed.
Print Assumptions C42_same_label_refuted.

(** C41: a report is printed with the label of its formula if no past-time section
    precedes a future-time section. *)
Theorem C41_names_partial ss p' : future_first ss -> resolve_contracts (program_of (parse_sections 0 ss)) = Some p' ->
  forall l n e, In (Formula l n e) (get_specs p') -> printed_name (formula_names p') n = Some l.
Proof. exact (names_match ss p'). Qed.
Print Assumptions C41_names_partial.
(** Numbers follow the file, names follow get_specs (future time first). *)
Theorem C41_section_order_refuted : exists ss p' l n e l', resolve_contracts (program_of (parse_sections 0 ss)) = Some p' /\
  In (Formula l n e) (get_specs p') /\ printed_name (formula_names p') n = Some l' /\ l <> l'.
Proof.
  exists [(false, [DFormula (Some "past") (EO 0 2 (EAtom 0))]); (true, [DFormula (Some "future") (EF 0 2 (EAtom 0))])].
  eexists. exists "past", 0, (EO 0 2 (EAtom 0)), "future". split; [vm_compute; reflexivity|]. split; [cbn; auto|]. split; [reflexivity|discriminate].
Qed.
Print Assumptions C41_section_order_refuted.
Example C41_ex : future_first agc /\ future_first [(true, []); (false, [DFormula (Some "p") (EAtom 0)])].
Proof. cbn. auto. Qed.
