(** * C34: the stand-alone word-level monitor *)
From Coq Require Import List Arith NArith Bool Lia.
From Verif Require Import Mltl Sabre SabreSpec SabreProofs SabreRun.
Import ListNotations.

(** For every formula of the operators that the generated code handles, every
    word size, trace and contents of the memory behind the buffers: after [n]
    words the program has printed one word for each stretch of time whose future
    is known, and each bit is the truth value at its time.  Missing: the
    operators and intervals of the refutations below. *)
Theorem C34_monitor_partial :
  forall w prog tr junk n,
    word_size w -> subformula_list prog -> (forall o, In o prog -> supported w o) ->
    (forall W k i, a_word w (fst (junk W k i)) /\ a_word w (snd (junk W k i))) ->
    exists s out, turns w prog junk tr n = Some (s, out) /\
      length out = n - words_ahead w (formula prog) /\ words_of w tr (formula prog) out.
Proof. exact monitor_right. Qed.

(** Intervals up to three words long are always handled. *)
Theorem C34_short_intervals :
  forall w lb ub c, word_size w -> lb <= ub -> ub - lb + 1 <= 3 * w ->
    supported w (SFuture lb ub c) /\ supported w (SGlobal lb ub c).
Proof. exact short_supported. Qed.

(** A constant "true" is stored as the word 1. *)
Theorem C34_constant_refuted :
  exists prog tr s out, subformula_list prog /\ formula prog = EConst true /\
    turns 8 prog (fun _ _ _ => (0, 0)%N) tr 1 = Some (s, out) /\ ~ words_of 8 tr (formula prog) out.
Proof. exact constant_wrong. Qed.

(** An equivalence compares whole words. *)
Theorem C34_equivalence_refuted :
  exists prog tr s out, subformula_list prog /\ formula prog = EEquiv (EAtom 0) (EAtom 1) /\
    turns 8 prog (fun _ _ _ => (0, 0)%N) tr 1 = Some (s, out) /\ ~ words_of 8 tr (formula prog) out.
Proof. exact equivalence_wrong. Qed.

(** The loops of "until" run up to ub instead of the length of the interval. *)
Theorem C34_until_refuted :
  exists prog tr s out, subformula_list prog /\ formula prog = EU 1 1 (EAtom 0) (EAtom 1) /\
    turns 8 prog (fun _ _ _ => (0, 0)%N) tr 2 = Some (s, out) /\ ~ words_of 8 tr (formula prog) out.
Proof. exact until_wrong. Qed.

(** A remainder of more than one word is shifted by more than the word size. *)
Theorem C34_wide_interval_refuted :
  exists prog, subformula_list prog /\ formula prog = EF 0 24 (EAtom 0) /\
    forall tr junk, turns 8 prog junk tr 1 = None.
Proof. exact wide_undefined. Qed.

Print Assumptions C34_monitor_partial.
Print Assumptions C34_short_intervals.
Print Assumptions C34_constant_refuted.
Print Assumptions C34_equivalence_refuted.
Print Assumptions C34_until_refuted.
Print Assumptions C34_wide_interval_refuted.

(** (a0 U[0,12] !a1) && G[3,20] a0, words of 8 bits. *)
Definition example_prog : list sop :=
  [SAtom 0; SAtom 1; SNot 1; SUntil 0 12 0 2; SGlobal 3 20 0; SAnd [3; 4]].
Example example_list : subformula_list example_prog.
Proof.
  split; [discriminate|]. split.
  - intros [|[|[|[|[|[|k]]]]]] o Ho; cbn in Ho; try discriminate; try (injection Ho as <-; cbn; intros c Hc; lia).
    destruct k; discriminate.
  - intros k Hk. cbn in Hk.
    destruct k as [|[|[|[|[|k]]]]]; [exists 3|exists 2|exists 3|exists 5|exists 5|lia];
      eexists; (split; [lia|]; split; [reflexivity|cbn; auto]).
Qed.
Example example_supported : forall o, In o example_prog -> supported 8 o.
Proof.
  intros o Ho. cbn in Ho. unfold supported, rest_fits.
  repeat (destruct Ho as [<-|Ho]; [try exact Logic.I; try discriminate; cbn; lia|]). contradiction.
Qed.
(** a0 fails at time 37 only, a1 at every fifth time. *)
Example example_run :
  match turns 8 example_prog (fun _ _ _ => (255, 85)%N)
          (fun t a => if a =? 0 then negb (t =? 37) else negb (t mod 5 =? 0)) 6 with
  | Some (_, out) => Some out
  | None => None
  end = Some [255; 255; 128]%N.
Proof. vm_compute. reflexivity. Qed.
