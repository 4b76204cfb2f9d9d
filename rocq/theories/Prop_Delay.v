(** * C08: what a verdict may depend on *)
From Coq Require Import List ZArith.
Require Import Verif.Mltl Verif.MltlShape Verif.Window Verif.Transform Verif.DelayProofs.
Import ListNotations.
Open Scope Z_scope.

(** Future time: the reported delays are a correct window for every formula. *)
Theorem C08_future_window : forall e, all_nodes future_op e -> depends_only_on (bpd e) (wpd e) e.
Proof. exact window_future. Qed.
Print Assumptions C08_future_window.

(** Past time, full statement: [all_nodes past_op e -> depends_only_on (bpd e) (wpd e) e].
    It is false (the two theorems below); it holds when once/historically is
    applied to operands with a one-point window and since/trigger do not occur. *)
Theorem C08_past_window_partial : forall e, all_nodes exact_delay_op e -> depends_only_on (bpd e) (wpd e) e.
Proof. exact window_exact. Qed.
Print Assumptions C08_past_window_partial.

Theorem C08_since_window_refuted :
  exists e, legal e /\ all_nodes past_op e /\ ~ depends_only_on (bpd e) (wpd e) e.
Proof. exact since_window_refuted. Qed.
Print Assumptions C08_since_window_refuted.

Theorem C08_once_window_refuted :
  exists e, legal e /\ all_nodes (fun e => match e with EO _ _ _ | EAtom _ => True | _ => False end) e /\
            ~ depends_only_on (bpd e) (wpd e) e.
Proof. exact once_window_refuted. Qed.
Print Assumptions C08_once_window_refuted.

(** A past-time verdict never depends on the future. *)
Theorem C08_past_causal : forall e, all_nodes past_op e ->
  forall tr tr' i, agree 0 (Z.of_nat i) tr tr' -> (sat tr e i <-> sat tr' e i).
Proof. exact past_causal. Qed.
Print Assumptions C08_past_causal.

Example C08_window_case :
  let e := EU 1 4 (EAtom 0) (EG 2 3 (EAtom 1)) in
  all_nodes future_op e /\ bpd e = 1 /\ wpd e = 7.
Proof. cbn. auto 20. Qed.
Example C08_past_case :
  let e := EAnd [EO 1 4 (EAtom 0); EH 0 2 (EAtom 1)] in
  all_nodes exact_delay_op e /\ all_nodes past_op e /\ bpd e = -4 /\ wpd e = 0.
Proof. cbn. auto 20. Qed.
