(** * Each instruction acts on its own queue only

    [update] is rewritten as: fetch the operands, compute a local action, apply
    it to the instruction's own queue.  Proof infrastructure. *)
From Coq Require Import List Arith Bool Lia.
Require Import Verif.Scq Verif.Engine.
Import ListNotations.

Lemma nth_set_same {A} (l : list A) k x d : k < length l -> nth k (set_nth l k x) d = x.
Proof. revert k; induction l as [|y l IH]; intros [|k] H; cbn in *; try lia; auto. apply IH; lia. Qed.
Lemma nth_set_other {A} (l : list A) k j x d : k <> j -> nth j (set_nth l k x) d = nth j l d.
Proof. revert k j; induction l as [|y l IH]; intros [|k] [|j] H; cbn in *; try lia; auto. Qed.
Lemma set_nth_length {A} (l : list A) k x : length (set_nth l k x) = length l.
Proof. revert k; induction l as [|y l IH]; intros [|k]; cbn; auto. Qed.
Lemma set_set {A} (l : list A) k x y : set_nth (set_nth l k x) k y = set_nth l k y.
Proof. revert k; induction l as [|z l IH]; intros [|k]; cbn; auto. f_equal; auto. Qed.
Lemma set_nth_id {A} (l : list A) k d : set_nth l k (nth k l d) = l.
Proof. revert k; induction l as [|z l IH]; intros [|k]; cbn; auto. f_equal; auto. Qed.

(** [m] with queue [k], progress and output replaced. *)
Definition St (m : monitor) (k : nat) (q : queue) (pr : progress) (out : list (nat * verdict)) : monitor :=
  Monitor (set_nth (m_queues m) k q) (m_time m) pr out.

Definition flag (pr : progress) : progress := match pr with NoProgress => WithProgress | p => p end.

(** Operand fetch, given the other queues. *)
Definition fetch (atoms : nat -> bool) (pr : progress) (ts : nat) (gq : nat -> queue)
           (o : operand) (next r : nat) : nat * option verdict :=
  match o with
  | Direct b => (r, Some (b, ts))
  | Atomic a => (r, match pr with FirstLoop => Some (atoms a, ts) | _ => None end)
  | Sub c => scq_read (q_slots (gq c)) (q_write (gq c)) next r
  | NotSet => (r, None)
  end.

Section Implementation.
Context {I : impl}.

Section St.
  Variables (m : monitor) (k : nat).
  Hypothesis Hk : k < length (m_queues m).

  Lemma St_id : m = St m k (get_queue m k) (m_progress m) (m_out m).
  Proof. clear Hk. unfold St, get_queue. rewrite set_nth_id. destruct m; reflexivity. Qed.
  Lemma get_St q pr out : get_queue (St m k q pr out) k = q.
  Proof. unfold get_queue, St; cbn. apply nth_set_same; assumption. Qed.
  Lemma get_St_other q pr out c : k <> c -> get_queue (St m k q pr out) c = get_queue m c.
  Proof. unfold get_queue, St; cbn. apply nth_set_other. Qed.
  Lemma set_St q q' pr out : set_queue (St m k q pr out) k q' = St m k q' pr out.
  Proof. unfold set_queue, St; cbn. rewrite set_set. reflexivity. Qed.
  Lemma next_St q pr out n : set_next (St m k q pr out) k n = St m k (with_next q n) pr out.
  Proof. unfold set_next. rewrite get_St, set_St. reflexivity. Qed.
  Lemma prev_St q pr out v : set_prev (St m k q pr out) k v = St m k (with_prev q v) pr out.
  Proof. unfold set_prev. rewrite get_St, set_St. reflexivity. Qed.
  Lemma flag_St q pr out : flag_progress (St m k q pr out) = St m k q (flag pr) out.
  Proof. destruct pr; reflexivity. Qed.
  Lemma push_St q pr out v :
    push_result k v (St m k q pr out) =
    St m k (with_slots q (fst (scq_write (q_slots q) (q_write q) v)) (snd (scq_write (q_slots q) (q_write q) v)))
       (flag pr) out.
  Proof.
    unfold push_result. rewrite flag_St, get_St.
    destruct (scq_write (q_slots q) (q_write q) v). rewrite set_St. reflexivity.
  Qed.
  Lemma check_St atoms ins (second : bool) q pr out :
    (i_op ins <> SINCE /\ i_op ins <> TRIGGER) ->
    (if second then i_op2 ins else i_op1 ins) <> Sub k ->
    let f := fetch atoms pr (m_time m) (get_queue m) (if second then i_op2 ins else i_op1 ins) (q_next q)
                   (if second then q_read2 q else q_read1 q) in
    check_operand atoms k ins second (St m k q pr out) =
    (St m k (with_read q second (fst f)) pr out, snd f).
  Proof.
    intros Hop Hk'. unfold check_operand.
    assert (Hid : with_read q second (if second then q_read2 q else q_read1 q) = q)
      by (destruct q, second; reflexivity).
    destruct (if second then i_op2 ins else i_op1 ins) as [b|a|c|]; cbn [fetch fst snd].
    - rewrite Hid. destruct (i_op ins); try reflexivity; destruct Hop; congruence.
    - rewrite Hid. destruct pr; reflexivity.
    - rewrite get_St, get_St_other by congruence.
      destruct (scq_read _ _ _ _). rewrite set_St. reflexivity.
    - rewrite Hid. reflexivity.
  Qed.
End St.

(** ** Local actions *)
Record local := Local { l_push : option verdict; l_out : option verdict; l_next : nat; l_prev : verdict }.

Definition emit_local (v : verdict) (prev : verdict) : local := Local (Some v) None (snd v + 1) prev.

Definition until_local (u : bool) (lb ub n : nat) (prev : verdict) (r0 r1 : option verdict) : local :=
  match r1 with
  | None => Local None None n prev
  | Some (b1, t1) =>
      if Bool.eqb b1 u then Local (Some (u, t1 - lb)) None (t1 + 1) (true, t1 - lb)
      else
        let elapsed n :=
          if (snd prev + ub <=? t1) && fresh (t1 - ub) prev
          then Local (Some (negb u, t1 - ub)) None (Nat.max n (t1 - ub + lb + 1)) (true, t1 - ub)
          else Local None None n prev in
        match r0 with
        | Some (b0, t0) =>
            let tau := Nat.min t0 t1 in
            if Bool.eqb b0 u then elapsed (tau + 1)
            else Local (Some (negb u, tau - lb)) None (tau + 1) (true, tau - lb)
        | None => elapsed n
        end
  end.

Definition local_of (op : opcode) (lb ub n : nat) (prev : verdict) (r0 r1 : option verdict) : local :=
  let nothing := Local None None n prev in
  match op with
  | LOAD => match r0 with Some v => emit_local v prev | None => nothing end
  | RETURN => match r0 with Some v => Local None (Some v) (snd v + 1) prev | None => nothing end
  | NOT => match r0 with Some v => emit_local (negb (fst v), snd v) prev | None => nothing end
  | AND =>
      match r0, r1 with
      | Some (true, t0), Some (true, t1) => emit_local (true, Nat.min t0 t1) prev
      | Some (false, t0), Some (false, t1) => emit_local (false, Nat.max t0 t1) prev
      | Some (false, t0), _ => emit_local (false, t0) prev
      | _, Some (false, t1) => emit_local (false, t1) prev
      | _, _ => nothing
      end
  | OR =>
      match r0, r1 with
      | Some (true, t0), Some (true, t1) => emit_local (true, Nat.max t0 t1) prev
      | Some (false, t0), Some (false, t1) => emit_local (false, Nat.min t0 t1) prev
      | Some (true, t0), _ => emit_local (true, t0) prev
      | _, Some (true, t1) => emit_local (true, t1) prev
      | _, _ => nothing
      end
  | EQUIV =>
      match r0, r1 with
      | Some (b0, t0), Some (b1, t1) => emit_local (Bool.eqb b0 b1, Nat.min t0 t1) prev
      | _, _ => nothing
      end
  | UNTIL => until_local true lb ub n prev r0 r1
  | RELEASE => until_local false lb ub n prev r0 r1
  | SINCE | TRIGGER => nothing
  end.

Definition binary (op : opcode) : bool :=
  match op with LOAD | RETURN | NOT => false | _ => true end.
Definition future (op : opcode) : Prop := op <> SINCE /\ op <> TRIGGER.

Definition start_next (op : opcode) (lb n : nat) : nat :=
  match op with
  | UNTIL | RELEASE => match I with C_monitor => if n <? lb then lb else n | Rust_monitor => n end
  | _ => n
  end.

(** Progress after a report. *)
Definition return_flag (pr : progress) : progress :=
  match I with C_monitor => flag pr | Rust_monitor => pr end.

(** The effect of an instruction. *)
Definition after (atoms : nat -> bool) (k : nat) (ins : instr) (m : monitor) : monitor :=
  let q := get_queue m k in
  let n := start_next (i_op ins) (q_lb q) (q_next q) in
  let f0 := fetch atoms (m_progress m) (m_time m) (get_queue m) (i_op1 ins) n (q_read1 q) in
  let f1 := if binary (i_op ins)
            then fetch atoms (m_progress m) (m_time m) (get_queue m) (i_op2 ins) n (q_read2 q)
            else (q_read2 q, None) in
  let l := local_of (i_op ins) (q_lb q) (q_ub q) n (q_prev q) (snd f0) (snd f1) in
  let sw := match l_push l with
            | Some v => scq_write (q_slots q) (q_write q) v
            | None => (q_slots q, q_write q)
            end in
  St m k (Queue (fst sw) (snd sw) (fst f0) (fst f1) (l_next l) (q_edge q) (l_prev l) (q_lb q) (q_ub q))
     (match l_push l, l_out l with
      | None, None => m_progress m
      | None, Some _ => return_flag (m_progress m)
      | _, _ => flag (m_progress m)
      end)
     (match l_out l with Some v => m_out m ++ [(i_num ins, v)] | None => m_out m end).


Section Update.
  Variables (atoms : nat -> bool) (k : nat) (ins : instr) (m : monitor).
  Hypothesis Hk : k < length (m_queues m).
  Hypothesis Hf : future (i_op ins).
  Hypothesis H1 : i_op1 ins <> Sub k.
  Hypothesis H2 : i_op2 ins <> Sub k.
  Let q := get_queue m k.

  Lemma check0 x pr out :
    let f := fetch atoms pr (m_time m) (get_queue m) (i_op1 ins) (q_next x) (q_read1 x) in
    check_operand atoms k ins false (St m k x pr out) = (St m k (with_read x false (fst f)) pr out, snd f).
  Proof. apply (check_St m k Hk atoms ins false); assumption. Qed.
  Lemma check1 x pr out :
    let f := fetch atoms pr (m_time m) (get_queue m) (i_op2 ins) (q_next x) (q_read2 x) in
    check_operand atoms k ins true (St m k x pr out) = (St m k (with_read x true (fst f)) pr out, snd f).
  Proof. apply (check_St m k Hk atoms ins true); assumption. Qed.

  Lemma St_check0 :
    check_operand atoms k ins false m =
    let f := fetch atoms (m_progress m) (m_time m) (get_queue m) (i_op1 ins) (q_next q) (q_read1 q) in
    (St m k (with_read q false (fst f)) (m_progress m) (m_out m), snd f).
  Proof. exact (eq_trans (f_equal (check_operand atoms k ins false) (St_id m k)) (check0 _ _ _)). Qed.

  Lemma emit_St x v pr out :
    emit k v (St m k x pr out) =
    St m k (with_next (with_slots x (fst (scq_write (q_slots x) (q_write x) v))
                                  (snd (scq_write (q_slots x) (q_write x) v))) (snd v + 1)) (flag pr) out.
  Proof. unfold emit. rewrite push_St, next_St by assumption. reflexivity. Qed.

  Lemma do_until_after (u : bool) :
    i_op ins = (if u then UNTIL else RELEASE) -> do_until u atoms k ins m = after atoms k ins m.
  Proof.
    intros Eop. unfold do_until, after. fold q. rewrite Eop.
    set (n := start_next (if u then UNTIL else RELEASE) (q_lb q) (q_next q)).
    replace (match I with C_monitor => if q_next q <? q_lb q then set_next m k (q_lb q) else m | Rust_monitor => m end)
      with (St m k (with_next q n) (m_progress m) (m_out m)).
    2:{ assert (Eid : St m k (with_next q (q_next q)) (m_progress m) (m_out m) = m).
        { etransitivity; [|symmetry; apply (St_id m k)]. fold q. destruct q; reflexivity. }
        unfold n, start_next. destruct u, I; try exact Eid; destruct (q_next q <? q_lb q); try exact Eid; reflexivity. }
    rewrite check0. rewrite check1. cbn [with_next with_read q_next q_read2 q_read1].
    replace (binary (if u then UNTIL else RELEASE)) with true by (destruct u; reflexivity).
    set (f0 := fetch _ _ _ _ (i_op1 ins) _ _).
    set (f1 := fetch _ _ _ _ (i_op2 ins) _ _).
    replace (local_of (if u then UNTIL else RELEASE)) with (until_local u) by (destruct u; reflexivity).
    unfold until_local.
    destruct (snd f1) as [[b1 t1]|]; [|reflexivity].
    destruct (Bool.eqb b1 u).
    { rewrite push_St, next_St, prev_St by assumption. reflexivity. }
    destruct (snd f0) as [[b0 t0]|].
    - rewrite next_St by assumption. destruct (Bool.eqb b0 u).
      + cbn zeta. rewrite get_St by assumption. cbn [with_next with_read q_next q_prev].
        destruct (snd (q_prev q) + q_ub q <=? t1); [|reflexivity].
        destruct (fresh (t1 - q_ub q) (q_prev q)); [|reflexivity].
        rewrite push_St, next_St, prev_St by assumption. reflexivity.
      + rewrite push_St, next_St, prev_St by assumption. reflexivity.
    - cbn zeta. rewrite get_St by assumption. cbn [with_next with_read q_next q_prev].
      destruct (snd (q_prev q) + q_ub q <=? t1); [|reflexivity].
      destruct (fresh (t1 - q_ub q) (q_prev q)); [|reflexivity].
      rewrite push_St, next_St, prev_St by assumption. reflexivity.
  Qed.

  Lemma update_after : update atoms k ins m = after atoms k ins m.
  Proof.
    unfold update.
    case_eq (i_op ins); intros Eop; try (exfalso; destruct Hf; congruence);
      try (apply (do_until_after true); assumption); try (apply (do_until_after false); assumption);
      unfold after; fold q; rewrite Eop; cbn [binary start_next local_of].
    - unfold do_load. rewrite St_check0. fold q.
      destruct (fetch _ _ _ _ _ _ _) as [r [v|]]; cbn [fst snd emit_local l_push l_out l_next l_prev].
      + rewrite push_St, next_St by assumption. reflexivity.
      + destruct q; reflexivity.
    - unfold do_return. rewrite St_check0. fold q.
      destruct (fetch _ _ _ _ _ _ _) as [r [v|]]; cbn [fst snd emit_local l_push l_out l_next l_prev].
      + rewrite next_St by assumption. unfold return_flag. destruct I, (m_progress m); reflexivity.
      + destruct q; reflexivity.
    - unfold do_not. rewrite St_check0. fold q.
      destruct (fetch _ _ _ _ _ _ _) as [r [v|]]; cbn [fst snd emit_local l_push l_out l_next l_prev].
      + rewrite push_St, next_St by assumption. reflexivity.
      + destruct q; reflexivity.
    - unfold do_and. rewrite St_check0; cbv beta iota zeta; rewrite check1.
      cbn [with_read q_next q_read2]. fold q.
      destruct (fetch _ _ _ _ (i_op1 ins) _ _) as [r0 [[[|] t0]|]];
        destruct (fetch _ _ _ _ (i_op2 ins) _ _) as [r1 [[[|] t1]|]]; cbn [fst snd];
        rewrite ?emit_St; cbn [emit_local l_push l_out l_next l_prev]; destruct q; reflexivity.
    - unfold do_or. rewrite St_check0; cbv beta iota zeta; rewrite check1.
      cbn [with_read q_next q_read2]. fold q.
      destruct (fetch _ _ _ _ (i_op1 ins) _ _) as [r0 [[[|] t0]|]];
        destruct (fetch _ _ _ _ (i_op2 ins) _ _) as [r1 [[[|] t1]|]]; cbn [fst snd];
        rewrite ?emit_St; cbn [emit_local l_push l_out l_next l_prev]; destruct q; reflexivity.
    - unfold do_equiv. rewrite St_check0; cbv beta iota zeta; rewrite check1.
      cbn [with_read q_next q_read2]. fold q.
      destruct (fetch _ _ _ _ (i_op1 ins) _ _) as [r0 [[b0 t0]|]];
        destruct (fetch _ _ _ _ (i_op2 ins) _ _) as [r1 [[b1 t1]|]]; cbn [fst snd];
        rewrite ?emit_St; cbn [emit_local l_push l_out l_next l_prev]; destruct q; reflexivity.
  Qed.
End Update.
End Implementation.
