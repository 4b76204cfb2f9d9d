(** * The stand-alone word-level monitor of "generate_sabre_code" (model)

    compiler/c2po/sabre.py 18-436 generates a C program that reads the signals
    [w] time steps at a time, one word per signal with the earliest step in the
    most significant bit, and computes one word per subformula.  This is a model
    of the generated program.  Its parameter [prog] lists the subformulas in the
    order in which the generator visits them (cpt.postorder), children by
    position.  The word size [w] is 8, 16, 32 or 64; words are values of
    uint{w}_t.  Times, word numbers and bounds are uint64_t in C and unbounded
    here; differences of word numbers only occur below [%] with a power of two.
    "x & (w - 1)", "x >> log2(w)" and "x & (j - 1)" are written as remainder and
    quotient, [w] and [j] being powers of two. *)
From Coq Require Import List Arith ZArith NArith Bool.
Import ListNotations.

Inductive sop :=
| SAtom (a : nat) | SConst (b : bool)
| SNot (c : nat) | SAnd (cs : list nat) | SOr (cs : list nat)
| SImpl (c1 c2 : nat) | SEquiv (c1 c2 : nat) | SXor (c1 c2 : nat)
| SFuture (lb ub c : nat) | SGlobal (lb ub c : nat) | SUntil (lb ub c1 c2 : nat).
Definition children (o : sop) : list nat :=
  match o with
  | SAtom _ | SConst _ => []
  | SNot c | SFuture _ _ c | SGlobal _ _ c => [c]
  | SAnd cs | SOr cs => cs
  | SImpl c d | SEquiv c d | SXor c d | SUntil _ _ c d => [c; d]
  end.

Section Word.
Variable w : nat.

(** Storing into a uint{w}_t. *)
Definition trunc (x : N) : N := N.land x (N.ones (N.of_nat w)).
Definition shl (x : N) (s : nat) : N := N.shiftl x (N.of_nat s).
Definition shr (x : N) (s : nat) : N := N.shiftr x (N.of_nat s).

(** ** How many words a subformula lags behind: lines 143-150 *)
Definition ceil_words (ub : nat) : nat := (w - 1 + ub) / w.
Definition lag_of (lags : list nat) (o : sop) : nat :=
  match o with SFuture _ ub _ | SGlobal _ ub _ | SUntil _ ub _ _ => ceil_words ub | _ => ceil_words 0 end
  + fold_right Nat.max 0 (map (fun c => nth c lags 0) (children o)).
Fixpoint lags_from (lags : list nat) (prog : list sop) : list nat :=
  match prog with
  | [] => lags
  | o :: prog => lags_from (lags ++ [lag_of lags o]) prog
  end.
Definition lags (prog : list sop) : list nat := lags_from [] prog.
Definition lag (prog : list sop) (k : nat) : nat := nth k (lags prog) 0.
(** The formula itself is visited last. *)
Definition root (prog : list sop) : nat := length prog - 1.

(** ** Ring size: lines 152-156; 1 << bit_length *)
Definition bit_length (n : nat) : nat := if n =? 0 then 0 else S (Nat.log2 n).
Definition ring_size (prog : list sop) : nat := 2 ^ bit_length (lag prog (root prog)).

(** Slot of word [W - d + i] in a ring of [size] slots. *)
Definition slot (size W d i : nat) : nat := Z.to_nat ((Z.of_nat W - Z.of_nat d + Z.of_nat i) mod Z.of_nat size).

(** ** In-place updates of a buffer, index ascending *)
Definition put {A} (buf : nat -> A) (i : nat) (v : A) : nat -> A := fun k => if k =? i then v else buf k.
Fixpoint ascend {A} (f : (nat -> A) -> nat -> A) (n : nat) (buf : nat -> A) : nat -> A :=
  match n with
  | O => buf
  | S n => let buf := ascend f n buf in put buf n (f buf n)
  end.

(** Lines 215-222 (and 252-259, 289-302): word [i] of operand [a] shifted by
    the lower bound. *)
Definition load_word (a : nat -> N) (size W d lb i : nat) : N :=
  if lb mod w =? 0 then trunc (a (slot size W d (i + lb / w)))
  else trunc (N.lor (shl (a (slot size W d (i + lb / w))) (lb mod w))
                    (shr (a (slot size W d (i + lb / w + 1))) (w - lb mod w))).

(** The words of [x] and its successor [y] shifted left by [j] bits. *)
Definition shifted (x y : N) (j : nat) : N := N.lor (shl x j) (shr y (w - j)).

(** ** future and global: lines 211-284
    [op] is [|] or [&]. *)
Section Unary.
Variable op : N -> N -> N.
(** Lines 225-228 and 262-265 for one [j]. *)
Definition short_round (nbuf j : nat) (buf : nat -> N) : nat -> N :=
  let buf := ascend (fun b i => trunc (op (b i) (shifted (b i) (b (S i)) j))) (nbuf - 1) buf in
  put buf (nbuf - 1) (trunc (op (buf (nbuf - 1)) (shl (buf (nbuf - 1)) j))).
(** Lines 232-234 and 269-271 for one [j]. *)
Definition long_round (nbuf j : nat) (buf : nat -> N) : nat -> N :=
  ascend (fun b i => trunc (op (b i) (b (i + j / w)))) (nbuf - j / w) buf.
(** The loops 224-229 and 231-235, with [n] = ub - lb + 1; they end after at
    most [fuel] = n rounds. *)
Fixpoint short_rounds (fuel n nbuf j : nat) (buf : nat -> N) : nat * (nat -> N) :=
  match fuel with
  | O => (j, buf)
  | S fuel =>
      if j <=? (if w / 2 <? n / 2 then w / 2 else n / 2)
      then short_rounds fuel n nbuf (2 * j) (short_round nbuf j buf) else (j, buf)
  end.
Fixpoint long_rounds (fuel n nbuf j : nat) (buf : nat -> N) : nat * (nat -> N) :=
  match fuel with
  | O => (j, buf)
  | S fuel => if j <=? n / 2 then long_rounds fuel n nbuf (2 * j) (long_round nbuf j buf) else (j, buf)
  end.
(** Lines 237-244 and 274-281.  For i = nbuf - 1 the code reads past the end of the buffer:
    the memory behind it is [junk].  A shift by more than the word size has no
    defined result. *)
Definition leftover_round (n nbuf j : nat) (buf : nat -> N) : option (nat -> N) :=
  let s := n mod j in
  if s =? 0 then Some buf
  else if s mod w =? 0 then Some (ascend (fun b i => trunc (op (b i) (b (i + s / w)))) nbuf buf)
  else if s <? w then Some (ascend (fun b i => trunc (op (b i) (shifted (b i) (b (S i)) s))) nbuf buf)
  else None.
Definition window (a : nat -> N) (junk : nat -> N) (nbuf size W d lb ub : nat) : option N :=
  let n := ub - lb + 1 in
  let buf := ascend (fun _ i => load_word a size W d lb i) nbuf junk in
  let '(j, buf) := short_rounds n n nbuf 1 buf in
  let '(j, buf) := long_rounds n n nbuf j buf in
  match leftover_round n nbuf j buf with Some buf => Some (buf 0) | None => None end.
End Unary.

(** ** until: lines 286-333
    Both buffers are walked through together; the bounds of the loops use
    [m] = ub + 1. *)
Definition until_short_round (nbuf j : nat) (buf : nat -> N * N) : nat -> N * N :=
  let buf := ascend (fun b i =>
    (trunc (N.land (fst (b i)) (shifted (fst (b i)) (fst (b (S i))) j)),
     trunc (N.lor (snd (b i)) (N.land (fst (b i)) (shifted (snd (b i)) (snd (b (S i))) j))))) (nbuf - 1) buf in
  put buf (nbuf - 1)
    (trunc (N.land (fst (buf (nbuf - 1))) (shl (fst (buf (nbuf - 1))) j)),
     trunc (N.lor (snd (buf (nbuf - 1))) (N.land (fst (buf (nbuf - 1))) (shl (snd (buf (nbuf - 1))) j)))).
Definition until_long_round (nbuf j : nat) (buf : nat -> N * N) : nat -> N * N :=
  ascend (fun b i => (trunc (N.land (fst (b i)) (fst (b (i + j / w)))),
                      trunc (N.lor (snd (b i)) (N.land (fst (b i)) (snd (b (i + j / w))))))) (nbuf - j / w) buf.
Fixpoint until_short_rounds (fuel m nbuf j : nat) (buf : nat -> N * N) : nat * (nat -> N * N) :=
  match fuel with
  | O => (j, buf)
  | S fuel =>
      if j <=? (if w / 2 <? m / 2 then w / 2 else m / 2)
      then until_short_rounds fuel m nbuf (2 * j) (until_short_round nbuf j buf) else (j, buf)
  end.
Fixpoint until_long_rounds (fuel m nbuf j : nat) (buf : nat -> N * N) : nat * (nat -> N * N) :=
  match fuel with
  | O => (j, buf)
  | S fuel => if j <=? m / 2 then until_long_rounds fuel m nbuf (2 * j) (until_long_round nbuf j buf) else (j, buf)
  end.
Definition until_leftover_round (n nbuf j : nat) (buf : nat -> N * N) : option (nat -> N * N) :=
  let s := n mod j in
  if s =? 0 then Some buf
  else if s mod w =? 0 then
    Some (ascend (fun b i => (trunc (N.land (fst (b i)) (fst (b (i + s / w)))),
                              trunc (N.lor (snd (b i)) (N.land (fst (b i)) (snd (b (i + s / w))))))) nbuf buf)
  else if s <? w then
    Some (ascend (fun b i =>
      (trunc (N.land (fst (b i)) (shifted (fst (b i)) (fst (b (S i))) s)),
       trunc (N.lor (snd (b i)) (N.land (fst (b i)) (shifted (snd (b i)) (snd (b (S i))) s))))) nbuf buf)
  else None.
Definition until_window (a1 a2 : nat -> N) (junk : nat -> N * N) (nbuf size W d lb ub : nat) : option N :=
  let n := ub - lb + 1 in
  let buf := ascend (fun _ i => (load_word a1 size W d lb i, load_word a2 size W d lb i)) nbuf junk in
  let '(j, buf) := until_short_rounds (ub + 1) (ub + 1) nbuf 1 buf in
  let '(j, buf) := until_long_rounds (ub + 1) (ub + 1) nbuf j buf in
  match until_leftover_round n nbuf j buf with Some buf => Some (snd (buf 0)) | None => None end.

(** ** The generated main: lines 336-432 *)
Record state := State { atomics : nat -> nat -> N; values : nat -> nat -> N }.
(** Lines 341-346: all zero. *)
Definition start : state := State (fun _ _ => 0%N) (fun _ _ => 0%N).

(** fid, lines 134-140: the ring of subformula [k]. *)
Definition ring_of (prog : list sop) (s : state) (k : nat) : nat -> N :=
  match nth_error prog k with Some (SAtom a) => atomics s a | _ => values s k end.

(** buffer_size, line 355. *)
Definition buffer_size (lb ub : nat) : nat := ceil_words ub - lb / w + 1.

(** gen_compute_expr_code_func, lines 41-124: the word of subformula [k] that
    lies [lag] words before [W].  [None]: undefined behaviour.  A constant and
    the comparison of an equivalence yield 0 or 1. *)
Definition compute (prog : list sop) (junk : nat -> N * N) (size W k : nat) (s : state) : option N :=
  let d := lag prog k in
  let arg c := ring_of prog s c (slot size W d 0) in
  match nth_error prog k with
  | Some (SConst b) => Some (if b then 1 else 0)%N
  | Some (SNot c) => Some (trunc (N.lnot (arg c) (N.of_nat w)))
  | Some (SAnd cs) =>
      Some (trunc (match map arg cs with [] => 0%N | x :: xs => fold_left N.land xs x end))
  | Some (SOr cs) =>
      Some (trunc (match map arg cs with [] => 0%N | x :: xs => fold_left N.lor xs x end))
  | Some (SImpl c1 c2) => Some (trunc (N.lor (N.lnot (arg c1) (N.of_nat w)) (arg c2)))
  | Some (SEquiv c1 c2) => Some (if N.eqb (arg c1) (arg c2) then 1 else 0)%N
  | Some (SXor c1 c2) => Some (trunc (N.lxor (arg c1) (arg c2)))
  | Some (SFuture lb ub c) =>
      window N.lor (ring_of prog s c) (fun i => fst (junk i)) (buffer_size lb ub) size W d lb ub
  | Some (SGlobal lb ub c) =>
      window N.land (ring_of prog s c) (fun i => fst (junk i)) (buffer_size lb ub) size W d lb ub
  | Some (SUntil lb ub c1 c2) =>
      until_window (ring_of prog s c1) (ring_of prog s c2) junk (buffer_size lb ub) size W d lb ub
  | Some (SAtom _) | None => Some 0%N
  end.

(** Lines 386-395 (without raw_bytes): [w] rows are read into the word of each signal. *)
Fixpoint shift_in (old : N) (bits : nat -> bool) (n : nat) : N :=
  match n with
  | O => old
  | S n => trunc (N.lor (shl (shift_in old bits n) 1) (if bits n then 1 else 0)%N)
  end.
Definition read_inputs (size W : nat) (tr : nat -> nat -> bool) (s : state) : state :=
  State (fun a => put (atomics s a) (slot size W 0 0)
                      (shift_in (atomics s a (slot size W 0 0)) (fun i => tr (W * w + i) a) w))
        (values s).
(** Lines 400-403, in order of [prog]. *)
Fixpoint compute_from (prog : list sop) (junk : nat -> nat -> N * N) (size W k todo : nat) (s : state) : option state :=
  match todo with
  | O => Some s
  | S todo =>
      match nth_error prog k with
      | Some (SAtom _) => compute_from prog junk size W (S k) todo s
      | _ =>
          match compute prog (junk k) size W k s with
          | None => None
          | Some v =>
              compute_from prog junk size W (S k) todo
                (State (atomics s) (put (values s) k (put (values s k) (slot size W (lag prog k) 0) v)))
          end
      end
  end.
(** Lines 424-425: the slots of the next word are cleared; [uses] tells which
    signals occur in the formula. *)
Definition uses (prog : list sop) (a : nat) : bool :=
  existsb (fun o => match o with SAtom b => a =? b | _ => false end) prog.
Definition clear (prog : list sop) (size W : nat) (s : state) : state :=
  State (fun a => if uses prog a then put (atomics s a) (slot size W 0 1) 0%N else atomics s a)
        (fun k => put (values s k) (slot size W 0 1) 0%N).
(** One turn of the loop 368-429 and what it prints, lines 412-421. *)
Definition turn (prog : list sop) (junk : nat -> nat -> N * N) (tr : nat -> nat -> bool) (W : nat) (s : state)
  : option (state * list N) :=
  let size := ring_size prog in
  match compute_from prog junk size W 0 (length prog) (read_inputs size W tr s) with
  | None => None
  | Some s =>
      let d := lag prog (root prog) in
      let out := if d <=? W then [ring_of prog s (root prog) (slot size W d 0)] else [] in
      Some (clear prog size W s, out)
  end.
Fixpoint turns (prog : list sop) (junk : nat -> nat -> nat -> N * N) (tr : nat -> nat -> bool) (n : nat) : option (state * list N) :=
  match n with
  | O => Some (start, [])
  | S n =>
      match turns prog junk tr n with
      | None => None
      | Some (s, out) =>
          match turn prog (junk n) tr n s with
          | None => None
          | Some (s, new) => Some (s, out ++ new)
          end
      end
  end.
End Word.
