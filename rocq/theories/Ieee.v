(** * Doubles (model)

    The operations of IEEE 754 binary64, round to nearest even, on bit patterns,
    from the specification of the standard library.  They instantiate the
    [float_ops] that the models of the monitors leave open, in examples and
    counterexamples.  All NaNs become one. *)
From Coq Require Import ZArith Bool Floats.SpecFloat.
Require Import Verif.Booleanizer.
Local Open Scope Z_scope.

Definition double_of_bits (bits : Z) : spec_float :=
  let sign := Z.testbit bits 63 in
  let e := Z.land (Z.shiftr bits 52) 2047 in
  let m := Z.land bits (2 ^ 52 - 1) in
  if e =? 2047 then if m =? 0 then S754_infinity sign else S754_nan
  else if e =? 0 then match m with Zpos m => S754_finite sign m (-1074) | _ => S754_zero sign end
  else match m + 2 ^ 52 with Zpos m => S754_finite sign m (e - 1075) | _ => S754_nan end.
Definition bits_of_double (x : spec_float) : Z :=
  let sign (s : bool) := if s then 2 ^ 63 else 0 in
  match x with
  | S754_zero s => sign s
  | S754_infinity s => sign s + Z.shiftl 2047 52
  | S754_nan => Z.shiftl 2047 52 + 2 ^ 51
  | S754_finite s m e => sign s + (if Zpos m <? 2 ^ 52 then Zpos m else Z.shiftl (e + 1075) 52 + (Zpos m - 2 ^ 52))
  end.
Definition via1 (f : spec_float -> spec_float) (a : Z) : Z := bits_of_double (f (double_of_bits a)).
Definition via2 (f : spec_float -> spec_float -> spec_float) (a b : Z) : Z :=
  bits_of_double (f (double_of_bits a) (double_of_bits b)).
(** 0.00001 (internals/bounds.h 38, internals/bounds.rs 126).  IEEE 754 does not
    fix pow: examples do not use it. *)
Definition ieee : float_ops :=
  FloatOps (via2 (SFadd 53 1024)) (via2 (SFsub 53 1024)) (via2 (SFmul 53 1024)) (via2 (SFdiv 53 1024))
           (fun _ _ => Z.shiftl 2047 52 + 2 ^ 51)
           (via1 SFopp) (via1 (SFsqrt 53 1024)) (via1 SFabs)
           (fun a b => SFltb (double_of_bits a) (double_of_bits b)) 0x3EE4F8B588E368F1.
Definition ieee_le (a b : Z) : bool := SFleb (double_of_bits a) (double_of_bits b).

Example tenth_and_fifth : f_add ieee 0x3FB999999999999A 0x3FC999999999999A = 0x3FD3333333333334.
Proof. vm_compute. reflexivity. Qed.
Example third : f_div ieee 0x3FF0000000000000 0x4008000000000000 = 0x3FD5555555555555.
Proof. vm_compute. reflexivity. Qed.
Example root_two : f_sqrt ieee 0x4000000000000000 = 0x3FF6A09E667F3BCD.
Proof. vm_compute. reflexivity. Qed.
Example subnormal : f_sub ieee 0x0010000000000001 0x0010000000000000 = 1.
Proof. vm_compute. reflexivity. Qed.
Example overflowing : f_mul ieee 0x7FEFFFFFFFFFFFFF 0xC000000000000000 = 0xFFF0000000000000.
Proof. vm_compute. reflexivity. Qed.
