(** * What a verdict may depend on (specification)

    [agree lo hi tr tr']: the traces give every proposition the same value at
    every time between [lo] and [hi] (integers; negative times do not exist). *)
From Coq Require Import ZArith.
Require Import Verif.Mltl.
Open Scope Z_scope.

Definition agree (lo hi : Z) (tr tr' : trace) : Prop :=
  forall j a, lo <= Z.of_nat j <= hi -> tr j a = tr' j a.

(** The verdict of [e] at time [i] depends only on times [i + lo .. i + hi]. *)
Definition depends_only_on (lo hi : Z) (e : expr) : Prop :=
  forall tr tr' i, agree (Z.of_nat i + lo) (Z.of_nat i + hi) tr tr' ->
                   (sat tr e i <-> sat tr' e i).
