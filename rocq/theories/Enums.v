(** * Enum declarations (model) *)
From Coq Require Import List ZArith.
Require Import Verif.Assembly.
Import ListNotations.
Local Open Scope Z_scope.

(** parse_c2po.py 228-241: a declaration is a list of members with an optional
    explicit value (type_check.py 659-665 only lets integer constants through);
    [index] moves on at automatic members only. *)
Fixpoint number (index : Z) (decl : list (nat * option Z)) : list (nat * Z) :=
  match decl with
  | [] => []
  | (x, Some v) :: decl => (x, v) :: number index decl
  | (x, None) :: decl => (x, index) :: number (index + 1) decl
  end.
(** cpt.py 1145-1155: EnumDefinition.members is a dictionary filled in order. *)
Definition members (decl : list (nat * option Z)) : dict Z :=
  fold_left (fun d m => dict_set d (fst m) (snd m)) (number 0 decl) [].
(** desugar.py 74-88: the constant a reference to member [x] is replaced by. *)
Definition member_value (decl : list (nat * option Z)) (x : nat) : option Z := dict_get (members decl) x.
