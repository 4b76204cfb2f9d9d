(** * Reading the e-graph that egglog writes (specification)

    The form of the document is the one described in egraph.py 108-126,
    148-161, 180-191 and 207-217, with the constructors of
    egglog/ilp/mltl.egg 1-21. *)
From Coq Require Import List Arith NArith ZArith Bool Ascii String.
Require Import Verif.MapFile Verif.Egglog Verif.Ilp Verif.IlpSpec Verif.EgraphJson.
Import ListNotations.
Local Open Scope list_scope.
Local Open Scope nat_scope.

(** The constructors with operands only, their arity and meaning. *)
Definition plain_constructors : list (string * (nat * eop)) :=
  [("Not", (1, ONot)); ("Implies", (2, OImplies)); ("Equiv", (2, OEquiv));
   ("And2", (2, OAnd)); ("And3", (3, OAnd)); ("And4", (4, OAnd));
   ("Or2", (2, OOr)); ("Or3", (3, OOr)); ("Or4", (4, OOr))]%string.
(** The constructors with an interval first. *)
Definition temporal_constructors : list (string * (nat * (Z -> Z -> eop))) :=
  [("Global", (1, OGlobal)); ("Future", (1, OFuture)); ("Until", (2, OUntil)); ("Release", (2, ORelease))]%string.
Definition formula_constructors : list string :=
  (["Bool"; "Var"]%string ++ map fst plain_constructors ++ map fst temporal_constructors).

(** ** What a document says *)
Definition z_text (z : Z) : str := match z with Zneg p => "-"%char :: dec (Npos p) | _ => dec (Z.to_N z) end.
Definition atomic_text (a : nat) : str := quote :: "a"%char :: dec (N.of_nat a) ++ [quote].
Definition bool_text (b : bool) : str := txt (if b then "true" else "false").
(** The node [id] is written with this operator. *)
Definition op_is (d : document) (id op : str) : Prop := exists ks c, In (id, JNode op ks c) d.
Definition in_class (d : document) (id c : str) : Prop := exists op ks, In (id, JNode op ks c) d.
Definition interval_is (d : document) (id : str) (l u : Z) : Prop :=
  exists il iu c, In (id, JNode (txt "Interval") [il; iu] c) d /\ op_is d il (z_text l) /\ op_is d iu (z_text u).
(** A node means an operator over e-classes. *)
Inductive means (d : document) : jnode -> eop -> list str -> Prop :=
| means_bool i b c : op_is d i (bool_text b) -> means d (JNode (txt "Bool") [i] c) (OBool b) []
| means_var i a c : op_is d i (atomic_text a) -> means d (JNode (txt "Var") [i] c) (OVar a) []
| means_plain s k o ids cs c : In (s, (k, o)) plain_constructors -> List.length ids = k -> Forall2 (in_class d) ids cs ->
    means d (JNode (txt s) ids c) o cs
| means_temporal s k o i l u ids cs c : In (s, (k, o)) temporal_constructors -> List.length ids = k -> interval_is d i l u ->
    Forall2 (in_class d) ids cs -> means d (JNode (txt s) (i :: ids) c) (o l u) cs.
(** [says d c t]: the e-class [c] of the document holds the term [t]. *)
Inductive says (d : document) : str -> eterm -> Prop :=
| says_node id n o cs ts t : In (id, n) d -> means d n o cs -> say_all d cs ts -> term_of o ts = Some t -> says d (j_eclass n) t
with say_all (d : document) : list str -> list eterm -> Prop :=
| say_none : say_all d [] []
| say_more c cs t ts : says d c t -> say_all d cs ts -> say_all d (c :: cs) (t :: ts).

(** ** The documents egglog writes: the ids are numbered per sort or carry the
    name of the constructor. *)
Definition value_id (sort : string) (i : str) : str := txt sort ++ "-"%char :: i.
Definition function_id (k : str) (s : string) : str := txt "function-" ++ k ++ "-"%char :: txt s.
Definition formula_id (d : document) (id : str) : Prop :=
  exists k s, forallb is_digit k = true /\ In s formula_constructors /\ id = function_id k s /\ exists c, in_class d id c.
(** The e-class [c] is one of formulas. *)
Definition formula_class (d : document) (c : str) : Prop := exists id, formula_id d id /\ in_class d id c.
Inductive entry (d : document) : str * jnode -> Prop :=
| entry_int i z c : entry d (value_id "i64" i, JNode (z_text z) [] c)
| entry_string i a c : entry d (value_id "String" i, JNode (atomic_text a) [] c)
| entry_bool_value i b c : entry d (value_id "bool" i, JNode (bool_text b) [] c)
| entry_interval k il iu l u c : op_is d il (z_text l) -> op_is d iu (z_text u) ->
    entry d (function_id k "Interval", JNode (txt "Interval") [il; iu] c)
| entry_bool k i b c : forallb is_digit k = true -> op_is d (value_id "bool" i) (bool_text b) ->
    entry d (function_id k "Bool", JNode (txt "Bool") [value_id "bool" i] c)
| entry_var k i a c : forallb is_digit k = true -> op_is d (value_id "String" i) (atomic_text a) ->
    entry d (function_id k "Var", JNode (txt "Var") [value_id "String" i] c)
| entry_plain k s n o ids c : forallb is_digit k = true -> In (s, (n, o)) plain_constructors -> List.length ids = n ->
    Forall (formula_id d) ids -> entry d (function_id k s, JNode (txt s) ids c)
| entry_temporal k s n o j l u ids c : forallb is_digit k = true -> In (s, (n, o)) temporal_constructors -> List.length ids = n ->
    interval_is d (function_id j "Interval") l u -> Forall (formula_id d) ids ->
    entry d (function_id k s, JNode (txt s) (function_id j "Interval" :: ids) c).
Definition written_by_egglog (d : document) : Prop := NoDup (map fst d) /\ Forall (entry d) d.
