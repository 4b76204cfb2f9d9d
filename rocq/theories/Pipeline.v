(** * The default pipeline on one specification (model)

    main.py 47-60 [compile_command]: after type checking and desugaring, the
    rewrite optimiser, removal of extended operators, binarisation; common
    subexpression elimination follows and keeps every node's expression
    (Prop_Graph.v, C06). *)
Require Import Verif.Mltl Verif.Transform Verif.Rewrite.

Definition compile_expr (e : expr) : expr := to_binary (remove_extended (optimize_rewrites e)).
