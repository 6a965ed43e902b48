(** * Notation for the laws of xreplace *)
From Verif Require Import Py ModelTree ModelCas.

(** The items of a dict from Expr to Expr, as xreplace receives them. *)
Definition items (l : list (tree * tree)) : list (pyobj * pyobj) := map (fun p => (PExpr (fst p), PExpr (snd p))) l.
