(** * Specification for C79: how deeply an expression is nested *)
From Verif Require Import Py ModelTree SpecTree ModelSympy ModelDepth.

(** The number of levels of [t]: heads count or not, and the expressions in [stop] are not entered. *)
Fixpoint levels (heads : bool) (stop : list tree) (t : tree) : nat :=
  match t with
  | Node (h :: args) =>
      if mem t stop then 1
      else S (Nat.max (if heads then levels heads stop h else 0) (list_max (map (levels heads stop) args)))
  | _ => 1
  end.
Fixpoint slevels (s : sexpr) : nat :=
  match s with SApp _ args => S (list_max (map slevels args)) | _ => 1 end.
(** [f(f(..f(x)..))] and [sin(sin(..x..))], [n] deep *)
Fixpoint nested (f x : tree) (n : nat) : tree := match n with O => x | S m => Node [f; nested f x m] end.
Fixpoint snested (h : shead) (x : sexpr) (n : nat) : sexpr := match n with O => x | S m => SApp h [snested h x m] end.
(** [limited] is [result] when [depth] levels are allowed, and RecursionError instead of a result when they are not. *)
Definition limit_matters {A} (limited : nat -> limited A) (result : res A) (depth : nat) : Prop :=
  (forall n, depth <= n -> limited n = Some result) /\
  (forall n a, n < depth -> result = Ok a -> limited n = None) /\
  (forall n a, limited n = Some (Ok a) -> result = Ok a).
