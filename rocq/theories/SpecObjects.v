(** * Specification: runs of a program by one thread among others, and the Trees that objects represent *)
From Verif Require Import Py ModelTree ModelIntern SpecIntern ModelObjects.

Section Spec.
  Variable names : nat -> string.      (* the names of the atom types *)
  (** The object [a] is the Tree [u]. *)
  Inductive is_atom_obj (h : addr -> option (obj pyval)) (a : addr) : atom -> Prop :=
  | atom_obj ty v : h a = Some (OAtom ty v) -> is_atom_obj h a (mkAtom (mkType ty (names ty)) v).
  Inductive is_tree_obj (h : addr -> option (obj pyval)) : addr -> tree -> Prop :=
  | leaf_obj a b x : h a = Some (OLeaf b) -> is_atom_obj h b x -> is_tree_obj h a (Atm x)
  | node_obj a l us : h a = Some (ONode l) -> Forall2 (is_tree_obj h) l us -> is_tree_obj h a (Node us).
  (** The thread [t] has the Tree [u] at [a] in a variable. *)
  Definition has_tree (t : nat) (s : state pyval) (a : addr) (u : tree) : Prop :=
    In a (held (threads s t)) /\ is_tree_obj (heap s) a u.
  Definition has_atom (t : nat) (s : state pyval) (a : addr) (x : atom) : Prop :=
    In a (held (threads s t)) /\ is_atom_obj (heap s) a x.
End Spec.

Section Runs.
  Context (atomic : bool) (who : nat -> Prop) (t : nat).
  Notation step := (step pyval_eqb atomic who).
  Implicit Types (s : state pyval).
  (** The thread's variables keep what they have. *)
  Definition keeps s s' : Prop := forall a, In a (held (threads s t)) -> In a (held (threads s' t)).
  (** Steps, of all threads and the collector, in which [t] does not finish its call. *)
  Inductive in_call s : state pyval -> Prop :=
  | in_call_none : in_call s s
  | in_call_more s1 s2 : in_call s s1 -> step s1 s2 -> keeps s1 s2 -> at_ (threads s2 t) <> Idle -> in_call s s2.
  Definition hold_all s (l : list addr) : state pyval := fold_left (fun s b => hold s t b) l s.
  (** Thread [t] runs the program, from state [s] to [s'], with the given result. Between any two of its own actions,
      and during its calls of constructors, the others take any number of steps. *)
  Inductive runs {A} : prog A -> state pyval -> state pyval -> res A -> Prop :=
  | runs_ret r s : runs (Ret r) s s r
  | runs_others p s s1 s' r : step s s1 -> keeps s s1 -> at_ (threads s1 t) = Idle -> runs p s1 s' r -> runs p s s' r
  | runs_read a c s o s' r : In a (held (threads s t)) -> heap s a = Some o ->
      runs (c o) (hold_all s (obj_refs o)) s' r -> runs (Read a c) s s' r
  | runs_new k c s s1 b s' r : (forall a, In a (key_refs k) -> In a (held (threads s t))) ->
      in_call (goto s t (Call k)) s1 -> at_ (threads s1 t) = Done k b ->
      runs (c b) (goto (hold s1 t b) t Idle) s' r -> runs (New k c) s s' r
  | runs_raise k c s s1 : (forall a, In a (key_refs k) -> In a (held (threads s t))) ->
      in_call (goto s t (Call k)) s1 -> at_ (threads s1 t) = Raised k ->
      runs (New k c) s (goto s1 t Idle) (Err TypeError).
  (** Whatever the others do, the program ends with [r]; and it can run to its end. *)
  Definition always {A} (p : prog A) s (Q : state pyval -> res A -> Prop) : Prop :=
    (exists s' r, runs p s s' r) /\ forall s' r, runs p s s' r -> Q s' r.
End Runs.

(** The children of an object that count: all of them, or all but the head. *)
Definition counted (heads : bool) (l : list addr) : list addr := if heads then l else tl l.
(** [a] has [b] below it. *)
Inductive below (heads : bool) (h : addr -> option (obj pyval)) (a : addr) : addr -> Prop :=
| below_self : below heads h a a
| below_more b l c : below heads h a b -> h b = Some (ONode l) -> In c (counted heads l) -> below heads h a c.
