(** * Specification: evaluators and differentiation rules made of objects, and the pure ones that they stand for *)
From Verif Require Import Py ModelTree ModelIntern SpecIntern ModelEval ModelDiff ModelObjects SpecObjects ModelObjEval.

Section Spec.
  Context (names : nat -> string) (atomic : bool) (who : nat -> Prop) (t : nat).
  Notation has_tree := (has_tree names t).
  Implicit Types (s : state pyval).
  (** A state that can come about, in which thread [t] is not in a call. *)
  Definition ready s : Prop := reachable pyval_eqb atomic who s /\ at_ (threads s t) = Idle.
  (** The thread still has all Trees that it had. *)
  Definition later s s' : Prop := forall a u, has_tree s a u -> has_tree s' a u.
  Definition stable {A B} (R : state pyval -> A -> B -> Prop) : Prop := forall s s' a b, later s s' -> R s a b -> R s' a b.
  (** The program, run among others, always ends as the pure computation [x] does, with related results. *)
  Definition computes {A B} s (p : prog A) (x : res B) (R : state pyval -> A -> B -> Prop) : Prop :=
    always atomic who t p s (fun s' r => match r, x with Ok a, Ok b => R s' a b | Err e, Err e' => e = e' | _, _ => False end).

  (** The evaluator [oe] has the rules of [ev]: for the same atom types and heads, callbacks that compute the same. *)
  Section Rules.
    Context {A B : Type} (R : state pyval -> A -> B -> Prop).
    Definition same_args s (x : pyarg A) (y : pyarg B) : Prop :=
      match x, y with AVal v, AVal w => R s v w | ASeq l, ASeq m => Forall2 (R s) l m | _, _ => False end.
    Definition same_atom_rule s (r : nat * (pyval -> prog A)) (q : atype * (pyval -> res B)) : Prop :=
      fst q = mkType (fst r) (names (fst r)) /\
      forall s1 v, ready s1 -> later s s1 -> computes s1 (snd r v) (snd q v) R.
    Definition same_operation_rule s (r : addr * ((list (pyarg A) -> prog A) * bool)) (q : tree * (callable B * bool)) : Prop :=
      has_tree s (fst r) (fst q) /\ snd (snd r) = snd (snd q) /\
      forall s1 args args', ready s1 -> later s s1 -> Forall2 (same_args s1) args args' ->
        computes s1 (fst (snd r) args) (fst (snd q) args') R.
    Record same_rules s (oe : o_evaluator A) (ev : evaluator B) : Prop := {
      sr_atoms : Forall2 (same_atom_rule s) (oe_atoms oe) (ev_atoms ev);
      sr_operations : Forall2 (same_operation_rule s) (oe_operations oe) (ev_operations ev);
      sr_generic_operation : forall s1 h u args args', ready s1 -> later s s1 -> has_tree s1 h u -> Forall2 (R s1) args args' ->
        computes s1 (oe_generic_operation oe h args) (ev_generic_operation ev u args') R;
      sr_generic_atom : forall s1 a u, ready s1 -> later s s1 -> has_tree s1 a u ->
        computes s1 (oe_generic_atom oe a) (ev_generic_atom ev u) R
    }.
    (** The values given for Trees. *)
    Definition same_values s (d : dict addr A) (e : dict tree B) : Prop :=
      Forall2 (fun r q => has_tree s (fst r) (fst q) /\ R s (snd r) (snd q)) d e.
  End Rules.

  Definition same_subs s (x : nat * list addr * list (list nat)) (sf : subs_func) : Prop :=
    fst (fst x) = sf_nargs sf /\ Forall2 (has_tree s) (snd (fst x)) (sf_atoms sf) /\ snd x = sf_operations sf.
  Record same_props s (p : o_diff_props) (q : diff_props) : Prop := {
    sp_zero : has_tree s (od_zero p) (dp_zero q);
    sp_one : has_tree s (od_one p) (dp_one q);
    sp_add : has_tree s (od_add p) (dp_add q);
    sp_mul : has_tree s (od_mul p) (dp_mul q);
    sp_distributive : Forall2 (has_tree s) (od_distributive p) (dp_distributive q);
    sp_rules : Forall2 (fun r r' => has_tree s (fst (fst r)) (fst (fst r')) /\ snd (fst r) = snd (fst r') /\ same_subs s (snd r) (snd r'))
                 (od_rules p) (dp_rules q)
  }.
End Spec.
