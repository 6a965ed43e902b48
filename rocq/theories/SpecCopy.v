(** * Specification: what copy.copy does *)
From Verif Require Import Py ModelIntern SpecIntern ModelCopy.

Section Spec.
  Context {V : Type} (veq : V -> V -> bool).
  (** Executions during which there always are references to the objects [l]. *)
  Inductive steps_keeping (who : nat -> Prop) (l : list addr) (s : state V) : state V -> Prop :=
  | keeping_none : steps_keeping who l s s
  | keeping_more s1 s2 : steps_keeping who l s s1 -> step veq true who s1 s2 -> Forall (referenced s2) l -> steps_keeping who l s s2.
  (** Thread [t] runs [y = copy.copy(x)] from [s] to [s'], while others run too: it calls the class without arguments and gets
      [y], then the attributes are assigned. References to [x] and [l] are kept meanwhile. *)
  Definition copies (who : nat -> Prop) (l : list addr) (s : state V) (t : nat) (x y : addr) (s' : state V) : Prop :=
    exists o k s1, heap s x = Some o /\ In x (held (threads s t)) /\ at_ (threads s t) = Idle /\ who t /\
      new_without_arguments o = Ok k /\ steps_keeping who (x :: l) (goto s t (Call k)) s1 /\ returning s1 t k y /\
      s' = set_state (goto (hold s1 t y) t Idle) x y.
  (** [copy.copy(x)] raises [e] when it calls the class without arguments, before anything changes. *)
  Definition copy_raises (s : state V) (x : addr) (e : exn) : Prop :=
    exists o, heap s x = Some o /\ new_without_arguments o = Err e.
End Spec.
