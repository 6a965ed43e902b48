(** * Specification for C86: a constructor call that is left by an exception *)
From Verif Require Import Py ModelIntern SpecIntern.

Section Spec.
  Context {V : Type}.
  (** KeyboardInterrupt or MemoryError ends the call of thread [t] in state [s], wherever it is; the thread keeps its
      variables, and can go on (the exception is caught somewhere). *)
  Definition interrupted (s : state V) (t : nat) (s' : state V) : Prop :=
    calling s t <> None /\
    s' = mkState (heap s) (wrefs s) (next_w s) (data s)
           (fun u => if Nat.eqb u t then mkThread (held (threads s t)) Idle else threads s u).
  (** The call of [t] has made the object [a] and has not put it in the store yet. *)
  Definition has_made (s : state V) (t : nat) (a : addr) : Prop :=
    match at_ (threads s t) with Made _ b | Look _ b _ | Put _ b => b = a | _ => False end.
  (** The arguments are of the right classes. *)
  Definition right_arguments (h : addr -> option (obj V)) (k : key V) : Prop :=
    match k with
    | KAtom _ _ => True
    | KLeaf b => exists ty v, h b = Some (OAtom ty v)
    | KNode l => forall b, In b l -> (exists c, h b = Some (OLeaf c)) \/ (exists cs, h b = Some (ONode cs))
    | KSym _ b => (exists c, h b = Some (OLeaf c)) \/ (exists cs, h b = Some (ONode cs))
    end.
End Spec.
