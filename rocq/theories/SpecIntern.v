(** * Specification: histories, and what the objects stand for *)
From Verif Require Import Py ModelIntern.

Section Spec.
  Context {V : Type} (veq : V -> V -> bool).
  (** The comparison of values is an equivalence. *)
  Definition equivalence : Prop :=
    (forall v, veq v v = true) /\ (forall v w, veq v w = true -> veq w v = true) /\
    (forall u v w, veq u v = true -> veq v w = true -> veq u w = true).

  (** Executions. *)
  Inductive steps (atomic : bool) (who : nat -> Prop) (s : state V) : state V -> Prop :=
  | steps_none : steps atomic who s s
  | steps_more s1 s2 : steps atomic who s s1 -> step veq atomic who s1 s2 -> steps atomic who s s2.
  Definition reachable (atomic : bool) (who : nat -> Prop) (s : state V) : Prop := steps atomic who start s.
  (** Some thread has a reference to [a] in a variable, an argument or a result. *)
  Definition referenced (s : state V) (a : addr) : Prop :=
    exists t, In a (held (threads s t)) \/ In a (pc_refs (at_ (threads s t))).
  (** Executions during which there always is one. *)
  Inductive steps_holding (atomic : bool) (who : nat -> Prop) (a : addr) (s : state V) : state V -> Prop :=
  | holding_none : steps_holding atomic who a s s
  | holding_more s1 s2 : steps_holding atomic who a s s1 -> step veq atomic who s1 s2 ->
      referenced s2 a -> steps_holding atomic who a s s2.
  (** setdefault is atomic, or only one thread calls constructors. *)
  Definition safe (atomic : bool) (who : nat -> Prop) : Prop := atomic = true \/ exists t, forall u, who u -> u = t.

  (** What a user sees of an object: its type, value and parts. *)
  Inductive term :=
  | MAtom (ty : nat) (v : V)
  | MLeaf (m : term)
  | MNode (l : list term)
  | MSym (cls : nat) (m : term).
  Inductive denotes (h : addr -> option (obj V)) : addr -> term -> Prop :=
  | d_atom a ty v : h a = Some (OAtom ty v) -> denotes h a (MAtom ty v)
  | d_leaf a b m : h a = Some (OLeaf b) -> denotes h b m -> denotes h a (MLeaf m)
  | d_node a l ms : h a = Some (ONode l) -> Forall2 (denotes h) l ms -> denotes h a (MNode ms)
  | d_sym a c b m : h a = Some (OSym c b) -> denotes h b m -> denotes h a (MSym c m).
  (** Structural equality. *)
  Fixpoint same (m m' : term) : bool :=
    match m, m' with
    | MAtom ty v, MAtom ty' v' => Nat.eqb ty ty' && veq v v'
    | MLeaf m, MLeaf m' => same m m'
    | MNode l, MNode l' =>
        (fix go (l l' : list term) : bool :=
           match l, l' with [], [] => true | m :: r, m' :: r' => same m m' && go r r' | _, _ => false end) l l'
    | MSym c m, MSym c' m' => Nat.eqb c c' && same m m'
    | _, _ => false
    end.
  (** A user has [a]: in a variable, or a call is about to return it. *)
  Definition returning (s : state V) (t : nat) (k : key V) (a : addr) : Prop := at_ (threads s t) = Done k a.
  Definition raising (s : state V) (t : nat) (k : key V) : Prop := at_ (threads s t) = Raised k.
  (** What thread [t] is in a call for. *)
  Definition calling (s : state V) (t : nat) : option (key V) :=
    match at_ (threads s t) with
    | Idle => None
    | Call k | Got k _ | Make k | Made k _ | Look k _ _ | Put k _ | Done k _ | Raised k => Some k
    end.
  Definition has (s : state V) (a : addr) : Prop :=
    (exists t, In a (held (threads s t))) \/ (exists t k, returning s t k a).
  (** [a] refers to [b], directly or not. *)
  Inductive leads_to (h : addr -> option (obj V)) (a : addr) : addr -> Prop :=
  | leads_self : leads_to h a a
  | leads_more b o c : leads_to h a b -> h b = Some o -> In c (obj_refs o) -> leads_to h a c.
  (** The collector runs, and nothing else: objects go that nothing refers to, dead entries are removed. *)
  Inductive collects (s : state V) : state V -> Prop :=
  | collects_none : collects s s
  | collects_obj s1 a o : collects s s1 -> heap s1 a = Some o -> unreferenced s1 a -> collects s (collect s1 a)
  | collects_entry s1 front k w back : collects s s1 -> data s1 = front ++ (k, w) :: back -> wrefs s1 w = None ->
      collects s (remove_entry s1 front back).
  (** Executions during a call of thread [t], in which [t] itself moves [n] times. *)
  Inductive during_call (atomic : bool) (who : nat -> Prop) (t : nat) (s : state V) : nat -> state V -> Prop :=
  | during_none : at_ (threads s t) <> Idle -> during_call atomic who t s 0 s
  | during_own n s1 s2 : during_call atomic who t s n s1 -> step veq atomic who s1 s2 ->
      at_ (threads s2 t) <> at_ (threads s1 t) -> at_ (threads s2 t) <> Idle -> during_call atomic who t s (S n) s2
  | during_other n s1 s2 : during_call atomic who t s n s1 -> step veq atomic who s1 s2 ->
      at_ (threads s2 t) = at_ (threads s1 t) -> during_call atomic who t s n s2.
  (** Thread [t], in a call, alone moves, [n] times, and is still in the call. *)
  Inductive alone (atomic : bool) (who : nat -> Prop) (t : nat) (s : state V) : nat -> state V -> Prop :=
  | alone_none : alone atomic who t s 0 s
  | alone_more n s1 s2 : alone atomic who t s n s1 -> step veq atomic who s1 s2 ->
      at_ (threads s2 t) <> at_ (threads s1 t) -> at_ (threads s2 t) <> Idle -> (forall u, u <> t -> threads s2 u = threads s1 u) ->
      alone atomic who t s (S n) s2.
End Spec.
Arguments term : clear implicits.
