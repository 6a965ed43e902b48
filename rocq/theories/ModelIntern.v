(** * Model of the global stores of unique objects: core/atom.py, core/tree.py, core/sym.py, and of
    WeakValueDictionary. Objects have addresses; there are any number of threads; an object without
    references may be collected at any time, and its address may be used again.
    Simplifications: the three stores are one, because their keys are of different kinds; atom types and Sym
    classes are numbers, which are never reused; the values of atoms are not heap objects. *)
From Verif Require Import Py.

Definition addr := nat.
Section Intern.
  (** Values of atoms, and how a dict compares them ([is] or [==]). *)
  Context {V : Type} (veq : V -> V -> bool).

  (** core/atom.py:146-153, core/tree.py:106-116, core/sym.py:136: the attributes of objects. *)
  Inductive obj :=
  | OAtom (ty : nat) (v : V)                (* Atom: atom_type, value *)
  | OLeaf (a : addr)                        (* Tree with value and no children *)
  | ONode (cs : list addr)                  (* Tree with children *)
  | OSym (cls : nat) (t : addr).            (* Sym of class cls with rep *)
  (** The keys of the stores: core/atom.py:157, tree.py:120, 140, sym.py:147. *)
  Inductive key :=
  | KAtom (ty : nat) (v : V)                (* (atom_type, value) *)
  | KLeaf (a : addr)                        (* value *)
  | KNode (cs : list addr)                  (* children *)
  | KSym (cls : nat) (t : addr).            (* (cls, tree_expr) *)

  (** [key == key']: objects are compared by identity, the values by [veq]. *)
  Fixpoint addrs_eqb (l l' : list addr) : bool :=
    match l, l' with
    | [], [] => true
    | a :: r, b :: r' => Nat.eqb a b && addrs_eqb r r'
    | _, _ => false
    end.
  Definition key_eqb (k k' : key) : bool :=
    match k, k' with
    | KAtom ty v, KAtom ty' v' => Nat.eqb ty ty' && veq v v'
    | KLeaf a, KLeaf b => Nat.eqb a b
    | KNode l, KNode l' => addrs_eqb l l'
    | KSym c t, KSym c' t' => Nat.eqb c c' && Nat.eqb t t'
    | _, _ => false
    end.
  (** The object that a constructor makes: atom.py:163-165, tree.py:127-128, 144-146, sym.py:153-154. *)
  Definition obj_of (k : key) : obj :=
    match k with
    | KAtom ty v => OAtom ty v
    | KLeaf a => OLeaf a
    | KNode l => ONode l
    | KSym c t => OSym c t
    end.
  (** The objects that are referred to. *)
  Definition key_refs (k : key) : list addr :=
    match k with KAtom _ _ => [] | KLeaf a => [a] | KNode l => l | KSym _ t => [t] end.
  Definition obj_refs (o : obj) : list addr :=
    match o with OAtom _ _ => [] | OLeaf a => [a] | ONode l => l | OSym _ t => [t] end.

  (** A WeakValueDictionary: [data] maps keys to weak references. Weak references are numbered; a dead one
      gives None. A dict keeps the old key if a key is set again. *)
  Definition store := list (key * nat).
  Fixpoint find (s : store) (k : key) : option nat :=
    match s with
    | [] => None
    | (k', w) :: r => if key_eqb k k' then Some w else find r k
    end.
  Fixpoint put (s : store) (k : key) (w : nat) : store :=
    match s with
    | [] => [(k, w)]
    | (k', w') :: r => if key_eqb k k' then (k', w) :: r else (k', w') :: put r k w
    end.

  (** Where a thread is, in a call of [Atom], [Tree], [Tree.atom] or a subclass of [Sym] for the key. *)
  Inductive pc :=
  | Idle                                    (* not in a call *)
  | Call (k : key)                          (* at the start *)
  | Got (k : key) (w : nat)                 (* get has read the weak reference w *)
  | Make (k : key)                          (* get has returned None *)
  | Made (k : key) (a : addr)               (* the object a is made *)
  | Look (k : key) (a : addr) (w : nat)     (* setdefault has read the weak reference w *)
  | Put (k : key) (a : addr)                (* setdefault has found nothing *)
  | Done (k : key) (a : addr)               (* returns a *)
  | Raised (k : key).                       (* raises TypeError *)
  Definition pc_refs (p : pc) : list addr :=
    match p with
    | Idle => []
    | Call k | Got k _ | Make k | Raised k => key_refs k
    | Made k a | Look k a _ | Put k a | Done k a => a :: key_refs k
    end.
  (** The references that a thread holds in variables, and where it is. *)
  Record thread := mkThread { held : list addr; at_ : pc }.
  Record state := mkState {
    heap : addr -> option obj;
    wrefs : nat -> option addr;
    next_w : nat;
    data : store;
    threads : nat -> thread
  }.
  Definition start : state := mkState (fun _ => None) (fun _ => None) 0 [] (fun _ => mkThread [] Idle).

  Definition upd {A} (f : nat -> A) (n : nat) (x : A) : nat -> A := fun m => if Nat.eqb m n then x else f m.
  Definition set_thread (s : state) (t : nat) (th : thread) : state :=
    mkState (heap s) (wrefs s) (next_w s) (data s) (upd (threads s) t th).
  Definition goto (s : state) (t : nat) (p : pc) : state := set_thread s t (mkThread (held (threads s t)) p).
  Definition hold (s : state) (t : nat) (a : addr) : state := set_thread s t (mkThread (a :: held (threads s t)) (at_ (threads s t))).
  (** A new object. *)
  Definition alloc (s : state) (a : addr) (o : obj) : state :=
    mkState (upd (heap s) a (Some o)) (wrefs s) (next_w s) (data s) (threads s).
  (** [self.data[key] = KeyedRef(a, ...)] *)
  Definition store_new (s : state) (k : key) (a : addr) : state :=
    mkState (heap s) (upd (wrefs s) (next_w s) (Some a)) (S (next_w s)) (put (data s) k (next_w s)) (threads s).
  (** The object [a] goes, and the weak references to it die. *)
  Definition collect (s : state) (a : addr) : state :=
    mkState (upd (heap s) a None)
      (fun w => match wrefs s w with Some b => if Nat.eqb b a then None else Some b | None => None end)
      (next_w s) (data s) (threads s).
  Definition remove_entry (s : state) (front back : store) : state :=
    mkState (heap s) (wrefs s) (next_w s) (front ++ back) (threads s).

  (** isinstance(a, Tree), isinstance(a, Atom) *)
  Definition is_tree (h : addr -> option obj) (a : addr) : bool :=
    match h a with Some (OLeaf _) | Some (ONode _) => true | _ => false end.
  Definition is_atom (h : addr -> option obj) (a : addr) : bool :=
    match h a with Some (OAtom _ _) => true | _ => false end.
  (** The checks of the arguments: tree.py:137-138, sym.py:144-145 come first; tree.py:124-125 comes after get. *)
  Definition check_first (h : addr -> option obj) (k : key) : bool :=
    match k with KAtom _ _ | KNode _ => true | KLeaf a => is_atom h a | KSym _ t => is_tree h t end.
  Definition check_later (h : addr -> option obj) (k : key) : bool :=
    match k with KNode l => forallb (is_tree h) l | _ => true end.
  Definition args_ok (h : addr -> option obj) (k : key) : bool := check_first h k && check_later h k.

  (** No variable, attribute or dict key refers to [a]. *)
  Definition unreferenced (s : state) (a : addr) : Prop :=
    (forall t, ~ In a (held (threads s t)) /\ ~ In a (pc_refs (at_ (threads s t)))) /\
    (forall b o, heap s b = Some o -> ~ In a (obj_refs o)) /\
    (forall k w, In (k, w) (data s) -> ~ In a (key_refs k)).

  (** One step of a thread or of the collector. [atomic]: whether WeakValueDictionary.setdefault is one step,
      or the steps of CPython's weakref.py. [who]: the threads that may call constructors. *)
  Inductive step (atomic : bool) (who : nat -> Prop) (s : state) : state -> Prop :=
  (* A call with arguments that the thread holds. *)
  | s_call t k : at_ (threads s t) = Idle -> who t -> (forall a, In a (key_refs k) -> In a (held (threads s t))) ->
      step atomic who s (goto s t (Call k))
  | s_raise_first t k : at_ (threads s t) = Call k -> check_first (heap s) k = false ->
      step atomic who s (goto s t (Raised k))
  (* atom.py:159, tree.py:120, 140, sym.py:149: WeakValueDictionary.get *)
  | s_get_none t k : at_ (threads s t) = Call k -> check_first (heap s) k = true -> find (data s) k = None ->
      step atomic who s (goto s t (Make k))
  | s_get_ref t k w : at_ (threads s t) = Call k -> check_first (heap s) k = true -> find (data s) k = Some w ->
      step atomic who s (goto s t (Got k w))
  | s_deref_some t k w a : at_ (threads s t) = Got k w -> wrefs s w = Some a -> step atomic who s (goto s t (Done k a))
  | s_deref_none t k w : at_ (threads s t) = Got k w -> wrefs s w = None -> step atomic who s (goto s t (Make k))
  | s_raise_later t k : at_ (threads s t) = Make k -> check_later (heap s) k = false ->
      step atomic who s (goto s t (Raised k))
  (* atom.py:163-165, tree.py:127-128, 144-146, sym.py:153-154; any address that is not in use *)
  | s_alloc t k a : at_ (threads s t) = Make k -> check_later (heap s) k = true -> heap s a = None ->
      step atomic who s (goto (alloc s a (obj_of k)) t (Made k a))
  (* atom.py:172, tree.py:130, 148, sym.py:156: WeakValueDictionary.setdefault in one step *)
  | s_setdefault_old t k a w b : atomic = true -> at_ (threads s t) = Made k a -> find (data s) k = Some w -> wrefs s w = Some b ->
      step atomic who s (goto s t (Done k b))
  | s_setdefault_new t k a : atomic = true -> at_ (threads s t) = Made k a ->
      (forall w, find (data s) k = Some w -> wrefs s w = None) ->
      step atomic who s (goto (store_new s k a) t (Done k a))
  (* the same in steps: o = self.data[key]() ... self.data[key] = KeyedRef(...) *)
  | s_set_none t k a : atomic = false -> at_ (threads s t) = Made k a -> find (data s) k = None ->
      step atomic who s (goto s t (Put k a))
  | s_set_ref t k a w : atomic = false -> at_ (threads s t) = Made k a -> find (data s) k = Some w ->
      step atomic who s (goto s t (Look k a w))
  | s_look_some t k a w b : at_ (threads s t) = Look k a w -> wrefs s w = Some b -> step atomic who s (goto s t (Done k b))
  | s_look_none t k a w : at_ (threads s t) = Look k a w -> wrefs s w = None -> step atomic who s (goto s t (Put k a))
  | s_put t k a : at_ (threads s t) = Put k a -> step atomic who s (goto (store_new s k a) t (Done k a))
  (* The call returns, or raises TypeError. *)
  | s_return t k a : at_ (threads s t) = Done k a -> step atomic who s (goto (hold s t a) t Idle)
  | s_raised t k : at_ (threads s t) = Raised k -> step atomic who s (goto s t Idle)
  (* The call is left by an exception at any point: KeyboardInterrupt (at any bytecode), MemoryError. Its arguments and
     the object that it has made are no longer referred to by its frame. *)
  | s_interrupt t : at_ (threads s t) <> Idle -> step atomic who s (goto s t Idle)
  (* Reading an attribute; giving a reference to another thread; dropping a reference. *)
  | s_read t a o b : In a (held (threads s t)) -> heap s a = Some o -> In b (obj_refs o) -> step atomic who s (hold s t b)
  | s_send t u a : In a (held (threads s t)) -> step atomic who s (hold s u a)
  | s_drop t front a back : held (threads s t) = front ++ a :: back ->
      step atomic who s (set_thread s t (mkThread (front ++ back) (at_ (threads s t))))
  (* The collector, and the callback that removes a dead entry. *)
  | s_collect a o : heap s a = Some o -> unreferenced s a -> step atomic who s (collect s a)
  | s_callback front k w back : data s = front ++ (k, w) :: back -> wrefs s w = None ->
      step atomic who s (remove_entry s front back).
End Intern.
Arguments obj : clear implicits. Arguments key : clear implicits. Arguments store : clear implicits.
Arguments pc : clear implicits. Arguments thread : clear implicits. Arguments state : clear implicits.
