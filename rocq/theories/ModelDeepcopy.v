(** * Model of copy.deepcopy for the objects of core/tree.py, core/atom.py and core/sym.py
    As for copy.copy (ModelCopy.v) the classes leave everything to CPython's copy.py: deepcopy(x, memo) looks [x] up in
    the memo; otherwise it calls [y = cls.__new__(cls)], enters [y] in the memo, makes deep copies of the slots of [x] that
    are set (read before) in the order of __slots__, the elements of tuples from left to right, and assigns them to [y].
    Simplifications: the call is not interleaved with other threads; Tree() exists already, at the address [E] (otherwise the
    first call makes it, and the memo keeps it); the copies of the tuples themselves are not entered in the memo, because no
    two trees have the same tuple; [None] is RecursionError, [n] the nested calls of deepcopy that fit. *)
From Verif Require Import Py ModelIntern ModelCopy.

Section Deepcopy.
  Context {V : Type} (E : addr).
  Definition heap_t : Type := addr -> option (obj V).
  Definition memo_t : Type := list (addr * addr).
  Fixpoint memo_get (m : memo_t) (x : addr) : option addr :=
    match m with [] => None | (a, y) :: r => if Nat.eqb x a then Some y else memo_get r x end.

  Section Copies.
    Context (f : heap_t -> memo_t -> addr -> option (res addr * heap_t * memo_t)).
    (** The elements of a tuple: copy.py, _deepcopy_tuple *)
    Fixpoint dcopies (h : heap_t) (m : memo_t) (l : list addr) : option (res (list addr) * heap_t * memo_t) :=
      match l with
      | [] => Some (Ok [], h, m)
      | x :: r =>
          match f h m x with
          | Some (Ok y, h1, m1) =>
              match dcopies h1 m1 r with
              | Some (Ok ys, h2, m2) => Some (Ok (y :: ys), h2, m2)
              | other => other
              end
          | Some (Err e, h1, m1) => Some (Err e, h1, m1)
          | None => None
          end
      end.
  End Copies.
  (** core/atom.py:145-155, core/tree.py:106-132, core/sym.py:130-142: slots and __new__ *)
  Fixpoint dcopy (n : nat) (h : heap_t) (m : memo_t) (x : addr) : option (res addr * heap_t * memo_t) :=
    match n with
    | O => None
    | S n' =>
        match memo_get m x with
        | Some y => Some (Ok y, h, m)
        | None =>
            match h x with
            | None => Some (Err TypeError, h, m)              (* no such object *)
            | Some (OAtom _ _) | Some (OSym _ _) => Some (Err TypeError, h, m)   (* __new__ needs arguments *)
            | Some (OLeaf v) =>
                match dcopy n' h ((x, E) :: m) v with
                | Some (Ok w, h1, m1) => Some (Ok E, upd h1 E (Some (OLeaf w)), m1)
                | other => other
                end
            | Some (ONode cs) =>
                match dcopies (dcopy n') h ((x, E) :: m) cs with
                | Some (Ok ys, h1, m1) => Some (Ok E, upd h1 E (Some (ONode ys)), m1)
                | Some (Err e, h1, m1) => Some (Err e, h1, m1)
                | None => None
                end
            end
        end
    end.
  Definition deepcopy (n : nat) (h : heap_t) (x : addr) : option (res addr * heap_t) :=
    match dcopy n h [] x with Some (r, h', _) => Some (r, h') | None => None end.
End Deepcopy.
