(** * Model of copy.copy for the objects of core/tree.py, core/atom.py and core/sym.py
    The classes have [__slots__] and [__new__], and none of the methods of the copy protocol. So copy.copy(x) is that of
    CPython's copy.py (_reconstruct) with object.__reduce_ex__(4): first [y = cls.__new__(cls)], a call without arguments,
    then [setattr(y, name, getattr(x, name))] for every slot of [x] that is set.
    Simplification: a Tree whose children are overwritten keeps a [value] it got from an earlier copy; this [value] is left
    out, because only the attribute itself shows it: repr and str look at the children first. *)
From Verif Require Import Py ModelIntern.

Section Copy.
  Context {V : Type}.
  (** core/atom.py:155 Atom.__new__(cls, atom_type, value), core/tree.py:118 Tree.__new__(cls, *children),
      core/sym.py:142 Sym.__new__(cls, tree_expr): the call without arguments. Only Tree allows it. *)
  Definition new_without_arguments (o : obj V) : res (key V) :=
    match o with
    | OLeaf _ | ONode _ => Ok (KNode [])                     (* tree.py:118-132 with children = () *)
    | OAtom _ _ | OSym _ _ => Err TypeError                  (* missing arguments *)
    end.
  (** The slots of [x] are assigned to [y]: tree.py:106-110 *)
  Definition set_state (s : state V) (x y : addr) : state V :=
    mkState (upd (heap s) y (heap s x)) (wrefs s) (next_w s) (data s) (threads s).
End Copy.
