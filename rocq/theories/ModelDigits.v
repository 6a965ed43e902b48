(** * Model of printing with CPython's limit on the number of digits *)
(** Since CPython 3.11 (and 3.8.14, 3.9.14, 3.10.7), str and repr of an int with more decimal digits than
    sys.get_int_max_str_digits() raise ValueError; 0 means no limit, and the initial limit is 4300. The other models
    print ints without limit; here are the same functions with it. *)
From Coq Require Import DecimalString DecimalZ.
From Verif Require Import Py ModelTree ModelEval ModelDiff ModelSym ModelCas ModelRepr.

Section Digits.
  Context (limit : nat).

  (** CPython Objects/longobject.c, long_to_decimal_string_internal: the digits are counted without the sign. *)
  Definition str_int_lim (z : Z) : res string :=
    let digits := String.length (str_int (Z.abs z)) in
    if ((0 <? limit) && (limit <? digits))%nat then Err ValueError else Ok (str_int z).
  Definition str_value_lim (v : pyval) : res string :=
    match v with VInt z => str_int_lim z | VStr s => Ok s end.
  (** core/tree.py:164-172 Tree.__str__, with core/atom.py:180-182 Atom.__str__ *)
  Fixpoint tree_str_lim (t : tree) : res string :=
    match t with
    | Atm a => str_value_lim (atom_value a)
    | Node [] => Err AttributeError
    | Node (h :: args) =>
        do hs <- tree_str_lim h;
        do l <- mapM tree_str_lim args;
        Ok (hs ++ "(" ++ join ", " l ++ ")")%string
    end.
  (** simplecas/functions.py:60-63 *)
  Definition repr_call_lim (head : tree) (args : list string) : res string :=
    do h <- tree_str_lim head; Ok (h ++ "(" ++ join ", " args ++ ")")%string.
  (** simplecas/functions.py:69-76 *)
  Definition eval_repr_ev_lim : res (evaluator string) :=
    run_statements new_evaluator
      [ (PHeadRule wa wb, HeadOp repr_call_lim, [wa; wb]);
        (PAtomRule wa, AtomFunc tree_str_lim, [wa]);
        (PAtomValue T_Integer wa, PyFunc1 str_value_lim, [wa]);
        (PAtomValue T_Symbol wa, PyFunc1 str_value_lim, [wa]);
        (PAtomValue T_Function wa, PyFunc1 str_value_lim, [wa]);
        (PSym (call1 Add (star wa)), PyOpN (pyn repr_add), [wa]);
        (PSym (call1 Mul (star wa)), PyOpN (pyn repr_mul), [wa]);
        (PSym (m_pow wa wb), PyOp2 (py2 repr_pow), [wa; wb]) ].
  (** simplecas/expr.py:155-161, 259-261 *)
  Definition eval_repr_lim (self : tree) : res string :=
    do ev <- eval_repr_ev_lim; sym_evaluate (fun _ => false) ev self None.
  (** simplecas/functions.py:90-98 *)
  Definition eval_latex_ev_lim : res (evaluator string) :=
    run_statements new_evaluator
      [ (PHeadRule wa wb, HeadOp repr_call_lim, [wa; wb]);
        (PAtomValue T_Integer wa, PyFunc1 str_value_lim, [wa]);
        (PAtomValue T_Symbol wa, PyFunc1 str_value_lim, [wa]);
        (PAtomValue T_Function wa, PyFunc1 str_value_lim, [wa]);
        (PSym (call1 Add (star wa)), PyOpN (pyn latex_add), [wa]);
        (PSym (call1 Mul (star wa)), PyOpN (pyn latex_mul), [wa]);
        (PSym (m_pow wa wb), PyOp2 (py2 latex_pow), [wa; wb]);
        (PSym (call1 sin wa), PyOp1 (py1 latex_sin), [wa]);
        (PSym (call1 cos wa), PyOp1 (py1 latex_cos), [wa]) ].
  (** simplecas/expr.py:263-274 *)
  Definition eval_latex_lim (self : tree) : res string :=
    do ev <- eval_latex_ev_lim; sym_evaluate (fun _ => false) ev self None.

  (** core/atom.py:176-178 Atom.__repr__ *)
  Definition atom_repr_lim (a : atom) : res string :=
    do v <- match atom_value a with VInt z => str_int_lim z | VStr s => Ok (repr_str s) end;
    Ok (ty_name (atom_type a) ++ "(" ++ v ++ ")")%string.
  (** core/tree.py:156-162 Tree.__repr__ *)
  Fixpoint tree_repr_lim (t : tree) : res string :=
    match children t with
    | [] => do a <- tree_value t; do r <- atom_repr_lim a; Ok ("Tr(" ++ r ++ ")")%string
    | _ :: _ =>
        match t with
        | Node cs => do l <- mapM tree_repr_lim cs; Ok ("Tree(" ++ join ", " l ++ ")")%string
        | Atm _ => Err AttributeError                                          (* not reachable *)
        end
    end.
End Digits.
