(** * Model of the rule interface in src/protosym/core/sym.py. A Sym is represented by its Tree. *)
From Verif Require Import Py ModelTree ModelEval.

(** core/sym.py:36 [Wild] and 434 [Star]: two AtomTypes created by the library. AtomTypes are
    numbered here: 0-2 are Integer, Symbol, Function of simplecas (expr.py:538-540). *)
Definition T_Wild := mkType 3 "Wild".
Definition T_Star := mkType 4 "Star".
(** core/sym.py:205-216 Sym.new_wild *)
Definition new_wild (name : string) : tree := Tr (mkAtom T_Wild (VStr name)).
(** core/sym.py:434-439 *)
Definition Star : tree := Tr (mkAtom T_Star (VStr "Star")).
Definition star (wild : tree) : tree := tree_call Star [wild].

(** core/sym.py:160-169 Sym.head and Sym.args *)
Definition sym_head (t : tree) : res tree := getitem (children t) 0.
Definition sym_args (t : tree) : list tree := tl (children t).

Section Rules.
  Context {V : Type}.

  (** core/sym.py:243-391: the PyFunc subclasses, with the function that each one wraps. *)
  Inductive pyfunc :=
  | PyOp1 (func : callable V)
  | PyOp2 (func : callable V)
  | PyOpN (func : callable V)
  | PyFunc1 (func : pyval -> res V)
  | AtomFunc (func : tree -> res V)
  | HeadOp (func : tree -> list V -> res V).

  (** core/sym.py:267-272 class WildCall *)
  Record wildcall := mkCall { wc_op : pyfunc; wc_args : list tree }.

  (** The [__call__] methods at core/sym.py:299, 316, 333, 350, 367, 390; Python raises TypeError
      for a wrong number of arguments. *)
  Definition pyfunc_call (op : pyfunc) (args : list tree) : res wildcall :=
    match op, args with
    | PyOp1 _, [_] | PyOpN _, [_] | PyFunc1 _, [_] | AtomFunc _, [_] => Ok (mkCall op args)
    | PyOp2 _, [_; _] | HeadOp _, [_; _] => Ok (mkCall op args)
    | _, _ => Err TypeError
    end.

  (** core/sym.py:529-536: the patterns, i.e. a Sym, SymAtomValue (66-71), AtomRuleType (403-409)
      or HeadRuleType (421-427). *)
  Inductive pattern :=
  | PSym (t : tree)
  | PAtomValue (ty : atype) (wild : tree)
  | PAtomRule (wild : tree)
  | PHeadRule (head args : tree).

  (** The [args] attribute of a pattern. *)
  Definition pattern_args (p : pattern) : list tree :=
    match p with
    | PSym t => sym_args t
    | PAtomValue _ w | PAtomRule w => [w]
    | PHeadRule h a => [h; a]
    end.

  (** The right hand side of a rule: a WildCall or any other object. *)
  Inductive rule_rhs := RCall (c : wildcall) | ROther.

  Definition trees_eqb (l m : list tree) : bool := tree_eqb (Node l) (Node m).

  (** core/sym.py:577-590 SymEvaluator.add_op *)
  Definition sym_add_op (ev : evaluator V) (head : tree) (op : pyfunc) : evaluator V * res unit :=
    match op with
    | PyOp1 func => (add_op1 ev head func, Ok tt)
    | PyOp2 func => (add_op2 ev head func, Ok tt)
    | PyOpN func => (add_opn ev head func, Ok tt)
    | _ => (ev, Err BadRuleError)
    end.

  (** core/sym.py:550-555: the check of the signature. *)
  Definition signature_check (p : pattern) (c : wildcall) : res unit :=
    match wc_op c with
    | PyOpN _ =>
        match wc_args c with
        | [callarg] =>                                                        (* 551 *)
            if negb (trees_eqb (pattern_args p) [star callarg])
            then Err BadRuleError else Ok tt                                  (* 552-553 *)
        | _ => Err ValueError
        end
    | _ =>
        if negb (trees_eqb (pattern_args p) (wc_args c))
        then Err BadRuleError else Ok tt                                      (* 554-555 *)
    end.

  (** core/sym.py:529-575 SymEvaluator.__setitem__: the evaluator after the call and the outcome. *)
  Definition set_item (ev : evaluator V) (p : pattern) (call : rule_rhs) : evaluator V * res unit :=
    match call with
    | ROther => (ev, Err BadRuleError)                                        (* 547-548 *)
    | RCall c =>
        match signature_check p c with
        | Err x => (ev, Err x)
        | Ok _ =>
            match p with
            | PAtomRule _ =>                                                  (* 557-560 *)
                match wc_op c with
                | AtomFunc func => (add_atom_generic ev func, Ok tt)
                | _ => (ev, Err BadRuleError)
                end
            | PHeadRule _ _ =>                                                (* 562-565 *)
                match wc_op c with
                | HeadOp func => (add_op_generic ev func, Ok tt)
                | _ => (ev, Err BadRuleError)
                end
            | PAtomValue ty _ =>                                              (* 567-570 *)
                match wc_op c with
                | PyFunc1 func => (add_atom ev ty func, Ok tt)
                | _ => (ev, Err BadRuleError)
                end
            | PSym t =>                                                       (* 572-575 *)
                match wc_op c with
                | PyOp1 _ | PyOp2 _ | PyOpN _ =>
                    match sym_head t with
                    | Ok head => sym_add_op ev head (wc_op c)
                    | Err x => (ev, Err x)
                    end
                | _ => (ev, Err BadRuleError)
                end
            end
        end
    end.

  (** A sequence of statements [evaluator[pattern] = op( *args )]. *)
  Definition statement := (pattern * pyfunc * list tree)%type.
  Definition run_statement (ev : evaluator V) (s : statement) : res (evaluator V) :=
    let '(p, op, args) := s in
    do c <- pyfunc_call op args;
    match set_item ev p (RCall c) with
    | (ev', Ok _) => Ok ev'
    | (_, Err x) => Err x
    end.
  Definition run_statements (ev : evaluator V) (l : list statement) : res (evaluator V) :=
    foldM run_statement l ev.
End Rules.
Arguments pyfunc : clear implicits.
Arguments wildcall : clear implicits.
Arguments rule_rhs : clear implicits.
Arguments statement : clear implicits.

(** core/sym.py:596-601 SymEvaluator.__call__ *)
Definition sym_evaluate {V} (is_none : V -> bool) (ev : evaluator V) (expr : tree)
    (values : option (dict tree V)) : res V :=
  evaluate is_none ev expr values.
