(** * Model of the Sym classes of src/protosym/core/sym.py. Here a Sym is the pair of its class and its Tree, which
    is the key of Sym._all_expressions (core/sym.py:146-157): two Syms are the same object exactly if the pairs are
    equal (C03). Classes are numbered. *)
From Verif Require Import Py ModelTree ModelEval ModelDiff ModelSym.

Definition cls := nat.
(** core/sym.py:127-157: [type(s)] and [s.rep] *)
Record sym := mkSym { s_cls : cls; s_rep : tree }.
(** [s is t], which is also [s == t] *)
Definition sym_eqb (s t : sym) : bool := Nat.eqb (s_cls s) (s_cls t) && tree_eqb (s_rep s) (s_rep t).
(** core/sym.py:160-163 Sym.head *)
Definition c_head (s : sym) : res sym := do t <- getitem (children (s_rep s)) 0; Ok (mkSym (s_cls s) t).
(** core/sym.py:165-169 Sym.args *)
Definition c_args (s : sym) : list sym := map (mkSym (s_cls s)) (tl (children (s_rep s))).
(** core/sym.py:39-63: a SymAtomType belongs to a class; its values are Syms of that class. new_atom: 191-203. *)
Record sym_atom_type := mkSymAtomType { sat_cls : cls; sat_type : atype }.
Definition sym_atom (ty : sym_atom_type) (v : pyval) : sym := mkSym (sat_cls ty) (Tr (mkAtom (sat_type ty) v)).
(** core/sym.py:205-216 Sym.new_wild *)
Definition c_wild (c : cls) (name : string) : sym := mkSym c (new_wild name).
(** core/sym.py:437-439 star *)
Definition c_star (wild : sym) : sym := mkSym (s_cls wild) (tree_call Star [s_rep wild]).

(** Equality of tuples of Syms. *)
Fixpoint syms_eqb (l m : list sym) : bool :=
  match l, m with
  | [], [] => true
  | s :: l', t :: m' => sym_eqb s t && syms_eqb l' m'
  | _, _ => false
  end.

Section ClassRules.
  Context {V : Type}.
  (** core/sym.py:267-272 *)
  Record c_call := mkCCall { cc_op : pyfunc V; cc_args : list sym }.
  (** core/sym.py:66-71, 403-409, 421-427 *)
  Inductive c_pattern :=
  | CSym (s : sym)
  | CAtomValue (ty : sym_atom_type) (wild : sym)
  | CAtomRule (wild : sym)
  | CHeadRule (head args : sym).
  Definition c_pattern_args (p : c_pattern) : list sym :=
    match p with
    | CSym s => c_args s
    | CAtomValue _ w | CAtomRule w => [w]
    | CHeadRule h a => [h; a]
    end.
  (** core/sym.py:550-555 *)
  Definition c_signature_check (p : c_pattern) (c : c_call) : res unit :=
    match cc_op c with
    | PyOpN _ =>
        match cc_args c with
        | [callarg] => if negb (syms_eqb (c_pattern_args p) [c_star callarg]) then Err BadRuleError else Ok tt
        | _ => Err ValueError
        end
    | _ => if negb (syms_eqb (c_pattern_args p) (cc_args c)) then Err BadRuleError else Ok tt
    end.
  (** core/sym.py:529-575 SymEvaluator.__setitem__ *)
  Definition c_set_item (ev : evaluator V) (p : c_pattern) (call : option c_call) : evaluator V * res unit :=
    match call with
    | None => (ev, Err BadRuleError)                                          (* 547-548 *)
    | Some c =>
        match c_signature_check p c with
        | Err x => (ev, Err x)
        | Ok _ =>
            match p, cc_op c with
            | CAtomRule _, AtomFunc func => (add_atom_generic ev func, Ok tt) (* 557-560 *)
            | CHeadRule _ _, HeadOp func => (add_op_generic ev func, Ok tt)   (* 562-565 *)
            | CAtomValue ty _, PyFunc1 func => (add_atom ev (sat_type ty) func, Ok tt) (* 567-570 *)
            | CSym s, PyOp1 _ | CSym s, PyOp2 _ | CSym s, PyOpN _ =>          (* 572-575 *)
                match c_head s with
                | Ok head => sym_add_op ev (s_rep head) (cc_op c)
                | Err x => (ev, Err x)
                end
            | _, _ => (ev, Err BadRuleError)
            end
        end
    end.
  (** core/sym.py:596-601 SymEvaluator.__call__: the values are given in a dict with Syms as keys. *)
  Definition c_evaluate (is_none : V -> bool) (ev : evaluator V) (expr : sym) (values : option (dict sym V)) : res V :=
    let values_rep := match values with
      | Some d => dict_update tree_eqb [] (map (fun ev => (s_rep (fst ev), snd ev)) d)   (* 600 *)
      | None => [] end in
    evaluate is_none ev (s_rep expr) (Some values_rep).
End ClassRules.
Arguments c_call : clear implicits.

(** core/sym.py:621-634 SymDifferentiator.__init__ *)
Record c_diff := mkCDiff { cd_new_sym : cls; cd_props : diff_props }.
Definition c_diff_new (new_sym : cls) (add mul zero one : sym) : c_diff :=
  mkCDiff new_sym (sym_diff_new (s_rep add) (s_rep mul) (s_rep zero) (s_rep one)).
(** core/sym.py:636-641 *)
Definition c_add_distributive (d : c_diff) (head : sym) : c_diff :=
  mkCDiff (cd_new_sym d) (add_distributive (cd_props d) (s_rep head)).
(** core/sym.py:643-661 SymDifferentiator.__setitem__, for a pair *)
Definition c_diff_setitem (d : c_diff) (expr s : sym) (dexpr : sym) : c_diff * res unit :=
  let '(p, r) := diff_setitem (cd_props d) (STuple [s_rep expr; s_rep s]) (s_rep dexpr) in (mkCDiff (cd_new_sym d) p, r).
(** core/sym.py:663-669 SymDifferentiator.__call__ *)
Definition c_diff_call (d : c_diff) (expr s : sym) (ntimes : Z) : res sym :=
  do t <- sym_diff_call (cd_props d) (s_rep expr) (s_rep s) ntimes; Ok (mkSym (cd_new_sym d) t).   (* 669 *)
