(** * Model of src/protosym/core/evaluate.py with functions that have side effects
    The functions given to an Evaluator can do anything: keep state, raise, add rules to the Evaluator, change the dict
    [values], or evaluate other expressions. What they can change is the [world]. Functions are numbers, because the
    tables of the Evaluator, which are part of the world, hold them; [call] says what a function does.
    Simplification: [world] does not include the trees, which no function can change. *)
From Verif Require Import Py ModelTree ModelEval.

Section Effects.
  Context {V W : Type}.
  (** [value is None] (evaluate.py:176) *)
  Variable is_none : V -> bool.

  (** core/evaluate.py:86-89: the attributes of an Evaluator. *)
  Record tables := mkTables {
    tb_atoms : dict atype nat;
    tb_operations : dict tree (nat * bool);
    tb_generic_operation : nat;
    tb_generic_atom : nat
  }.
  (** The Evaluator, the dict [values] and everything else. *)
  Record world := mkWorld { w_tables : tables; w_values : dict tree V; w_rest : W }.
  (** The arguments of a function: [f(value)], [f(tree)], [f(x, ...)] or [f(seq)], and [f(head, argvals)]. *)
  Inductive argument :=
  | ByValue (v : pyval)
  | ByTree (t : tree)
  | ByArgs (args : list (pyarg V))
  | ByHead (head : tree) (argvals : list V).
  Definition effect (A : Type) : Type := world -> res A * world.
  (** What the functions do. *)
  Context (call : nat -> argument -> effect V).

  Definition eret {A} (a : A) : effect A := fun w => (Ok a, w).
  Definition elift {A} (r : res A) : effect A := fun w => (r, w).
  Definition ebind {A B} (p : effect A) (f : A -> effect B) : effect B :=
    fun w => match p w with (Ok a, w') => f a w' | (Err x, w') => (Err x, w') end.

  (** core/evaluate.py:98-122 add_atom, add_atom_generic, add_op1 and add_op2 ([star] is true), add_opn ([star] is
      false), add_op_generic *)
  Definition set_tables (t : tables) : effect unit := fun w => (Ok tt, mkWorld t (w_values w) (w_rest w)).
  Definition e_add_atom (ty : atype) (f : nat) : effect unit := fun w =>
    let t := w_tables w in set_tables (mkTables (dict_set atype_eqb (tb_atoms t) ty f) (tb_operations t) (tb_generic_operation t) (tb_generic_atom t)) w.
  Definition e_add_atom_generic (f : nat) : effect unit := fun w =>
    let t := w_tables w in set_tables (mkTables (tb_atoms t) (tb_operations t) (tb_generic_operation t) f) w.
  Definition e_add_op (head : tree) (f : nat) (star : bool) : effect unit := fun w =>
    let t := w_tables w in set_tables (mkTables (tb_atoms t) (dict_set tree_eqb (tb_operations t) head (f, star)) (tb_generic_operation t) (tb_generic_atom t)) w.
  Definition e_add_op_generic (f : nat) : effect unit := fun w =>
    let t := w_tables w in set_tables (mkTables (tb_atoms t) (tb_operations t) f (tb_generic_atom t)) w.

  (** core/evaluate.py:124-130 *)
  Definition e_eval_atom (t : tree) : effect V := fun w =>
    match tree_value t with                                                       (* 126 *)
    | Err x => (Err x, w)
    | Ok atom_value =>
        match dict_get atype_eqb (tb_atoms (w_tables w)) (atom_type atom_value) with (* 127 *)
        | None => call (tb_generic_atom (w_tables w)) (ByTree t) w                (* 128-129 *)
        | Some atom_func => call atom_func (ByValue (ModelTree.atom_value atom_value)) w (* 130 *)
        end
    end.
  (** core/evaluate.py:132-146 *)
  Definition e_eval_operation (head : tree) (argvals : list V) : effect V := fun w =>
    match dict_get tree_eqb (tb_operations (w_tables w)) head with                (* 134 *)
    | None => call (tb_generic_operation (w_tables w)) (ByHead head argvals) w    (* 136-137 *)
    | Some (op_func, star_args) =>
        if star_args then call op_func (ByArgs (map AVal argvals)) w              (* 141-142 *)
        else call op_func (ByArgs [ASeq argvals]) w                               (* 143-144 *)
    end.

  (** core/evaluate.py:174-180 *)
  Definition e_eval_leaf (t : tree) : effect V := fun w =>
    match dict_get tree_eqb (w_values w) t with                                   (* 175 *)
    | Some v => if is_none v then e_eval_atom t w else (Ok v, w)                  (* 176-179 *)
    | None => e_eval_atom t w
    end.
  Fixpoint e_leaves (atoms : list tree) (stack : list V) : effect (list V) :=
    match atoms with
    | [] => eret stack
    | t :: r => ebind (e_eval_leaf t) (fun v => e_leaves r (stack ++ [v]))
    end.
  (** core/evaluate.py:183-185 *)
  Fixpoint e_operations (ops : list (tree * list nat)) (stack : list V) : effect (list V) :=
    match ops with
    | [] => eret stack
    | (head, indices) :: r =>
        ebind (elift (mapM (getitem stack) indices)) (fun argvals =>              (* 184 *)
        ebind (e_eval_operation head argvals) (fun v => e_operations r (stack ++ [v]))) (* 185 *)
    end.
  (** core/evaluate.py:148-150, 167-189 *)
  Definition e_evaluate (expr : tree) : effect V :=
    ebind (elift (forward_graph expr)) (fun graph =>                              (* 170 *)
    ebind (e_leaves (g_atoms graph) []) (fun stack0 =>                            (* 171-180 *)
    ebind (e_operations (g_operations graph) stack0) (fun stack =>                (* 183-185 *)
    elift (last_item stack)))).                                                   (* 189 *)
End Effects.
Arguments world : clear implicits. Arguments argument : clear implicits. Arguments effect : clear implicits.
