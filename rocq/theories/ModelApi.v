(** * Model of the outermost calls: operators on any objects, Matrix.diff and Expr.diff on any argument,
    representations, to_llvm_ir and lambdify, with the dispatch on the classes of the operands. *)
From Coq Require Import SpecFloat.
From Verif Require Import Py ModelTree ModelEval ModelDiff ModelSym ModelCas ModelMatrix ModelLLVM ModelRepr.
Local Open Scope string_scope.

(** Python objects: those of the library, ints, bools, and any others. The others are assumed not to know
    about Expr and Matrix: their own methods return NotImplemented for them. *)
Inductive obj := OExpr (t : tree) | OMatrix (m : matrix) | OInt (z : Z) | OBool (b : bool) | OOther.
(** How [expressify] (simplecas/expr.py:68-73) sees an object. *)
Definition as_operand (o : obj) : pyobj :=
  match o with
  | OExpr t => PExpr t
  | OInt z => PInt z
  | OBool b => PBool b
  | OMatrix _ | OOther => POther
  end.

(** ** Operators *)
Inductive operator := OpAdd | OpSub | OpMul | OpDiv | OpPow.
(** simplecas/expr.py:209-257: [__add__] and so on, and the reflected methods, without the decorator. *)
Definition method (op : operator) : tree -> tree -> tree :=
  match op with OpAdd => m_add | OpSub => m_sub | OpMul => m_mul | OpDiv => m_truediv | OpPow => m_pow end.
Definition rmethod (op : operator) : tree -> tree -> tree :=
  match op with OpAdd => m_radd | OpSub => m_rsub | OpMul => m_rmul | OpDiv => m_rtruediv | OpPow => m_rpow end.
(** What the method of the left operand's class returns; None is NotImplemented, or that there is no such
    method. *)
Definition left_method (op : operator) (left right : obj) : hm (option obj) :=
  match left with
  | OExpr a => match expressify_other (method op) a (as_operand right) with   (* expr.py:209-257 *)
               | Value t => hret (Some (OExpr t))
               | NotImplemented => hret None
               end
  | OMatrix A =>
      match op, right with
      | OpAdd, OMatrix B => let! C <- matrix_add A B; hret (Some (OMatrix C)) (* matrix.py:109 *)
      | OpAdd, _ => hret None                                                 (* matrix.py:107-108 *)
      | _, _ => hret None
      end
  | _ => hret None
  end.
(** What the reflected method of the right operand's class returns. Matrix has none. *)
Definition right_method (op : operator) (left right : obj) : hm (option obj) :=
  match right with
  | OExpr b => match expressify_other (rmethod op) b (as_operand left) with
               | Value t => hret (Some (OExpr t))
               | NotImplemented => hret None
               end
  | _ => hret None
  end.
(** Python's evaluation of [left op right] where at least one operand is an Expr or a Matrix. (Python does
    not try the reflected method when both operands have the same class: here it never matters.) *)
Definition py_binop (op : operator) (left right : obj) : hm obj :=
  let! r <- left_method op left right;
  match r with
  | Some o => hret o
  | None =>
      let! r <- right_method op left right;
      match r with Some o => hret o | None => hraise TypeError end
  end.

(** ** Derivatives *)
(** [o.rep]: AttributeError on anything but an Expr. *)
Definition obj_rep (o : obj) : res tree := match o with OExpr t => Ok t | _ => Err AttributeError end.
(** simplecas/matrix.py:128-136 Matrix.diff *)
Definition py_matrix_diff (self : matrix) (sym : obj) : hm matrix :=
  match sym with
  | OExpr s => matrix_diff self s                                             (* 134-136 *)
  | _ => hraise TypeError                                                     (* 130-131 *)
  end.
(** simplecas/expr.py:465-468 Expr.diff with core/sym.py:663-669: [sym.rep] is read on each round. *)
Definition py_expr_diff (self : tree) (sym : obj) (ntimes : Z) : res tree :=
  repeatM (fun deriv => do s <- obj_rep sym; sym_diff_call cas_diff deriv s 1) (Z.to_nat ntimes) self.

(** ** Representations *)
(** simplecas/expr.py:163-165 Expr._repr_latex_ *)
Definition repr_latex (self : tree) : res string := do s <- eval_latex self; Ok ("$" ++ s ++ "$").
(** core/sym.py:188-196 Sym.__str__ *)
Definition sym_str (rep : tree) : res string := tree_str rep.
(** [repr] of a list whose items have the given representations. *)
Definition repr_list (l : list string) : string := "[" ++ join ", " l ++ "]".
(** simplecas/matrix.py:99-103 Matrix.__repr__, with Expr.__repr__ (expr.py:155-157) on the entries. *)
Definition matrix_repr (self : matrix) : hm string :=
  let! rows <- matrix_tolist self;
  let! texts <- hlift (mapM (fun row => do l <- mapM eval_repr row; Ok (repr_list l)) rows);
  hret ("Matrix(" ++ repr_list texts ++ ")").

(** ** Code *)
(** simplecas/expr.py:482-507 Expr.to_llvm_ir *)
Definition expr_to_llvm_ir (self : tree) (symargs : list obj) : res string :=
  do args <- mapM obj_rep symargs; to_llvm_f64 args self.
(** simplecas/matrix.py:138-171 Matrix.to_llvm_ir *)
Definition matrix_to_llvm_ir (self : matrix) (symargs : list obj) : hm string :=
  let! args <- hlift (mapM obj_rep symargs); to_llvm_f64_matrix args self.

(** ** lambdify. What llvmlite, ctypes and numpy do is given by parameters. *)
Section Lambdify.
  (** A loaded module; loading a text (lambdification.py:108-135: parse_assembly raises RuntimeError, here
      [UserExn], for a text that is not valid); the double returned by a call of jit_func1 with doubles; and
      what a call of jit_func1 with a pointer to [rows * cols] zeros and doubles leaves in that memory. *)
  Context {code : Type} (load : string -> res code).
  Context (call_f64 : code -> list spec_float -> spec_float).
  Context (call_fill : code -> nat -> list spec_float -> list spec_float).

  (** The callables that lambdify returns. *)
  Inductive compiled :=
  | CScalar (c : code) (nargs : nat)                  (* the ctypes function, lambdification.py:145-148 *)
  | CMatrix (c : code) (nargs : nat) (m : matrix).    (* the closure npfunc, lambdification.py:239-251 *)

  (** simplecas/lambdification.py:138-148 _lambdify_llvm *)
  Definition lambdify_llvm (args : list tree) (expression : tree) : res compiled :=
    do module_code <- to_llvm_f64 args expression;                            (* 140 *)
    do fptr <- load module_code;                                              (* 142 *)
    Ok (CScalar fptr (length args)).                                          (* 144-148 *)
  (** simplecas/lambdification.py:218-251 _lambdify_llvm_matrix *)
  Definition lambdify_llvm_matrix (args : list tree) (mat : matrix) : hm compiled :=
    let! module_code <- to_llvm_f64_matrix args mat;                          (* 235 *)
    let! fptr <- hlift (load module_code);                                    (* 237 *)
    hret (CMatrix fptr (length args) mat).                                    (* 239-251 *)
  (** simplecas/lambdification.py:85-103 lambdify *)
  Definition lambdify (args : list obj) (expression : obj) : hm compiled :=
    let! args_rep <- hlift (mapM obj_rep args);                               (* 97 *)
    match expression with
    | OExpr e => hlift (lambdify_llvm args_rep e)                             (* 98-99 *)
    | OMatrix m => lambdify_llvm_matrix args_rep m                            (* 100-101 *)
    | _ => hraise TypeError                                                   (* 102-103 *)
    end.

  (** The result of calling a compiled function: a float, or an array as its rows. *)
  Inductive output := FFloat (f : spec_float) | FArray (rows : list (list spec_float)).
  Fixpoint chunks (rows cols : nat) (l : list spec_float) : list (list spec_float) :=
    match rows with O => [] | S r => firstn cols l :: chunks r cols (skipn cols l) end.
  (** A call with positional arguments that are floats. ctypes raises TypeError for missing arguments.
      (Surplus arguments: ctypes raises ArgumentError for floats, here also TypeError.) *)
  Definition call_compiled (f : compiled) (args : list spec_float) : res output :=
    match f with
    | CScalar c nargs =>
        if Nat.eqb (length args) nargs then Ok (FFloat (call_f64 c args)) else Err TypeError
    | CMatrix c nargs m =>                                                    (* 245-249 *)
        if Nat.eqb (length args) nargs
        then Ok (FArray (chunks (m_nrows m) (m_ncols m)
                           (call_fill c (m_nrows m * m_ncols m) args)))
        else Err TypeError
    end.
End Lambdify.

(** ** core/tree.py:181-198 funcs_symbols. Each call makes two new AtomTypes; [n] is the number of AtomTypes
    made so far by the program. *)
Definition funcs_symbols (function_names symbol_names : list string) (n : nat) : (list tree * list tree) * nat :=
  let Function := mkType n "Function" in                                      (* 194 *)
  let Symbol := mkType (S n) "Symbol" in                                      (* 195 *)
  let functions := map (fun name => Tr (mkAtom Function (VStr name))) function_names in (* 196 *)
  let symbols := map (fun name => Tr (mkAtom Symbol (VStr name))) symbol_names in       (* 197 *)
  ((functions, symbols), S (S n)).                                            (* 198 *)
