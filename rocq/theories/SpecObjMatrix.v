(** * Specification: what programs with matrices mean, when expressions are values (trees). A matrix is the values of its attributes. *)
From Verif Require Import Py ModelTree ModelIntern SpecIntern ModelEval ModelDiff ModelSym ModelCas ModelApi ModelObjects SpecObjects ModelMatrix ModelObjExpr SpecObjExpr
  ModelObjMatrix.

(** The same operations with the functions on trees; PropsObjMatrix.v shows that they are those of ModelMatrix.v, on its heap of lists and dicts. *)
Definition v_matrix__new (nrows ncols : nat) (l : list tree) (d : entries_dict) : vmatrix tree := mkVM nrows ncols l (tree_call List_ l) d.
Definition v_matrix_new (rows : list (list pyobj)) : res (vmatrix tree) :=
  do ncols <- vm_ncols_of rows;
  do entries <- mapM (mapM expressify) rows;
  let '(l, d) := fold_left (vm_store (fun u => tree_eqb u zero)) (indexed entries) ([], []) in
  Ok (v_matrix__new (length rows) ncols l d).
Definition v_binop_entry (other : list tree) (func : tree) (acc : list tree * entries_dict) (e : pos * nat) : res (list tree * entries_dict) :=
  let '(l, d) := acc in
  match dict_get pos_eqb d (fst e) with
  | Some n =>
      do a <- getitem l n; do b <- getitem other (snd e);
      if Nat.ltb n (length l) then Ok (set_nth_any l n (call2 func a b), d) else Err IndexError
  | None => do b <- getitem other (snd e); Ok (l ++ [b], dict_set pos_eqb d (fst e) (length l))
  end.
Definition v_matrix_binop (self other : vmatrix tree) (func : tree) : res (vmatrix tree) :=
  if negb (Nat.eqb (vm_nrows self) (vm_nrows other) && Nat.eqb (vm_ncols self) (vm_ncols other)) then Err TypeError
  else
    do (l, d) <- foldM (v_binop_entry (vm_elements other) func) (vm_entrymap other) (vm_elements self, vm_entrymap self);
    Ok (v_matrix__new (vm_nrows self) (vm_ncols self) l d).
Definition v_matrix_diff (p : diff_props) (self : vmatrix tree) (x : tree) : res (vmatrix tree) :=
  do d <- sym_diff_call p (vm_graph self) x 1;
  Ok (v_matrix__new (vm_nrows self) (vm_ncols self) (sym_args d) (vm_entrymap self)).

Definition v_mstate : Type := (list tree * diff_props) * list (vmatrix tree).
Definition v_mstatement (st : v_mstate) (c : mstatement) : res v_mstate :=
  let '((env, p), ms) := st in
  let expr (r : res tree) := do u <- r; Ok ((env ++ [u], p), ms) in
  let matrix (r : res (vmatrix tree)) := do M <- r; Ok ((env, p), ms ++ [M]) in
  match c with
  | MExpr c => do st' <- v_statement (env, p) c; Ok (st', ms)
  | MNew rows => matrix (do rows' <- mapM (mapM (v_operand env)) rows; v_matrix_new rows')
  | MGet m i j => expr (do M <- getitem ms m; vm_getitem zero M i j)
  | MToList m i j => expr (do M <- getitem ms m; do rows <- vm_tolist zero M; do row <- getitem rows i; getitem row j)
  | MElement m n => expr (do M <- getitem ms m; getitem (vm_elements M) n)
  | MGraph m => expr (do M <- getitem ms m; Ok (vm_graph M))
  | MAdd m n => matrix (do M <- getitem ms m; do N <- getitem ms n; v_matrix_binop M N Add)
  | MBinop m n f => matrix (do M <- getitem ms m; do N <- getitem ms n; do h <- getitem env f; v_matrix_binop M N h)
  | MDiff m x => matrix (do M <- getitem ms m; do v <- getitem env x; v_matrix_diff p M v)
  end.
Definition v_msession (l : list mstatement) : res (list tree * list (vmatrix tree)) :=
  do st <- foldM v_mstatement l (([], cas_diff), []); Ok (fst (fst st), snd st).

(** The thread has the matrix [U] of expressions, as the matrix [M] of objects: the same shape and dict, and at each place the object of the expression. *)
Definition has_matrix (names : nat -> string) (t : nat) (s : state pyval) (M : vmatrix addr) (U : vmatrix tree) : Prop :=
  vm_nrows M = vm_nrows U /\ vm_ncols M = vm_ncols U /\ vm_entrymap M = vm_entrymap U /\
  has_expr names t s (vm_graph M) (vm_graph U) /\ Forall2 (has_expr names t s) (vm_elements M) (vm_elements U).
(** The attributes of a Matrix object of ModelMatrix.v. *)
Definition attributes (m : matrix) (h : heap) : vmatrix tree :=
  mkVM (m_nrows m) (m_ncols m) (nth (m_elements m) (h_lists h) []) (m_graph m) (nth (m_entrymap m) (h_dicts h) []).
