(** * Model of src/protosym/simplecas/matrix.py at the level of objects, as in ModelObjExpr.v, and of programs that use matrices too.
    A Matrix is represented by the values of its attributes, its lists and dicts by their contents: that no method changes a list or dict
    that a Matrix has is proved of ModelMatrix.v. *)
From Verif Require Import Py ModelTree ModelIntern ModelEval ModelDiff ModelSym ModelCas ModelApi ModelObjects ModelObjEval ModelMatrix ModelObjExpr.

Record vmatrix (A : Type) := mkVM {
  vm_nrows : nat; vm_ncols : nat; vm_elements : list A; vm_graph : A; vm_entrymap : entries_dict
}.
Arguments mkVM {A}. Arguments vm_nrows {A}. Arguments vm_ncols {A}. Arguments vm_elements {A}. Arguments vm_graph {A}. Arguments vm_entrymap {A}.

(** ** The parts that make no new expressions *)
Section Lists.
  Context {A : Type}.
  (** simplecas/matrix.py:40-41: the entries that the two loops visit, with their positions *)
  Definition indexed (rows : list (list A)) : list (pos * A) :=
    flat_map (fun irow => map (fun je => ((fst irow, fst je), snd je)) (enumerate_from 0 (snd irow))) (enumerate_from 0 rows).
  (** simplecas/matrix.py:42-44 the loop body. Exprs have no [__eq__]: [!=] compares identities. *)
  Definition vm_store (is_zero : A -> bool) (acc : list A * entries_dict) (e : pos * A) : list A * entries_dict :=
    if is_zero (snd e) then acc
    else (fst acc ++ [snd e], dict_set pos_eqb (snd acc) (fst e) (length (fst acc))).
  (** simplecas/matrix.py:31-34 the shape of the argument *)
  Definition vm_ncols_of (rows : list (list A)) : res nat :=
    do row0 <- getitem rows 0;
    if forallb (fun r => Nat.eqb (length r) (length row0)) rows then Ok (length row0) else Err TypeError.
  (** simplecas/matrix.py:66-77 Matrix.__getitem__ with two ints *)
  Definition vm_getitem (zero : A) (self : vmatrix A) (i j : Z) : res A :=
    if negb (in_range i (vm_nrows self) && in_range j (vm_ncols self)) then Err IndexError       (* 71-72 *)
    else match dict_get pos_eqb (vm_entrymap self) (Z.to_nat i, Z.to_nat j) with
         | Some n => getitem (vm_elements self) n                                                (* 74 *)
         | None => Ok zero                                                                       (* 76 *)
         end.
  (** simplecas/matrix.py:79-84 Matrix.tolist *)
  Definition vm_set_entry (rows : list (list A)) (p : pos) (t : A) : res (list (list A)) :=
    do row <- getitem rows (fst p);
    if Nat.ltb (snd p) (length row) then Ok (set_nth_any rows (fst p) (set_nth_any row (snd p) t)) else Err IndexError.
  Definition vm_tolist (zero : A) (self : vmatrix A) : res (list (list A)) :=
    foldM (fun rows pn => do t <- getitem (vm_elements self) (snd pn); vm_set_entry rows (fst pn) t)
      (vm_entrymap self) (repeat (repeat zero (vm_ncols self)) (vm_nrows self)).
End Lists.

(** ** Those that make new expressions *)
Section Module.
  Context (g : o_module).
  (** simplecas/matrix.py:48-64 Matrix._new *)
  Definition o_matrix__new (nrows ncols : nat) (elements : list addr) (entrymap : entries_dict) : prog (vmatrix addr) :=
    run graph <- o_expr_call (om_List g) (map OE elements);                     (* 62 *)
    ret (mkVM nrows ncols elements graph entrymap).
  (** simplecas/matrix.py:24-46 Matrix.__new__, of a list of lists *)
  Definition o_matrix_new (rows : list (list (operand addr))) : prog (vmatrix addr) :=
    run ncols <- lift (vm_ncols_of rows);                                       (* 31-34 *)
    run entries <- pmap (pmap o_expressify) rows;                               (* 36 *)
    let '(elements, entrymap) := fold_left (vm_store (fun e => Nat.eqb e (om_zero g))) (indexed entries) ([], []) in (* 38-44 *)
    o_matrix__new (length rows) ncols elements entrymap.                        (* 46 *)
  (** simplecas/matrix.py:117-125 the loop body of binop *)
  Definition o_binop_entry (other : list addr) (func : addr) (acc : list addr * entries_dict) (e : pos * nat) : prog (list addr * entries_dict) :=
    let '(l, d) := acc in
    match dict_get pos_eqb d (fst e) with
    | Some n =>                                                                 (* 118 *)
        run a <- lift (getitem l n);                                            (* 119 *)
        run b <- lift (getitem other (snd e));                                  (* 120 *)
        run r <- o_call2 func a b;                                              (* 121 *)
        if Nat.ltb n (length l) then ret (set_nth_any l n r, d) else Ret (Err IndexError) (* 122 *)
    | None =>
        run b <- lift (getitem other (snd e));
        ret (l ++ [b], dict_set pos_eqb d (fst e) (length l))                   (* 124-125 *)
    end.
  (** simplecas/matrix.py:111-126 Matrix.binop *)
  Definition o_matrix_binop (self other : vmatrix addr) (func : addr) : prog (vmatrix addr) :=
    if negb (Nat.eqb (vm_nrows self) (vm_nrows other) && Nat.eqb (vm_ncols self) (vm_ncols other)) then Ret (Err TypeError) (* 113-114 *)
    else
      run (l, d) <- pfold (o_binop_entry (vm_elements other) func) (vm_entrymap other) (vm_elements self, vm_entrymap self);
      o_matrix__new (vm_nrows self) (vm_ncols self) l d.                        (* 126 *)
  (** simplecas/matrix.py:105-109 Matrix.__add__ *)
  Definition o_matrix_add (self other : vmatrix addr) : prog (vmatrix addr) := o_matrix_binop self other (om_Add g).
  (** simplecas/matrix.py:128-136 Matrix.diff *)
  Definition o_matrix_diff (fuel : nat) (p : o_diff_props) (self : vmatrix addr) (sym : addr) : prog (vmatrix addr) :=
    run d <- o_sym_diff fuel p (vm_graph self) sym;                             (* 134 *)
    run l <- o_args d;                                                          (* 135 *)
    o_matrix__new (vm_nrows self) (vm_ncols self) l (vm_entrymap self).         (* 136 *)
End Module.

(** ** Programs of a user. Variables for expressions and variables for matrices are numbered separately. *)
Inductive mstatement :=
| MExpr (c : statement)                                     (* any statement of ModelObjExpr.v *)
| MNew (rows : list (list (operand nat)))                   (* Matrix([[v, 1], [0, w]]) *)
| MGet (m : nat) (i j : Z)                                  (* M[i, j] *)
| MToList (m i j : nat)                                     (* M.tolist()[i][j] *)
| MElement (m n : nat)                                      (* M.elements[n] *)
| MGraph (m : nat)                                          (* M.elements_graph *)
| MAdd (m n : nat)                                          (* M + N *)
| MBinop (m n f : nat)                                      (* M.binop(N, v) *)
| MDiff (m x : nat).                                        (* M.diff(v) *)
Section Programs.
  Context (fuel : nat) (g : o_module).
  Definition o_mstate : Type := (list addr * o_diff_props) * list (vmatrix addr).
  Definition o_mstatement (st : o_mstate) (c : mstatement) : prog o_mstate :=
    let '((env, p), ms) := st in
    let expr (q : prog addr) := run e <- q; ret ((env ++ [e], p), ms) in
    let matrix (q : prog (vmatrix addr)) := run M <- q; ret ((env, p), ms ++ [M]) in
    match c with
    | MExpr c => run st' <- o_statement fuel g (env, p) c; ret (st', ms)
    | MNew rows => matrix (run rows' <- pmap (pmap (o_operand env)) rows; o_matrix_new g rows')
    | MGet m i j => expr (run M <- lift (getitem ms m); lift (vm_getitem (om_zero g) M i j))
    | MToList m i j => expr (run M <- lift (getitem ms m); run rows <- lift (vm_tolist (om_zero g) M); run row <- lift (getitem rows i); lift (getitem row j))
    | MElement m n => expr (run M <- lift (getitem ms m); lift (getitem (vm_elements M) n))
    | MGraph m => expr (run M <- lift (getitem ms m); ret (vm_graph M))
    | MAdd m n => matrix (run M <- lift (getitem ms m); run N <- lift (getitem ms n); o_matrix_add g M N)
    | MBinop m n f => matrix (run M <- lift (getitem ms m); run N <- lift (getitem ms n); run h <- lift (getitem env f); o_matrix_binop g M N h)
    | MDiff m x => matrix (run M <- lift (getitem ms m); run v <- lift (getitem env x); o_matrix_diff g fuel p M v)
    end.
End Programs.
Definition o_msession (fuel : nat) (l : list mstatement) : prog (list addr * list (vmatrix addr)) :=
  run (g, p) <- o_import fuel;
  run ((env, _), ms) <- pfold (o_mstatement fuel g) l (([], p), []);
  ret (env, ms).
