(** * Specification: what programs that compile expressions and matrices mean, when expressions are values (trees) *)
From Verif Require Import Py ModelTree ModelIntern SpecIntern ModelEval ModelDiff ModelSym ModelCas ModelApi ModelObjects SpecObjects ModelMatrix ModelObjExpr SpecObjExpr
  ModelObjMatrix SpecObjMatrix ModelLLVM ModelObjLLVM.
Local Open Scope string_scope.

(** The text for a matrix of which the attributes are given; PropsObjLLVM.v shows that it is that of ModelLLVM.v, on its heap of lists and dicts. *)
Definition v_to_llvm_f64_matrix (symargs : list tree) (mat : vmatrix tree) : res string :=
  do elements_graph <- bin_expand (vm_graph mat);
  do graph <- forward_graph elements_graph;
  do argnames <- llvm_argnames symargs;
  do identifiers <- mapM (atom_identifier symargs argnames) (g_atoms graph);
  do args <- mapM (fun arg => do n <- dict_getitem tree_eqb argnames arg; Ok ("double " ++ n)) symargs;
  let all_args := ("double* %" ++ quote ++ "_out" ++ quote) :: args in
  let signature := "define void @" ++ quote ++ "jit_func1" ++ quote ++ "(" ++ join ", " all_args ++ ")" in
  do (identifiers', instructions) <- foldM llvm_op (removelast (g_operations graph)) (identifiers, []);
  do (_, indices) <- last_item (g_operations graph);
  do (_, instructions') <- foldM (llvm_store (vm_ncols mat) identifiers' indices) (sort_items (vm_entrymap mat)) (length instructions, instructions);
  let function_lines := ([signature; "{"] ++ instructions' ++ ["ret void"] ++ ["}"])%list in
  Ok (llvm_header ++ join newline function_lines).

Definition v_cstate : Type := v_mstate * list string.
Definition v_cstatement (st : v_cstate) (c : cstatement) : res v_cstate :=
  let '(((env, p), ms), out) := st in
  match c with
  | CMatrix c => do st' <- v_mstatement ((env, p), ms) c; Ok (st', out)
  | CLambdify args i =>
      do l <- mapM (getitem env) args; do e <- getitem env i;
      do text <- to_llvm_f64 l e; Ok (((env, p), ms), (out ++ [text])%list)
  | CLambdifyMatrix args m =>
      do l <- mapM (getitem env) args; do M <- getitem ms m;
      do text <- v_to_llvm_f64_matrix l M; Ok (((env, p), ms), (out ++ [text])%list)
  end.
Definition v_csession (l : list cstatement) : res (list tree * list (vmatrix tree) * list string) :=
  do st <- foldM v_cstatement l ((([], cas_diff), []), []); Ok (fst (fst (fst st)), snd (fst st), snd st).
