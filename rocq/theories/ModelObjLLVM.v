(** * Model of the generation of LLVM IR (src/protosym/simplecas/lambdification.py) at the level of objects, as in ModelObjExpr.v and
    ModelObjMatrix.v: atoms, arguments and heads are found by their identities. And of programs of users that compile what they make. *)
From Verif Require Import Py ModelTree ModelIntern ModelEval ModelDiff ModelSym ModelCas ModelApi ModelObjects ModelObjEval ModelMatrix ModelObjExpr ModelObjMatrix ModelLLVM.
Local Open Scope string_scope.

(** core/tree.py:164-172 Tree.__str__, with core/atom.py:180-182 Atom.__str__ *)
Fixpoint o_tree_str (fuel : nat) (a : addr) : prog string :=
  match fuel with
  | O => Ret (Err OutOfFuel)
  | S fuel' =>
      run cs <- o_children a;
      match cs with
      | head :: args =>
          run l <- pmap (o_tree_str fuel') args;                                (* 169 *)
          run hs <- o_tree_str fuel' head;
          ret (hs ++ "(" ++ join ", " l ++ ")")                                 (* 170 *)
      | [] => run b <- o_value a; run (_, v) <- o_atom_parts b; ret (str_value v) (* 172 *)
      end
  end.
(** core/tree.py:155-162 Tree.__repr__, with core/atom.py:176-178. The text, which goes into the message of an exception, is left out. *)
Fixpoint o_tree_repr (fuel : nat) (a : addr) : prog unit :=
  match fuel with
  | O => Ret (Err OutOfFuel)
  | S fuel' =>
      run cs <- o_children a;
      match cs with
      | [] => run b <- o_value a; run _ <- o_atom_parts b; ret tt               (* 162 *)
      | _ => run _ <- pmap (o_tree_repr fuel') cs; ret tt                       (* 158 *)
      end
  end.
Definition o_not_implemented {A} (fuel : nat) (a : addr) : prog A := run _ <- o_tree_repr fuel a; Ret (Err LLVMNotImplementedError).

Section Module.
  Context (fuel : nat) (g : o_module).
  (** simplecas/expr.py:559-561 bin_expand of a Tree *)
  Definition o_bin_expand_tree (rep : addr) : prog addr :=
    run add_r <- o_rep (om_Add g);
    run mul_r <- o_rep (om_Mul g);
    o_evaluate (fun _ => false) fuel (o_transformer [] [(add_r, (o_reduce add_r, false)); (mul_r, (o_reduce mul_r, false))]) rep [].
  (** simplecas/lambdification.py:41, 157. The keys of the dict are Trees: compared by identity. *)
  Definition o_llvm_argnames (symargs : list addr) : prog (dict addr string) :=
    run pairs <- pmap (fun s => run name <- o_tree_str fuel s; ret (s, "%" ++ quote ++ name ++ quote)) symargs;
    ret (dict_update Nat.eqb [] pairs).
  (** simplecas/lambdification.py:43-50, 159-166 *)
  Definition o_atom_identifier (symargs : list addr) (argnames : dict addr string) (a : addr) : prog string :=
    if o_mem a symargs then lift (dict_getitem Nat.eqb argnames a)              (* 45-46 *)
    else
      run b <- o_value a;
      run (ty, v) <- o_atom_parts b;
      if Nat.eqb ty (ty_id T_Integer) then lift (double_to_hex v)               (* 47-48 *)
      else o_not_implemented fuel a.                                            (* 49-50 *)
  (** simplecas/lambdification.py:56-76, 173-193: the loop body *)
  Definition o_llvm_op (acc : list string * list string) (op : addr * list nat) : prog (list string * list string) :=
    let '(identifiers, instructions) := acc in
    let '(func, indices) := op in
    let identifier := temp (length instructions) in                             (* 57-58 *)
    let identifiers' := (identifiers ++ [identifier])%list in                   (* 59 *)
    let emit (line : string) := ret (identifiers', (instructions ++ [line])%list) in (* 76 *)
    run argids <- lift (mapM (getitem identifiers') indices);                   (* 60 *)
    run r <- o_rep (om_Add g);
    if Nat.eqb func r then emit (identifier ++ " = fadd double " ++ join ", " argids) (* 62-63 *)
    else run r <- o_rep (om_Mul g);
    if Nat.eqb func r then emit (identifier ++ " = fmul double " ++ join ", " argids) (* 64-65 *)
    else run r <- o_rep (om_Pow g);
    if Nat.eqb func r then                                                      (* 66-68 *)
      run a0 <- lift (getitem argids 0);
      run a1 <- lift (getitem argids 1);
      emit (identifier ++ " = call double @llvm.pow.f64(double " ++ a0 ++ ", double " ++ a1 ++ ")")
    else run r <- o_rep (om_sin g);
    if Nat.eqb func r then                                                      (* 69-70 *)
      run a0 <- lift (getitem argids 0);
      emit (identifier ++ " = call double @llvm.sin.f64(double " ++ a0 ++ ")")
    else run r <- o_rep (om_cos g);
    if Nat.eqb func r then                                                      (* 71-72 *)
      run a0 <- lift (getitem argids 0);
      emit (identifier ++ " = call double @llvm.cos.f64(double " ++ a0 ++ ")")
    else o_not_implemented fuel func.                                           (* 73-74 *)
  Definition o_llvm_params (symargs : list addr) (argnames : dict addr string) : res (list string) :=
    mapM (fun arg => do n <- dict_getitem Nat.eqb argnames arg; Ok ("double " ++ n)) symargs.

  (** simplecas/lambdification.py:35-82 _to_llvm_f64 *)
  Definition o_to_llvm_f64 (symargs : list addr) (expression : addr) : prog string :=
    run expression <- o_bin_expand_tree expression;                             (* 37 *)
    run (atoms, _, operations) <- o_forward_graph fuel expression;              (* 39 *)
    run argnames <- o_llvm_argnames symargs;                                    (* 41 *)
    run identifiers <- pmap (o_atom_identifier symargs argnames) atoms;         (* 43-50 *)
    run args <- lift (o_llvm_params symargs argnames);                          (* 52 *)
    let signature := "define double @" ++ quote ++ "jit_func1" ++ quote ++ "(" ++ join ", " args ++ ")" in (* 53 *)
    run (identifiers', instructions) <- pfold o_llvm_op operations (identifiers, []); (* 55-76 *)
    run result <- lift (last_item identifiers');
    let instructions' := (instructions ++ [("ret double " ++ result)%string])%list in (* 78 *)
    let function_lines := ([signature; "{"] ++ instructions' ++ ["}"])%list in  (* 80 *)
    ret (llvm_header ++ join newline function_lines).                           (* 81-82 *)

  (** simplecas/lambdification.py:151-216 _to_llvm_f64_matrix *)
  Definition o_to_llvm_f64_matrix (symargs : list addr) (mat : vmatrix addr) : prog string :=
    run rep <- o_rep (vm_graph mat);
    run elements_graph <- o_bin_expand_tree rep;                                (* 153 *)
    run (atoms, _, operations) <- o_forward_graph fuel elements_graph;          (* 155 *)
    run argnames <- o_llvm_argnames symargs;                                    (* 157 *)
    run identifiers <- pmap (o_atom_identifier symargs argnames) atoms;         (* 159-166 *)
    run args <- lift (o_llvm_params symargs argnames);
    let all_args := ("double* %" ++ quote ++ "_out" ++ quote) :: args in        (* 168 *)
    let signature := "define void @" ++ quote ++ "jit_func1" ++ quote ++ "(" ++ join ", " all_args ++ ")" in (* 169-170 *)
    run (identifiers', instructions) <- pfold o_llvm_op (removelast operations) (identifiers, []); (* 172-193 *)
    run (_, indices) <- lift (last_item operations);                            (* 198 *)
    run (_, instructions') <- lift (foldM (llvm_store (vm_ncols mat) identifiers' indices) (sort_items (vm_entrymap mat))
                                 (length instructions, instructions));          (* 200-210 *)
    let function_lines := ([signature; "{"] ++ instructions' ++ ["ret void"] ++ ["}"])%list in (* 212-214 *)
    ret (llvm_header ++ join newline function_lines).                           (* 215-216 *)

  (** simplecas/lambdification.py:85-104, 138-140, 231: lambdify, up to the text that is given to llvmlite *)
  Definition o_lambdify (args : list addr) (e : addr) : prog string :=
    run args_rep <- pmap o_rep args;                                            (* 98 *)
    run rep <- o_rep e;                                                         (* 100 *)
    o_to_llvm_f64 args_rep rep.
  Definition o_lambdify_matrix (args : list addr) (M : vmatrix addr) : prog string :=
    run args_rep <- pmap o_rep args;                                            (* 98 *)
    o_to_llvm_f64_matrix args_rep M.                                            (* 102 *)
End Module.

(** ** Programs of a user. The third component of the state are the generated texts, in order. *)
Inductive cstatement :=
| CMatrix (c : mstatement)                                  (* any statement of ModelObjMatrix.v *)
| CLambdify (args : list nat) (i : nat)                     (* lambdify([v, w], u) *)
| CLambdifyMatrix (args : list nat) (m : nat).              (* lambdify([v, w], M) *)
Section Programs.
  Context (fuel : nat) (g : o_module).
  Definition o_cstate : Type := o_mstate * list string.
  Definition o_cstatement (st : o_cstate) (c : cstatement) : prog o_cstate :=
    let '(((env, p), ms), out) := st in
    match c with
    | CMatrix c => run st' <- o_mstatement fuel g ((env, p), ms) c; ret (st', out)
    | CLambdify args i =>
        run l <- pmap (fun j => lift (getitem env j)) args; run e <- lift (getitem env i);
        run text <- o_lambdify fuel g l e; ret (((env, p), ms), (out ++ [text])%list)
    | CLambdifyMatrix args m =>
        run l <- pmap (fun j => lift (getitem env j)) args; run M <- lift (getitem ms m);
        run text <- o_lambdify_matrix fuel g l M; ret (((env, p), ms), (out ++ [text])%list)
    end.
End Programs.
Definition o_csession (fuel : nat) (l : list cstatement) : prog (list addr * list (vmatrix addr) * list string) :=
  run (g, p) <- o_import fuel;
  run (((env, _), ms), out) <- pfold (o_cstatement fuel g) l ((([], p), []), []);
  ret (env, ms, out).
