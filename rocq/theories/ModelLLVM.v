(** * Model of src/protosym/simplecas/lambdification.py: the generation of LLVM IR text. Compiling the text
    with llvmlite (108-135) and calling it through ctypes (138-149, 220-258) are not modelled: what the
    text means is defined in SpecLLVM.v. *)
From Coq Require Import SpecFloat HexadecimalString NArith.
From Verif Require Import Py ModelTree ModelEval ModelDiff ModelSym ModelCas ModelMatrix.
Local Open Scope string_scope.

(** [float(n)]: nearest double, ties to even; OverflowError instead of infinity. *)
Definition float_of_int (n : Z) : res spec_float :=
  match binary_normalize 53 1024 n 0 false with
  | S754_infinity _ | S754_nan => Err OverflowError
  | f => Ok f
  end.
(** The 64 bits of a double, as [struct.unpack("<Q", struct.pack("<d", f))[0]]; never used for nan. *)
Definition bits_of_double (f : spec_float) : Z :=
  let sign (s : bool) := if s then (2 ^ 63)%Z else 0%Z in
  match f with
  | S754_zero s => sign s
  | S754_infinity s => (sign s + 2047 * 2 ^ 52)%Z
  | S754_nan => (2047 * 2 ^ 52 + 2 ^ 51)%Z
  | S754_finite s m e =>
      if (Zpos m <? 2 ^ 52)%Z then (sign s + Zpos m)%Z
      else (sign s + (e + 1075) * 2 ^ 52 + (Zpos m - 2 ^ 52))%Z
  end.
(** [hex(n)] for [n >= 0] *)
Definition hex (n : Z) : string := "0x" ++ HexadecimalString.NilZero.string_of_uint (N.to_hex_uint (Z.to_N n)).
(** simplecas/lambdification.py:19-20 _double_to_hex, for the value of an Integer atom; struct.pack converts
    an int to a float, and raises struct.error for a str. *)
Definition double_to_hex (v : pyval) : res string :=
  match v with
  | VInt n => do f <- float_of_int n; Ok (hex (bits_of_double f))
  | VStr _ => Err StructError
  end.

Definition newline : string := String (Ascii.ascii_of_nat 10) "".
Definition quote : string := String (Ascii.ascii_of_nat 34) "".
(** simplecas/lambdification.py:23-32 _llvm_header *)
Definition llvm_header : string :=
  newline ++
  "; ModuleID = " ++ quote ++ "mod1" ++ quote ++ newline ++
  "target triple = " ++ quote ++ "unknown-unknown-unknown" ++ quote ++ newline ++
  "target datalayout = " ++ quote ++ quote ++ newline ++
  newline ++
  "declare double    @llvm.pow.f64(double %Val1, double %Val2)" ++ newline ++
  "declare double    @llvm.sin.f64(double %Val)" ++ newline ++
  "declare double    @llvm.cos.f64(double %Val)" ++ newline ++
  newline.

(** simplecas/lambdification.py:41, 157: the dict comprehension [argnames] *)
Definition llvm_argnames (symargs : list tree) : res (dict tree string) :=
  do pairs <- mapM (fun s => do name <- tree_str s; Ok (s, "%" ++ quote ++ name ++ quote)) symargs;
  Ok (dict_update tree_eqb [] pairs).

(** [repr(t)], of which only the exception matters: see core/tree.py:155-161 and 164-172. *)
Fixpoint tree_repr_raises (t : tree) : option exn :=
  match t with
  | Atm _ => None
  | Node [] => Some AttributeError
  | Node cs => (fix go (l : list tree) : option exn :=
                  match l with [] => None | c :: r => match tree_repr_raises c with Some x => Some x | None => go r end end) cs
  end.
Definition not_implemented {A} (t : tree) : res A :=
  match tree_repr_raises t with Some x => Err x | None => Err LLVMNotImplementedError end.

(** simplecas/lambdification.py:43-50, 159-166: the identifier of an atom of the graph *)
Definition atom_identifier (symargs : list tree) (argnames : dict tree string) (a : tree) : res string :=
  if mem a symargs then dict_getitem tree_eqb argnames a                      (* 45-46 *)
  else
    do v <- tree_value a;
    if atype_eqb (atom_type v) T_Integer then double_to_hex (atom_value v)    (* 47-48 *)
    else not_implemented a.                                                   (* 49-50 *)

(** f'%".{n}"' *)
Definition temp (n : nat) : string := "%" ++ quote ++ "." ++ str_int (Z.of_nat n) ++ quote.

(** simplecas/lambdification.py:56-76, 173-193: the loop body. State: identifiers and instructions. *)
Definition llvm_op (acc : list string * list string) (op : tree * list nat) : res (list string * list string) :=
  let '(identifiers, instructions) := acc in
  let '(func, indices) := op in
  let n := length instructions in                                             (* 57 *)
  let identifier := temp n in                                                 (* 58 *)
  let identifiers' := (identifiers ++ [identifier])%list in                   (* 59 *)
  do argids <- mapM (getitem identifiers') indices;                           (* 60 *)
  do line <-
    (if tree_eqb func Add then Ok (identifier ++ " = fadd double " ++ join ", " argids)   (* 62-63 *)
     else if tree_eqb func Mul then Ok (identifier ++ " = fmul double " ++ join ", " argids) (* 64-65 *)
     else if tree_eqb func Pow then                                           (* 66-68 *)
       do a0 <- getitem argids 0;
       do a1 <- getitem argids 1;
       Ok (identifier ++ " = call double @llvm.pow.f64(double " ++ a0 ++ ", double " ++ a1 ++ ")")
     else if tree_eqb func sin then                                           (* 69-70 *)
       do a0 <- getitem argids 0;
       Ok (identifier ++ " = call double @llvm.sin.f64(double " ++ a0 ++ ")")
     else if tree_eqb func cos then                                           (* 71-72 *)
       do a0 <- getitem argids 0;
       Ok (identifier ++ " = call double @llvm.cos.f64(double " ++ a0 ++ ")")
     else not_implemented func);                                              (* 73-74 *)
  Ok (identifiers', (instructions ++ [line])%list).                           (* 76 *)

(** simplecas/lambdification.py:35-82 _to_llvm_f64 *)
Definition to_llvm_f64 (symargs : list tree) (expression : tree) : res string :=
  do expression <- bin_expand expression;                                     (* 37 *)
  do graph <- forward_graph expression;                                       (* 39 *)
  do argnames <- llvm_argnames symargs;                                       (* 41 *)
  do identifiers <- mapM (atom_identifier symargs argnames) (g_atoms graph);  (* 43-50 *)
  do args <- mapM (fun arg => do n <- dict_getitem tree_eqb argnames arg; Ok ("double " ++ n)) symargs; (* 52 *)
  let signature := "define double @" ++ quote ++ "jit_func1" ++ quote ++ "(" ++ join ", " args ++ ")" in (* 53 *)
  do (identifiers', instructions) <- foldM llvm_op (g_operations graph) (identifiers, []); (* 55-76 *)
  do result <- last_item identifiers';
  let instructions' := (instructions ++ [("ret double " ++ result)%string])%list in (* 78 *)
  let function_lines := ([signature; "{"] ++ instructions' ++ ["}"])%list in  (* 80 *)
  Ok (llvm_header ++ join newline function_lines).                            (* 81-82 *)

(** [sorted(d.items())]: tuples are compared item by item, nested tuples too. *)
Definition item_le (a b : pos * nat) : bool :=
  let '((i, j), n) := a in let '((k, l), m) := b in
  if Nat.eqb i k then (if Nat.eqb j l then Nat.leb n m else Nat.ltb j l) else Nat.ltb i k.
Fixpoint insert_item (a : pos * nat) (l : list (pos * nat)) : list (pos * nat) :=
  match l with
  | [] => [a]
  | b :: r => if item_le a b then a :: l else b :: insert_item a r
  end.
Definition sort_items (l : list (pos * nat)) : list (pos * nat) := fold_right insert_item [] l.

(** simplecas/lambdification.py:202-210: the loop body. State: identifier_count and instructions. *)
Definition llvm_store (ncols : nat) (identifiers : list string) (indices : list nat)
    (acc : nat * list string) (item : pos * nat) : res (nat * list string) :=
  let '(identifier_count, instructions) := acc in
  let '((i, j), n) := item in
  let raw_index := i * ncols + j in                                           (* 203 *)
  do k <- getitem indices n;
  do identifier_value <- getitem identifiers k;                               (* 204 *)
  let ptr := temp identifier_count in                                         (* 205 *)
  let line1 := ptr ++ " = getelementptr double, double* %" ++ quote ++ "_out" ++ quote ++ ", i32 "
                 ++ str_int (Z.of_nat raw_index) in                           (* 207 *)
  let line2 := "store double " ++ identifier_value ++ ", double* " ++ ptr in  (* 208 *)
  Ok (S identifier_count, (instructions ++ [line1; line2])%list).             (* 206, 209-210 *)

(** simplecas/lambdification.py:151-216 _to_llvm_f64_matrix *)
Definition to_llvm_f64_matrix (symargs : list tree) (mat : matrix) : hm string :=
  let! elements_graph <- hlift (bin_expand (m_graph mat));                    (* 153 *)
  let! graph <- hlift (forward_graph elements_graph);                         (* 155 *)
  let! argnames <- hlift (llvm_argnames symargs);                             (* 157 *)
  let! identifiers <- hlift (mapM (atom_identifier symargs argnames) (g_atoms graph)); (* 159-166 *)
  let! args <- hlift (mapM (fun arg => do n <- dict_getitem tree_eqb argnames arg; Ok ("double " ++ n)) symargs);
  let all_args := ("double* %" ++ quote ++ "_out" ++ quote) :: args in        (* 168 *)
  let signature := "define void @" ++ quote ++ "jit_func1" ++ quote ++ "(" ++ join ", " all_args ++ ")" in (* 169-170 *)
  let! (identifiers', instructions) <- hlift (foldM llvm_op (removelast (g_operations graph)) (identifiers, [])); (* 172-193 *)
  let! (_, indices) <- hlift (last_item (g_operations graph));                (* 198 *)
  let! items <- read_dict (m_entrymap mat);
  let! (_, instructions') <- hlift (foldM (llvm_store (m_ncols mat) identifiers' indices) (sort_items items)
                               (length instructions, instructions));          (* 201-210 *)
  let function_lines := ([signature; "{"] ++ instructions' ++ ["ret void"] ++ ["}"])%list in (* 212-214 *)
  hret (llvm_header ++ join newline function_lines).                          (* 215-216 *)
