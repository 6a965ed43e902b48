(** * Model of the compiled functions in a running process: simplecas/lambdification.py:106-148 and 218-251. The
    machine code of a function belongs to an execution engine and goes away with it; arrays are blocks of one
    memory; ctypes releases the interpreter lock while a compiled function runs, so that the instructions of
    several calls alternate, in any order, with each other and with all that the program does. *)
From Coq Require Import SpecFloat.
From Verif Require Import Py ModelTree ModelDiff ModelCas ModelMatrix ModelLLVM SpecMatrix SpecLLVM.
Local Open Scope string_scope.

(** What lambdify was called with, and the address of the code. The ctypes function keeps the address only, the
    closure npfunc keeps the matrix too (lambdification.py:144-148, 239-251). *)
Inductive what := WExpr (e : tree) | WMatrix (m : matrix).
Record jitfun := mkJit { j_args : list tree; j_what : what; j_addr : nat }.

(** An array: its address and number of doubles. *)
Definition block : Type := Z * nat.
(** A call that is running: what is left of the body, and the registers; the array it fills. *)
Record running := mkRunning {
  r_fun : jitfun; r_vals : list spec_float; r_block : option block;
  r_decl : list (string * nat); r_void : bool; r_rest : list instr; r_vars : vars
}.
Record process := mkProcess {
  p_heap : heap; p_mats : list matrix;       (* the matrices, see ModelMatrix.v *)
  p_code : list (option string);             (* the module loaded at an address, unless its engine is gone *)
  p_exe_eng : list nat;                      (* the list _exe_eng: engines, by the address of their code *)
  p_funs : list jitfun;                      (* the functions that the program holds *)
  p_calls : list running;
  p_arrays : list block;                     (* the arrays that the program holds *)
  p_mem : memory
}.

(** simplecas/lambdification.py:106-135 _compile_llvm: parse_assembly raises RuntimeError, here [UserExn]. *)
Definition compile_llvm (module_code : string) (p : process) : res nat * process :=
  match parse module_code with
  | None => (Err (UserExn 0), p)                                              (* 120 *)
  | Some _ =>
      let addr := length (p_code p) in
      (Ok addr,                                                               (* 134-135 *)
       mkProcess (p_heap p) (p_mats p) (p_code p ++ [Some module_code])%list  (* 129-131 *)
         (p_exe_eng p ++ [addr])%list                                         (* 132 *)
         (p_funs p) (p_calls p) (p_arrays p) (p_mem p))
  end.
(** simplecas/lambdification.py:85-103, 138-148, 218-251: lambdify of an Expr or Matrix. *)
Definition module_code (args : list tree) (w : what) (p : process) : res string :=
  match w with
  | WExpr e => to_llvm_f64 args e                                             (* 140 *)
  | WMatrix m => fst (to_llvm_f64_matrix args m (p_heap p))                   (* 235 *)
  end.
Definition hold_fun (f : jitfun) (p : process) : process :=
  mkProcess (p_heap p) (p_mats p) (p_code p) (p_exe_eng p) (f :: p_funs p) (p_calls p) (p_arrays p) (p_mem p).
Definition jit_lambdify (args : list tree) (w : what) (p : process) : res jitfun * process :=
  match module_code args w p with
  | Err e => (Err e, p)
  | Ok text =>
      match compile_llvm text p with                                          (* 142, 237 *)
      | (Err e, p') => (Err e, p')
      | (Ok fptr, p') => let f := mkJit args w fptr in (Ok f, hold_fun f p')  (* 144-148, 239-251 *)
      end
  end.

(** simplecas/lambdification.py:246 np.zeros: a block of zeros at [p0]. *)
Definition in_block (b : block) (k : Z) : bool := ((fst b <=? k) && (k <? fst b + Z.of_nat (snd b)))%Z.
Definition fill_zeros (b : block) (mem : memory) : memory :=
  fun k => if in_block b k then S754_zero false else mem k.
Definition call_block (c : running) : list block := match r_block c with Some b => [b] | None => [] end.
(** All arrays: those the program holds and those that running calls fill. *)
Definition blocks (p : process) : list block := (p_arrays p ++ flat_map call_block (p_calls p))%list.

(** Entering the code at an address. None: the process crashes, as there is no such code, or it is called with
    the wrong arguments. *)
Definition enter (p : process) (f : jitfun) (vals : list spec_float) (b : option block) (args : list value) : option running :=
  match nth (j_addr f) (p_code p) None with
  | None => None
  | Some text =>
      match parse text with
      | Some items =>
          match functions items with
          | [fn] => if String.eqb (f_name fn) "jit_func1" then
                      match bind_params (f_params fn) args [] with
                      | Some r => Some (mkRunning f vals b (declared items) (f_void fn) (f_body fn) r)
                      | None => None
                      end
                    else None
          | _ => None
          end
      | None => None
      end
  end.
Inductive outcome (A : Type) := Raises (e : exn) | Crashes | Goes (a : A).
Arguments Raises {A}. Arguments Crashes {A}. Arguments Goes {A}.
Definition with_call (p : process) (c : running) (mem : memory) : process :=
  mkProcess (p_heap p) (p_mats p) (p_code p) (p_exe_eng p) (p_funs p) (c :: p_calls p) (p_arrays p) mem.
(** simplecas/lambdification.py:147-148, 245-249: a call of [f]; an array is at [p0]. ctypes checks the number of
    arguments. *)
Definition start_call (f : jitfun) (vals : list spec_float) (p0 : Z) (p : process) : outcome process :=
  if negb (Nat.eqb (length vals) (length (j_args f))) then Raises TypeError
  else
    match j_what f with
    | WExpr _ =>
        match enter p f vals None (map VF vals) with
        | Some c => Goes (with_call p c (p_mem p))
        | None => Crashes
        end
    | WMatrix m =>
        let b := (p0, m_nrows m * m_ncols m) in                               (* 246 *)
        match enter p f vals (Some b) (VP p0 :: map VF vals) with             (* 247-248 *)
        | Some c => Goes (with_call p c (fill_zeros b (p_mem p)))
        | None => Crashes
        end
    end.

(** One instruction of a call, or its end; None: the code is wrong. *)
Inductive progress := Continues (c : running) (mem : memory) | Ends (result : option spec_float).
Definition next (mc : machine) (c : running) (mem : memory) : option progress :=
  match r_rest c with
  | [] => None
  | [IRet a] => if r_void c then None else match operand_value (r_vars c) a with Some v => Some (Ends (Some v)) | None => None end
  | [IRetVoid] => if r_void c then Some (Ends None) else None
  | i :: rest =>
      match exec mc (r_decl c) i (r_vars c) mem with
      | Some (r', mem') => Some (Continues (mkRunning (r_fun c) (r_vals c) (r_block c) (r_decl c) (r_void c) rest r') mem')
      | None => None
      end
  end.
(** The address that the next instruction writes to, if any. *)
Definition writes_to (c : running) : option Z :=
  match r_rest c with
  | IStore _ q :: _ => match lookup (r_vars c) q with Some (VP k) => Some k | _ => None end
  | _ => None
  end.
