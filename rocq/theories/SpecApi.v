(** * Specifications of the outermost calls *)
From Coq Require Import SpecFloat.
From Verif Require Import Py ModelTree ModelCas ModelMatrix ModelApi SpecLLVM.
Local Open Scope string_scope.

(** The expression that an operand stands for: ints and bools are integers. *)
Definition expression_of (o : obj) : option tree :=
  match o with
  | OExpr t => Some t
  | OInt z => Some (Integer z)
  | OBool b => Some (Integer (if b then 1 else 0))
  | OMatrix _ | OOther => None
  end.
(** a + b, a + (-1)*b, a*b, a*b**(-1), a**b *)
Definition combined (op : operator) (a b : tree) : tree :=
  match op with
  | OpAdd => Node [Add; a; b]
  | OpSub => Node [Add; a; Node [Mul; Integer (-1); b]]
  | OpMul => Node [Mul; a; b]
  | OpDiv => Node [Mul; a; Node [Pow; b; Integer (-1)]]
  | OpPow => Node [Pow; a; b]
  end.
Definition is_expr (o : obj) : Prop := exists t, o = OExpr t.
Definition is_matrix (o : obj) : Prop := exists m, o = OMatrix m.

(** A platform (llvmlite, ctypes, numpy) that does what the text says: it loads every text that is a valid
    module with one function in SSA form, a call returns the double that the machine computes, and a call
    that fills an array starts from a zeroed block, somewhere in memory, and returns what is in it
    afterwards. *)
Definition valid_module (text : string) : Prop :=
  exists items f, parse text = Some items /\ functions items = [f] /\ ssa f.
Definition zeroed (p0 : Z) (size : nat) (mem : memory) : Prop :=
  forall k, k < size -> mem (p0 + Z.of_nat k)%Z = S754_zero false.
Definition block (p0 : Z) (size : nat) (mem : memory) : list spec_float :=
  map (fun k => mem (p0 + Z.of_nat k)%Z) (seq 0 size).
Definition faithful (mc : machine) {code : Type} (load : string -> res code)
    (call_f64 : code -> list spec_float -> spec_float)
    (call_fill : code -> nat -> list spec_float -> list spec_float) : Prop :=
  (forall text, valid_module text -> exists c, load text = Ok c) /\
  forall text c, load text = Ok c ->
    (forall vals, exists mem, forall v mem', run_text mc text "jit_func1" (map VF vals) mem = Some (Some v, mem') ->
       call_f64 c vals = v) /\
    (forall size vals, exists p0 mem, zeroed p0 size mem /\
       forall mem', run_text mc text "jit_func1" (VP p0 :: map VF vals) mem = Some (None, mem') ->
         call_fill c size vals = block p0 size mem').

(** A platform that interprets the text. *)
Definition sample_load (text : string) : res string :=
  match parse text with Some _ => Ok text | None => Err (UserExn 0) end.
Definition zeros : memory := fun _ => S754_zero false.
Definition sample_f64 (mc : machine) (text : string) (vals : list spec_float) : spec_float :=
  match run_text mc text "jit_func1" (map VF vals) zeros with Some (Some v, _) => v | _ => S754_nan end.
Definition sample_fill (mc : machine) (text : string) (size : nat) (vals : list spec_float) : list spec_float :=
  match run_text mc text "jit_func1" (VP 0 :: map VF vals) zeros with
  | Some (None, mem') => block 0 size mem'
  | _ => []
  end.
