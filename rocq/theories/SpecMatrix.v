(** * Specification: programs that use matrices, and what they observe *)
From Verif Require Import Py ModelTree ModelDiff ModelCas ModelMatrix ModelSympy.

(** SymPy's todok(): distinct positions inside the shape. *)
Definition smatrix_ok (sm : smatrix) : Prop :=
  NoDup (map fst (sm_dok sm)) /\
  forall p, In p (map fst (sm_dok sm)) -> fst p < sm_rows sm /\ snd p < sm_cols sm.

(** One API call in a program that holds the matrices [ms]: it may succeed, and then the program also
    holds the result, or raise. *)
Definition hold (r : res matrix) (ms : list matrix) : list matrix :=
  match r with Ok m => m :: ms | Err _ => ms end.
Inductive step : heap -> list matrix -> heap -> list matrix -> Prop :=
| step_new h ms entries r h' : matrix_new entries h = (r, h') -> step h ms h' (hold r ms)
| step_binop h ms A B func r h' : In A ms -> In B ms -> matrix_binop A B func h = (r, h') -> step h ms h' (hold r ms)
| step_diff h ms A sym r h' : In A ms -> matrix_diff A sym h = (r, h') -> step h ms h' (hold r ms)
| step_sympy h ms sm r h' : smatrix_ok sm -> from_sympy_matrix sm h = (r, h') -> step h ms h' (hold r ms).
Inductive steps : heap -> list matrix -> heap -> list matrix -> Prop :=
| steps_none h ms : steps h ms h ms
| steps_more h ms h1 ms1 h2 ms2 : steps h ms h1 ms1 -> step h1 ms1 h2 ms2 -> steps h ms h2 ms2.
(** The states of programs. *)
Definition history (h : heap) (ms : list matrix) : Prop := steps empty_heap [] h ms.

(** The objects that count as an integer: ints, and bools as 1 and 0. *)
Inductive is_index : pyobj -> Z -> Prop :=
| index_int z : is_index (PInt z) z
| index_true : is_index (PBool true) 1
| index_false : is_index (PBool false) 0.
(** [M[i, j]] *)
Definition get (m : matrix) (i j : Z) (h : heap) : res tree := fst (matrix_getitem m (ITuple [PInt i; PInt j]) h).
(** [M.tolist()] *)
Definition tolist (m : matrix) (h : heap) : res (list (list tree)) := fst (matrix_tolist m h).
Definition inside (m : matrix) (i j : Z) : Prop := (0 <= i < Z.of_nat (m_nrows m) /\ 0 <= j < Z.of_nat (m_ncols m))%Z.
(** An entry is stored (it may still be zero); see the attribute entrymap. *)
Definition stored (m : matrix) (i j : Z) (h : heap) : Prop :=
  In (Z.to_nat i, Z.to_nat j) (map fst (nth (m_entrymap m) (h_dicts h) [])).
