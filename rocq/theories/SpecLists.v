(** * Specification: programs that hold lists and matrices, and change the lists as they like *)
From Verif Require Import Py ModelTree ModelCas ModelMatrix ModelLists.

(** The contents of a list. *)
Definition contents (s : store) (loc : nat) : list uval := nth loc (s_lists s) [].

(** The lists a program can get hold of: those it has a reference to, and those in them. *)
Inductive reach (s : store) (roots : list nat) : nat -> Prop :=
| reach_root r : In r roots -> reach s roots r
| reach_in l r : reach s roots l -> In (UList r) (contents s l) -> reach s roots r.
(** A value it can have. *)
Definition available (s : store) (roots : list nat) (v : uval) : Prop :=
  match v with UObj _ => True | UList r => reach s roots r end.

(** What it holds: references to lists, and matrices. *)
Record held := mkHeld { roots : list nat; mats : list matrix }.
Definition hold_matrix (r : res matrix) (k : held) : held :=
  match r with Ok m => mkHeld (roots k) (m :: mats k) | Err _ => k end.
Definition hold_list (r : res nat) (k : held) : held :=
  match r with Ok l => mkHeld (l :: roots k) (mats k) | Err _ => k end.

(** The library's calls. *)
Inductive call : store -> held -> store -> held -> Prop :=
| call_new s k v r s' : available s (roots k) v -> s_matrix_new v s = (r, s') -> call s k s' (hold_matrix r k)
| call_binop s k A B func r s' : In A (mats k) -> In B (mats k) -> s_binop A B func s = (r, s') -> call s k s' (hold_matrix r k)
| call_diff s k A sym r s' : In A (mats k) -> s_diff A sym s = (r, s') -> call s k s' (hold_matrix r k)
| call_tolist s k A r s' : In A (mats k) -> s_tolist A s = (r, s') -> call s k s' (hold_list r k).
(** A step of the program: a call, a new list, or giving any list it can get hold of any new contents
    (this covers append, item assignment, pop, sort, clear, ...). *)
Inductive does : store -> held -> store -> held -> Prop :=
| does_call s k s' k' : call s k s' k' -> does s k s' k'
| does_new s k vs l s' : (forall v, In v vs -> available s (roots k) v) -> s_new vs s = (Ok l, s') -> does s k s' (hold_list (Ok l) k)
| does_change s k l vs s' : reach s (roots k) l -> (forall v, In v vs -> available s (roots k) v) ->
    s_write l vs s = (Ok tt, s') -> does s k s' k.
Inductive runs : store -> held -> store -> held -> Prop :=
| runs_none s k : runs s k s k
| runs_more s k s1 k1 s2 k2 : runs s k s1 k1 -> does s1 k1 s2 k2 -> runs s k s2 k2.
(** The states of programs. *)
Definition reached (s : store) (k : held) : Prop := runs empty_store (mkHeld [] []) s k.

(** The list of lists [loc]: its rows' contents. *)
Definition rows_of (s : store) (loc : nat) : list (list uval) :=
  map (fun v => match v with UList r => contents s r | UObj _ => [] end) (contents s loc).
(** The argument of Matrix(...), as its contents now; see ModelMatrix.v. *)
Definition as_pyobj (v : uval) : pyobj := match v with UObj o => o | UList _ => POther end.
Definition as_pyrow (s : store) (v : uval) : pyrow :=
  match v with UList r => PRow (map as_pyobj (contents s r)) | UObj _ => PNotList end.
Definition as_pyrows (s : store) (v : uval) : pyrows :=
  match v with UList l => PRows (map (as_pyrow s) (contents s l)) | UObj _ => PRowsNotList end.

(** The entries of M as [M.tolist()] lists them, and [M[i, j]]. *)
Definition entries_now (m : matrix) (s : store) : res (list (list uval)) :=
  match s_tolist m s with (Ok l, s') => Ok (rows_of s' l) | (Err e, _) => Err e end.
Definition entry_now (m : matrix) (i j : Z) (s : store) : res uval := fst (s_getitem m i j s).

(** The same matrix in ModelMatrix.v: same shape and graph, and the attributes elements and entrymap have the
    same contents. *)
Definition same_matrix (s : store) (M : matrix) (h : heap) (m : matrix) : Prop :=
  m_nrows M = m_nrows m /\ m_ncols M = m_ncols m /\ m_graph M = m_graph m /\
  contents s (m_elements M) = map uexpr (nth (m_elements m) (h_lists h) []) /\
  nth (m_entrymap M) (s_dicts s) [] = nth (m_entrymap m) (h_dicts h) [].

(** The same outcome here and in ModelMatrix.v. *)
Definition same_result (r : res matrix * store) (r' : res matrix * heap) : Prop :=
  match r, r' with
  | (Ok M, s'), (Ok m, h') => same_matrix s' M h' m
  | (Err e, _), (Err e', _) => e = e'
  | _, _ => False
  end.
