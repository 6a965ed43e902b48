(** * Model of src/protosym/simplecas/matrix.py. Lists and dicts are heap objects, so that sharing and
    mutation are visible. An Expr is represented by its Tree. *)
From Verif Require Import Py ModelTree ModelEval ModelDiff ModelSym ModelCas.

(** ** A heap of Python lists (of Expr) and dicts (from index pairs to positions) *)
Definition pos : Type := nat * nat.
Definition pos_eqb (p q : pos) : bool := Nat.eqb (fst p) (fst q) && Nat.eqb (snd p) (snd q).
Definition entries_dict := dict pos nat.
Record heap := mkHeap { h_lists : list (list tree); h_dicts : list entries_dict }.
Definition empty_heap : heap := mkHeap [] [].

(** Computations with the heap; an exception leaves the heap as it is at that moment. *)
Definition hm (A : Type) : Type := heap -> res A * heap.
Definition hret {A} (a : A) : hm A := fun h => (Ok a, h).
Definition hraise {A} (e : exn) : hm A := fun h => (Err e, h).
Definition hbind {A B} (c : hm A) (k : A -> hm B) : hm B :=
  fun h => match c h with (Ok a, h') => k a h' | (Err e, h') => (Err e, h') end.
Definition hlift {A} (r : res A) : hm A := fun h => (r, h).
Notation "'let!' x <- a ; b" := (hbind a (fun x => b))
  (at level 200, x pattern, a at level 100, b at level 200, right associativity).
Section HFor.
  Context {A : Type} (body : A -> hm unit).
  (** [for x in l: body] *)
  Fixpoint hfor (l : list A) : hm unit :=
    match l with
    | [] => hret tt
    | x :: r => let! _ <- body x; hfor r
    end.
End HFor.

Definition set_nth_any {A} (l : list A) (i : nat) (a : A) : list A :=
  firstn i l ++ match skipn i l with [] => [] | _ :: r => a :: r end.
(** [l] a new list object with the given contents *)
Definition new_list (l : list tree) : hm nat :=
  fun h => (Ok (length (h_lists h)), mkHeap (h_lists h ++ [l]) (h_dicts h)).
Definition read_list (loc : nat) : hm (list tree) :=
  fun h => (Ok (nth loc (h_lists h) []), h).
Definition write_list (loc : nat) (l : list tree) : hm unit :=
  fun h => (Ok tt, mkHeap (set_nth_any (h_lists h) loc l) (h_dicts h)).
Definition new_dict (d : entries_dict) : hm nat :=
  fun h => (Ok (length (h_dicts h)), mkHeap (h_lists h) (h_dicts h ++ [d])).
Definition read_dict (loc : nat) : hm entries_dict :=
  fun h => (Ok (nth loc (h_dicts h) []), h).
Definition write_dict (loc : nat) (d : entries_dict) : hm unit :=
  fun h => (Ok tt, mkHeap (h_lists h) (set_nth_any (h_dicts h) loc d)).

(** ** The list and dict methods used *)
Definition list_append (loc : nat) (t : tree) : hm unit :=
  let! l <- read_list loc; write_list loc (l ++ [t]).
Definition list_len (loc : nat) : hm nat := let! l <- read_list loc; hret (length l).
Definition list_get (loc n : nat) : hm tree := let! l <- read_list loc; hlift (getitem l n).
(** [l[n] = t]: IndexError beyond the end. *)
Definition list_set (loc n : nat) (t : tree) : hm unit :=
  let! l <- read_list loc;
  if Nat.ltb n (length l) then write_list loc (set_nth_any l n t) else hraise IndexError.
Definition list_copy (loc : nat) : hm nat := let! l <- read_list loc; new_list l.
Definition dict_copy (loc : nat) : hm nat := let! d <- read_dict loc; new_dict d.
Definition dict_has (loc : nat) (p : pos) : hm bool :=
  let! d <- read_dict loc; hret (dict_mem pos_eqb d p).
Definition dict_at (loc : nat) (p : pos) : hm nat :=
  let! d <- read_dict loc; hlift (dict_getitem pos_eqb d p).
Definition dict_put (loc : nat) (p : pos) (n : nat) : hm unit :=
  let! d <- read_dict loc; write_dict loc (dict_set pos_eqb d p n).

(** ** Matrix objects: the attributes, lists and dicts as references *)
Record matrix := mkMatrix {
  m_nrows : nat; m_ncols : nat; m_elements : nat; m_graph : tree; m_entrymap : nat
}.

(** simplecas/matrix.py:48-64 Matrix._new *)
Definition matrix__new (nrows ncols elements entrymap : nat) : hm matrix :=
  let! own <- list_copy elements;                                             (* 61 *)
  let! l <- read_list elements;
  hret (mkMatrix nrows ncols own (tree_call List_ l) entrymap).               (* 57-64 *)

(** Arguments of Matrix(...): a list or something else, of lists or something else. *)
Inductive pyrow := PRow (l : list pyobj) | PNotList.
Inductive pyrows := PRows (l : list pyrow) | PRowsNotList.

Definition is_row (r : pyrow) : bool := match r with PRow _ => true | PNotList => false end.
Definition row_items (r : pyrow) : list pyobj := match r with PRow l => l | PNotList => [] end.

(** simplecas/matrix.py:39-44: the loop body, for entry [(i, j)]. *)
Definition store_entry (elements entrymap : nat) (ije : pos * tree) : hm unit :=
  let '(ij, entry) := ije in
  if tree_eqb entry zero then hret tt                                         (* 42 *)
  else
    let! n <- list_len elements;
    let! _ <- dict_put entrymap ij n;                                         (* 43 *)
    list_append elements entry.                                               (* 44 *)

(** simplecas/matrix.py:24-46 Matrix.__new__ *)
Definition matrix_new (entries : pyrows) : hm matrix :=
  match entries with
  | PRowsNotList => hraise TypeError                                          (* 26-29 *)
  | PRows rows =>
      if negb (forallb is_row rows) then hraise TypeError                     (* 26-29 *)
      else
        let nrows := length rows in                                           (* 31 *)
        let! row0 <- hlift (getitem rows 0);
        let ncols := length (row_items row0) in                               (* 32 *)
        if negb (forallb (fun r => Nat.eqb (length (row_items r)) ncols) rows)
        then hraise TypeError                                                 (* 33-34 *)
        else
          let! entries_expr <- hlift (mapM (fun r => mapM expressify (row_items r)) rows); (* 36 *)
          let! elements <- new_list [];                                       (* 38 *)
          let! entrymap <- new_dict [];                                       (* 39 *)
          let! _ <- hfor (fun irow => hfor (fun jentry =>                     (* 40-41 *)
                        store_entry elements entrymap ((fst irow, fst jentry), snd jentry))
                      (enumerate_from 0 (snd irow)))
                    (enumerate_from 0 entries_expr);
          matrix__new nrows ncols elements entrymap                           (* 46 *)
  end.

(** An index: a tuple or not; its items ints (bools are ints), Exprs or other objects. *)
Inductive pyindex := ITuple (l : list pyobj) | INotTuple.
Definition as_int (o : pyobj) : option Z :=
  match o with PInt z => Some z | PBool b => Some (if b then 1 else 0)%Z | _ => None end.
Definition in_range (i : Z) (n : nat) : bool := ((0 <=? i) && (i <? Z.of_nat n))%Z.

(** simplecas/matrix.py:66-77 Matrix.__getitem__ *)
Definition matrix_getitem (self : matrix) (ij : pyindex) : hm tree :=
  match ij with
  | ITuple [oi; oj] =>
      match as_int oi, as_int oj with
      | Some i, Some j =>
          if negb (in_range i (m_nrows self) && in_range j (m_ncols self)) then hraise IndexError (* 71-72 *)
          else
            let p := (Z.to_nat i, Z.to_nat j) in
            let! b <- dict_has (m_entrymap self) p;
            if b then                                                         (* 73 *)
              let! n <- dict_at (m_entrymap self) p;
              list_get (m_elements self) n                                    (* 74 *)
            else hret zero                                                    (* 76 *)
      | _, _ => hraise TypeError                                              (* 77 *)
      end
  | _ => hraise TypeError                                                     (* 77 *)
  end.

(** [rows[i][j] = t] *)
Definition set_entry (rows : list (list tree)) (p : pos) (t : tree) : res (list (list tree)) :=
  do row <- getitem rows (fst p);
  if Nat.ltb (snd p) (length row)
  then Ok (set_nth_any rows (fst p) (set_nth_any row (snd p) t))
  else Err IndexError.

(** simplecas/matrix.py:79-84 Matrix.tolist. The returned lists are represented by their contents; that they
    are new and not shared is proved of ModelLists.v. *)
Definition matrix_tolist (self : matrix) : hm (list (list tree)) :=
  let entries := repeat (repeat zero (m_ncols self)) (m_nrows self) in        (* 81 *)
  let! d <- read_dict (m_entrymap self);
  let! l <- read_list (m_elements self);
  hlift (foldM (fun rows pn => do t <- getitem l (snd pn); set_entry rows (fst pn) t) d entries). (* 82-84 *)

(** simplecas/matrix.py:118-125: the loop body of binop. *)
Definition binop_entry (other_elements new_elements new_entrymap : nat) (func : tree) (e : pos * nat) : hm unit :=
  let '(ij, n_other) := e in
  let! b <- dict_has new_entrymap ij;
  if b then                                                                   (* 118 *)
    let! n <- dict_at new_entrymap ij;
    let! self_ij <- list_get new_elements n;                                  (* 119 *)
    let! other_ij <- list_get other_elements n_other;                         (* 120 *)
    let result := call2 func self_ij other_ij in                              (* 121 *)
    list_set new_elements n result                                            (* 122 *)
  else
    let! n <- list_len new_elements;
    let! _ <- dict_put new_entrymap ij n;                                     (* 124 *)
    let! other_ij <- list_get other_elements n_other;
    list_append new_elements other_ij.                                        (* 125 *)

(** simplecas/matrix.py:111-126 Matrix.binop. The iteration over [other.entrymap] reads it once, at the
    start: the loop only writes to the copy. *)
Definition matrix_binop (self other : matrix) (func : tree) : hm matrix :=
  if negb (Nat.eqb (m_nrows self) (m_nrows other) && Nat.eqb (m_ncols self) (m_ncols other))
  then hraise TypeError                                                       (* 113-114 *)
  else
    let! new_elements <- list_copy (m_elements self);                         (* 115 *)
    let! new_entrymap <- dict_copy (m_entrymap self);                         (* 116 *)
    let! items <- read_dict (m_entrymap other);
    let! _ <- hfor (binop_entry (m_elements other) new_elements new_entrymap func) items; (* 117-125 *)
    matrix__new (m_nrows self) (m_ncols self) new_elements new_entrymap.      (* 126 *)

(** simplecas/matrix.py:105-109 Matrix.__add__ for two matrices (for other operands Python raises
    TypeError after NotImplemented). *)
Definition matrix_add (self other : matrix) : hm matrix := matrix_binop self other Add.

(** simplecas/matrix.py:128-136 Matrix.diff for an Expr argument *)
Definition matrix_diff (self : matrix) (sym : tree) : hm matrix :=
  let! elements_diff <- hlift (expr_diff (m_graph self) sym 1);               (* 134 *)
  let! new_elements <- new_list (sym_args elements_diff);                     (* 135 *)
  matrix__new (m_nrows self) (m_ncols self) new_elements (m_entrymap self).   (* 136 *)
