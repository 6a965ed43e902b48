(** * Model of simplecas/matrix.py with the lists that the calling program holds. ModelMatrix.v gives the
    argument of Matrix(...) and the result of tolist() by their contents; here every list is an object in one
    store, whether the library or the program made it, so that a list which both hold can be expressed. *)
From Verif Require Import Py ModelTree ModelEval ModelDiff ModelSym ModelCas ModelMatrix.

(** What a list contains: the objects of ModelCas.v and references to lists. *)
Inductive uval := UObj (o : pyobj) | UList (loc : nat).
Record store := mkStore { s_lists : list (list uval); s_dicts : list entries_dict }.
Definition empty_store : store := mkStore [] [].
Definition uexpr (t : tree) : uval := UObj (PExpr t).

(** Computations with the store. *)
Definition sm (A : Type) : Type := store -> res A * store.
Definition sret {A} (a : A) : sm A := fun s => (Ok a, s).
Definition sraise {A} (e : exn) : sm A := fun s => (Err e, s).
Definition sbind {A B} (c : sm A) (k : A -> sm B) : sm B :=
  fun s => match c s with (Ok a, s') => k a s' | (Err e, s') => (Err e, s') end.
Definition slift {A} (r : res A) : sm A := fun s => (r, s).
Notation "'let@' x <- a ; b" := (sbind a (fun x => b))
  (at level 200, x pattern, a at level 100, b at level 200, right associativity).
Section SFor.
  Context {A : Type} (body : A -> sm unit).
  (** [for x in l: body] *)
  Fixpoint sfor (l : list A) : sm unit :=
    match l with
    | [] => sret tt
    | x :: r => let@ _ <- body x; sfor r
    end.
End SFor.
Section SMap.
  Context {A B : Type} (body : A -> sm B).
  (** [[body for x in l]] *)
  Fixpoint smap (l : list A) : sm (list B) :=
    match l with
    | [] => sret []
    | x :: r => let@ y <- body x; let@ ys <- smap r; sret (y :: ys)
    end.
End SMap.

(** ** Lists and dicts *)
Definition s_new (l : list uval) : sm nat :=
  fun s => (Ok (length (s_lists s)), mkStore (s_lists s ++ [l]) (s_dicts s)).
Definition s_read (loc : nat) : sm (list uval) := fun s => (Ok (nth loc (s_lists s) []), s).
Definition s_write (loc : nat) (l : list uval) : sm unit :=
  fun s => (Ok tt, mkStore (set_nth_any (s_lists s) loc l) (s_dicts s)).
Definition s_newdict (d : entries_dict) : sm nat :=
  fun s => (Ok (length (s_dicts s)), mkStore (s_lists s) (s_dicts s ++ [d])).
Definition s_readdict (loc : nat) : sm entries_dict := fun s => (Ok (nth loc (s_dicts s) []), s).
Definition s_writedict (loc : nat) (d : entries_dict) : sm unit :=
  fun s => (Ok tt, mkStore (s_lists s) (set_nth_any (s_dicts s) loc d)).
Definition s_append (loc : nat) (v : uval) : sm unit := let@ l <- s_read loc; s_write loc (l ++ [v]).
Definition s_len (loc : nat) : sm nat := let@ l <- s_read loc; sret (length l).
Definition s_get (loc n : nat) : sm uval := let@ l <- s_read loc; slift (getitem l n).
(** [l[n] = v] *)
Definition s_set (loc n : nat) (v : uval) : sm unit :=
  let@ l <- s_read loc;
  if Nat.ltb n (length l) then s_write loc (set_nth_any l n v) else sraise IndexError.
Definition s_copy (loc : nat) : sm nat := let@ l <- s_read loc; s_new l.
Definition s_copydict (loc : nat) : sm nat := let@ d <- s_readdict loc; s_newdict d.
Definition s_put (loc : nat) (p : pos) (n : nat) : sm unit :=
  let@ d <- s_readdict loc; s_writedict loc (dict_set pos_eqb d p n).
Definition s_has (loc : nat) (p : pos) : sm bool := let@ d <- s_readdict loc; sret (dict_mem pos_eqb d p).
Definition s_at (loc : nat) (p : pos) : sm nat := let@ d <- s_readdict loc; slift (dict_getitem pos_eqb d p).
(** The list that a value is: TypeError where Python has no [len], index or iteration. *)
Definition as_list (v : uval) : res nat := match v with UList r => Ok r | UObj _ => Err TypeError end.
Definition is_list (v : uval) : bool := match v with UList _ => true | UObj _ => false end.
(** simplecas/expr.py:32-73 expressify; a list is not expressifiable. *)
Definition s_expressify (v : uval) : res tree :=
  match v with UObj o => expressify o | UList _ => Err ExpressifyError end.

(** ** simplecas/matrix.py *)
(** simplecas/matrix.py:48-64 Matrix._new *)
Definition s_matrix__new (nrows ncols elements entrymap : nat) : sm matrix :=
  let@ own <- s_copy elements;                                                (* 61 *)
  let@ l <- s_read elements;
  let@ ts <- slift (mapM s_expressify l);                                     (* 62, expr.py:171-175 *)
  sret (mkMatrix nrows ncols own (tree_call List_ ts) entrymap).              (* 57-64 *)

(** simplecas/matrix.py:39-44: the loop body, for entry [(i, j)]. *)
Definition s_store_entry (elements entrymap : nat) (ije : pos * tree) : sm unit :=
  let '(ij, entry) := ije in
  if tree_eqb entry zero then sret tt                                         (* 42 *)
  else
    let@ n <- s_len elements;
    let@ _ <- s_put entrymap ij n;                                            (* 43 *)
    s_append elements (uexpr entry).                                          (* 44 *)

(** simplecas/matrix.py:24-46 Matrix.__new__. The lists of line 36 are used in this call only and are given
    by their contents. *)
Definition s_matrix_new (entries : uval) : sm matrix :=
  match entries with
  | UObj _ => sraise TypeError                                                (* 26-29 *)
  | UList loc =>
      let@ rows <- s_read loc;
      if negb (forallb is_list rows) then sraise TypeError                    (* 26-29 *)
      else
        let nrows := length rows in                                           (* 31 *)
        let@ row0 <- s_get loc 0;
        let@ r0 <- slift (as_list row0);
        let@ ncols <- s_len r0;                                               (* 32 *)
        let@ lens <- smap (fun row => let@ r <- slift (as_list row); s_len r) rows;
        if negb (forallb (fun n => Nat.eqb n ncols) lens) then sraise TypeError (* 33-34 *)
        else
          let@ entries_expr <- smap (fun row => let@ r <- slift (as_list row);
                                                let@ items <- s_read r;
                                                slift (mapM s_expressify items)) rows; (* 36 *)
          let@ elements <- s_new [];                                          (* 38 *)
          let@ entrymap <- s_newdict [];                                      (* 39 *)
          let@ _ <- sfor (fun irow => sfor (fun jentry =>                     (* 40-41 *)
                        s_store_entry elements entrymap ((fst irow, fst jentry), snd jentry))
                      (enumerate_from 0 (snd irow)))
                    (enumerate_from 0 entries_expr);
          s_matrix__new nrows ncols elements entrymap                         (* 46 *)
  end.

(** simplecas/matrix.py:66-77 Matrix.__getitem__, for two ints. *)
Definition s_getitem (self : matrix) (i j : Z) : sm uval :=
  if negb (in_range i (m_nrows self) && in_range j (m_ncols self)) then sraise IndexError (* 71-72 *)
  else
    let p := (Z.to_nat i, Z.to_nat j) in
    let@ b <- s_has (m_entrymap self) p;
    if b then                                                                 (* 73 *)
      let@ n <- s_at (m_entrymap self) p;
      s_get (m_elements self) n                                               (* 74 *)
    else sret (uexpr zero).                                                   (* 76 *)

(** simplecas/matrix.py:79-84 Matrix.tolist: the list returned. *)
Definition s_tolist (self : matrix) : sm nat :=
  let@ rows <- smap (fun _ => s_new (repeat (uexpr zero) (m_ncols self))) (seq 0 (m_nrows self));
  let@ entries <- s_new (map UList rows);                                     (* 81 *)
  let@ items <- s_readdict (m_entrymap self);
  let@ _ <- sfor (fun pn : pos * nat =>
                    let '((i, j), n) := pn in                                 (* 82 *)
                    let@ e <- s_get (m_elements self) n;
                    let@ row <- s_get entries i;
                    let@ r <- slift (as_list row);
                    s_set r j e) items;                                       (* 83 *)
  sret entries.                                                               (* 84 *)

(** simplecas/matrix.py:118-125: the loop body of binop. *)
Definition s_binop_entry (other_elements new_elements new_entrymap : nat) (func : tree) (e : pos * nat) : sm unit :=
  let '(ij, n_other) := e in
  let@ b <- s_has new_entrymap ij;
  if b then                                                                   (* 118 *)
    let@ n <- s_at new_entrymap ij;
    let@ self_ij <- s_get new_elements n;                                     (* 119 *)
    let@ other_ij <- s_get other_elements n_other;                            (* 120 *)
    let@ a <- slift (s_expressify self_ij);
    let@ b <- slift (s_expressify other_ij);
    let result := uexpr (call2 func a b) in                                   (* 121, expr.py:171-175 *)
    s_set new_elements n result                                               (* 122 *)
  else
    let@ n <- s_len new_elements;
    let@ _ <- s_put new_entrymap ij n;                                        (* 124 *)
    let@ other_ij <- s_get other_elements n_other;
    s_append new_elements other_ij.                                           (* 125 *)

(** simplecas/matrix.py:111-126 Matrix.binop *)
Definition s_binop (self other : matrix) (func : tree) : sm matrix :=
  if negb (Nat.eqb (m_nrows self) (m_nrows other) && Nat.eqb (m_ncols self) (m_ncols other))
  then sraise TypeError                                                       (* 113-114 *)
  else
    let@ new_elements <- s_copy (m_elements self);                            (* 115 *)
    let@ new_entrymap <- s_copydict (m_entrymap self);                        (* 116 *)
    let@ items <- s_readdict (m_entrymap other);
    let@ _ <- sfor (s_binop_entry (m_elements other) new_elements new_entrymap func) items; (* 117-125 *)
    s_matrix__new (m_nrows self) (m_ncols self) new_elements new_entrymap.    (* 126 *)
(** simplecas/matrix.py:105-109 Matrix.__add__ for two matrices *)
Definition s_add (self other : matrix) : sm matrix := s_binop self other Add.

(** simplecas/matrix.py:128-136 Matrix.diff for an Expr argument *)
Definition s_diff (self : matrix) (sym : tree) : sm matrix :=
  let@ elements_diff <- slift (expr_diff (m_graph self) sym 1);               (* 134 *)
  let@ new_elements <- s_new (map uexpr (sym_args elements_diff));            (* 135 *)
  s_matrix__new (m_nrows self) (m_ncols self) new_elements (m_entrymap self). (* 136 *)
