(** * Specification: the text of a Tree, for C94 *)
From Verif Require Import Py ModelTree ModelCas SpecTree.
Local Open Scope string_scope.

(** The tree without the types of its atoms: only their texts are left. *)
Fixpoint erase (t : tree) : tree :=
  match t with
  | Atm a => Atm (mkAtom T_Symbol (VStr (str_value (atom_value a))))
  | Node cs => Node (map erase cs)
  end.

(** Texts that cannot be mistaken for the punctuation of a call. *)
Definition special (c : ascii) : bool := Ascii.eqb c "(" || Ascii.eqb c ")" || Ascii.eqb c ",".
Fixpoint no_special (s : string) : bool :=
  match s with EmptyString => true | String c r => negb (special c) && no_special r end.
Definition plain_text (s : string) : Prop := s <> "" /\ no_special s = true.
Definition plain_atoms (t : tree) : Prop := forall a, reach true [] t (Atm a) -> plain_text (str_value (atom_value a)).
