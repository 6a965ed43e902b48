(** * Model of the raw representations: AtomType.__repr__, Atom.__repr__, Tree.__repr__, Sym.__repr__ *)
From Verif Require Import Py ModelTree ModelCas.
Local Open Scope string_scope.

(** Python's [repr] of a str whose characters have code points below 256, which is what [string]
    holds (built-in, not part of /repo; CPython Objects/unicodeobject.c, unicode_repr): a double quote
    delimits when the text has a single quote but no double quote, a single quote otherwise; the
    delimiter and the backslash are escaped, tab, newline and return have their own escapes, other
    unprintable characters are written as \xNN. *)
Definition dq : ascii := ascii_of_nat 34.
Definition sq : ascii := ascii_of_nat 39.
Definition backslash : ascii := ascii_of_nat 92.
Fixpoint has_char (c : ascii) (s : string) : bool :=
  match s with EmptyString => false | String d r => Ascii.eqb c d || has_char c r end.
Definition quote_for (s : string) : ascii := if has_char sq s && negb (has_char dq s) then dq else sq.
Definition hex_digit (n : nat) : ascii := ascii_of_nat (if (n <? 10)%nat then 48 + n else 87 + n).
Definition unprintable (n : nat) : bool :=
  ((n <? 32) || ((127 <=? n) && (n <=? 160)) || (n =? 173))%nat.
Definition escape_char (q c : ascii) : string :=
  let n := nat_of_ascii c in
  if Ascii.eqb c q || Ascii.eqb c backslash then String backslash (String c EmptyString)
  else if (n =? 9)%nat then String backslash "t"
  else if (n =? 10)%nat then String backslash "n"
  else if (n =? 13)%nat then String backslash "r"
  else if unprintable n then
    String backslash (String "x" (String (hex_digit (n / 16)) (String (hex_digit (n mod 16)) EmptyString)))
  else String c EmptyString.
Fixpoint escape (q : ascii) (s : string) : string :=
  match s with EmptyString => EmptyString | String c r => escape_char q c ++ escape q r end.
Definition repr_str (s : string) : string :=
  let q := quote_for s in String q (escape q s ++ String q EmptyString).

(** [repr] of an atom's value; for an int it is the same as [str]. *)
Definition repr_value (v : pyval) : string :=
  match v with VInt _ => str_value v | VStr s => repr_str s end.

(** core/atom.py:176-178 Atom.__repr__, with AtomType.__repr__ (78-80), which [f"{...}"] uses as AtomType has
    no [__str__]. *)
Definition atom_repr (a : atom) : string :=
  ty_name (atom_type a) ++ "(" ++ repr_value (atom_value a) ++ ")".

(** core/tree.py:156-162 Tree.__repr__. *)
Fixpoint tree_repr (t : tree) : res string :=
  match children t with
  | [] => do a <- tree_value t; Ok ("Tr(" ++ atom_repr a ++ ")")              (* 162 *)
  | _ :: _ =>                                                                  (* 158 *)
      match t with
      | Node cs => do l <- mapM tree_repr cs; Ok ("Tree(" ++ join ", " l ++ ")") (* 159-160 *)
      | Atm _ => Err AttributeError                                            (* not reachable *)
      end
  end.

(** core/sym.py:178-186 Sym.__repr__. *)
Definition sym_repr (rep : tree) : res string := do s <- tree_repr rep; Ok ("Sym(" ++ s ++ ")").
