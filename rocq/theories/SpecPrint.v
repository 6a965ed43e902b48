(** * Specifications for counting, bin_expand and printing *)
From Verif Require Import Py ModelTree SpecTree SpecEval ModelCas.
Local Open Scope string_scope.

(** The number of subexpressions in argument position, with multiplicity. *)
Fixpoint tree_size (t : tree) : nat :=
  match t with
  | Atm _ | Node [] => 1
  | Node (_ :: args) => S (list_sum (map tree_size args))
  end.

(** No sum or product in argument position of [e] has an argument count other than two. *)
Definition binary (e : tree) : Prop :=
  forall h args, reach false [] e (Node (h :: args)) -> h = Add \/ h = Mul -> length args = 2.
(** No empty sum or product in argument position. *)
Definition no_empty (e : tree) : Prop :=
  forall h, h = Add \/ h = Mul -> ~ reach false [] e (Node [h]).

(** The text of an expression. *)
Fixpoint pretty (t : tree) : res string :=
  match t with
  | Atm a => Ok (str_value (atom_value a))
  | Node [] => Err AttributeError
  | Node (h :: args) =>
      do ts <- mapM pretty args;
      if tree_eqb h Add then Ok ("(" ++ join " + " ts ++ ")")
      else if tree_eqb h Mul then Ok ("(" ++ join "*" ts ++ ")")
      else if tree_eqb h Pow then
        match ts with [b; e] => Ok (b ++ "**" ++ e) | _ => Err TypeError end
      else do hs <- tree_str h; Ok (hs ++ "(" ++ join ", " ts ++ ")")
  end.

(** Its LaTeX text. *)
Fixpoint latex (t : tree) : res string :=
  match t with
  | Atm a =>
      if atype_eqb (atom_type a) T_Integer || atype_eqb (atom_type a) T_Symbol || atype_eqb (atom_type a) T_Function
      then Ok (str_value (atom_value a)) else Err NoEvaluationRuleError
  | Node [] => Err AttributeError
  | Node (h :: args) =>
      do ts <- mapM latex args;
      if tree_eqb h Add then Ok ("(" ++ join " + " ts ++ ")")
      else if tree_eqb h Mul then Ok ("(" ++ join " \times " ts ++ ")")
      else if tree_eqb h Pow then
        match ts with [b; e] => Ok (b ++ "^{" ++ e ++ "}") | _ => Err TypeError end
      else if tree_eqb h sin then match ts with [a] => Ok ("\sin(" ++ a ++ ")") | _ => Err TypeError end
      else if tree_eqb h cos then match ts with [a] => Ok ("\cos(" ++ a ++ ")") | _ => Err TypeError end
      else do hs <- tree_str h; Ok (hs ++ "(" ++ join ", " ts ++ ")")
  end.

(** Identifiers. *)
Definition is_alpha (c : ascii) : bool :=
  let n := nat_of_ascii c in
  ((65 <=? n) && (n <=? 90) || (97 <=? n) && (n <=? 122) || (n =? 95))%nat.
Definition is_digit (c : ascii) : bool :=
  let n := nat_of_ascii c in ((48 <=? n) && (n <=? 57))%nat.
Fixpoint all_chars (p : ascii -> bool) (s : string) : bool :=
  match s with EmptyString => true | String c r => p c && all_chars p r end.
Definition identifier (s : string) : Prop :=
  match s with
  | EmptyString => False
  | String c r => is_alpha c = true /\ all_chars (fun c => is_alpha c || is_digit c) r = true
  end.

Definition is_power (t : tree) : Prop := exists args, t = Node (Pow :: args).

(** Expressions that print unambiguously: integers, symbols, sums and products of two or more terms, named
    functions of any number of arguments, and powers whose base is not a power. *)
Inductive printable : tree -> Prop :=
| pr_int n : printable (Integer n)
| pr_sym s : identifier s -> printable (Symbol s)
| pr_add args : length args >= 2 -> Forall printable args -> printable (Node (Add :: args))
| pr_mul args : length args >= 2 -> Forall printable args -> printable (Node (Mul :: args))
| pr_pow b e : printable b -> printable e -> ~ is_power b -> printable (Node [Pow; b; e])
| pr_call s args : identifier s -> s <> "Add" -> s <> "Mul" -> s <> "pow" ->
    Forall printable args -> printable (Node (Function s :: args)).

(** simplecas/expr.py:378-383, the documented example family (docstring of count_ops_graph). *)
Fixpoint make_expression (n : nat) : tree :=
  match n with
  | O => Symbol "x"
  | S n' => let e := make_expression n' in m_add (m_pow e (Integer 2)) e
  end.

(** Every application of [h] in argument position of [e] has [n] arguments. *)
Definition arity_is (n : nat) (h e : tree) : Prop :=
  forall args, reach false [] e (Node (h :: args)) -> length args = n.
(** Every atom in argument position is an Integer, a Symbol or a Function. *)
Definition latex_type (a : atom) : Prop :=
  atom_type a = T_Integer \/ atom_type a = T_Symbol \/ atom_type a = T_Function.
Definition latex_atoms (e : tree) : Prop := forall a, reach false [] e (Atm a) -> latex_type a.
