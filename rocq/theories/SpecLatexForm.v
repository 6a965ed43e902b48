(** * Specification for C87: text that TeX can read *)
From Verif Require Import Py ModelTree SpecLatex ModelCas.
Local Open Scope string_scope.

(** Parentheses and braces match. *)
Fixpoint nested (open : list ascii) (s : string) : bool :=
  match s with
  | EmptyString => match open with [] => true | _ => false end
  | String c r =>
      if Ascii.eqb c "(" then nested (")"%char :: open) r
      else if Ascii.eqb c "{" then nested ("}"%char :: open) r
      else if Ascii.eqb c ")" || Ascii.eqb c "}" then match open with d :: open' => Ascii.eqb c d && nested open' r | [] => false end
      else nested open r
  end.
Definition balanced (s : string) : Prop := nested [] s = true.
(** A superscript directly after a superscript: an error in TeX. *)
Definition double_superscript (s : string) : Prop := exists s1 s2, s = s1 ++ "}^" ++ s2.
(** The character does not occur. *)
Definition without (c : ascii) (s : string) : Prop := forall s1 s2, s <> s1 ++ String c s2.
(** [u] is [e] or below it in argument position. *)
Inductive part_of (e : tree) : tree -> Prop :=
| part_self : part_of e e
| part_arg h args a : part_of e (Node (h :: args)) -> In a args -> part_of e a.
