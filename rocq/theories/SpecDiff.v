(** * Specification of differentiation: the textbook recursion on the expression *)
From Verif Require Import Py ModelTree SpecTree ModelDiff.

(** The arguments with a non-zero derivative: pairs of position and derivative. *)
Definition dependent (zero : tree) (ds : list tree) : list (nat * tree) :=
  filter (fun id => negb (tree_eqb (snd id) zero)) (combine (seq 0 (length ds)) ds).

(** [l] with position [i] replaced by [d]. *)
Fixpoint set_nth (l : list tree) (i : nat) (d : tree) : list tree :=
  match l, i with
  | [], _ => []
  | _ :: r, O => d :: r
  | a :: r, S i' => a :: set_nth r i' d
  end.

(** A sum: nothing is zero, and a single term is left alone. *)
Definition total (p : diff_props) (terms : list tree) : tree :=
  match terms with
  | [] => dp_zero p
  | [t] => t
  | _ => Node (dp_add p :: terms)
  end.

(** [f_i(args) * d], where [f_i] is the registered partial derivative of [f] by argument [i]. *)
Definition chain_term (p : diff_props) (f : tree) (args : list tree) (id : nat * tree) : res tree :=
  match dict_get rule_key_eqb (dp_rules p) (f, fst id) with
  | None => Err KeyError
  | Some rule =>
      do r <- subs_call rule args;
      Ok (if tree_eqb (snd id) (dp_one p) then r else Node [dp_mul p; r; snd id])
  end.

Fixpoint deriv (p : diff_props) (s t : tree) : res tree :=
  match t with
  | Atm _ | Node [] => Ok (if tree_eqb t s then dp_one p else dp_zero p)
  | Node (f :: args) =>
      do ds <- mapM (deriv p s) args;
      if mem f (dp_distributive p) then Ok (Node (f :: ds))
      else
        do terms <-
          (if tree_eqb f (dp_add p) then Ok (map snd (dependent (dp_zero p) ds))
           else if tree_eqb f (dp_mul p)
           then Ok (map (fun id => Node (dp_mul p :: set_nth args (fst id) (snd id)))
                        (dependent (dp_zero p) ds))
           else mapM (chain_term p f args) (dependent (dp_zero p) ds));
        Ok (total p terms)
  end.
