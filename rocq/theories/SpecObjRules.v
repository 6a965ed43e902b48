(** * Specification: what programs with evaluators mean, when expressions are values (trees) and evaluators are those of ModelEval.v *)
From Verif Require Import Py ModelTree ModelIntern SpecIntern ModelEval ModelDiff ModelSym ModelCas ModelApi ModelObjects SpecObjects ModelObjExpr SpecObjExpr ModelObjRules.

(** The names of the atom types, with that of Star. *)
Definition rule_names (names : nat -> string) : Prop := cas_names names /\ names (ty_id T_Star) = ty_name T_Star.

Section Spec.
  Context {V : Type} (none : V -> bool).
  Definition v_rstate := ((list tree * diff_props) * list (evaluator V) * list V)%type.
  Definition v_rpattern (env : list tree) (p : rpattern) : res pattern :=
    match p with
    | RPSym i => do u <- getitem env i; Ok (PSym u)
    | RPAtomValue ty i => do u <- getitem env i; Ok (PAtomValue ty u)
    | RPAtomRule i => do u <- getitem env i; Ok (PAtomRule u)
    | RPHeadRule i j => do u <- getitem env i; do v <- getitem env j; Ok (PHeadRule u v)
    end.
  Definition v_rvalue (env : list tree) (p : nat * V) : res (tree * V) := do u <- getitem env (fst p); Ok (u, snd p).
  Definition v_rvalues (env : list tree) (values : option (list (nat * V))) : res (option (dict tree V)) :=
    match values with
    | None => Ok None
    | Some l => do m <- mapM (v_rvalue env) l; Ok (Some (dict_update tree_eqb [] m))
    end.
  Definition v_rstatement (st : v_rstate) (c : rstatement V) : res v_rstate :=
    let '(env, p, evs, out) := st in
    match c with
    | RDo c' => do st' <- v_statement (env, p) c'; Ok (st', evs, out)
    | RWild name => Ok (env ++ [new_wild name], p, evs, out)
    | RStar i => do u <- getitem env i; Ok (env ++ [star u], p, evs, out)
    | REvaluator => Ok (env, p, evs ++ [new_evaluator], out)
    | RSet k pat op args =>
        do ev <- getitem evs k;
        do l <- mapM (getitem env) args;
        do pat' <- v_rpattern env pat;
        do ev' <- run_statement ev (pat', op, l);
        Ok (env, p, firstn k evs ++ ev' :: skipn (S k) evs, out)
    | REval k i values =>
        do ev <- getitem evs k;
        do u <- getitem env i;
        do d <- v_rvalues env values;
        do v <- sym_evaluate none ev u d;
        Ok (env, p, evs, out ++ [v])
    end.
  Definition v_rsession (l : list (rstatement V)) : res (list tree * list V) :=
    do st <- foldM v_rstatement l ([], cas_diff, [], []);
    Ok (fst (fst (fst st)), snd st).
  (** The program uses only the atom types of simplecas in its patterns. *)
  Definition known_types (l : list (rstatement V)) : Prop :=
    forall k ty i op args, In (RSet k (RPAtomValue ty i) op args) l -> In ty [T_Integer; T_Symbol; T_Function; T_Wild].
End Spec.
(** The expressions that the library itself has in variables before a program starts: a, b, star(a), Add, Mul, ... *)
Definition fn_env : list tree :=
  [wa; wb; star wa; Add; Mul; call1 Add (star wa); call1 Mul (star wa); m_pow wa wb; sin; call1 sin wa; cos; call1 cos wa].
(** A program without evaluators, started with these variables, and then its variable number [i]. *)
Definition v_variable (l : list ModelObjExpr.statement) (i : nat) : res tree := do (env, _) <- foldM v_statement l (fn_env, cas_diff); getitem env i.
