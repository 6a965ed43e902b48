(** * Specification: sessions at a prompt with everything that the library offers: expressions, their derivatives and rules, matrices,
    evaluators with their own rules, compiled functions and SymPy. As in SpecObjPrompt.v, statements that fail or are interrupted are given up and the session goes on;
    variables may be deleted; what a statement needed only while it ran is dropped, and may be collected, at any later time.
    Every statement has at most one effect on what exists before it (an assignment in a dict or a set, its last action); simplification: Ctrl-C after that assignment
    is Ctrl-C after the statement. *)
From Verif Require Import Py ModelTree ModelIntern SpecIntern ModelEval ModelDiff ModelSym ModelCas ModelApi ModelObjects SpecObjects
  ModelObjEval ModelMatrix ModelSympy ModelObjExpr SpecObjExpr SpecObjPrompt ModelObjMatrix SpecObjMatrix ModelLLVM ModelObjLLVM SpecObjLLVM
  ModelObjRules SpecObjRules ModelObjSympy SpecObjSympy.

(** What the session has: its variables and the differentiation rules, its matrices, the texts of its compiled functions, and its objects
    and matrices of SymPy; and its evaluators, with the values that they gave. [A] is [tree] when expressions are values, and [addr] on objects. *)
Definition user_state (A P E V : Type) : Type := (((((list A * P) * list (vmatrix A)) * list string) * sympy_out) * (list E * list V))%type.
Inductive user_name := NVar (i : nat) | NMatrix (m : nat) | NEvaluator (k : nat).
Inductive kstatement (V : Type) :=
| KY (c : ystatement)           (* a statement on expressions, matrices, compiled functions or SymPy *)
| KR (c : rstatement V).        (* a statement on expressions or evaluators *)
Arguments KY {V}. Arguments KR {V}.
Inductive console (V : Type) :=
| KDo (c : kstatement V)        (* the statement runs to its end, or raises *)
| KStop (c : kstatement V)      (* Ctrl-C (KeyboardInterrupt) while the statement runs *)
| KDel (v : user_name).         (* del v, del M, del eval_v *)
Arguments KDo {V}. Arguments KStop {V}. Arguments KDel {V}.
(** [del]: there is such a name, or not. *)
Definition delete {A P E V} (v : user_name) (st : user_state A P E V) : option (user_state A P E V) :=
  let '(((((env, p), ms), texts), out), (evs, vals)) := st in
  match v with
  | NVar i => if i <? length env then Some (((((without env i, p), ms), texts), out), (evs, vals)) else None
  | NMatrix m => if m <? length ms then Some (((((env, p), without ms m), texts), out), (evs, vals)) else None
  | NEvaluator k => if k <? length evs then Some (((((env, p), ms), texts), out), (without evs k, vals)) else None
  end.
(** All expressions that the session has in its variables and matrices. *)
Definition all_exprs {A P E V} (st : user_state A P E V) : list A :=
  let '(((((env, p), ms), texts), out), _) := st in env ++ flat_map (fun M => vm_graph M :: vm_elements M) ms.

(** The differentiation rules. *)
Definition rules_of {A P E V} (st : user_state A P E V) : P := snd (fst (fst (fst (fst st)))).
(** The heads of the rules of the evaluators. *)
Definition heads_of {A P V} (st : user_state A P (evaluator V) V) : list tree := flat_map (fun ev => map fst (ev_operations ev)) (fst (snd st)).
(** The expressions that the library itself has. *)
Definition library_trees : list tree := Star :: module_trees.

(** ** The meaning, where expressions are values *)
Section Meaning.
  Context {V : Type} (none : V -> bool) (o : sympy_ops).
  Definition v_kstate : Type := user_state tree diff_props (evaluator V) V.
  Definition v_kstatement (st : v_kstate) (c : kstatement V) : res v_kstate :=
    match c with
    | KY c => do y <- v_ystatement o (fst st) c; Ok (y, snd st)
    | KR c => let '(((((env, p), ms), texts), out), (evs, vals)) := st in
        do (env', p', evs', vals') <- v_rstatement none (env, p, evs, vals) c; Ok (((((env', p'), ms), texts), out), (evs', vals'))
    end.
  Definition v_console_step (st : v_kstate) (c : console V) : v_kstate * shown :=
    match c with
    | KDo c => match v_kstatement st c with Ok st' => (st', Silent) | Err e => (st, Exception e) end
    | KStop _ => (st, Interrupted)
    | KDel v => match delete v st with Some st' => (st', Silent) | None => (st, Exception IndexError) end
    end.
  Fixpoint v_console (l : list (console V)) (st : v_kstate) : v_kstate * list shown :=
    match l with
    | [] => (st, [])
    | c :: l => let (st1, x) := v_console_step st c in let (st2, xs) := v_console l st1 in (st2, x :: xs)
    end.
  (** A session: the import of the library, then the commands. *)
  Definition v_start : v_kstate := ((((([], cas_diff), []), []), ([], [])), ([], [])).
  (** The session uses only the atom types of simplecas in the patterns of its rules. *)
  Definition known_rules (l : list (console V)) : Prop :=
    forall c k ty i op args, In c l -> c = KDo (KR (RSet k (RPAtomValue ty i) op args)) -> In ty [T_Integer; T_Symbol; T_Function; T_Wild].
End Meaning.
Arguments v_kstate V : clear implicits.

(** ** Sessions on objects *)
(** The import of core/sym.py, simplecas and sympy_conversions: the Tree of Star, the names and the differentiation rules, and eval_to_sympy. *)
Definition o_console_import (names : nat -> string) (o : sympy_ops) (fuel : nat) : prog ((addr * (o_module * o_diff_props)) * o_evaluator sexpr) :=
  run star_a <- o_Atom (ty_id T_Star) (VStr "Star");
  run star_r <- o_Tr star_a;
  run (g, p) <- o_import fuel;
  run (_, _, evs, _) <- pfold (o_rstatement (fun _ => false) names fuel g star_r) (fn_sympy o) ([], p, [], []);
  run ev <- lift (getitem evs 0);
  ret ((star_r, (g, p)), ev).
(** What the import leaves. *)
Record library := mkLibrary { lib_star : addr; lib_module : o_module; lib_to_sympy : o_evaluator sexpr }.
Section Runs.
  Context (names : nat -> string) (atomic : bool) (who : nat -> Prop) (t : nat) {V : Type} (none : V -> bool).
  Implicit Types (s : state pyval).
  Definition o_kstate : Type := user_state addr o_diff_props (o_evaluator V) V.
  Definition o_kstatement (fuel : nat) (g : library) (st : o_kstate) (c : kstatement V) : prog o_kstate :=
    match c with
    | KY c => run y <- o_ystatement fuel (lib_module g) (lib_to_sympy g) (fst st) c; ret (y, snd st)
    | KR c => let '(((((env, p), ms), texts), out), (evs, vals)) := st in
        run (env', p', evs', vals') <- o_rstatement none names fuel (lib_module g) (lib_star g) (env, p, evs, vals) c;
        ret (((((env', p'), ms), texts), out), (evs', vals'))
    end.
  (** What has to stay: the names of the library, the differentiation rules, the heads of the rules of to_sympy and of the evaluators of the user, and the variables and matrices. *)
  Definition heads {B} (oe : o_evaluator B) : list addr := map fst (oe_operations oe).
  Definition console_live (g : library) (st : o_kstate) : list addr :=
    lib_star g :: module_refs (lib_module g) ++ props_refs (rules_of st) ++ heads (lib_to_sympy g) ++ flat_map heads (fst (snd st)) ++ all_exprs st.
  (** The commands. *)
  Inductive at_console (fuel : nat) (g : library) : list (console V) -> o_kstate -> state pyval -> state pyval -> o_kstate -> list shown -> Prop :=
  | console_end st s : at_console fuel g [] st s s st []
  | console_between l st s s1 s' st' xs : between atomic who t (console_live g st) s s1 -> at_console fuel g l st s1 s' st' xs -> at_console fuel g l st s s' st' xs
  | console_do c l st s s1 st1 s' st' xs : runs atomic who t (o_kstatement fuel g st c) s s1 (Ok st1) ->
      at_console fuel g l st1 s1 s' st' xs -> at_console fuel g (KDo c :: l) st s s' st' (Silent :: xs)
  | console_raise c l st s s1 e s' st' xs : runs atomic who t (o_kstatement fuel g st c) s s1 (Err e) ->
      at_console fuel g l st s1 s' st' xs -> at_console fuel g (KDo c :: l) st s s' st' (Exception e :: xs)
  | console_stop c l st s s1 s' st' xs : stopped atomic who t (o_kstatement fuel g st c) s s1 ->
      at_console fuel g l st s1 s' st' xs -> at_console fuel g (KStop c :: l) st s s' st' (Interrupted :: xs)
  | console_del v l st st1 s s' st' xs : delete v st = Some st1 ->
      at_console fuel g l st1 s s' st' xs -> at_console fuel g (KDel v :: l) st s s' st' (Silent :: xs)
  | console_del_no v l st s s' st' xs : delete v st = None ->
      at_console fuel g l st s s' st' xs -> at_console fuel g (KDel v :: l) st s s' st' (Exception IndexError :: xs).
  (** The import and then the commands. *)
  Definition console_session (o : sympy_ops) (fuel : nat) (l : list (console V)) s s' (g : library) (st : o_kstate) (xs : list shown) : Prop :=
    exists s1 p, runs atomic who t (o_console_import names o fuel) s s1 (Ok ((lib_star g, (lib_module g, p)), lib_to_sympy g)) /\
      at_console fuel g l ((((([], p), []), []), ([], [])), ([], [])) s1 s' st xs.
End Runs.
