(** * eval_f64: what it computes *)
From Verif Require Import Py ModelTree SpecTree ProofBase ModelEval SpecEval ProofEval ModelDiff ModelSym ModelCas.

Definition f64_leaf {F} (o : float_ops F) (values : dict tree F) (t : tree) : res F :=
  match dict_get tree_eqb values t with
  | Some v => Ok v
  | None => match t with
            | Atm (mkAtom ty v) => if atype_eqb ty T_Integer then match v with VInt z => fl_of_int o z | VStr _ => Err ValueError end
                                   else Err NoEvaluationRuleError
            | Node _ => Err AttributeError
            end
  end.
Definition f64_op {F} (o : float_ops F) (h : tree) (vs : list F) : res F :=
  if tree_eqb h cos then match vs with [v] => fl_cos o v | _ => Err TypeError end
  else if tree_eqb h sin then match vs with [v] => fl_sin o v | _ => Err TypeError end
  else if tree_eqb h Pow then match vs with [v; w] => fl_pow o v w | _ => Err TypeError end
  else if tree_eqb h Mul then fl_prod o vs
  else if tree_eqb h Add then fl_fsum o vs
  else do _ <- repr_raises h; Err NoEvaluationRuleError.
Lemma f64_ev {F} (o : float_ops F) : exists ev, eval_f64_ev o = Ok ev /\
  (forall values t, children t = [] -> eval_leaf (fun _ => false) ev values t = f64_leaf o values t) /\
  (forall h vs, eval_operation ev h vs = f64_op o h vs).
Proof.
  eexists. split; [reflexivity|]. split.
  - intros values t Ht. unfold eval_leaf, f64_leaf. destruct (dict_get tree_eqb values t); [reflexivity|].
    unfold eval_atom. destruct t as [[ty v]|[|c cs]]; [|reflexivity|discriminate]. cbn [tree_value bind atom_type].
    unfold add_op1, add_op2, add_opn, add_atom, new_evaluator. cbn [ev_atoms ev_generic_atom dict_set dict_get].
    destruct (atype_eqb ty T_Integer); reflexivity.
  - intros h vs. unfold eval_operation, f64_op, add_op1, add_op2, add_opn, add_atom, new_evaluator.
    cbn [ev_operations ev_generic_operation]. rewrite !(dict_get_set _ tree_eqb_spec). cbn [dict_get].
    destruct (tree_eqb_spec h cos) as [->|_]; [destruct vs as [|? [|]]; reflexivity|].
    destruct (tree_eqb_spec h sin) as [->|_]; [destruct vs as [|? [|]]; reflexivity|].
    destruct (tree_eqb_spec h Pow) as [->|_]; [destruct vs as [|? [|? [|]]]; reflexivity|].
    destruct (tree_eqb_spec h Mul) as [->|_]; [reflexivity|].
    destruct (tree_eqb_spec h Add) as [->|_]; reflexivity.
Qed.
Lemma eval_f64_meaning {F} (o : float_ops F) e values v :
  eval_f64 o e (Some values) = Ok v <-> meaning (f64_leaf o values) (f64_op o) e = Ok v.
Proof.
  destruct (f64_ev o) as (ev & E & Hl & Ho). unfold eval_f64. rewrite E. cbn [bind]. unfold sym_evaluate, evaluate.
  rewrite eval_forward_meaning. rewrite (meaning_ext _ (f64_leaf o values) _ (f64_op o) e); [reflexivity| |].
  - intros s _ Hs. apply Hl, Hs.
  - intros h args vs _ _. apply Ho.
Qed.
Lemma eval_f64_none {F} (o : float_ops F) e : eval_f64 o e None = eval_f64 o e (Some []).
Proof. destruct (f64_ev o) as (ev & E & _). unfold eval_f64. rewrite E. reflexivity. Qed.
