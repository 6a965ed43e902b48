(** * Several Sym classes: C75. *)
From Verif Require Import Py ModelTree SpecTree ProofBase ModelEval SpecEval ProofEval ModelDiff ModelSym ModelCas ModelClasses SpecClasses Samples.
Local Open Scope string_scope.

Lemma sym_eqb_spec s t : reflect (s = t) (sym_eqb s t).
Proof.
  unfold sym_eqb. destruct s as [c a], t as [d b]. cbn [s_cls s_rep]. destruct (Nat.eqb_spec c d) as [->|H]; cbn [andb]; [|constructor; congruence].
  destruct (tree_eqb_spec a b) as [->|H]; constructor; congruence.
Qed.
Lemma syms_eqb_spec l : forall m, reflect (l = m) (syms_eqb l m).
Proof.
  induction l as [|s l IH]; intros [|t m]; cbn [syms_eqb]; try (constructor; congruence).
  destruct (sym_eqb_spec s t) as [->|H]; cbn [andb]; [|constructor; congruence]. destruct (IH m) as [->|H]; constructor; congruence.
Qed.
Lemma trees_eqb_spec l m : reflect (l = m) (trees_eqb l m).
Proof. unfold trees_eqb. destruct (tree_eqb_spec (Node l) (Node m)) as [E|E]; constructor; congruence. Qed.
Lemma syms_split l m : l = m <-> map s_rep l = map s_rep m /\ map s_cls l = map s_cls m.
Proof.
  split; [intros ->; auto|]. revert m. induction l as [|[c a] l IH]; intros [|[d b] m] [H1 H2]; try discriminate; [reflexivity|].
  cbn [map s_rep s_cls] in *. injection H1 as -> H1. injection H2 as -> H2. f_equal. apply IH. auto.
Qed.
Lemma syms_eqb_split l m : syms_eqb l m = trees_eqb (map s_rep l) (map s_rep m) && (if list_eq_dec Nat.eq_dec (map s_cls l) (map s_cls m) then true else false).
Proof.
  destruct (syms_eqb_spec l m) as [E|E]; destruct (trees_eqb_spec (map s_rep l) (map s_rep m)) as [E1|E1]; destruct (list_eq_dec _ _ _) as [E2|E2]; try reflexivity; exfalso.
  - subst; congruence.
  - subst; congruence.
  - subst; congruence.
  - apply E, syms_split. auto.
Qed.
Lemma map_rep c l : map s_rep (map (mkSym c) l) = l.
Proof. rewrite map_map. cbn [s_rep]. apply map_id. Qed.
Lemma pattern_args_rep p : map s_rep (c_pattern_args p) = pattern_args (bare_pattern p).
Proof. destruct p; cbn [c_pattern_args bare_pattern pattern_args map]; try reflexivity. unfold c_args, sym_args. apply map_rep. Qed.
Lemma head_rep s : match c_head s with Ok h => Ok (s_rep h) | Err x => Err x end = sym_head (s_rep s).
Proof. unfold c_head, sym_head. destruct (getitem (children (s_rep s)) 0); reflexivity. Qed.
Lemma bare_rest {V} (ev : evaluator V) p c : 
  match p, cc_op c with
  | CAtomRule _, AtomFunc func => (add_atom_generic ev func, Ok tt)
  | CHeadRule _ _, HeadOp func => (add_op_generic ev func, Ok tt)
  | CAtomValue ty _, PyFunc1 func => (add_atom ev (sat_type ty) func, Ok tt)
  | CSym s, PyOp1 _ | CSym s, PyOp2 _ | CSym s, PyOpN _ =>
      match c_head s with Ok head => sym_add_op ev (s_rep head) (cc_op c) | Err x => (ev, Err x) end
  | _, _ => (ev, Err BadRuleError)
  end = match signature_check (bare_pattern p) (bare_call c) with
        | Ok _ => set_item ev (bare_pattern p) (RCall (bare_call c))
        | Err _ => match p, cc_op c with
  | CAtomRule _, AtomFunc func => (add_atom_generic ev func, Ok tt)
  | CHeadRule _ _, HeadOp func => (add_op_generic ev func, Ok tt)
  | CAtomValue ty _, PyFunc1 func => (add_atom ev (sat_type ty) func, Ok tt)
  | CSym s, PyOp1 _ | CSym s, PyOp2 _ | CSym s, PyOpN _ =>
      match c_head s with Ok head => sym_add_op ev (s_rep head) (cc_op c) | Err x => (ev, Err x) end
  | _, _ => (ev, Err BadRuleError)
  end end.
Proof.
  destruct (signature_check (bare_pattern p) (bare_call c)) as [u|x] eqn:E; [|reflexivity]. unfold set_item. rewrite E.
  destruct p as [s|ty w|w|h a]; cbn [bare_pattern bare_call wc_op]; [|destruct (cc_op c); reflexivity..].
  rewrite <- (head_rep s). destruct (cc_op c); try reflexivity; destruct (c_head s); reflexivity.
Qed.

(** C75. If the classes of the arguments in the pattern and in the call are the same, a rule is accepted or rejected
    and has the effect that its trees alone determine: all that is proved of the rules for one class holds. *)
Theorem C75_same_classes {V} (ev : evaluator V) p c : same_classes p c ->
  c_set_item ev p (Some c) = set_item ev (bare_pattern p) (RCall (bare_call c)).
Proof.
  unfold same_classes. intros H.
  assert (Hs : c_signature_check p c = signature_check (bare_pattern p) (bare_call c)).
  { unfold c_signature_check, signature_check. cbn [bare_call wc_op wc_args].
    assert (G : forall l, map s_cls (c_pattern_args p) = map s_cls l -> syms_eqb (c_pattern_args p) l = trees_eqb (pattern_args (bare_pattern p)) (map s_rep l)).
    { intros l Hl. rewrite syms_eqb_split, pattern_args_rep. destruct (list_eq_dec _ _ _) as [_|n]; [apply andb_true_r|contradiction]. }
    destruct (cc_op c); try (rewrite (G _ H); reflexivity). destruct (cc_args c) as [|a [|b r]]; try reflexivity. cbn [map].
    rewrite (G [c_star a] H). reflexivity. }
  unfold c_set_item. rewrite Hs. rewrite (bare_rest ev p c). unfold set_item. destruct (signature_check (bare_pattern p) (bare_call c)); reflexivity.
Qed.
(** If they are not, the rule is rejected and the evaluator is left as it was, even if the trees are right. *)
Theorem C75_mixed_classes_rejected {V} (ev : evaluator V) p c : ~ same_classes p c ->
  exists x, c_set_item ev p (Some c) = (ev, Err x) /\ (pyfunc_call (cc_op c) (map s_rep (cc_args c)) <> Err TypeError -> x = BadRuleError).
Proof.
  unfold same_classes. intros H. unfold c_set_item, c_signature_check.
  assert (G : forall l, map s_cls (c_pattern_args p) <> map s_cls l -> syms_eqb (c_pattern_args p) l = false).
  { intros l Hl. rewrite syms_eqb_split. destruct (list_eq_dec _ _ _) as [e|_]; [contradiction|apply andb_false_r]. }
  destruct (cc_op c); try (rewrite (G _ H); eexists; split; [reflexivity|reflexivity]).
  destruct (cc_args c) as [|a [|b r]]; try (eexists; split; [reflexivity|]; cbn; congruence).
  rewrite (G [c_star a] H). eexists. split; [reflexivity|reflexivity].
Qed.
(** Evaluation looks only at the trees; of several values for the same tree, given under different classes, the last
    one in the dict is used. *)
Theorem C75_evaluation_ignores_classes {V} (is_none : V -> bool) (ev : evaluator V) expr values d :
  (forall t, dict_get tree_eqb d t = last_value values t) ->
  c_evaluate is_none ev expr (Some values) = sym_evaluate is_none ev (s_rep expr) (Some d).
Proof.
  intros H. unfold c_evaluate, sym_evaluate, evaluate. apply eval_forward_values_irrelevant. intros s _ _. unfold eval_leaf.
  assert (E : dict_get tree_eqb (dict_update tree_eqb [] (map (fun ev => (s_rep (fst ev), snd ev)) values)) s = dict_get tree_eqb d s); [|rewrite E; reflexivity].
  rewrite H, (dict_update_get _ tree_eqb_spec). cbn [dict_get]. clear H. induction values as [|[k v] r IH]; [reflexivity|].
  cbn [map rev fst snd last_value]. rewrite dict_get_app. cbn [dict_get].
  destruct (dict_get tree_eqb (rev (map (fun ev => (s_rep (fst ev), snd ev)) r)) s); rewrite <- IH; [reflexivity|].
  destruct (tree_eqb s (s_rep k)); reflexivity.
Qed.
(** A derivative belongs to the class that the differentiator was made for, and its tree is determined by the trees of
    everything else, whatever classes these belong to. *)
Theorem C75_derivatives new_sym add mul zero one events expr s n :
  let d := fold_left happen events (c_diff_new new_sym add mul zero one) in
  let d0 := fold_left happen (map bare_event events)
    (c_diff_new new_sym (mkSym 0 (s_rep add)) (mkSym 0 (s_rep mul)) (mkSym 0 (s_rep zero)) (mkSym 0 (s_rep one))) in
  (forall r, c_diff_call d expr s n = Ok r -> s_cls r = new_sym) /\
  c_diff_call d expr s n = c_diff_call d0 (mkSym 0 (s_rep expr)) (mkSym 0 (s_rep s)) n.
Proof.
  cbv zeta. unfold c_diff_new. cbn [s_rep]. generalize (sym_diff_new (s_rep add) (s_rep mul) (s_rep zero) (s_rep one)) as p.
  induction events as [|e events IH]; intros p.
  - cbn [map fold_left]. unfold c_diff_call. cbn [cd_props cd_new_sym s_rep]. split; [|reflexivity].
    intros r H. destruct (sym_diff_call p (s_rep expr) (s_rep s) n); [|discriminate]. cbn [bind] in H. injection H as <-. reflexivity.
  - cbn [map fold_left]. destruct e as [h|e s' r']; cbn [happen bare_event].
    + apply IH.
    + unfold c_diff_setitem. cbn [cd_props cd_new_sym s_rep]. destruct (diff_setitem p (STuple [s_rep e; s_rep s']) (s_rep r')) as [p' r2]. cbn [fst]. apply IH.
Qed.
(** head, args and the parts of these have the class of the expression, and give it back. *)
Theorem C75_parts s : (forall t, part s t -> s_cls t = s_cls s) /\
  forall h, c_head s = Ok h -> mkSym (s_cls s) (tree_call (s_rep h) (map s_rep (c_args s))) = s.
Proof.
  split.
  - intros t H. induction H as [s|s h t Hh _ IH|s a t Ha _ IH]; [reflexivity| |].
    + rewrite IH. unfold c_head in Hh. destruct (getitem (children (s_rep s)) 0); [|discriminate]. injection Hh as <-. reflexivity.
    + rewrite IH. unfold c_args in Ha. apply in_map_iff in Ha as (u & <- & _). reflexivity.
  - intros h H. unfold c_head in H. destruct s as [c [a|[|t l]]]; try discriminate. injection H as <-. unfold c_args. cbn [s_rep s_cls children tl].
    rewrite map_rep. reflexivity.
Qed.
(** Class 0 and class 1. *)
Definition rep_a := new_wild "a".
Example C75_case :
  let ok := mkCCall (PyOp1 (py1 (fun n => Ok (S n)))) [c_wild 0 "a"] in
  let p0 := CSym (mkSym 0 (call1 f rep_a)) in let p1 := CSym (mkSym 1 (call1 f rep_a)) in
  let atom := CAtomValue (mkSymAtomType 0 T_Integer) (c_wild 0 "a") in
  let of_int := mkCCall (PyFunc1 (fun v => match v with VInt z => Ok (Z.to_nat z) | _ => Err TypeError end)) [c_wild 0 "a"] in
  let ev := fst (c_set_item (fst (c_set_item new_evaluator p0 (Some ok))) atom (Some of_int)) in
  same_classes p0 ok /\ ~ same_classes p1 ok /\ bare_pattern p1 = bare_pattern p0 /\
  snd (c_set_item new_evaluator p0 (Some ok)) = Ok tt /\ snd (c_set_item ev p1 (Some ok)) = Err BadRuleError /\
  c_evaluate (fun _ => false) ev (mkSym 1 (call1 f (int 3))) None = Ok 4 /\
  c_evaluate (fun _ => false) ev (mkSym 1 (call1 f x)) (Some [(mkSym 0 x, 10); (mkSym 1 x, 20)]) = Ok 21 /\
  (forall t, dict_get tree_eqb [(x, 20)] t = last_value [(mkSym 0 x, 10); (mkSym 1 x, 20)] t) /\
  c_diff_call (fst (c_diff_setitem (c_diff_new 0 (mkSym 0 Add) (mkSym 0 Mul) (mkSym 0 zero) (mkSym 0 one))
    (mkSym 1 (call1 sin rep_a)) (mkSym 1 rep_a) (mkSym 2 (call1 cos rep_a)))) (mkSym 1 (call1 sin x)) (mkSym 2 x) 1 = Ok (mkSym 0 (call1 cos x)).
Proof.
  cbv zeta. split; [reflexivity|]. split; [discriminate|]. do 5 (split; [reflexivity|]). split; [|reflexivity].
  intros t. cbn [last_value dict_get s_rep]. destruct (tree_eqb t x); reflexivity.
Qed.
Print Assumptions C75_same_classes.
Print Assumptions C75_mixed_classes_rejected.
Print Assumptions C75_evaluation_ignores_classes.
Print Assumptions C75_derivatives.
Print Assumptions C75_parts.
