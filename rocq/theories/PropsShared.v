(** * Rules registered by other threads while one evaluates or differentiates: C85. *)
From Verif Require Import Py ModelTree SpecTree ModelEval ModelDiff ModelSym ModelCas ModelShared SpecShared ProofBase ProofGraph ProofTree ProofDiff ProofShared Samples.
Local Open Scope string_scope.

(** C85. If the others leave the rules for the functions and atom types of the expression alone, the result is that of
    these rules. *)
Theorem C85_other_functions {V} (is_none : V -> bool) seen ev e values :
  (forall n, same_rules_for e (seen n) ev) -> fst (s_evaluate is_none seen e values) = evaluate is_none ev e values.
Proof.
  intros H. unfold s_evaluate, evaluate. generalize 0%nat. apply (m_eval_forward (@same) same_modular).
  - intros a Hr. apply (same_atom seen e); assumption.
  - intros h args vs Hr. apply (same_op seen e ev h args); assumption.
  - intros n. reflexivity.
Qed.
(** If rules are added meanwhile but none is replaced, then a result that the rules at the start give is found, and a
    result that is found is what the rules give at the end, and ever after; the only other outcome is an exception, and
    then the rules at the start gave none either. *)
Theorem C85_rules_added {V} (is_none : V -> bool) seen e values :
  growing more_rules seen ->
  let (r, n) := s_evaluate is_none seen e values in
  (forall v, evaluate is_none (seen 0) e values = Ok v -> r = Ok v) /\
  (forall v m, r = Ok v -> (n <= m)%nat -> evaluate is_none (seen m) e values = Ok v).
Proof.
  intros G. unfold s_evaluate, evaluate. destruct (s_eval_forward _ _ _ _ 0) as [r n] eqn:E. split.
  - intros v Hv.
    assert (D : downward 0 (s_eval_forward is_none seen (match values with Some d => d | None => [] end) e) (eval_forward is_none (seen 0%nat) (match values with Some d => d | None => [] end) e)).
    { apply (m_eval_forward (@downward 0) (downward_modular 0)); [intros; apply down_atom, G|intros; apply down_op, G|discriminate]. }
    destruct (D 0%nat v (Nat.le_refl _) Hv) as (m & _ & Em). rewrite E in Em. congruence.
  - intros v m -> Hm.
    assert (U : upward m (s_eval_forward is_none seen (match values with Some d => d | None => [] end) e) (eval_forward is_none (seen m) (match values with Some d => d | None => [] end) e)).
    { apply (m_eval_forward (@upward m) (upward_modular m)); [intros; apply up_atom, G|intros; apply up_op, G|discriminate]. }
    apply (U _ _ _ E), Hm.
Qed.
(** [add_op1] and so on add rules in this sense if there was none for the head or type. *)
Theorem C85_adding {V} (ev : evaluator V) :
  ev_generic_atom ev = generic_atom_error -> ev_generic_operation ev = generic_operation_error ->
  (forall h c, dict_get tree_eqb (ev_operations ev) h = None -> more_rules ev (add_op1 ev h c) /\ more_rules ev (add_op2 ev h c) /\ more_rules ev (add_opn ev h c)) /\
  (forall ty c, dict_get atype_eqb (ev_atoms ev) ty = None -> more_rules ev (add_atom ev ty c)).
Proof.
  intros Ha Ho. split.
  - intros h c Hh.
    assert (H : forall star h' f, dict_get tree_eqb (ev_operations ev) h' = Some f -> dict_get tree_eqb (dict_set tree_eqb (ev_operations ev) h (c, star)) h' = Some f).
    { intros star h' f Hf. rewrite (dict_get_set tree_eqb tree_eqb_spec). destruct (tree_eqb_spec h' h); [congruence|exact Hf]. }
    repeat split; cbn; auto.
  - intros ty c Ht. repeat split; cbn; auto. intros ty' f Hf.
    rewrite (dict_get_set atype_eqb atype_eqb_spec). destruct (atype_eqb_spec ty' ty); [congruence|exact Hf].
Qed.

(** Differentiation. *)
Theorem C85_other_derivatives seen p e s :
  (forall n, same_derivatives_for e (seen n) p) ->
  fst (s_diff_call (dp_zero p) (dp_one p) (dp_add p) (dp_mul p) seen e s 1) = sym_diff_call p e s 1.
Proof.
  intros H. unfold s_diff_call, sym_diff_call. generalize 0%nat.
  apply (m_bind (@same) same_modular); [|intros d; apply (m_lift (@same) same_modular)].
  apply (m_diff_forward (@same) same_modular); try reflexivity. intros h args args' ds Hr. apply (terms_same _ _ _ _ _ e p h args); auto.
Qed.
Theorem C85_derivatives_added seen e s n :
  growing more_derivatives seen ->
  let p := seen 0%nat in
  let (r, k) := s_diff_call (dp_zero p) (dp_one p) (dp_add p) (dp_mul p) seen e s n in
  (forall d, sym_diff_call p e s n = Ok d -> r = Ok d) /\
  (forall d m, r = Ok d -> (k <= m)%nat -> sym_diff_call (seen m) e s n = Ok d).
Proof.
  intros G p. unfold s_diff_call, sym_diff_call. destruct (s_repeat _ _ _ _ _ _ _ _ 0) as [r k] eqn:E. split.
  - intros d Hd.
    assert (D : downward 0 (s_repeat (dp_zero p) (dp_one p) (dp_add p) (dp_mul p) seen (Z.to_nat n) s e) (repeatM (fun d => diff_forward d s p) (Z.to_nat n) e)).
    { apply (m_repeat (@downward 0) (downward_modular 0)); try reflexivity. intros. apply terms_down; auto. }
    destruct (D 0%nat d (Nat.le_refl _) Hd) as (m & _ & Em). rewrite E in Em. congruence.
  - intros d m -> Hm. destruct (G 0%nat m ltac:(lia)) as [(Hz & Ho & Ha & Hmu) _].
    assert (U : upward m (s_repeat (dp_zero p) (dp_one p) (dp_add p) (dp_mul p) seen (Z.to_nat n) s e) (repeatM (fun d => diff_forward d s (seen m)) (Z.to_nat n) e)).
    { apply (m_repeat (@upward m) (upward_modular m)); try (symmetry; assumption). intros. apply terms_up; auto. }
    apply (U _ _ _ E), Hm.
Qed.
(** [diff[f(a), a] = rhs] adds rules in this sense if [f] had none. *)
Theorem C85_adding_derivatives p h args s rhs :
  (forall i, dict_get rule_key_eqb (dp_rules p) (h, i) = None) ->
  more_derivatives p (fst (diff_setitem p (STuple [Node (h :: args); s]) rhs)).
Proof.
  intros Hh. unfold diff_setitem. cbn [children getitem nth_error of_option bind tl].
  destruct (negb (Nat.eqb (count args s) 1)); [cbn; repeat split; auto|].
  destruct (tuple_index args s) as [i|]; [cbn [bind]|cbn; repeat split; auto].
  destruct (subs_new rhs args) as [func|]; [cbn [bind fst]|cbn; repeat split; auto].
  split; [repeat split|]. split; [reflexivity|]. intros [h' i'] r Hr. cbn [add_diff_rule dp_rules].
  rewrite (dict_get_set rule_key_eqb rule_key_eqb_spec). destruct (rule_key_eqb_spec (h', i') (h, i)) as [E|_]; [|exact Hr].
  injection E as -> ->. rewrite Hh in Hr. discriminate.
Qed.
(** So in simplecas: whatever rules for further functions other threads give to [diff] meanwhile, [e.diff(s, n)]
    has the result that it has without them. *)
Theorem C85_diff seen e s n d :
  growing more_derivatives seen -> seen 0%nat = cas_diff -> expr_diff e s n = Ok d ->
  fst (s_diff_call zero one Add Mul seen e s n) = Ok d.
Proof.
  intros G E0 H. pose proof (C85_derivatives_added seen e s n G) as T. cbv zeta in T. rewrite E0 in T.
  change (dp_zero cas_diff) with zero in T. change (dp_one cas_diff) with one in T. change (dp_add cas_diff) with Add in T. change (dp_mul cas_diff) with Mul in T.
  destruct (s_diff_call zero one Add Mul seen e s n) as [r k]. destruct T as [T _]. cbn [fst]. apply T.
  unfold expr_diff in H. unfold sym_diff_call. rewrite <- H. clear. revert e. induction (Z.to_nat n) as [|m IH]; intros e; [reflexivity|]. cbn [repeatM].
  change (sym_diff_call cas_diff e s 1) with (do d <- diff_forward e s cas_diff; Ok d). destruct (diff_forward e s cas_diff); [|reflexivity]. cbn [bind]. apply IH.
Qed.

(** ** Cases *)
(** An evaluator for [f(x) = x + n] and [g(x) = 2*x]. *)
Definition ev_c85 (n : Z) : evaluator Z :=
  add_op1 (add_op1 new_evaluator f (py1 (fun v => Ok (v + n)%Z))) g (py1 (fun v => Ok (2 * v)%Z)).
Definition ev_c85_h (n : Z) : evaluator Z := add_op1 (ev_c85 n) (fn "h") (py1 (fun v => Ok (v - 1)%Z)).
(** Another thread registers a rule for [h] when this one has read the evaluator twice. *)
Definition seen_c85 (n : nat) : evaluator Z := if (n <? 2)%nat then ev_c85 1 else ev_c85_h 1.
Lemma growing_two {X} (more : X -> X -> Prop) a b k : more a a -> more b b -> more a b -> growing more (fun n => if (n <? k)%nat then a else b).
Proof. intros Ha Hb Hab i j Hij. destruct (Nat.ltb_spec i k), (Nat.ltb_spec j k); auto; lia. Qed.
Example C85_case :
  (forall n, same_rules_for (call1 f (call1 g x)) (seen_c85 n) (ev_c85 1)) /\
  fst (s_evaluate (fun _ => false) seen_c85 (call1 f (call1 g x)) (Some [(x, 5%Z)])) = Ok 11%Z /\
  growing more_rules seen_c85 /\
  s_evaluate (fun _ => false) seen_c85 (call1 (fn "h") (call1 f (call1 g x))) (Some [(x, 5%Z)]) = (Ok 10%Z, 3%nat) /\
  evaluate (fun _ => false) (seen_c85 0) (call1 (fn "h") (call1 f (call1 g x))) (Some [(x, 5%Z)]) = Err NoEvaluationRuleError /\
  fst (s_evaluate (fun _ => false) seen_c85 (call1 f (call1 (fn "h") x)) (Some [(x, 5%Z)])) = Err NoEvaluationRuleError.
Proof.
  split. { intros n. unfold seen_c85. destruct (n <? 2)%nat; [repeat split|]. split; [reflexivity|]. split; [|repeat split].
    intros h args Hr. cbn. destruct (tree_eqb_spec h (fn "h")) as [->|Hh].
    - exfalso. apply forder_In in Hr. vm_compute in Hr. repeat destruct Hr as [Hr|Hr]; discriminate || assumption.
    - destruct (tree_eqb h f); [reflexivity|]. destruct (tree_eqb h g); reflexivity. }
  split; [vm_compute; reflexivity|]. split.
  { assert (forall ev : evaluator Z, ev_generic_atom ev = generic_atom_error -> ev_generic_operation ev = generic_operation_error -> more_rules ev ev) as R by (repeat split; auto).
    apply growing_two; [apply R; reflexivity|apply R; reflexivity|]. apply C85_adding; reflexivity. }
  repeat split; vm_compute; reflexivity.
Qed.
(** If a rule is replaced meanwhile, old and new rules may be mixed in one result: with [f(x) = x + 1] replaced by
    [f(x) = x + 10] the value of f(f(0)) can be 11, which is neither 2 nor 20. *)
Theorem C85_replaced_rules_refuted :
  exists (old new : evaluator Z) seen e values, (forall n, seen n = if (n <? 1)%nat then old else new) /\
    fst (s_evaluate (fun _ => false) seen e values) = Ok 11%Z /\
    evaluate (fun _ => false) old e values = Ok 2%Z /\ evaluate (fun _ => false) new e values = Ok 20%Z.
Proof.
  exists (ev_c85 1), (ev_c85 10), (fun n => if (n <? 1)%nat then ev_c85 1 else ev_c85 10), (call1 f (call1 f x)), (Some [(x, 0%Z)]).
  split; [reflexivity|]. repeat split; vm_compute; reflexivity.
Qed.

Definition tan_c85 := fn "tan".
Definition diff_c85 : diff_props := fst (diff_setitem cas_diff (STuple [call1 tan_c85 wa; wa]) (m_add one (m_pow (call1 tan_c85 wa) (int 2)))).
(** Another thread registers the rule for tan when this one has read the rules three times. *)
Definition seen_diff_c85 (n : nat) : diff_props := if (n <? 3)%nat then cas_diff else diff_c85.
Example C85_case_diff :
  growing more_derivatives seen_diff_c85 /\
  s_diff_call zero one Add Mul seen_diff_c85 (call1 tan_c85 (call1 sin x)) x 1 =
    (Ok (m_mul (m_add one (m_pow (call1 tan_c85 (call1 sin x)) (int 2))) (call1 cos x)), 4%nat) /\
  fst (s_diff_call zero one Add Mul seen_diff_c85 (call1 sin (call1 tan_c85 x)) x 1) = Err KeyError /\
  (forall n, same_derivatives_for (call1 sin (call1 cos x)) (seen_diff_c85 n) cas_diff) /\
  (exists d, expr_diff (call1 sin (call1 cos x)) x 2 = Ok d /\ fst (s_diff_call zero one Add Mul seen_diff_c85 (call1 sin (call1 cos x)) x 2) = Ok d).
Proof.
  assert (G : growing more_derivatives seen_diff_c85).
  { assert (forall p, more_derivatives p p) as R by (repeat split; auto). apply growing_two; [apply R|apply R|].
    apply C85_adding_derivatives. intros i. cbn. unfold rule_key_eqb. cbn. destruct i as [|[|i]]; reflexivity. }
  split; [exact G|]. split; [vm_compute; reflexivity|]. split; [vm_compute; reflexivity|]. split.
  - intros n. unfold seen_diff_c85. destruct (n <? 3)%nat; [repeat split; auto|]. split; [repeat split|]. intros h args Hr.
    split; [reflexivity|]. intros i. unfold diff_c85. cbn - [cas_diff]. unfold add_diff_rule. cbn [dp_rules].
    assert (Hne : (h, i) <> (tan_c85, 0%nat)).
    { intros E. injection E as -> ->. apply forder_In in Hr. vm_compute in Hr. repeat destruct Hr as [Hr|Hr]; discriminate || assumption. }
    rewrite (dict_get_set rule_key_eqb rule_key_eqb_spec). destruct (rule_key_eqb_spec (h, i) (tan_c85, 0%nat)); [contradiction|reflexivity].
  - eexists. split; [vm_compute; reflexivity|vm_compute; reflexivity].
Qed.
(** A replaced rule: with diff[f(a), a] = cos(a) replaced by sin(a), the derivative of f(f(x)) can be sin(f(x))*cos(x). *)
Definition diff_f (rhs : tree) : diff_props := fst (diff_setitem cas_diff (STuple [call1 f wa; wa]) rhs).
Theorem C85_replaced_derivatives_refuted :
  exists old new seen, (forall n, seen n = if (n <? 2)%nat then old else new) /\
    fst (s_diff_call zero one Add Mul seen (call1 f (call1 f x)) x 1) = Ok (m_mul (call1 sin (call1 f x)) (call1 cos x)) /\
    sym_diff_call old (call1 f (call1 f x)) x 1 = Ok (m_mul (call1 cos (call1 f x)) (call1 cos x)) /\
    sym_diff_call new (call1 f (call1 f x)) x 1 = Ok (m_mul (call1 sin (call1 f x)) (call1 sin x)).
Proof.
  exists (diff_f (call1 cos wa)), (diff_f (call1 sin wa)), (fun n => if (n <? 2)%nat then diff_f (call1 cos wa) else diff_f (call1 sin wa)).
  split; [reflexivity|]. repeat split; vm_compute; reflexivity.
Qed.
Print Assumptions C85_other_functions.
Print Assumptions C85_rules_added.
Print Assumptions C85_adding.
Print Assumptions C85_other_derivatives.
Print Assumptions C85_derivatives_added.
Print Assumptions C85_adding_derivatives.
Print Assumptions C85_diff.
Print Assumptions C85_replaced_rules_refuted.
Print Assumptions C85_replaced_derivatives_refuted.
