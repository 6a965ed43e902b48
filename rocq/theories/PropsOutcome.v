(** * C88: which exception an evaluation raises *)
From Verif Require Import Py ModelTree SpecTree ProofBase ModelEval SpecEval ProofEval ModelDiff SpecDiff ProofDiff ModelSym ModelCas ProofSubs PropsTree
  SpecPrint ProofPrint ProofF64 SpecOutcome ProofOutcome Samples.
Local Open Scope string_scope.

(** C88. Evaluation looks at all atoms first, from left to right, then applies the rules of the operations,
    arguments first: for atomic values that are not None it raises the exception of the first atom that raises; if
    no atom raises, it does exactly what the recursion does, also as regards exceptions. *)
Theorem C88_atoms_first {V} (is_none : V -> bool) (ev : evaluator V) values e :
  (forall s v, reach false [] e s -> dict_get tree_eqb values s = Some v -> children s = [] /\ is_none v = false) ->
  evaluate is_none ev e (Some values) =
  match first_error (eval_recursive ev values) (leaves e) with
  | Some x => Err x
  | None => eval_recursive ev values e
  end.
Proof.
  intros H. unfold evaluate. rewrite (eval_recursive_meaning is_none ev values e H), (forward_outcome is_none ev values e).
  rewrite (fe_ext (eval_recursive ev values) (eval_leaf is_none ev values)); [reflexivity|].
  intros a Ha. assert (Hc := leaves_childless e a Ha).
  assert (Hr : reach false [] e a).
  { rewrite leaves_post in Ha. apply filter_In in Ha as [Ha _]. apply ProofTopo.post_reach in Ha. exact Ha. }
  rewrite (eval_recursive_meaning is_none ev values a), meaning_leaf by assumption || (intros s v Hs; apply H; eapply ProofTopo.reach_trans; eauto).
  reflexivity.
Qed.
(** For any values: what evaluating a compound expression does, in terms of evaluating its atoms and its arguments. *)
Theorem C88_compound {V} (is_none : V -> bool) (ev : evaluator V) values h args :
  evaluate is_none ev (tree_call h args) values =
  match first_error (fun a => evaluate is_none ev a values) (leaves (tree_call h args)) with
  | Some x => Err x
  | None => do vs <- mapM (fun a => evaluate is_none ev a values) args; eval_operation ev h vs
  end.
Proof. exact (forward_outcome_node is_none ev _ h args). Qed.

(** So forward and recursive evaluation may raise different exceptions: f(h(x), y) where the rule for h raises
    and y has no value. *)
Theorem C88_same_exception_refuted :
  let ev := add_op1 (@new_evaluator Z) g (py1 (fun _ => Err ValueError)) in
  let e := tree_call f [tree_call g [x]; y] in
  evaluate nn ev e (Some [(x, 1%Z)]) = Err NoEvaluationRuleError /\
  eval_recursive ev [(x, 1%Z)] e = Err ValueError.
Proof. split; reflexivity. Qed.

(** str and LaTeX. The only atom without text is Tree(). *)
Theorem C88_str e : (proper e -> eval_repr e = pretty e) /\ (~ proper e -> eval_repr e = Err AttributeError).
Proof.
  assert (H : eval_repr e = match first_error pretty (leaves e) with Some x => Err x | None => pretty e end)
    by (apply eval_repr_outcome).
  assert (Hl : forall l, (forall a, In a l -> children a = []) ->
    (first_error pretty l = None /\ ~ In (Node []) l) \/ (first_error pretty l = Some AttributeError /\ In (Node []) l)).
  { induction l as [|a l IH]; intros Hc; [left; split; [reflexivity|intros []]|].
    destruct a as [a|[|c cs]]; [|right; split; [reflexivity|left; reflexivity]|exfalso; discriminate (Hc _ (or_introl eq_refl))].
    destruct IH as [[E Hn]|[E Hi]]; [intros b Hb; apply Hc; right; exact Hb| |].
    - left. split; [exact E|]. intros [H'|H']; [discriminate|auto].
    - right. split; [exact E|right; exact Hi]. }
  assert (Hp : In (Node []) (leaves e) <-> reach false [] e (Node [])).
  { rewrite leaves_post, filter_In, ProofTopo.post_reach. cbn. tauto. }
  unfold proper. rewrite <- Hp, H.
  destruct (Hl (leaves e) (leaves_childless e)) as [[-> Hn]|[-> Hi]]; split; intros H'; try tauto; reflexivity.
Qed.
Theorem C88_latex e : eval_latex e = match first_error latex (leaves e) with Some x => Err x | None => latex e end.
Proof. apply eval_latex_outcome. Qed.

(** eval_f64: first all missing values and unrepresentable integers, then the arithmetic. *)
Theorem C88_f64 {F} (o : float_ops F) values e : whole e -> int_atoms e ->
  eval_f64 o e (Some values) =
  match first_error (f64_value o values) (leaves e) with
  | Some x => Err x
  | None => f64_value o values e
  end.
Proof. apply eval_f64_outcome. Qed.

Example C88_case :
  leaves (m_add (tree_call sin [m_pow x (int 2)]) (m_mul y x)) = [x; int 2; y; x] /\
  eval_latex (m_add (m_pow x wa) y) = Err NoEvaluationRuleError /\
  (whole (m_add (tree_call sin [m_pow x (int 2)]) (m_mul y x)) /\ int_atoms (m_add (tree_call sin [m_pow x (int 2)]) (m_mul y x))) /\
  eval_repr (tree_call f [tree_call Pow [x]; Node []]) = Err AttributeError /\
  pretty (tree_call f [tree_call Pow [x]; Node []]) = Err TypeError.
Proof.
  split; [reflexivity|]. split; [reflexivity|]. split; [|split; reflexivity]. split.
  - intros H. apply ProofTopo.post_reach in H. cbn in H. repeat destruct H as [H|H]; try discriminate; exact H.
  - intros a Ha Ht. cbn in Ha. destruct Ha as [Ha|[Ha|[Ha|[Ha|[]]]]]; injection Ha as <-; try discriminate Ht. eexists; reflexivity.
Qed.
Print Assumptions C88_atoms_first.
Print Assumptions C88_compound.
Print Assumptions C88_same_exception_refuted.
Print Assumptions C88_str.
Print Assumptions C88_latex.
Print Assumptions C88_f64.

(** C23. Differentiation returns what the recursion returns, or raises the exception that the recursion raises. *)
Theorem C23_same_outcome p s e : diff_forward e s p = deriv p s e.
Proof. apply diff_outcome. Qed.

Lemma mapM_first_error {A B} (f : A -> res B) l x : mapM f l = Err x -> exists a, In a l /\ f a = Err x.
Proof.
  induction l as [|a l IH]; cbn [mapM]; [discriminate|]. destruct (f a) as [b|y] eqn:E; cbn [bind]; [|intros H; exists a; split; [left; reflexivity|congruence]].
  destruct (mapM f l) as [bs|y]; cbn [bind]; [discriminate|]. intros H. destruct IH as (a' & Ha & Hf); [congruence|]. exists a'. split; [right; exact Ha|exact Hf].
Qed.
Lemma made_rules p : made p -> forall k sf, dict_get rule_key_eqb (dp_rules p) k = Some sf ->
  exists rhs params, subs_new rhs params = Ok sf.
Proof.
  intros H. induction H as [add mul zero one|p head _ IH|p sub rhs _ IH]; intros k sf; [discriminate|apply IH|].
  destruct sub as [es|t]; [|apply IH]. destruct es as [|e [|s [|]]]; try apply IH. cbn [diff_setitem].
  destruct (getitem (children e) 0) as [h|]; cbn [bind]; [|apply IH]. destruct (negb _); [apply IH|].
  destruct (tuple_index (tl (children e)) s) as [i|]; cbn [bind]; [|apply IH].
  destruct (subs_new rhs (tl (children e))) as [f0|] eqn:E; cbn [bind]; [|apply IH].
  cbn [fst add_diff_rule dp_rules]. intros Hg. rewrite (dict_get_set _ rule_key_eqb_spec) in Hg.
  destruct (rule_key_eqb k (h, i)); [injection Hg as <-; eauto|apply (IH _ _ Hg)].
Qed.
(** C26. The only exceptions are KeyError, where an argument that depends on the variable has no rule, and
    TypeError, where the rule is for another number of arguments. *)
Theorem C26_which_exception p s e x : made p -> diff_forward e s p = Err x ->
  exists h args i u d, reach false [] e (tree_call h args) /\ ~ In h (dp_distributive p) /\ h <> dp_add p /\ h <> dp_mul p /\
    nth_error args i = Some u /\ diff_forward u s p = Ok d /\ d <> dp_zero p /\
    ((dict_get rule_key_eqb (dp_rules p) (h, i) = None /\ x = KeyError) \/
     (exists sf rhs params, dict_get rule_key_eqb (dp_rules p) (h, i) = Some sf /\ subs_new rhs params = Ok sf /\
        length params <> length args /\ x = TypeError)).
Proof.
  intros Hp. rewrite diff_outcome. induction e as [a|cs IH] using tree_ind_all; intros H; [discriminate|]. destruct cs as [|h args]; [discriminate|].
  cbn [deriv] in H. destruct (mapM (deriv p s) args) as [ds|y] eqn:Ed; cbn [bind] in H.
  - destruct (mem h (dp_distributive p)) eqn:Em; [discriminate|]. destruct (tree_eqb_spec h (dp_add p)) as [|Ha]; [discriminate|].
    destruct (tree_eqb_spec h (dp_mul p)) as [|Hm]; [discriminate|].
    destruct (mapM (chain_term p h args) (dependent (dp_zero p) ds)) as [ts|y] eqn:Ec; cbn [bind] in H; [discriminate|]. injection H as ->.
    apply mapM_first_error in Ec as ([i d] & Hin & Hc). apply filter_In in Hin as [Hin Hz]. cbn [snd] in Hz.
    assert (Hi : nth_error ds i = Some d).
    { assert (G : forall l n, In (i, d) (combine (seq n (length l)) l) -> n <= i /\ nth_error l (i - n) = Some d).
      { induction l as [|a l IHl]; intros n; [intros []|]. cbn [length seq combine]. intros [E|Hl].
        - injection E as -> ->. rewrite Nat.sub_diag. split; [lia|reflexivity].
        - apply IHl in Hl as [H1 H2]. split; [lia|]. replace (i - n) with (S (i - S n)) by lia. exact H2. }
      apply G in Hin as [_ Hin]. rewrite Nat.sub_0_r in Hin. exact Hin. }
    apply mapM_Ok_Forall2 in Ed.
    assert (Hu : exists u, nth_error args i = Some u /\ deriv p s u = Ok d).
    { clear -Ed Hi. revert i Hi. induction Ed as [|a b l l' Hab _ IHl]; intros [|i] Hi; try discriminate; [injection Hi as ->; exists a; split; [reflexivity|exact Hab]|].
      destruct (IHl i Hi) as (u & H). exists u. exact H. }
    destruct Hu as (u & Hu1 & Hu2). exists h, args, i, u, d. split; [constructor; intros []|].
    split; [intros Hn; apply mem_true in Hn; congruence|]. split; [exact Ha|]. split; [exact Hm|]. split; [exact Hu1|].
    split; [rewrite diff_outcome; exact Hu2|]. split; [intros ->; rewrite tree_eqb_refl in Hz; discriminate|].
    unfold chain_term in Hc. cbn [fst snd] in Hc. destruct (dict_get rule_key_eqb (dp_rules p) (h, i)) as [sf|] eqn:Eg.
    + right. destruct (made_rules p Hp _ _ Eg) as (rhs & params & Es). exists sf, rhs, params. split; [reflexivity|]. split; [exact Es|].
      destruct (PropsTree.C15_subs_arity rhs params) as (sf' & Es' & H1 & H2). rewrite Es in Es'. injection Es' as <-.
      destruct (Nat.eq_dec (length args) (length params)) as [El|El].
      * destruct (H2 args El) as (t & Ht). rewrite Ht in Hc. discriminate.
      * rewrite (H1 args El) in Hc. cbn [bind] in Hc. split; congruence.
    + left. split; [reflexivity|congruence].
  - injection H as ->. apply mapM_first_error in Ed as (c & Hc & Hd). destruct (IH c (or_intror Hc) Hd) as (h' & args' & i & u & d & Hr & Hrest).
    exists h', args', i, u, d. split; [|exact Hrest]. eapply reach_child; [intros []|exact Hc|exact Hr].
Qed.
(** Both happen, and the first one on the way up, arguments from left to right, is raised. *)
Example C26_exceptions_case : made cas_diff /\
  diff_forward (m_add (call2 sin x y) (m_pow (int 2) x)) x cas_diff = Err TypeError /\
  diff_forward (m_add (m_pow (int 2) x) (call2 sin x y)) x cas_diff = Err KeyError /\
  deriv cas_diff x (m_add (m_pow (int 2) x) (call2 sin x y)) = Err KeyError.
Proof.
  split; [|repeat split; reflexivity]. unfold cas_diff. apply made_distributive. unfold diff_statements. cbn [fold_left].
  apply made_rule, made_rule, made_rule, made_new.
Qed.
Print Assumptions C23_same_outcome.
Print Assumptions C26_which_exception.

(** C28. A distributive head differentiates argument by argument, also as regards exceptions: the first argument
    that cannot be differentiated decides. *)
Theorem C28_distributive_outcome p s h args : In h (dp_distributive p) ->
  diff_forward (tree_call h args) s p =
  (do ds <- mapM (fun a => diff_forward a s p) args; Ok (tree_call h ds)).
Proof.
  intros Hh. rewrite diff_outcome. unfold tree_call. cbn [deriv]. rewrite (mapM_ext (fun a => diff_forward a s p) (deriv p s) args (fun a _ => diff_outcome _ _ _)).
  apply mem_true in Hh. rewrite Hh. reflexivity.
Qed.
Example C28_outcome_case : In List_ (dp_distributive cas_diff) /\
  diff_forward (tree_call List_ [m_mul x x; m_pow (int 2) x; call2 sin x y]) x cas_diff = Err KeyError /\
  diff_forward (m_pow (int 2) x) x cas_diff = Err KeyError /\ diff_forward (call2 sin x y) x cas_diff = Err TypeError /\
  diff_forward (tree_call List_ [m_mul x y; y]) x cas_diff = Ok (tree_call List_ [m_mul (int 1) y; int 0]).
Proof. split; [left; reflexivity|]. repeat split; reflexivity. Qed.

(** C30. A valid rule changes nothing, not even an exception, in expressions that do not call that head with an
    argument at that position. *)
Theorem C30_rule_scope_outcome p h args w rhs p' :
  diff_setitem p (STuple [tree_call h args; w]) rhs = (p', Ok tt) ->
  exists i, nth_error args i = Some w /\
    forall s e, (forall us, reach false [] e (tree_call h us) -> length us <= i) ->
      diff_forward e s p' = diff_forward e s p.
Proof.
  intros Hset.
  destruct (Nat.eq_dec (count args w) 1) as [Hc|Hc].
  - destruct (diff_setitem_ok p (tree_call h args) w rhs h args eq_refl Hc) as (i & rule & Hi & Hr & Hset').
    rewrite Hset in Hset'. injection Hset' as ->. exists i. split; [exact Hi|].
    intros s e He. rewrite !diff_outcome.
    apply (deriv_ext (add_diff_rule p h i rule) p s e); try reflexivity.
    intros h' us id Hreach Hlt. rewrite chain_term_add.
    destruct (rule_key_eqb_spec (h', fst id) (h, i)) as [[= -> E]|_]; [|reflexivity].
    specialize (He us Hreach). lia.
  - exfalso. destruct (diff_setitem_bad p (STuple [tree_call h args; w]) rhs p') with (r := Ok tt : res unit)
      as [_ [H|(x1 & x2 & _ & _ & H)]]; try discriminate; [|exact Hset].
    intros h' args' sym' [= <- <- <-]. exact Hc.
Qed.
(** A second rule for sin, at position 1: sin(x) and 2**x keep their outcomes. *)
Example C30_outcome_case :
  let p' := fst (diff_setitem cas_diff (STuple [tree_call sin [wa; wb]; wb]) wa) in
  snd (diff_setitem cas_diff (STuple [tree_call sin [wa; wb]; wb]) wa) = Ok tt /\
  diff_forward (m_add (call1 sin x) (m_pow (int 2) x)) x p' = Err KeyError /\
  diff_forward (m_add (call1 sin x) (m_pow (int 2) x)) x cas_diff = Err KeyError /\
  diff_forward (call2 sin y x) x p' <> diff_forward (call2 sin y x) x cas_diff.
Proof. repeat split; try reflexivity. discriminate. Qed.
Print Assumptions C28_distributive_outcome.
Print Assumptions C30_rule_scope_outcome.
