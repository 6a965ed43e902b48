(** * Properties of differentiation: C23, C25 - C30. (C24 is in PropsReal.v.) *)
From Verif Require Import Py ModelTree SpecTree ModelDiff SpecDiff ProofDiff ModelSym ModelCas SpecCas ProofCasDiff Samples.

(** C23. diff_forward returns what the textbook recursion returns, for any rules; and it raises only
    what the recursion raises on some subexpression. *)
Theorem C23_diff_forward_is_the_recursion p s e :
  (forall d, diff_forward e s p = Ok d <-> deriv p s e = Ok d) /\
  (forall x, diff_forward e s p = Err x -> exists t, reach false [] e t /\ deriv p s t = Err x).
Proof. split; [intros d; apply diff_forward_deriv|intros err; apply diff_forward_Err]. Qed.

Example C23_case :
  diff_forward (m_mul x (call1 sin (m_pow x (int 2)))) x cas_diff =
  Ok (call2 Add (call2 Mul one (call1 sin (m_pow x (int 2))))
        (call2 Mul x (call2 Mul (call1 cos (m_pow x (int 2)))
           (call2 Mul (int 2) (m_pow x (call2 Add (int 2) negone)))))) /\
  diff_forward (m_pow (int 2) (call1 sin x)) x cas_diff = Err KeyError.
Proof. split; reflexivity. Qed.
Print Assumptions C23_diff_forward_is_the_recursion.

(** C25. An absent symbol gives zero, whatever the rules; so does any compound symbol, present or not. *)
Theorem C25_absent_symbol_gives_zero p s e :
  ~ (children s = [] /\ reach false [] e s) ->
  (forall h args, reach false [] e (Node (h :: args)) -> ~ In h (dp_distributive p)) ->
  diff_forward e s p = Ok (dp_zero p).
Proof. intros H1 H2. apply diff_forward_deriv, deriv_absent; assumption. Qed.

Example C25_case :
  diff_forward (tree_call f [y; x]) (sym "t") cas_diff = Ok zero /\
  diff_forward (call1 cos (call1 sin x)) (call1 sin x) cas_diff = Ok zero /\
  ~ (children (sym "t") = [] /\ reach false [] (tree_call f [y; x]) (sym "t")) /\
  (forall h args, reach false [] (tree_call f [y; x]) (Node (h :: args)) -> ~ In h (dp_distributive cas_diff)).
Proof.
  split; [reflexivity|]. split; [reflexivity|]. split.
  - intros [_ H]. inversion H as [|? c ? _ Hc Hr]; subst.
    destruct Hc as [<-|[<-|[]]]; inversion Hr as [|? c' ? _ Hc' _]; subst; destruct Hc'.
  - intros h args H [E|[]]. inversion H as [|? c ? _ Hc Hr]; subst; [discriminate|].
    destruct Hc as [<-|[<-|[]]]; inversion Hr as [|? c' ? _ Hc' _]; subst; destruct Hc'.
Qed.
Print Assumptions C25_absent_symbol_gives_zero.

(** C26. On arithmetic expressions diff succeeds (with an arithmetic expression, so it can be
    repeated) exactly if no exponent contains the symbol; otherwise it raises KeyError. *)
Theorem C26_when_diff_succeeds e s : arith e ->
  ((exists d, expr_diff e (Symbol s) 1 = Ok d /\ arith d) /\ ~ has_variable_exponent e s) \/
  (expr_diff e (Symbol s) 1 = Err KeyError /\ has_variable_exponent e s).
Proof.
  intros He. rewrite !expr_diff_one.
  destruct (diff_succeeds s e He) as [(d & E & Hd & Hn)|H]; [left|right; exact H].
  split; [exists d; auto|exact Hn].
Qed.

(** The result is the literal zero exactly if the symbol does not occur. *)
Theorem C26_zero_iff_absent e s d : arith e -> expr_diff e (Symbol s) 1 = Ok d ->
  (d = zero <-> ~ contains e s).
Proof.
  intros He E. rewrite expr_diff_one in E. apply diff_forward_deriv in E.
  exact (deriv_zero_iff s e He d E).
Qed.

(** For any rules: a dependent argument of a function without a rule for it makes diff raise. *)
Theorem C26_missing_rule_raises p s e h args i u d :
  reach false [] e (tree_call h args) ->
  ~ In h (dp_distributive p) -> h <> dp_add p -> h <> dp_mul p ->
  nth_error args i = Some u -> diff_forward u s p = Ok d -> d <> dp_zero p ->
  dict_get rule_key_eqb (dp_rules p) (h, i) = None ->
  exists err, diff_forward e s p = Err err.
Proof. exact (missing_rule_fails p s e h args i u d). Qed.

Example C26_case :
  arith (m_pow (call1 sin x) (int 2)) /\ ~ has_variable_exponent (m_pow (call1 sin x) (int 2)) "x" /\
  arith (m_pow (int 2) x) /\ has_variable_exponent (m_pow (int 2) x) "x" /\
  expr_diff (tree_call f [x]) x 1 = Err KeyError.
Proof.
  split; [apply ar_pow; [apply ar_sin, ar_sym|apply ar_int]|].
  split; [unfold m_pow, call2, call1, tree_call; rewrite hve_pow; intros [H|[H|H]]|].
  - apply contains_int in H. exact H.
  - rewrite hve_node in H by discriminate. destruct H as (a & [<-|[]] & H). apply hve_leaf in H; auto.
  - apply hve_leaf in H; auto.
  - split; [apply ar_pow; [apply ar_int|apply ar_sym]|]. split; [|reflexivity].
    apply (hve_pow (int 2) x). left. constructor. intros [].
Qed.
Print Assumptions C26_when_diff_succeeds.
Print Assumptions C26_zero_iff_absent.
Print Assumptions C26_missing_rule_raises.

(** C27. [ntimes] is iteration, and Expr.diff agrees with SymDifferentiator. *)
Theorem C27_ntimes_is_iteration e s m n : (0 <= m)%Z -> (0 <= n)%Z ->
  expr_diff e s (m + n) = (do d <- expr_diff e s m; expr_diff d s n) /\
  expr_diff e s (n + 1) = (do d <- expr_diff e s n; diff_forward d s cas_diff) /\
  expr_diff e s n = sym_diff_call cas_diff e s n.
Proof.
  intros Hm Hn. rewrite !expr_diff_call. split; [|split].
  - rewrite (sym_diff_call_plus cas_diff e s m n Hm Hn).
    destruct (sym_diff_call cas_diff e s m); [cbn [bind]; rewrite expr_diff_call; reflexivity|reflexivity].
  - rewrite (sym_diff_call_plus cas_diff e s n 1 Hn ltac:(lia)).
    destruct (sym_diff_call cas_diff e s n); [cbn [bind]; apply sym_diff_call_one|reflexivity].
  - reflexivity.
Qed.
Theorem C27_nonpositive_ntimes e s n : (n <= 0)%Z -> expr_diff e s n = Ok e.
Proof. intros H. rewrite expr_diff_call. apply sym_diff_call_nonpos, H. Qed.

Example C27_case : expr_diff (call1 sin x) x 2 = Ok (call2 Mul negone (call1 sin x)) /\
  expr_diff (call1 sin x) x (-3) = Ok (call1 sin x).
Proof. split; reflexivity. Qed.
Print Assumptions C27_ntimes_is_iteration.
Print Assumptions C27_nonpositive_ntimes.

(** C28. A distributive head differentiates argument by argument. *)
Theorem C28_distributive p s h args d : In h (dp_distributive p) ->
  (diff_forward (tree_call h args) s p = Ok d <->
   exists ds, mapM (fun a => diff_forward a s p) args = Ok ds /\ d = tree_call h ds).
Proof. exact (diff_distributive p s h args d). Qed.
Example C28_case : In List_ (dp_distributive cas_diff) /\
  diff_forward (tree_call List_ [x; y; call1 sin x]) x cas_diff =
  Ok (tree_call List_ [one; zero; call1 cos x]) /\
  diff_forward (tree_call List_ [y; int 3]) x cas_diff = Ok (tree_call List_ [zero; zero]).
Proof. repeat split. left. reflexivity. Qed.
Print Assumptions C28_distributive.

(** C29. After [diff[h( *args ), args[i]] = rhs], with [args[i]] not repeated, the assignment has
    succeeded and if argument [i] of [h( *us )] has derivative [d], not zero, then the derivative has the
    term [rhs[us/args] * d] (just [rhs[us/args]] if [d] is one), except that it uses the last of [us]
    if [rhs] is itself one of the arguments (finding). *)
Theorem C29_rule_contributes p h args i w rhs :
  nth_error args i = Some w -> count args w = 1 ->
  exists p', diff_setitem p (STuple [tree_call h args; w]) rhs = (p', Ok tt) /\
    forall s us ds d result,
      ~ In h (dp_distributive p) -> h <> dp_add p -> h <> dp_mul p ->
      length us = length args ->
      mapM (fun u => diff_forward u s p') us = Ok ds ->
      nth_error ds i = Some d -> d <> dp_zero p ->
      diff_forward (tree_call h us) s p' = Ok result ->
      exists r before after,
        (~ In rhs args -> r = subst args us rhs) /\
        (In rhs args -> last_item us = Ok r) /\
        result = total p (before ++ (if tree_eqb d (dp_one p) then r else tree_call (dp_mul p) [r; d]) :: after).
Proof. exact (registered_rule_contributes p h args i w rhs). Qed.

(** If no other argument depends on the symbol the term is the derivative, which exists. *)
Theorem C29_rule_fires p h args i w rhs :
  nth_error args i = Some w -> count args w = 1 ->
  exists p', diff_setitem p (STuple [tree_call h args; w]) rhs = (p', Ok tt) /\
    forall s us ds d,
      ~ In h (dp_distributive p) -> h <> dp_add p -> h <> dp_mul p ->
      length us = length args ->
      mapM (fun u => diff_forward u s p') us = Ok ds ->
      nth_error ds i = Some d -> d <> dp_zero p ->
      (forall j d', nth_error ds j = Some d' -> j <> i -> d' = dp_zero p) ->
      exists r,
        (~ In rhs args -> r = subst args us rhs) /\
        (In rhs args -> last_item us = Ok r) /\
        diff_forward (tree_call h us) s p' =
          Ok (if tree_eqb d (dp_one p) then r else tree_call (dp_mul p) [r; d]).
Proof. exact (registered_rule_fires p h args i w rhs). Qed.

(** [diff[f(a, b), a] = b + a], then f(sin(x), y).diff(x); and the finding, with [diff[f(a, b), b] = a]:
    f(y, x).diff(x) is x where the rule says y. *)
Example C29_case :
  let p' := fst (diff_setitem cas_diff (STuple [tree_call f [wa; wb]; wa]) (m_add wb wa)) in
  diff_forward (tree_call f [call1 sin x; y]) x p' =
  Ok (call2 Mul (m_add y (call1 sin x)) (call1 cos x)).
Proof. reflexivity. Qed.
Theorem C29_rule_with_argument_as_rhs_refuted :
  let p' := fst (diff_setitem cas_diff (STuple [tree_call f [wa; wb]; wb]) wa) in
  snd (diff_setitem cas_diff (STuple [tree_call f [wa; wb]; wb]) wa) = Ok tt /\
  diff_forward (tree_call f [y; x]) x p' = Ok x /\ subst [wa; wb] [y; x] wa = y.
Proof. repeat split. Qed.
Print Assumptions C29_rule_contributes.
Print Assumptions C29_rule_fires.
Print Assumptions C29_rule_with_argument_as_rhs_refuted.

(** C30. Invalid rules raise (TypeError, or IndexError for an atomic pattern) and register nothing. *)
Theorem C30_bad_rules_rejected p key rhs :
  (forall h args w, key = STuple [tree_call h args; w] -> count args w <> 1) ->
  diff_setitem p key rhs = (p, Err TypeError) \/
  ((exists pattern w, key = STuple [pattern; w] /\ children pattern = []) /\
   diff_setitem p key rhs = (p, Err IndexError)).
Proof.
  intros H. destruct (diff_setitem p key rhs) as [p' r] eqn:E.
  destruct (diff_setitem_bad p key rhs p' H r E) as [-> [->|(e & w & H1 & H2 & ->)]]; [left; reflexivity|].
  right. eauto.
Qed.

(** A valid rule affects only expressions that call that head with an argument at that position. *)
Theorem C30_rule_scope p h args w rhs p' :
  diff_setitem p (STuple [tree_call h args; w]) rhs = (p', Ok tt) ->
  exists i, nth_error args i = Some w /\
    forall s e, (forall us, reach false [] e (tree_call h us) -> length us <= i) ->
      forall d, diff_forward e s p' = Ok d <-> diff_forward e s p = Ok d.
Proof. exact (rule_scope p h args w rhs p'). Qed.

Example C30_case :
  diff_setitem cas_diff (STuple [tree_call f [wa; wa]; wa]) wb = (cas_diff, Err TypeError) /\
  diff_setitem cas_diff (STuple [tree_call f [wa]; wb]) wb = (cas_diff, Err TypeError) /\
  diff_setitem cas_diff (SOther wa) wb = (cas_diff, Err TypeError) /\
  diff_setitem cas_diff (STuple [wa; wa]) wb = (cas_diff, Err IndexError) /\
  snd (diff_setitem cas_diff (STuple [tree_call f [wa; wb]; wa]) wb) = Ok tt.
Proof. repeat split. Qed.
Print Assumptions C30_bad_rules_rejected.
Print Assumptions C30_rule_scope.
