(** * Properties of the rule interface and of Sym: C31 - C33. *)
From Verif Require Import Py ModelTree SpecTree ProofBase ModelEval SpecEval ProofEval ModelSym SpecSym ModelCas Samples.

Lemma trees_eqb_spec l m : reflect (l = m) (trees_eqb l m).
Proof.
  unfold trees_eqb. destruct (tree_eqb_spec (Node l) (Node m)) as [E|E]; constructor; congruence.
Qed.

(** C31. A rule is either one of the valid forms, and then makes exactly that registration, or it
    raises BadRuleError and leaves the evaluator as it was. (Calling the function with the wrong number of
    arguments raises TypeError before there is any rule.) *)
Theorem C31_rules_valid_or_rejected {V} (ev : evaluator V) p op args c :
  pyfunc_call op args = Ok c ->
  (exists ev', valid_rule ev p op args ev' /\ set_item ev p (RCall c) = (ev', Ok tt)) \/
  ((forall ev', ~ valid_rule ev p op args ev') /\ set_item ev p (RCall c) = (ev, Err BadRuleError)).
Proof.
  intros Hc.
  assert (Hcases : c = mkCall op args) by (destruct op; destruct args as [|? [|? [|]]]; simpl in Hc; congruence).
  subst c.
  destruct (match p, op with
            | PSym (Node (h :: [a])), PyOp1 _ => trees_eqb [a] args
            | PSym (Node (h :: [a; b])), PyOp2 _ => trees_eqb [a; b] args
            | PSym (Node (h :: [a])), PyOpN _ => trees_eqb [a] (match args with [u] => [star u] | _ => [] end)
            | PAtomValue _ a, PyFunc1 _ => trees_eqb [a] args
            | PAtomRule a, AtomFunc _ => trees_eqb [a] args
            | PHeadRule a b, HeadOp _ => trees_eqb [a; b] args
            | _, _ => false end) eqn:Hv.
  - left. unfold set_item, signature_check. cbn [wc_op wc_args].
    destruct p as [[a|[|h [|a [|b [|]]]]]|ty a|a|a b], op as [func|func|func|func|func|func]; try discriminate;
      cbn [pattern_args sym_args children tl];
      match type of Hv with
      | context [star] =>
          destruct args as [|u [|]]; try discriminate;
          destruct (trees_eqb_spec [a] [star u]) as [E|]; [|discriminate];
          injection E as ->; cbn [negb]; eexists; split; [constructor|reflexivity]
      | _ => rewrite Hv; cbn [negb];
          match type of Hv with trees_eqb ?l ?m = true => destruct (trees_eqb_spec l m) as [<-|]; [|discriminate] end;
          eexists; split; [constructor|reflexivity]
      end.
  - right. split.
    + intros ev' H. inversion H; subst; cbn [tree_call] in Hv;
        match type of Hv with trees_eqb ?l ?m = false => destruct (trees_eqb_spec l m); [discriminate|congruence] end.
    + unfold set_item, signature_check. cbn [wc_op wc_args].
      destruct op as [func|func|func|func|func|func];
        destruct args as [|u [|w [|]]]; try discriminate;
        destruct p as [[a|[|h [|a [|b [|]]]]]|ty a|a|a b]; cbn [pattern_args sym_args children tl];
        try (rewrite Hv; reflexivity); try reflexivity;
        match goal with |- context [trees_eqb ?l ?m] => destruct (trees_eqb_spec l m); [try discriminate|]; reflexivity end.
Qed.

Theorem C31_non_calls_rejected {V} (ev : evaluator V) p : set_item ev p ROther = (ev, Err BadRuleError).
Proof. reflexivity. Qed.

(** Writing [op( *args )] succeeds exactly with the number of arguments the kind of rule function takes. *)
Theorem C31_call_arity {V} (op : pyfunc V) args :
  let takes := match op with PyOp2 _ | HeadOp _ => 2 | _ => 1 end in
  (length args = takes -> pyfunc_call op args = Ok (mkCall op args)) /\
  (length args <> takes -> pyfunc_call op args = Err TypeError).
Proof. destruct op; destruct args as [|? [|? [|]]]; split; cbn; intros; first [reflexivity|lia|discriminate]. Qed.
Print Assumptions C31_call_arity.

Example C31_case :
  let op1 := PyOp1 (py1 (fun v => Ok (v + 1)%Z)) in
  let opn := PyOpN (pyn (fun l => Ok (Z.of_nat (length l)))) in
  (exists c, pyfunc_call op1 [wa] = Ok c /\
     set_item ev_sample (PSym (tree_call g [wa])) (RCall c) = (add_op1 ev_sample g (py1 (fun v => Ok (v + 1)%Z)), Ok tt) /\
     set_item ev_sample (PSym (tree_call g [wb])) (RCall c) = (ev_sample, Err BadRuleError) /\
     set_item ev_sample (PAtomRule wa) (RCall c) = (ev_sample, Err BadRuleError)) /\
  (exists c, pyfunc_call opn [wa] = Ok c /\
     set_item ev_sample (PSym (tree_call g [wa])) (RCall c) = (ev_sample, Err BadRuleError)) /\
  pyfunc_call op1 [wa; wb] = Err TypeError.
Proof.
  split; [|split].
  - eexists. repeat split.
  - eexists. repeat split.
  - reflexivity.
Qed.
Print Assumptions C31_rules_valid_or_rejected.
Print Assumptions C31_non_calls_rejected.

(** C32. After a valid operation rule for a pattern with head [h], every call of [h], whatever its
    arguments, is evaluated with the rule's function; and nothing without [h] is affected. *)
Theorem C32_matched_by_head_only {V} (is_none : V -> bool) (ev ev' : evaluator V) h pargs op func args :
  op = PyOp1 func \/ op = PyOp2 func \/ op = PyOpN func ->
  valid_rule ev (PSym (tree_call h pargs)) op args ev' ->
  (forall values us v, sym_evaluate is_none ev' (tree_call h us) (Some values) = Ok v ->
     exists vs, mapM (fun u => sym_evaluate is_none ev' u (Some values)) us = Ok vs) /\
  (forall values us vs, mapM (fun u => sym_evaluate is_none ev' u (Some values)) us = Ok vs ->
     sym_evaluate is_none ev' (tree_call h us) (Some values) = func (match op with PyOpN _ => [ASeq vs] | _ => map AVal vs end)) /\
  (forall values e, (forall us, ~ reach false [] e (tree_call h us)) ->
     sym_evaluate is_none ev' e values = sym_evaluate is_none ev e values).
Proof.
  intros Hop Hv.
  assert (Hev : exists st : bool, ev' = (if st then add_op1 ev h func else add_opn ev h func) /\
     forall vs : list V, (if st then map AVal vs else [ASeq vs]) = match op with PyOpN _ => [ASeq vs] | _ => map AVal vs end).
  { inversion Hv; subst; destruct Hop as [E|[E|E]]; try discriminate; injection E as ->.
    - exists true. split; reflexivity.
    - exists true. split; reflexivity.
    - exists false. split; reflexivity. }
  destruct Hev as (st & Hev & Hargs).
  destruct (add_op_effect is_none ev ev' h func st Hev) as [H1 H2]. split; [|split].
  - intros values us v H. apply eval_forward_call in H as (vs & Hvs & _). exists vs. exact Hvs.
  - intros values us vs Hvs. unfold sym_evaluate, evaluate. rewrite (H1 values us vs Hvs), Hargs. reflexivity.
  - intros values e He. unfold sym_evaluate, evaluate. apply H2, He.
Qed.

(** A rule written for cos(sin(a)) is used for cos(x). *)
Example C32_case :
  let func := py1 (fun v => Ok (v * 10)%Z) in
  let p := tree_call f [tree_call g [wa]] in
  exists c ev', pyfunc_call (PyOp1 func) [tree_call g [wa]] = Ok c /\
    set_item ev_sample (PSym p) (RCall c) = (ev', Ok tt) /\
    sym_evaluate nn ev' (tree_call f [x]) (Some vals_sample) = Ok 30%Z.
Proof. eexists _, _. repeat split. Qed.
Print Assumptions C32_matched_by_head_only.

(** C33. head and args take an expression apart and calling puts it together. *)
Theorem C33_head_and_args e :
  (forall h args, sym_head (tree_call h args) = Ok h /\ sym_args (tree_call h args) = args) /\
  (children e <> [] -> exists h, sym_head e = Ok h /\ tree_call h (sym_args e) = e) /\
  (children e = [] -> sym_args e = [] /\ sym_head e = Err IndexError).
Proof.
  split; [intros; split; reflexivity|]. destruct e as [a|[|h args]]; cbn [children].
  - split; intros H; [congruence|]. split; reflexivity.
  - split; intros H; [congruence|]. split; reflexivity.
  - split; intros H; [|discriminate]. exists h. split; reflexivity.
Qed.
Example C33_case : sym_head e_shared = Ok f /\ tree_call f (sym_args e_shared) = e_shared /\
  sym_head x = Err IndexError /\ sym_args x = [].
Proof. repeat split. Qed.
Print Assumptions C33_head_and_args.
