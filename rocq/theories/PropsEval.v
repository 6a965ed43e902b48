(** * Properties of evaluation: C16 - C22. *)
From Verif Require Import Py ModelTree SpecTree ModelEval SpecEval ProofEval Samples.

(** C16. If all the given values are for atoms and are not None, forward and recursive evaluation
    return the same value, or both raise. *)
Theorem C16_forward_is_recursive {V} (is_none : V -> bool) (ev : evaluator V) values e :
  (forall s v, reach false [] e s -> dict_get tree_eqb values s = Some v ->
     children s = [] /\ is_none v = false) ->
  forall v, evaluate is_none ev e (Some values) = Ok v <-> eval_recursive ev values e = Ok v.
Proof. exact (forward_eq_recursive is_none ev values e). Qed.

Example C16_case :
  (forall s v, reach false [] e_shared s -> dict_get tree_eqb vals_sample s = Some v ->
     children s = [] /\ @nn Z v = false) /\
  evaluate nn ev_sample e_shared (Some vals_sample) = Ok 33%Z /\
  eval_recursive ev_sample vals_sample e_shared = Ok 33%Z.
Proof.
  split; [|split; reflexivity]. intros s v _ H. split; [|reflexivity].
  destruct s; [reflexivity|discriminate].
Qed.
Print Assumptions C16_forward_is_recursive.

(** C17. Only the (non-None) values of atoms in argument position matter... *)
Theorem C17_only_atom_values_matter {V} (is_none : V -> bool) (ev : evaluator V) values values' e :
  (forall s, reach false [] e s -> children s = [] ->
     usable is_none values s = usable is_none values' s) ->
  evaluate is_none ev e (Some values) = evaluate is_none ev e (Some values').
Proof. exact (only_atom_values_matter is_none ev values values' e). Qed.

(** ... so a value for a compound expression changes nothing, ... *)
Theorem C17_compound_values_ignored {V} (is_none : V -> bool) (ev : evaluator V) values e c v :
  children c <> [] ->
  evaluate is_none ev e (Some (dict_set tree_eqb values c v)) = evaluate is_none ev e (Some values).
Proof. exact (compound_values_ignored is_none ev values e c v). Qed.

(** ... nor does None ... *)
Theorem C17_none_values_ignored {V} (is_none : V -> bool) (ev : evaluator V) values e s v :
  dict_get tree_eqb values s = None -> is_none v = true ->
  evaluate is_none ev e (Some (dict_set tree_eqb values s v)) = evaluate is_none ev e (Some values).
Proof. exact (none_values_ignored is_none ev values e s v). Qed.

(** ... and giving no values is giving an empty dict, ... *)
Theorem C17_no_values {V} (is_none : V -> bool) (ev : evaluator V) e :
  evaluate is_none ev e None = evaluate is_none ev e (Some []).
Proof. reflexivity. Qed.

(** ... while [eval_recursive] uses values of compound expressions (finding). *)
Theorem C17_forward_recursive_disagree_refuted :
  let values := dict_set tree_eqb vals_sample (tree_call g [x; y]) 100%Z in
  evaluate nn ev_sample e_shared (Some values) = Ok 33%Z /\
  eval_recursive ev_sample values e_shared = Ok 203%Z.
Proof. split; reflexivity. Qed.
Print Assumptions C17_only_atom_values_matter.
Print Assumptions C17_compound_values_ignored.
Print Assumptions C17_none_values_ignored.
Print Assumptions C17_no_values.
Print Assumptions C17_forward_recursive_disagree_refuted.

(** C18. If rules return a value whenever they are called, evaluation succeeds exactly when there
    is a value or rule for everything in the expression, and fails with NoEvaluationRuleError
    otherwise. *)
Theorem C18_missing_rules {V} (is_none : V -> bool) (ev : evaluator V) values e :
  (forall s v, dict_get tree_eqb values s = Some v -> is_none v = false) ->
  whole e -> rules_total ev e ->
  ((exists v, evaluate is_none ev e (Some values) = Ok v) /\
   (forall s, reach false [] e s -> has_rule ev values s)) \/
  (evaluate is_none ev e (Some values) = Err NoEvaluationRuleError /\
   exists s, reach false [] e s /\ ~ has_rule ev values s).
Proof. exact (eval_no_rule is_none ev values e). Qed.

(** The exception that evaluation raises is always raised by the rule (or missing rule) of some
    subexpression, called with the values of its arguments: there is no other source of failure. *)
Theorem C18_errors_come_from_rules {V} (is_none : V -> bool) (ev : evaluator V) values e x :
  evaluate is_none ev e (Some values) = Err x ->
  (exists s, reach false [] e s /\ children s = [] /\
     usable is_none values s = None /\ eval_atom ev s = Err x) \/
  (exists h args vs, reach false [] e (Node (h :: args)) /\
     mapM (fun a => evaluate is_none ev a (Some values)) args = Ok vs /\ eval_operation ev h vs = Err x).
Proof. exact (eval_error_source is_none ev values e x). Qed.

Example C18_case :
  whole e_shared /\ rules_total ev_sample e_shared /\
  evaluate nn ev_sample e_shared (Some vals_sample) = Ok 33%Z /\
  evaluate nn ev_sample e_shared (Some [(x, 3%Z)]) = Err NoEvaluationRuleError.
Proof. exact C18_sample. Qed.
(** The condition [whole] is needed: the message of NoEvaluationRuleError contains repr(head), which raises AttributeError if Tree() is in the head. *)
Example C18_whole_needed : proper (Node [Node [x; Node []]; x]) /\
  evaluate nn ev_sample (Node [Node [x; Node []]; x]) (Some [(x, 3%Z)]) = Err AttributeError.
Proof. split; [|vm_compute; reflexivity]. unfold proper. rewrite <- ProofTopo.post_reach. simpl. intuition discriminate. Qed.
Print Assumptions C18_missing_rules.
Print Assumptions C18_errors_come_from_rules.

(** C19. The calls of the atom and operation rules made by an evaluation: each distinct
    subexpression that needs one gets exactly one, in a topological order, with the values of its
    arguments; all of them if the evaluation succeeds, and up to the failing one otherwise. *)
Theorem C19_each_subexpression_once {V} (is_none : V -> bool) (ev : evaluator V) values e :
  exists order called rest,
    is_topological_order false [] e order /\
    filter (needs_call is_none values) order = called ++ rest /\
    Forall2 (fun s (c : event V) =>
               match s with
               | Node (h :: args) =>
                   exists vs, mapM (fun a => evaluate is_none ev a (Some values)) args = Ok vs /\ c = CallOp h vs
               | _ => c = CallAtom s
               end) called (fst (eval_traced is_none ev values e)) /\
    snd (eval_traced is_none ev values e) = evaluate is_none ev e (Some values) /\
    (is_ok (evaluate is_none ev e (Some values)) = true -> rest = []).
Proof. exact (eval_traced_spec is_none ev values e). Qed.

Example C19_case : eval_traced nn ev_sample [(x, 3%Z)] (tree_call f [tree_call g [x; int 2]; tree_call g [x; int 2]])
  = ([CallAtom (int 2); CallOp g [3; 2]; CallOp f [6; 6]]%Z, Ok 12%Z).
Proof. reflexivity. Qed.
Print Assumptions C19_each_subexpression_once.

(** C20. Registering an operation rule changes exactly the expressions using that head; the last
    registration counts. *)
Theorem C20_operation_rule {V} (is_none : V -> bool) (ev ev' : evaluator V) h (c : callable V) (star : bool) :
  (ev' = add_op1 ev h c \/ ev' = add_op2 ev h c) /\ star = true \/ ev' = add_opn ev h c /\ star = false ->
  (forall values args vs,
     mapM (fun a => evaluate is_none ev' a (Some values)) args = Ok vs ->
     evaluate is_none ev' (tree_call h args) (Some values) = c (if star then map AVal vs else [ASeq vs])) /\
  (forall values e, (forall args, ~ reach false [] e (tree_call h args)) ->
     evaluate is_none ev' e (Some values) = evaluate is_none ev e (Some values)).
Proof.
  intros H. apply (add_op_effect is_none ev ev' h c star). destruct H as [[[-> | ->] ->]|[-> ->]]; reflexivity.
Qed.

Theorem C20_last_rule_wins {V} (is_none : V -> bool) (ev : evaluator V) h c1 c2 (s1 s2 : bool) values e :
  evaluate is_none (if s2 then add_op1 (if s1 then add_op1 ev h c1 else add_opn ev h c1) h c2
     else add_opn (if s1 then add_op1 ev h c1 else add_opn ev h c1) h c2) e (Some values) =
  evaluate is_none (if s2 then add_op1 ev h c2 else add_opn ev h c2) e (Some values).
Proof. exact (add_op_twice is_none ev h c1 c2 s1 s2 values e). Qed.

Theorem C20_atom_rule {V} (is_none : V -> bool) (ev : evaluator V) (t : atype) (func : pyval -> res V) :
  (forall values a, atom_type a = t -> dict_get tree_eqb values (Atm a) = None ->
     evaluate is_none (add_atom ev t func) (Atm a) (Some values) = func (atom_value a)) /\
  (forall values e, (forall a, reach false [] e (Atm a) -> atom_type a <> t) ->
     evaluate is_none (add_atom ev t func) e (Some values) = evaluate is_none ev e (Some values)).
Proof. exact (add_atom_effect is_none ev t func). Qed.

(** A head whose rule is a function of a fixed number of arguments raises TypeError in any expression that
    gives it another number of arguments. *)
Theorem C20_wrong_number_of_arguments {V} (is_none : V -> bool) (ev : evaluator V) h args values vs :
  (forall func, let ev' := add_op1 ev h (py1 func) in
     mapM (fun a => evaluate is_none ev' a (Some values)) args = Ok vs -> length args <> 1 ->
     evaluate is_none ev' (tree_call h args) (Some values) = Err TypeError) /\
  (forall func, let ev' := add_op2 ev h (py2 func) in
     mapM (fun a => evaluate is_none ev' a (Some values)) args = Ok vs -> length args <> 2 ->
     evaluate is_none ev' (tree_call h args) (Some values) = Err TypeError) /\
  (forall func, let ev' := add_op1 ev h (pyn func) in
     mapM (fun a => evaluate is_none ev' a (Some values)) args = Ok vs -> length args <> 1 ->
     evaluate is_none ev' (tree_call h args) (Some values) = Err TypeError).
Proof.
  assert (G : forall (g : tree -> res V) l ws, mapM g l = Ok ws -> length ws = length l).
  { intros g. induction l as [|a l IH]; cbn; intros ws H; [injection H as <-; reflexivity|].
    destruct (g a); [|discriminate]. cbn in H. destruct (mapM g l) eqn:E; [|discriminate]. injection H as <-. cbn. f_equal. auto. }
  split; [|split]; cbv zeta; intros func Hm Hl; pose proof (G _ _ _ Hm) as Hn.
  - etransitivity; [exact (proj1 (add_op_effect is_none ev _ h (py1 func) true eq_refl) values args vs Hm)|]. destruct vs as [|? [|]]; cbn in *; first [reflexivity|lia].
  - etransitivity; [exact (proj1 (add_op_effect is_none ev _ h (py2 func) true eq_refl) values args vs Hm)|]. destruct vs as [|? [|? [|]]]; cbn in *; first [reflexivity|lia].
  - etransitivity; [exact (proj1 (add_op_effect is_none ev _ h (pyn func) true eq_refl) values args vs Hm)|]. destruct vs as [|? [|]]; cbn in *; first [reflexivity|lia].
Qed.
Example C20_wrong_number_case :
  let ev' := add_op1 ev_sample f (py1 (fun v => Ok v)) in
  mapM (fun a => evaluate nn ev' a (Some vals_sample)) [x; y] = Ok [3; 5]%Z /\
  evaluate nn ev' (tree_call f [x; y]) (Some vals_sample) = Err TypeError /\ evaluate nn ev' (tree_call f [x]) (Some vals_sample) = Ok 3%Z.
Proof. repeat split; reflexivity. Qed.
Print Assumptions C20_wrong_number_of_arguments.

Example C20_case :
  evaluate nn (add_opn ev_sample f (pyn (fun l => Ok (Z.of_nat (length l))))) e_shared (Some vals_sample) = Ok 3%Z.
Proof. reflexivity. Qed.
Print Assumptions C20_operation_rule.
Print Assumptions C20_last_rule_wins.
Print Assumptions C20_atom_rule.

(** C21. A Transformer with no applicable rule returns the expression itself. *)
Theorem C21_transformer_identity (ev : evaluator tree) e :
  ev_generic_operation ev = ev_generic_operation new_transformer ->
  ev_generic_atom ev = ev_generic_atom new_transformer ->
  (forall h args, reach false [] e (Node (h :: args)) -> dict_get tree_eqb (ev_operations ev) h = None) ->
  (forall a, reach false [] e (Atm a) -> dict_get atype_eqb (ev_atoms ev) (atom_type a) = None) ->
  proper e ->
  evaluate (fun _ => false) ev e None = Ok e.
Proof. exact (transformer_identity ev e). Qed.

Example C21_case : (* a rule for f: replaced inside, g untouched *)
  evaluate (fun _ => false) (add_opn new_transformer f (pyn (fun l => Ok (tree_call g l))))
    (tree_call f [tree_call g [x; tree_call f [y]]; y]) None =
  Ok (tree_call g [tree_call g [x; tree_call g [y]]; y]) /\
  evaluate (fun _ => false) (add_opn new_transformer f (pyn (fun l => Ok (tree_call g l))))
    (tree_call g [x; tree_call z [y]]) None = Ok (tree_call g [x; tree_call z [y]]).
Proof. split; reflexivity. Qed.
Print Assumptions C21_transformer_identity.

(** C22. Evaluating [e.xreplace({s: r})] is evaluating [e] with the value of [r] given for [s]. *)
Theorem C22_evaluation_commutes_with_substitution {V} (is_none : V -> bool) (ev : evaluator V) values s r w e e' :
  children s = [] ->
  evaluate is_none ev r (Some values) = Ok w -> is_none w = false ->
  (forall h args, reach false [] e (Node (h :: args)) -> ~ occurs s h) ->
  (do sf <- subs_new e [s]; subs_call sf [r]) = Ok e' ->
  forall v, evaluate is_none ev e' (Some values) = Ok v <->
            evaluate is_none ev e (Some (dict_set tree_eqb values s w)) = Ok v.
Proof. exact (eval_subst is_none ev values s r w e e'). Qed.

Example C22_case :
  let r := tree_call g [y; int 2] in
  evaluate nn ev_sample r (Some vals_sample) = Ok 10%Z /\
  (forall h args, reach false [] e_shared (Node (h :: args)) -> ~ occurs x h) /\
  (do sf <- subs_new e_shared [x]; subs_call sf [r]) =
    Ok (tree_call f [tree_call g [r; y]; tree_call g [r; y]; r]) /\
  evaluate nn ev_sample e_shared (Some (dict_set tree_eqb vals_sample x 10%Z)) = Ok 110%Z.
Proof.
  split; [reflexivity|]. split; [|split; reflexivity].
  intros h args Hr. apply reach_sample in Hr as [[-> _]|[-> _]]; intros H; inversion H.
Qed.
Print Assumptions C22_evaluation_commutes_with_substitution.
