(** * C105: well-made expressions never go wrong *)
From Coq Require Import SpecFloat.
From Verif Require Import Py ModelTree ModelEval ModelDiff ModelSym ModelCas ModelRepr ModelMatrix ModelLLVM ModelApi ModelSympy
  SpecTree SpecEval SpecDiff SpecCas SpecPrint SpecLLVM SpecLambdify SpecApi SpecOutcome SpecSympy
  ProofBase ProofTopo ProofTree ProofSubs ProofEval ProofCasDiff ProofReal ProofBin ProofDiff ProofLLVM ProofFloat ProofF64 ProofAlg PropsReal PropsCas PropsRepr PropsLLVM PropsDiff PropsOutcome PropsTreeText ProofSympy ProofApi PropsApi Samples.
Local Open Scope string_scope.

(** ** Specification *)
(** How many arguments a function may be called with: sums and products at least one, powers two, sin and cos one, any
    other function any number. *)
Definition right_number (f : string) (n : nat) : Prop :=
  (f = "Add" \/ f = "Mul" -> 1 <= n) /\ (f = "pow" -> n = 2) /\ (f = "sin" \/ f = "cos" -> n = 1).
(** A SymPy expression that applies everything to the right number of arguments. *)
Inductive sympy_right : sexpr -> Prop :=
| sr_int p : sympy_right (SInt p)
| sr_symbol name n : sympy_right (SSym name n)
| sr_app h args f : head_for h = Some (Function f) -> right_number f (length args) -> (forall a, In a args -> sympy_right a) ->
    sympy_right (SApp h args).
(** The expressions that a program can make with the public API, as long as it calls functions with the right number of
    arguments and replaces only symbols. [operand]: what it may use as an operand. *)
Inductive well_made : tree -> Prop :=
| wm_integer n : well_made (Integer n)
| wm_symbol s : well_made (Symbol s)
| wm_function f : well_made (Function f)
| wm_operator op l r h t : operand l -> operand r -> py_binop op l r h = (Ok (OExpr t), h) -> well_made t
| wm_negative e : well_made e -> well_made (expr_neg e)
| wm_call f args t : right_number f (length args) -> (forall a, In a args -> operand a) ->
    expr_call (Function f) (map as_operand args) = Ok t -> well_made t
| wm_argument e a : well_made e -> In a (sym_args e) -> well_made a
| wm_xreplace e reps t : well_made e -> (forall s r, In (s, r) reps -> operand r) ->
    xreplace e (map (fun sr => (PExpr (Symbol (fst sr)), as_operand (snd sr))) reps) = Ok t -> well_made t
| wm_bin_expand e t : well_made e -> bin_expand e = Ok t -> well_made t
| wm_diff e v n t : well_made e -> expr_diff e v n = Ok t -> well_made t
| wm_from_sympy s t : sympy_right s -> from_sympy s = Ok t -> well_made t
with operand : obj -> Prop :=
| op_expr e : well_made e -> operand (OExpr e)
| op_int n : operand (OInt n)
| op_bool b : operand (OBool b).

(** Numeric: all functions in it are sums, products, powers, sin and cos, and no function is an argument. *)
Definition numeric (e : tree) : Prop :=
  (forall h args, reach false [] e (Node (h :: args)) -> In h [Add; Mul; Pow; sin; cos]) /\ (forall f, ~ reach false [] e (Function f)).
(** An exception that Python's float arithmetic raises. *)
Definition arithmetic_exception {F} (o : float_ops F) (x : exn) : Prop :=
  (exists z, fl_of_int o z = Err x) \/ (exists vs, fl_fsum o vs = Err x) \/ (exists vs, fl_prod o vs = Err x) \/
  (exists a b, fl_pow o a b = Err x) \/ (exists a, fl_sin o a = Err x) \/ (exists a, fl_cos o a = Err x).

(** ** Proofs *)
(** The invariant. *)
Inductive wf : tree -> Prop :=
| wf_int n : wf (Integer n)
| wf_sym s : wf (Symbol s)
| wf_fun f : wf (Function f)
| wf_app f args : right_number f (length args) -> Forall wf args -> wf (Node (Function f :: args)).
Lemma wf_ind_all (P : tree -> Prop) : (forall n, P (Integer n)) -> (forall s, P (Symbol s)) -> (forall f, P (Function f)) ->
  (forall f args, right_number f (length args) -> Forall wf args -> Forall P args -> P (Node (Function f :: args))) -> forall e, wf e -> P e.
Proof.
  intros Hi Hs Hf Ha. fix IH 2. intros e [n|s|f|f args Hn H]; [apply Hi|apply Hs|apply Hf|].
  apply Ha; [exact Hn|exact H|]. clear Hn. revert args H. fix IHl 2. intros l [|u r Hu Hr]; constructor; [apply IH, Hu|apply IHl, Hr].
Qed.

Lemma right_two f : f <> "sin" -> f <> "cos" -> right_number f 2.
Proof. intros H1 H2. repeat split; [lia|]. intros [?|?]; contradiction. Qed.
Lemma wf_two f a b : f <> "sin" -> f <> "cos" -> wf a -> wf b -> wf (Node [Function f; a; b]).
Proof. intros H1 H2 Ha Hb. apply (wf_app f [a; b]); [apply right_two; assumption|repeat constructor; assumption]. Qed.
Lemma wf_combined op a b : wf a -> wf b -> wf (combined op a b).
Proof. intros Ha Hb. destruct op; repeat apply wf_two; try discriminate; try assumption; apply wf_int. Qed.
Lemma wf_one f a : f = "sin" \/ f = "cos" -> wf a -> wf (Node [Function f; a]).
Proof. intros H Ha. apply (wf_app f [a]); [|repeat constructor; exact Ha]. destruct H as [-> | ->]; repeat split; try lia; try discriminate; try (intros [?|?]; discriminate). Qed.
Lemma wf_many f args : f = "Add" \/ f = "Mul" -> args <> [] -> Forall wf args -> wf (Node (Function f :: args)).
Proof.
  intros H Hn Ha. apply wf_app; [|exact Ha]. destruct args as [|a args]; [contradiction|]. cbn [length].
  destruct H as [-> | ->]; repeat split; try lia; try discriminate; try (intros [?|?]; discriminate).
Qed.
Lemma expressify_operand (W : tree -> Prop) o t : (forall n, W (Integer n)) ->
  (forall e, o = OExpr e -> W e) -> expressify (as_operand o) = Ok t -> W t.
Proof. intros Hi He H. destruct o as [e|m|z|b|]; try discriminate; injection H as <-; auto. Qed.

Lemma wf_subst ss ts e : Forall wf ts -> wf e -> wf (subst (map Symbol ss) ts e).
Proof.
  intros Hts. assert (Hr : forall t r, replacement (map Symbol ss) ts t = Some r -> wf r).
  { intros t. revert ts Hts. induction ss as [|s ss IH]; intros [|v ts] Hts r H; try discriminate. cbn [map replacement] in H.
    inversion Hts; subst. destruct (replacement (map Symbol ss) ts t) as [q|] eqn:E.
    - injection H as <-. eapply IH; eassumption.
    - destruct (tree_eqb t (Symbol s)); [injection H as <-; assumption|discriminate]. }
  intros He. induction He as [n|s|f|f args Hn Hw IH] using wf_ind_all; rewrite ProofAlg.subst_unfold.
  - destruct (replacement (map Symbol ss) ts (Integer n)) eqn:E; [eapply Hr, E|apply wf_int].
  - destruct (replacement (map Symbol ss) ts (Symbol s)) eqn:E; [eapply Hr, E|apply wf_sym].
  - destruct (replacement (map Symbol ss) ts (Function f)) eqn:E; [eapply Hr, E|apply wf_fun].
  - destruct (replacement (map Symbol ss) ts (Node (Function f :: args))) eqn:E; [eapply Hr, E|].
    cbn [map]. rewrite ProofAlg.subst_unfold. destruct (replacement (map Symbol ss) ts (Function f)) as [q|] eqn:E2.
    { apply replacement_sym in E2 as (s & _ & E2). discriminate. }
    apply wf_app; [rewrite map_length; exact Hn|]. apply Forall_map. exact IH.
Qed.

Lemma wf_bin e t : wf e -> meaning bin_leaf bin_op e = Ok t -> wf t.
Proof.
  intros He. revert t. induction He as [n|s|f|f args Hn Hw IH] using wf_ind_all; intros t Ht.
  1-3: injection Ht as <-; constructor.
  cbn [meaning] in Ht. destruct (mapM (meaning bin_leaf bin_op) args) as [vs|] eqn:E; [|discriminate]. cbn [bind] in Ht.
  apply mapM_Ok_Forall2 in E.
  assert (Hv : Forall wf vs /\ length vs = length args).
  { clear -IH E. induction E as [|a v args vs Ha _ IHe]; [split; [constructor|reflexivity]|]. inversion IH; subst.
    destruct (IHe H2) as [G1 G2]. split; [constructor; auto|cbn; congruence]. }
  destruct Hv as [Hv Hl].
  assert (Hred : forall g, g = "Add" \/ g = "Mul" -> reduce (call2 (Function g)) vs = Ok t -> wf t).
  { intros g Hg H. destruct vs as [|v vs]; [discriminate|]. injection H as <-. inversion Hv; subst. clear -H1 H2 Hg.
    revert v H1. induction H2 as [|w ws Hw _ IH]; intros v Hv; [exact Hv|]. cbn [fold_left]. apply IH.
    apply wf_many; [exact Hg|discriminate|]. repeat constructor; assumption. }
  unfold bin_op in Ht. destruct (tree_eqb_spec (Function f) Add) as [Ef|_]; [injection Ef as ->; apply (Hred "Add"); auto|].
  destruct (tree_eqb_spec (Function f) Mul) as [Ef|_]; [injection Ef as ->; apply (Hred "Mul"); auto|].
  injection Ht as <-. apply wf_app; [rewrite Hl; exact Hn|exact Hv].
Qed.

Lemma no_rule f args ds : ~ In (Function f) [Add; Mul; Pow; sin; cos] -> dependent zero ds = [] \/
  mapM (chain_term cas_diff (Function f) args) (dependent zero ds) = Err KeyError.
Proof.
  intros Hf. destruct (dependent zero ds) as [|[i d] r]; [auto|right]. cbn [mapM]. unfold chain_term at 1. cbn [fst snd].
  assert (E : dict_get rule_key_eqb (dp_rules cas_diff) (Function f, i) = None).
  { destruct (dict_get rule_key_eqb (dp_rules cas_diff) (Function f, i)) as [q|] eqn:E; [|reflexivity]. exfalso.
    apply (dict_get_In _ rule_key_eqb_spec) in E. apply (in_map fst) in E. cbn [fst] in E.
    assert (K : map fst (dp_rules cas_diff) = [(sin, 0); (cos, 0); (Pow, 0)]) by (vm_compute; reflexivity).
    rewrite K in E. apply Hf. destruct E as [E|[E|[E|[]]]]; injection E as <- _; cbn; tauto. }
  rewrite E. reflexivity.
Qed.
Lemma wf_deriv v e : wf e -> (exists d, deriv cas_diff v e = Ok d /\ wf d) \/ deriv cas_diff v e = Err KeyError.
Proof.
  assert (Htotal : forall ts, Forall wf ts -> wf (total cas_diff ts)).
  { intros [|t [|u r]] H; simpl; [apply wf_int|inversion H; assumption|apply (wf_many "Add"); [auto|discriminate|exact H]]. }
  assert (Hdep : forall ds id, Forall wf ds -> In id (dependent zero ds) -> wf (snd id)).
  { intros ds [i d] H Hin. unfold dependent in Hin. apply filter_In in Hin as [Hin _].
    apply in_combine_r in Hin. rewrite Forall_forall in H. apply H, Hin. }
  assert (Htimes : forall r d, wf r -> wf d -> wf (times r d)).
  { intros r d Hr Hd. unfold times. destruct (tree_eqb d zero); [apply wf_int|].
    destruct (tree_eqb d one); [exact Hr|]. apply (wf_two "Mul"); try discriminate; assumption. }
  assert (Hleaf : forall a, (exists d, deriv cas_diff v (Atm a) = Ok d /\ wf d)).
  { intros a. eexists. split; [reflexivity|]. destruct (tree_eqb (Atm a) v); apply wf_int. }
  intros He. induction He as [n|s|f|f args Hn Hw IH] using wf_ind_all; [left; apply Hleaf..|].
  assert (Hargs : (exists ds, mapM (deriv cas_diff v) args = Ok ds /\ Forall wf ds) \/ mapM (deriv cas_diff v) args = Err KeyError).
  { clear -IH. induction IH as [|a args Ha _ IH]; [left; exists []; split; [reflexivity|constructor]|]. cbn [mapM].
    destruct Ha as [(d & -> & Hd)| ->]; [|auto]. cbn [bind]. destruct IH as [(ds & -> & Hds)| ->]; [|auto].
    left. exists (d :: ds). split; [reflexivity|constructor; assumption]. }
  destruct (string_dec f "Add") as [->|N1].
  { change (Function "Add") with Add. rewrite D_add. destruct Hargs as [(ds & -> & Hds)| ->]; [|auto]. left. eexists. split; [reflexivity|].
    apply Htotal, Forall_forall. intros t Ht. apply in_map_iff in Ht as (id & <- & Hid). apply (Hdep ds id Hds Hid). }
  destruct (string_dec f "Mul") as [->|N2].
  { change (Function "Mul") with Mul. rewrite D_mul. destruct Hargs as [(ds & -> & Hds)| ->]; [|auto]. left. eexists. split; [reflexivity|].
    apply Htotal, Forall_forall. intros t Ht. apply in_map_iff in Ht as (id & <- & Hid). pose proof (Hdep ds id Hds Hid) as Hd.
    apply (wf_many "Mul"); [auto| |].
    - destruct Hn as [Hn _]. specialize (Hn ltac:(auto)). destruct args; [cbn in Hn; lia|]. destruct (fst id); discriminate.
    - clear -Hw Hd. destruct id as [i d]. cbn [fst snd] in *. revert i. induction Hw as [|a args Ha Hw IH]; intros i; cbn [set_nth]; [constructor|].
      destruct i; constructor; auto. }
  destruct (string_dec f "pow") as [->|N3].
  { destruct Hn as (_ & Hn & _). specialize (Hn eq_refl). destruct args as [|a [|b [|? ?]]]; try discriminate.
    change (Function "pow") with Pow. rewrite D_pow. inversion IH as [|? ? Ia IH']; subst. inversion IH' as [|? ? Ib _]; subst.
    inversion Hw as [|? ? Wa Hw']; subst. inversion Hw' as [|? ? Wb _]; subst.
    destruct Ia as [(d & -> & Hd)| ->]; [|auto]. cbn [bind]. destruct Ib as [(d' & -> & Hd')| ->]; [|auto]. cbn [bind].
    destruct (tree_eqb d' zero); [|auto]. left. eexists. split; [reflexivity|]. apply Htimes; [|exact Hd].
    apply (wf_two "Mul"); try discriminate; [exact Wb|]. apply (wf_two "pow"); try discriminate; [exact Wa|].
    apply (wf_two "Add"); try discriminate; [exact Wb|apply wf_int]. }
  assert (Hone : right_number f (length args) -> f = "sin" \/ f = "cos" -> exists a, args = [a]).
  { intros (_ & _ & H) Hf. specialize (H Hf). destruct args as [|a [|? ?]]; try discriminate. eauto. }
  destruct (string_dec f "sin") as [->|N4].
  { destruct (Hone Hn ltac:(auto)) as (a & ->). change (Function "sin") with sin. rewrite D_sin. inversion IH as [|? ? Ia _]; subst.
    inversion Hw; subst. destruct Ia as [(d & -> & Hd)| ->]; [|auto]. left. eexists. split; [reflexivity|].
    apply Htimes; [apply (wf_one "cos"); auto|exact Hd]. }
  destruct (string_dec f "cos") as [->|N5].
  { destruct (Hone Hn ltac:(auto)) as (a & ->). change (Function "cos") with cos. rewrite D_cos. inversion IH as [|? ? Ia _]; subst.
    inversion Hw; subst. destruct Ia as [(d & -> & Hd)| ->]; [|auto]. left. eexists. split; [reflexivity|].
    apply Htimes; [|exact Hd]. apply (wf_two "Mul"); try discriminate; [apply wf_int|apply (wf_one "sin"); auto]. }
  assert (Hf : ~ In (Function f) [Add; Mul; Pow; sin; cos]).
  { intros [E|[E|[E|[E|[E|[]]]]]]; injection E as E; congruence. }
  cbn [deriv]. destruct Hargs as [(ds & -> & Hds)| ->]; [|auto]. cbn [bind].
  change (dp_distributive cas_diff) with [List_]. unfold mem. cbn [existsb]. rewrite orb_false_r.
  destruct (tree_eqb_spec (Function f) List_) as [E|_].
  { left. eexists. split; [reflexivity|]. apply wf_app; [|exact Hds]. injection E as ->. repeat split; try discriminate; intros [E|E]; discriminate. }
  change (dp_add cas_diff) with Add. change (dp_mul cas_diff) with Mul. change (dp_zero cas_diff) with zero.
  destruct (tree_eqb_spec (Function f) Add) as [E|_]; [exfalso; apply Hf; rewrite E; cbn; auto|].
  destruct (tree_eqb_spec (Function f) Mul) as [E|_]; [exfalso; apply Hf; rewrite E; cbn; auto|].
  destruct (no_rule f args ds Hf) as [-> | ->]; [|auto]. left. exists zero. split; [reflexivity|apply wf_int].
Qed.
Lemma wf_diff v n e : wf e -> (exists d, expr_diff e v n = Ok d /\ wf d) \/ expr_diff e v n = Err KeyError.
Proof.
  unfold expr_diff. generalize (Z.to_nat n) as k. intros k. revert e. induction k as [|k IH]; intros e He; cbn [repeatM]; [eauto|].
  rewrite sym_diff_call_one, C23_same_outcome. destruct (wf_deriv v e He) as [(d & -> & Hd)| ->]; [|auto]. apply IH, Hd.
Qed.

Lemma wf_convert s : sympy_right s -> forall t, convert s = Ok t -> wf t.
Proof.
  induction 1 as [p|name n|h args f Hh Hn _ Ha]; intros t Ht.
  - injection Ht as <-. apply wf_int.
  - injection Ht as <-. apply wf_sym.
  - destruct args as [|a args]; [discriminate|]. cbn [convert] in Ht.
    destruct (mapM convert (a :: args)) as [ts|] eqn:E; [|discriminate]. cbn [bind] in Ht. rewrite Hh in Ht. injection Ht as <-.
    apply wf_app; [rewrite (mapM_length _ _ _ E); exact Hn|]. apply mapM_Ok_Forall2 in E. clear Hn Hh.
    induction E as [|b u l ts Hb _ IH]; [constructor|]. constructor; [exact (Ha b (or_introl eq_refl) u Hb)|].
    apply IH. intros c Hc. apply Ha. right. exact Hc.
Qed.
Scheme well_made_mut := Minimality for well_made Sort Prop with operand_mut := Minimality for operand Sort Prop.
Definition operand_wf (o : obj) : Prop := match o with OExpr e => wf e | OInt _ | OBool _ => True | _ => False end.
Lemma operand_expressify o : operand_wf o -> exists t, expressify (as_operand o) = Ok t /\ expression_of o = Some t /\ wf t.
Proof. destruct o as [e|m|z|b|]; cbn [operand_wf]; intros H; try contradiction; eexists; (split; [reflexivity|]); (split; [reflexivity|]); solve [exact H|apply wf_int]. Qed.
Lemma operands_expressify l : (forall o, In o l -> operand_wf o) -> exists ts, mapM expressify (map as_operand l) = Ok ts /\ Forall wf ts /\ length ts = length l.
Proof.
  induction l as [|o l IH]; intros H; [exists []; repeat split; constructor|]. cbn [map mapM].
  destruct (operand_expressify o (H o (or_introl eq_refl))) as (t & -> & _ & Ht). cbn [bind].
  destruct IH as (ts & -> & Hts & Hl); [intros; apply H; right; assumption|]. cbn [bind]. exists (t :: ts).
  repeat split; [constructor; assumption|cbn; congruence].
Qed.
Lemma symbols_expressify ss : mapM expressify (map (fun s => PExpr (Symbol s)) ss) = Ok (map Symbol ss).
Proof. induction ss as [|s ss IH]; [reflexivity|]. cbn [map mapM expressify bind]. rewrite IH. reflexivity. Qed.
Lemma wf_xreplace e (reps : list (string * obj)) : wf e -> (forall s r, In (s, r) reps -> operand_wf r) ->
  exists t, xreplace e (map (fun sr => (PExpr (Symbol (fst sr)), as_operand (snd sr))) reps) = Ok t /\ wf t.
Proof.
  intros He Hr. unfold xreplace, expr_function, expr_function_call. rewrite !map_map. cbn [fst snd].
  rewrite <- (map_map fst (fun s => PExpr (Symbol s))), symbols_expressify. cbn [bind].
  rewrite <- (map_map snd as_operand).
  destruct (operands_expressify (map snd reps)) as (ts & -> & Hts & Hl).
  { intros o Ho. apply in_map_iff in Ho as ((s & r) & <- & Ho). eapply Hr, Ho. }
  rewrite map_length in Hl.
  destruct (subs_new_total e (map Symbol (map fst reps))) as (sf & Hsf & _). rewrite Hsf. cbn [bind].
  assert (Hlen : length ts = length (map Symbol (map fst reps))) by (rewrite !map_length; exact Hl).
  destruct (In_dec tree_eq_dec e (map Symbol (map fst reps))) as [Hin|Hnin].
  - rewrite (subs_root_last e _ ts sf Hin Hlen Hsf). unfold last_item. destruct (rev ts) as [|t r] eqn:E.
    + apply (f_equal (@length _)) in E. rewrite rev_length in E. cbn in E. rewrite E in Hlen. destruct (map Symbol (map fst reps)); [destruct Hin|discriminate].
    + exists t. split; [reflexivity|]. rewrite Forall_forall in Hts. apply Hts, in_rev. rewrite E. left. reflexivity.
  - rewrite (subs_correct e _ ts sf Hnin Hlen Hsf). eexists. split; [reflexivity|]. apply wf_subst; assumption.
Qed.
Lemma well_made_wf e : well_made e -> wf e.
Proof.
  apply (well_made_mut wf operand_wf); cbn [operand_wf]; auto.
  - apply wf_int.
  - apply wf_sym.
  - apply wf_fun.
  - intros op l r h t _ Hl _ Hr H. destruct (operand_expressify l Hl) as (a & _ & Ea & Wa). destruct (operand_expressify r Hr) as (b & _ & Eb & Wb).
    assert (Hx : SpecApi.is_expr l \/ SpecApi.is_expr r).
    { destruct l, r; cbn [operand_wf] in Hl, Hr; try contradiction; unfold SpecApi.is_expr; eauto; exfalso; destruct op; discriminate. }
    rewrite (C66_expressions op l r a b h Hx Ea Eb) in H. injection H as <-. apply wf_combined; assumption.
  - intros e' _ He. apply (wf_two "Mul"); try discriminate; [apply wf_int|exact He].
  - intros f args t Hn _ Ha Ht. destruct (operands_expressify args Ha) as (ts & E & Hts & Hl). unfold expr_call in Ht. rewrite E in Ht.
    injection Ht as <-. apply wf_app; [rewrite Hl; exact Hn|exact Hts].
  - intros e' a _ He Ha. destruct He as [n|s|f|f args Hn Hw]; try destruct Ha. cbn in Ha. rewrite Forall_forall in Hw. auto.
  - intros e' reps t _ He _ Hr Ht. destruct (wf_xreplace e' reps He Hr) as (t' & E & Hw). congruence.
  - intros e' t _ He Ht. apply (wf_bin e' t He), bin_expand_meaning, Ht.
  - intros e' v n t _ He Ht. destruct (wf_diff v n e' He) as [(d & E & Hd)|E]; congruence.
  - intros s t Hs Ht. rewrite from_sympy_convert in Ht. exact (wf_convert s Hs t Ht).
Qed.
Lemma operand_wf_of o : operand o -> operand_wf o.
Proof. intros [e He|n|b]; cbn; auto. apply well_made_wf, He. Qed.

(** What is inside. *)
Lemma wf_reach e t : wf e -> reach false [] e t -> wf t.
Proof.
  intros He Hr. induction Hr as [u _|u c t _ Hc _ IH]; [exact He|]. apply IH. destruct He as [n|s|f|f args Hn Hw]; try destruct Hc.
  cbn in Hc. rewrite Forall_forall in Hw. auto.
Qed.
Lemma wf_whole e : wf e -> whole e.
Proof.
  intros He Hr. assert (G : forall u t, reach true [] u t -> t = Node [] -> wf u -> False); [|eapply G; eauto].
  clear. intros u t Hr. induction Hr as [u _|u c t _ Hc _ IH]; intros -> Hu; [inversion Hu|]. apply IH; [reflexivity|].
  destruct Hu as [n|s|f|f args Hn Hw]; try destruct Hc; [subst c; apply wf_fun|]. rewrite Forall_forall in Hw. auto.
Qed.
Lemma wf_proper e : wf e -> proper e.
Proof. intros He Hr. pose proof (wf_reach e _ He Hr) as H. inversion H. Qed.
Lemma wf_arity e f n : wf e -> (forall k, right_number f k -> k = n) -> arity_is n (Function f) e.
Proof. intros He Hn args Hr. pose proof (wf_reach e _ He Hr) as H. inversion H; subst. auto. Qed.

(** ** Theorems *)
(** C105. All texts of a well-made expression exist. *)
Theorem C105_texts e : well_made e -> (exists s, eval_repr e = Ok s) /\ (exists s, repr_latex e = Ok s) /\
  (exists s, tree_str e = Ok s) /\ (exists s, tree_repr e = Ok s).
Proof.
  intros H. apply well_made_wf in H. pose proof (wf_whole e H) as Hw.
  assert (Hp : arity_is 2 Pow e) by (apply (wf_arity e "pow"); [exact H|]; intros k (_ & Hk & _); auto).
  assert (Hs : arity_is 1 sin e) by (apply (wf_arity e "sin"); [exact H|]; intros k (_ & _ & Hk); auto).
  assert (Hc : arity_is 1 cos e) by (apply (wf_arity e "cos"); [exact H|]; intros k (_ & _ & Hk); auto).
  split; [apply C40_when_str_succeeds; auto|]. split.
  - destruct (proj2 (C41_when_latex_succeeds e)) as (s & E).
    { repeat split; auto. intros a Ha. apply (wf_reach e _ H) in Ha. unfold latex_type. inversion Ha; cbn; auto. }
    unfold repr_latex. rewrite E. cbn [bind]. eauto.
  - split; [|apply C57_when_repr_succeeds, Hw]. apply C94_when_str_succeeds, Hw.
Qed.

(** Every operation that does not need a rule succeeds, with a well-made result. *)
Theorem C105_operations e : well_made e ->
  (exists n, count_ops_tree e = Ok n) /\ (exists n, count_ops_graph e = Ok n) /\ (exists t, bin_expand e = Ok t /\ well_made t) /\
  (forall op r h, operand r -> exists t u, py_binop op (OExpr e) r h = (Ok (OExpr t), h) /\ py_binop op r (OExpr e) h = (Ok (OExpr u), h) /\ well_made t /\ well_made u) /\
  (forall reps, (forall s r, In (s, r) reps -> operand r) ->
     exists t, xreplace e (map (fun sr => (PExpr (Symbol (fst sr)), as_operand (snd sr))) reps) = Ok t /\ well_made t).
Proof.
  intros Hm. pose proof (well_made_wf e Hm) as H. destruct (C37_counts e (wf_proper e H)) as (t & g & E1 & E2 & _).
  split; [eauto|]. split; [eauto|]. split; [|split].
  - destruct (C39_when_bin_expand_succeeds e (wf_proper e H)) as [(_ & t' & E)|[Hn _]]; [exists t'; split; [exact E|eapply wm_bin_expand; eassumption]|].
    exfalso. apply Hn. intros h Hh Hr. apply (wf_reach e _ H) in Hr. inversion Hr as [| | |f args Hk _]; subst. destruct Hk as (Hk & _ & _).
    cbn in Hk. destruct Hh as [E|E]; injection E as ->; specialize (Hk ltac:(auto)); lia.
  - intros op r h Hr. destruct (operand_expressify r (operand_wf_of r Hr)) as (b & _ & Eb & _).
    pose proof (C66_expressions op (OExpr e) r e b h ltac:(left; eexists; reflexivity) eq_refl Eb) as E3.
    pose proof (C66_expressions op r (OExpr e) b e h ltac:(right; eexists; reflexivity) Eb eq_refl) as E4.
    exists (combined op e b), (combined op b e). split; [exact E3|]. split; [exact E4|].
    split; [eapply wm_operator; [| |exact E3]|eapply wm_operator; [| |exact E4]]; try assumption; apply op_expr, Hm.
  - intros reps Hr. destruct (wf_xreplace e reps H) as (t' & E & _); [intros s r Hin; apply operand_wf_of; eauto|].
    exists t'. split; [exact E|]. eapply wm_xreplace; eassumption.
Qed.

(** Differentiation, by anything, any number of times: KeyError for a missing rule is the only exception. *)
Theorem C105_diff e v n : well_made e -> (exists d, expr_diff e v n = Ok d /\ well_made d) \/ expr_diff e v n = Err KeyError.
Proof.
  intros Hm. destruct (wf_diff v n e (well_made_wf e Hm)) as [(d & E & _)|E]; [left|auto]. exists d. split; [exact E|]. eapply wm_diff; eassumption.
Qed.

(** eval_f64 of a numeric expression with values for its symbols: only arithmetic can fail. *)
Theorem C105_eval_f64 {F} (o : float_ops F) e values : well_made e -> numeric e ->
  (forall s, contains e s -> exists v, dict_get tree_eqb values (Symbol s) = Some v) ->
  (exists v, eval_f64 o e (Some values) = Ok v) \/ exists x, eval_f64 o e (Some values) = Err x /\ arithmetic_exception o x.
Proof.
  intros Hm Hnum Hval. apply well_made_wf in Hm.
  assert (Hmain : forall t, wf t -> (forall u, reach false [] t u -> reach false [] e u) ->
    (exists v, f64_value o values t = Ok v) \/ exists x, f64_value o values t = Err x /\ arithmetic_exception o x).
  { intros t Ht. induction Ht as [n|s|f|f args Hn Hw IH] using wf_ind_all; intros Hin.
    - change (f64_value o values (Integer n)) with (match dict_get tree_eqb values (Integer n) with Some v => Ok v | None => fl_of_int o n end).
      destruct (dict_get tree_eqb values (Integer n)); [eauto|].
      destruct (fl_of_int o n) as [v|x] eqn:E; [eauto|]. right. exists x. split; [reflexivity|]. left. eauto.
    - destruct (Hval s) as (v & E); [apply Hin, reach_refl|]. left. exists v.
      change (f64_value o values (Symbol s)) with (match dict_get tree_eqb values (Symbol s) with Some v => Ok v | None => Err NoEvaluationRuleError end). rewrite E. reflexivity.
    - destruct Hnum as [_ Hnum]. destruct (Hnum f (Hin _ (reach_refl _))).
    - cbn [f64_value].
      assert (Hargs : (exists vs, mapM (f64_value o values) args = Ok vs /\ length vs = length args) \/
        exists x, mapM (f64_value o values) args = Err x /\ arithmetic_exception o x).
      { assert (Hin' : forall a, In a args -> forall u, reach false [] a u -> reach false [] e u).
        { intros a Ha u Hu. apply Hin. eapply reach_arg; eassumption. }
        clear Hn Hin Hw. induction IH as [|a args Ha _ IH]; [left; exists []; auto|]. cbn [mapM].
        destruct (Ha (Hin' a (or_introl eq_refl))) as [(v & ->)|(x & -> & Hx)]; [|right; exists x; auto]. cbn [bind].
        destruct IH as [(vs & -> & Hl)|(x & -> & Hx)]; [intros; eapply Hin'; [right|]; eassumption|left; exists (v :: vs); split; [reflexivity|cbn; congruence]|].
        right. exists x. auto. }
      destruct Hargs as [(vs & -> & Hl)|(x & -> & Hx)]; [|right; exists x; auto]. cbn [bind].
      pose proof (proj1 Hnum _ _ (Hin _ (reach_refl _))) as Hh. rewrite <- Hl in Hn. destruct Hn as (_ & Hp & Hone).
      assert (Hdone : forall r : res F, (forall x, r = Err x -> arithmetic_exception o x) -> (exists v, r = Ok v) \/ exists x, r = Err x /\ arithmetic_exception o x).
      { intros [v|x] Hr; [eauto|right; exists x; split; [reflexivity|apply Hr; reflexivity]]. }
      destruct Hh as [E|[E|[E|[E|[E|[]]]]]]; injection E as E; subst f.
      + apply (Hdone (fl_fsum o vs)). intros x E. right. left. eauto.
      + apply (Hdone (fl_prod o vs)). intros x E. right. right. left. eauto.
      + specialize (Hp eq_refl). destruct vs as [|a [|b [|? ?]]]; try discriminate. apply (Hdone (fl_pow o a b)). intros x E. do 3 right. left. eauto.
      + specialize (Hone ltac:(auto)). destruct vs as [|a [|? ?]]; try discriminate. apply (Hdone (fl_sin o a)). intros x E. do 4 right. left. eauto.
      + specialize (Hone ltac:(auto)). destruct vs as [|a [|? ?]]; try discriminate. apply (Hdone (fl_cos o a)). intros x E. do 5 right. eauto. }
  rewrite C88_f64; [|apply wf_whole, Hm|].
  - destruct (first_error (f64_value o values) (leaves e)) as [x|] eqn:E; [|apply Hmain; auto].
    right. exists x. split; [reflexivity|].
    assert (Hl : forall t u, In u (leaves t) -> wf t -> reach false [] t u).
    { clear. intros t. induction t as [a|cs IH] using tree_ind_all; intros u Hu Hw; [destruct Hu as [<-|[]]; apply reach_refl|].
      inversion Hw as [| | |f args _ Ha]; subst. cbn [leaves] in Hu. apply in_flat_map in Hu as (a & Hin & Hu).
      eapply reach_arg; [exact Hin|]. rewrite Forall_forall in Ha. apply IH; [right; exact Hin|exact Hu|auto]. }
    assert (Hle : forall u, In u (leaves e) -> reach false [] e u) by (intros u Hu; apply Hl; assumption). clear Hl.
    revert E Hle. generalize (leaves e) as l. induction l as [|u l IH]; intros E Hle; [discriminate|]. cbn [first_error] in E.
    destruct (Hmain u) as [(v & Ev)|(y & Ev & Hy)].
    + apply (wf_reach e); [exact Hm|apply Hle; left; reflexivity].
    + intros w Hr. assert (Hu : reach false [] e u) by (apply Hle; left; reflexivity). clear -Hr Hu.
      induction Hu as [u _|u c t Hn Hc _ IHr]; [exact Hr|]. eapply reach_child; [exact Hn|exact Hc|auto].
    + rewrite Ev in E. apply IH; [exact E|]. intros; apply Hle; right; assumption.
    + rewrite Ev in E. injection E as <-. exact Hy.
  - intros a Ha Hty. assert (G : forall t, wf t -> In (Atm a) (leaves t) -> exists z, atom_value a = VInt z).
    { clear -Hty. intros t Ht. induction Ht as [n|s|f|f args Hn Hw IH] using wf_ind_all; cbn [leaves]; intros H.
      1-3: destruct H as [E|[]]; injection E as <-; try discriminate; cbn; eauto.
      apply in_flat_map in H as (c & Hc & H). rewrite Forall_forall in IH. eauto. }
    eauto.
Qed.

(** lambdify of a numeric expression with its symbols among the arguments succeeds, unless an integer is too large for a double. *)
Theorem C105_lambdify {code : Type} (mc : machine) (load : string -> res code) call_f64 call_fill names e h :
  faithful mc load call_f64 call_fill -> good_names (map Symbol names) -> well_made e -> numeric e ->
  (forall s, contains e s -> In s names) -> (forall n, reach false [] e (Integer n) -> (Z.abs n < 2 ^ 1024 - 2 ^ 970)%Z) ->
  exists f, lambdify load (map OExpr (map Symbol names)) (OExpr e) h = (Ok f, h).
Proof.
  intros Hp Hg Hm Hnum Hsym Hint. apply well_made_wf in Hm. apply (C65_lambdify_expression mc load call_f64 call_fill Hp _ e h Hg).
  intros mc' vals Hlen.
  assert (Hmain : forall t, wf t -> (forall u, reach false [] t u -> reach false [] e u) -> exists v, machine_value mc' (map Symbol names) vals t = Some v).
  { intros t Ht. induction Ht as [n|s|f|f args Hn Hw IH] using wf_ind_all; intros Hin.
    - change (machine_value mc' (map Symbol names) vals (Integer n)) with (match argument (map Symbol names) vals (Integer n) with Some v => Some v | None => constant n end).
      destruct (argument (map Symbol names) vals (Integer n)); [eauto|].
      destruct (constant n) as [v|] eqn:E; [eauto|]. apply constant_none in E. specialize (Hint n (Hin _ (reach_refl _))). lia.
    - destruct (argument_some (map Symbol names) vals (Symbol s) Hlen) as (v & E); [apply in_map, Hsym, Hin, reach_refl|].
      exists v. change (machine_value mc' (map Symbol names) vals (Symbol s)) with (match argument (map Symbol names) vals (Symbol s) with Some v => Some v | None => None end). rewrite E. reflexivity.
    - destruct Hnum as [_ Hnum]. destruct (Hnum f (Hin _ (reach_refl _))).
    - rewrite machine_value_node.
      assert (Hargs : exists vs, opt_map (machine_value mc' (map Symbol names) vals) args = Some vs /\ length vs = length args).
      { assert (Hin' : forall a, In a args -> forall u, reach false [] a u -> reach false [] e u) by (intros a Ha u Hu; apply Hin; eapply reach_arg; eassumption).
        clear Hn Hin Hw. induction IH as [|a args Ha _ IH]; [exists []; auto|]. cbn [opt_map].
        destruct (Ha (Hin' a (or_introl eq_refl))) as (v & ->). destruct IH as (vs & -> & Hl); [intros; eapply Hin'; [right|]; eassumption|].
        exists (v :: vs). split; [reflexivity|cbn; congruence]. }
      destruct Hargs as (vs & -> & Hl). pose proof (proj1 Hnum _ _ (Hin _ (reach_refl _))) as Hh. rewrite <- Hl in Hn. destruct Hn as (Hmany & Hpow & Hone).
      destruct Hh as [E|[E|[E|[E|[E|[]]]]]]; injection E as E; subst f; unfold machine_op.
      + specialize (Hmany ltac:(auto)). destruct vs; [cbn in Hmany; lia|]. eexists. reflexivity.
      + specialize (Hmany ltac:(auto)). destruct vs; [cbn in Hmany; lia|]. eexists. reflexivity.
      + specialize (Hpow eq_refl). destruct vs as [|a [|b [|? ?]]]; try discriminate. eexists. reflexivity.
      + specialize (Hone ltac:(auto)). destruct vs as [|a [|? ?]]; try discriminate. eexists. reflexivity.
      + specialize (Hone ltac:(auto)). destruct vs as [|a [|? ?]]; try discriminate. eexists. reflexivity. }
  apply Hmain; auto.
Qed.

(** to_sympy succeeds if SymPy's constructors do. *)
Theorem C105_to_sympy o e : well_made e -> (forall l, exists s, sp_add o l = Ok s) -> (forall l, exists s, sp_mul o l = Ok s) ->
  (forall a b, exists s, sp_pow o a b = Ok s) -> (forall a, exists s, sp_sin o a = Ok s) -> (forall a, exists s, sp_cos o a = Ok s) ->
  (forall f l, exists s, sp_call o f l = Ok s) -> exists s, to_sympy o e = Ok s.
Proof.
  intros Hm Hadd Hmul Hpow Hsin Hcos Hcall. apply well_made_wf in Hm.
  assert (G : exists s, meaning sp_leaf (sp_op o) e = Ok s); [|destruct G as (s & G); exists s; apply to_sympy_meaning, G].
  induction Hm as [n|s|f|f args Hn Hw IH] using wf_ind_all; [eexists; reflexivity..|]. cbn [meaning].
  assert (Hargs : exists vs, mapM (meaning sp_leaf (sp_op o)) args = Ok vs /\ length vs = length args).
  { clear -IH. induction IH as [|a args (v & Hv) _ (vs & Hvs & Hl)]; [exists []; auto|]. cbn [mapM]. rewrite Hv, Hvs. cbn [bind].
    exists (v :: vs). split; [reflexivity|cbn; congruence]. }
  destruct Hargs as (vs & -> & Hl). cbn [bind]. rewrite <- Hl in Hn. destruct Hn as (_ & Hp & Hone). unfold sp_op.
  destruct (tree_eqb_spec (Function f) Add) as [_|_]; [apply Hadd|]. destruct (tree_eqb_spec (Function f) Mul) as [_|_]; [apply Hmul|].
  destruct (tree_eqb_spec (Function f) Pow) as [E|_].
  { injection E as ->. specialize (Hp eq_refl). destruct vs as [|a [|b [|? ?]]]; try discriminate. apply Hpow. }
  destruct (tree_eqb_spec (Function f) sin) as [E|_].
  { injection E as ->. specialize (Hone ltac:(auto)). destruct vs as [|a [|? ?]]; try discriminate. apply Hsin. }
  destruct (tree_eqb_spec (Function f) cos) as [E|_].
  { injection E as ->. specialize (Hone ltac:(auto)). destruct vs as [|a [|? ?]]; try discriminate. apply Hcos. }
  destruct (tree_eqb (Function f) List_); [eexists; reflexivity|]. apply Hcall.
Qed.

(** (sin(x)/y + f(x, 2)) with x replaced by x**2, and its derivative by y; and 1 + True*sin(x) from ints and a bool. *)
Definition e_made : tree := m_add (tree_call Mul [call1 sin (m_pow x (int 2)); m_pow y (int (-1))]) (tree_call f [m_pow x (int 2); int 2]).
Example C105_case :
  well_made e_made /\ eval_repr e_made = Ok "((sin(x**2)*y**-1) + f(x**2, 2))" /\
  (exists d, expr_diff e_made y 1 = Ok d /\ well_made d /\ numeric d /\ (forall s, contains d s -> In s ["x"; "y"]) /\
    (forall n, reach false [] d (Integer n) -> (Z.abs n < 2 ^ 1024 - 2 ^ 970)%Z) /\ good_names (map Symbol ["x"; "y"])) /\
  expr_diff e_made x 1 = Err KeyError /\ ~ numeric e_made /\
  eval_repr (tree_call Pow [x]) = Err TypeError /\ ~ right_number "pow" 1.
Proof.
  assert (Hx : well_made x) by apply wm_symbol. assert (Hy : well_made y) by apply wm_symbol.
  assert (H0 : well_made (tree_call sin [x])).
  { apply (wm_call "sin" [OExpr x]); [repeat split; try discriminate; intros [?|?]; discriminate| |reflexivity]. intros a [<-|[]]. apply op_expr, Hx. }
  assert (H1 : well_made (tree_call Mul [tree_call sin [x]; m_pow y (int (-1))])).
  { apply (wm_operator OpDiv (OExpr (tree_call sin [x])) (OExpr y) empty_heap); [apply op_expr, H0|apply op_expr, Hy|reflexivity]. }
  assert (H2 : well_made (tree_call f [x; int 2])).
  { apply (wm_call "f" [OExpr x; OInt 2]); [repeat split; try discriminate; intros [?|?]; discriminate| |reflexivity].
    intros a [<-|[<-|[]]]; [apply op_expr, Hx|apply op_int]. }
  assert (H3 : well_made (m_pow x (int 2))).
  { apply (wm_operator OpPow (OExpr x) (OInt 2) empty_heap); [apply op_expr, Hx|apply op_int|reflexivity]. }
  assert (H4 : well_made e_made).
  { eapply (wm_xreplace (m_add (tree_call Mul [tree_call sin [x]; m_pow y (int (-1))]) (tree_call f [x; int 2])) [("x", OExpr (m_pow x (int 2)))]).
    - apply (wm_operator OpAdd (OExpr (tree_call Mul [tree_call sin [x]; m_pow y (int (-1))])) (OExpr (tree_call f [x; int 2])) empty_heap); try (apply op_expr; assumption). reflexivity.
    - intros s r [E|[]]. injection E as _ <-. apply op_expr, H3.
    - vm_compute. reflexivity. }
  split; [exact H4|]. split; [vm_compute; reflexivity|]. split.
  { destruct (expr_diff e_made y 1) as [d|] eqn:E; [|vm_compute in E; discriminate]. exists d. split; [reflexivity|].
    split; [eapply wm_diff; [exact H4|exact E]|]. vm_compute in E. injection E as <-. split; [split|split; [|split]].
    - intros h args Hr. apply post_reach in Hr. vm_compute in Hr.
      repeat match type of Hr with _ \/ _ => destruct Hr as [Hr|Hr] | False => destruct Hr end;
        try discriminate; injection Hr as <- _; vm_compute; tauto.
    - intros g Hr. apply post_reach in Hr. vm_compute in Hr.
      repeat match type of Hr with _ \/ _ => destruct Hr as [Hr|Hr] | False => destruct Hr end; discriminate.
    - intros s Hr. apply post_reach in Hr. vm_compute in Hr.
      repeat match type of Hr with _ \/ _ => destruct Hr as [Hr|Hr] | False => destruct Hr end; try discriminate; injection Hr as <-; cbn; tauto.
    - intros n Hr. apply post_reach in Hr. vm_compute in Hr.
      repeat match type of Hr with _ \/ _ => destruct Hr as [Hr|Hr] | False => destruct Hr end; try discriminate; injection Hr as <-; vm_compute; reflexivity.
    - exists ["x"; "y"]. split; [reflexivity|]. split; [repeat (apply NoDup_cons; [cbn [In]; intuition discriminate|]); apply NoDup_nil|].
      split; [repeat constructor; discriminate|]. intros k [H|[H|[]]]; discriminate. }
  split; [vm_compute; reflexivity|]. split.
  { intros [Hn _]. specialize (Hn f [m_pow x (int 2); int 2]). destruct Hn as [E|[E|[E|[E|[E|[]]]]]]; try discriminate.
    apply post_reach. vm_compute. tauto. }
  split; [vm_compute; reflexivity|]. intros (_ & H & _). specialize (H eq_refl). discriminate.
Qed.
Print Assumptions C105_texts.
Print Assumptions C105_operations.
Print Assumptions C105_diff.
Print Assumptions C105_eval_f64.
Print Assumptions C105_lambdify.
Print Assumptions C105_to_sympy.
