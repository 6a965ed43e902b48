(** * Which exception an evaluation raises: proofs for C88 *)
From Verif Require Import Py ModelTree SpecTree ProofBase ProofTopo ProofGraph ProofTree ModelEval SpecEval ProofEval ModelDiff SpecDiff ProofDiff SpecOutcome.

Section FE.
  Context {V : Type}.
  Lemma fe_app {A} (f : A -> res V) l1 l2 : first_error f (l1 ++ l2) =
    match first_error f l1 with Some x => Some x | None => first_error f l2 end.
  Proof. induction l1 as [|a l IH]; simpl; [reflexivity|]. destruct (f a); [exact IH|reflexivity]. Qed.
  Lemma fe_mapM {A} (f : A -> res V) l :
    first_error f l = match mapM f l with Ok _ => None | Err x => Some x end.
  Proof.
    induction l as [|a l IH]; simpl; [reflexivity|]. destruct (f a); [|reflexivity]. cbn [bind].
    rewrite IH. destruct (mapM f l); reflexivity.
  Qed.
  Lemma fe_ext {A} (f g : A -> res V) l : (forall a, In a l -> f a = g a) -> first_error f l = first_error g l.
  Proof. induction l as [|a l IH]; simpl; intros H; [reflexivity|]. rewrite (H a), IH by auto. reflexivity. Qed.
  (** Dropping calls that succeed changes nothing. *)
  Lemma fe_filter {A} (f : A -> res V) p l : (forall a, In a l -> p a = false -> exists v, f a = Ok v) ->
    first_error f (filter p l) = first_error f l.
  Proof.
    induction l as [|a l IH]; simpl; intros H; [reflexivity|]. destruct (p a) eqn:E; simpl.
    - rewrite IH by auto. reflexivity.
    - destruct (H a (or_introl eq_refl) E) as (v & ->). apply IH. auto.
  Qed.
  Lemma fe_keep_first (f : tree -> res V) l : first_error f (keep_first l) = first_error f l.
  Proof.
    induction l as [|a l IH]; simpl; [reflexivity|]. destruct (f a) as [v|] eqn:E; [|reflexivity].
    rewrite fe_filter; [exact IH|]. intros b _ Hb. apply Bool.negb_false_iff in Hb.
    destruct (tree_eqb_spec a b) as [Heq|Hne]; [rewrite <- Heq; eauto|discriminate].
  Qed.
  Lemma fe_None {A} (f : A -> res V) l : first_error f l = None -> forall a, In a l -> exists v, f a = Ok v.
  Proof.
    induction l as [|a l IH]; simpl; [tauto|]. destruct (f a) as [v|] eqn:E; [|discriminate].
    intros H b [<-|Hb]; eauto.
  Qed.

  (** The exception of the recursion is that of the first subexpression in post-order. *)
  Lemma fe_meaning (leaf : tree -> res V) op e :
    first_error (meaning leaf op) (postorder false [] e) =
    match meaning leaf op e with Ok _ => None | Err x => Some x end.
  Proof.
    induction e as [a|cs IH] using tree_ind_all; [simpl; destruct (leaf _); reflexivity|].
    destruct cs as [|h args]; [simpl; destruct (leaf _); reflexivity|].
    assert (E : first_error (meaning leaf op) (flat_map (postorder false []) args) =
                match mapM (meaning leaf op) args with Ok _ => None | Err x => Some x end).
    { assert (Hall : forall a, In a args -> first_error (meaning leaf op) (postorder false [] a) =
        match meaning leaf op a with Ok _ => None | Err x => Some x end) by (intros a Ha; apply IH; right; exact Ha).
      clear IH. induction args as [|a args IHa]; [reflexivity|]. cbn [flat_map mapM].
      rewrite fe_app, (Hall a (or_introl eq_refl)). destruct (meaning leaf op a); [|reflexivity]. cbn [bind].
      rewrite IHa by (intros b Hb; apply Hall; right; exact Hb). destruct (mapM (meaning leaf op) args); reflexivity. }
    cbn [postorder mem existsb]. rewrite !app_nil_l, fe_app, E. cbn [first_error meaning].
    destruct (mapM (meaning leaf op) args) as [vs|x]; cbn [bind]; [|reflexivity].
    destruct (op h vs); reflexivity.
  Qed.
End FE.

Lemma leaves_post e : leaves e = filter childless (postorder false [] e).
Proof.
  induction e as [a|cs IH] using tree_ind_all; [reflexivity|].
  destruct cs as [|h args]; [reflexivity|]. cbn [leaves postorder mem existsb]. rewrite app_nil_l, filter_app.
  cbn [filter childless children]. rewrite app_nil_r.
  assert (Hall : forall a, In a args -> leaves a = filter childless (postorder false [] a)) by (intros a Ha; apply IH; right; exact Ha).
  clear IH. induction args as [|a args IHa]; [reflexivity|]. cbn [flat_map]. rewrite filter_app, (Hall a (or_introl eq_refl)).
  f_equal. apply IHa. intros b Hb. apply Hall. right. exact Hb.
Qed.

Lemma leaves_childless e a : In a (leaves e) -> children a = [].
Proof.
  rewrite leaves_post, filter_In. intros [_ H]. unfold childless in H. destruct (children a); [reflexivity|discriminate].
Qed.

(** [filter] and [keep_first] commute. *)
Lemma filter_comm {A} (p q : A -> bool) l : filter p (filter q l) = filter q (filter p l).
Proof.
  induction l as [|a l IH]; simpl; [reflexivity|].
  destruct (q a) eqn:Eq, (p a) eqn:Ep; simpl; rewrite ?Eq, ?Ep; congruence.
Qed.
Lemma filter_absent (p : tree -> bool) a l : p a = false ->
  filter p (filter (fun y => negb (tree_eqb a y)) l) = filter p l.
Proof.
  intros Hp. induction l as [|b l IH]; simpl; [reflexivity|]. destruct (tree_eqb_spec a b) as [<-|Hn]; simpl.
  - rewrite Hp. exact IH.
  - destruct (p b); congruence.
Qed.
Lemma keep_first_filter p l : keep_first (filter p l) = filter p (keep_first l).
Proof.
  induction l as [|a l IH]; simpl; [reflexivity|]. destruct (p a) eqn:E; simpl; rewrite IH.
  - rewrite filter_comm. reflexivity.
  - rewrite filter_absent by exact E. reflexivity.
Qed.

Section Outcome.
  Context {V : Type} (is_none : V -> bool).
  Implicit Type (ev : evaluator V).

  Lemma forward_outcome ev values e :
    eval_forward is_none ev values e =
    match first_error (eval_leaf is_none ev values) (leaves e) with
    | Some x => Err x
    | None => meaning (eval_leaf is_none ev values) (eval_operation ev) e
    end.
  Proof.
    set (m := meaning (eval_leaf is_none ev values) (eval_operation ev)).
    assert (Hl : first_error (eval_leaf is_none ev values) (leaves e) = first_error m (leaves e)).
    { apply fe_ext. intros a Ha. symmetry. apply meaning_leaf, (leaves_childless e), Ha. }
    rewrite Hl. destruct (eval_forward is_none ev values e) as [v|x] eqn:Ef.
    - pose proof Ef as Em. apply eval_forward_meaning in Em. fold m in Em. rewrite Em.
      destruct (first_error m (leaves e)) as [y|] eqn:E; [|reflexivity]. exfalso.
      pose proof (fe_meaning (eval_leaf is_none ev values) (eval_operation ev) e) as H. fold m in H. rewrite Em in H.
      pose proof (fe_None _ _ H) as Hok.
      assert (Hn : first_error m (leaves e) = None); [|congruence].
      rewrite leaves_post. clear - Hok. induction (postorder false [] e) as [|b l IH]; [reflexivity|]. cbn [filter].
      destruct (childless b); [|apply IH; intros; apply Hok; right; assumption]. cbn [first_error].
      destruct (Hok b (or_introl eq_refl)) as (v & ->). apply IH. intros; apply Hok; right; assumption.
    - rewrite eval_forward_order in Ef. fold m in Ef.
      assert (Hx : first_error m (forder e) = Some x).
      { rewrite fe_mapM. destruct (mapM m (forder e)) as [vs|y] eqn:E; cbn [bind] in Ef; [|congruence].
        exfalso. apply mapM_length in E. destruct (forder_last e) as (l & Hl'). rewrite Hl' in E.
        rewrite app_length in E. destruct (last_item_nonempty vs) as (v & Hv); [|congruence].
        intros ->. simpl in E. lia. }
      unfold forder, tsort in Hx. rewrite fe_app in Hx.
      rewrite <- keep_first_filter, fe_keep_first, <- leaves_post in Hx.
      destruct (first_error m (leaves e)) as [y|] eqn:E; [congruence|].
      rewrite <- keep_first_filter, fe_keep_first in Hx.
      rewrite fe_filter in Hx.
      + pose proof (fe_meaning (eval_leaf is_none ev values) (eval_operation ev) e) as Hf. fold m in Hf. rewrite Hf in Hx.
        destruct (m e); congruence.
      + intros a Ha Hc. apply (fe_None _ _ E). rewrite leaves_post. apply filter_In. split; [exact Ha|].
        unfold compound in Hc. apply Bool.negb_false_iff, Hc.
  Qed.

  Lemma forward_leaf ev values a e : In a (leaves e) ->
    eval_leaf is_none ev values a = eval_forward is_none ev values a.
  Proof. intros H. symmetry. apply eval_forward_leaf_eq, (leaves_childless e), H. Qed.

  Lemma forward_outcome' ev values e :
    eval_forward is_none ev values e =
    match first_error (eval_forward is_none ev values) (leaves e) with
    | Some x => Err x
    | None => meaning (eval_leaf is_none ev values) (eval_operation ev) e
    end.
  Proof.
    rewrite forward_outcome at 1. rewrite (fe_ext (eval_leaf is_none ev values) (eval_forward is_none ev values)); [reflexivity|].
    intros a Ha. exact (forward_leaf ev values a e Ha).
  Qed.

  Lemma leaves_args h args a : In a args -> forall b, In b (leaves a) -> In b (leaves (Node (h :: args))).
  Proof. intros H b Hb. cbn [leaves]. apply in_flat_map. eauto. Qed.

  Lemma forward_outcome_node ev values h args :
    eval_forward is_none ev values (Node (h :: args)) =
    match first_error (eval_forward is_none ev values) (leaves (Node (h :: args))) with
    | Some x => Err x
    | None => do vs <- mapM (eval_forward is_none ev values) args; eval_operation ev h vs
    end.
  Proof.
    rewrite forward_outcome' at 1. destruct (first_error _ (leaves (Node (h :: args)))) eqn:E; [reflexivity|].
    cbn [meaning]. rewrite (mapM_ext _ (eval_forward is_none ev values) args); [reflexivity|].
    intros a Ha. rewrite forward_outcome'.
    destruct (first_error (eval_forward is_none ev values) (leaves a)) as [x|] eqn:Ea; [|reflexivity].
    exfalso. pose proof (fe_None _ _ E) as Hok.
    assert (Hn : first_error (eval_forward is_none ev values) (leaves a) = None); [|congruence].
    pose proof (leaves_args h args a Ha) as Hsub. clear - Hok Hsub.
    induction (leaves a) as [|b l IH]; [reflexivity|]. cbn [first_error].
    destruct (Hok b) as (v & ->); [apply Hsub; left; reflexivity|]. apply IH. intros c Hc. apply Hsub. right. exact Hc.
  Qed.
End Outcome.

(** ** Texts and floats *)
From Verif Require Import ModelDiff ModelSym ModelCas SpecPrint ProofPrint ProofF64.
Lemma eval_repr_outcome e : eval_repr e = match first_error pretty (leaves e) with Some x => Err x | None => pretty e end.
Proof.
  destruct (eval_repr_mean) as (ev & Eev & Hm). unfold eval_repr. rewrite Eev. cbn [bind]. unfold sym_evaluate, evaluate.
  rewrite forward_outcome, (Hm e).
  rewrite (fe_ext (eval_leaf (fun _ => false) ev []) pretty); [reflexivity|].
  intros a Ha. rewrite <- Hm. symmetry. apply meaning_leaf, (leaves_childless e), Ha.
Qed.
Lemma eval_latex_outcome e : eval_latex e = match first_error latex (leaves e) with Some x => Err x | None => latex e end.
Proof.
  destruct (eval_latex_mean) as (ev & Eev & Hm). unfold eval_latex. rewrite Eev. cbn [bind]. unfold sym_evaluate, evaluate.
  rewrite forward_outcome, (Hm e).
  rewrite (fe_ext (eval_leaf (fun _ => false) ev []) latex); [reflexivity|].
  intros a Ha. rewrite <- Hm. symmetry. apply meaning_leaf, (leaves_childless e), Ha.
Qed.
Lemma f64_value_leaf {F} (o : float_ops F) values a : children a = [] -> a <> Node [] ->
  (forall b, a = Atm b -> atom_type b = T_Integer -> exists z, atom_value b = VInt z) ->
  f64_value o values a = f64_leaf o values a.
Proof.
  destruct a as [[ty v]|[|c cs]]; [|congruence|discriminate]. intros _ _ Hi. cbn [f64_value]. unfold f64_leaf.
  destruct (dict_get tree_eqb values _); [reflexivity|]. destruct v as [z|s]; [reflexivity|].
  destruct (atype_eqb_spec' ty T_Integer) as [Ht|]; [|reflexivity].
  destruct (Hi _ eq_refl Ht) as (z & Hz). discriminate.
Qed.
Lemma f64_apply_op {F} (o : float_ops F) h vs : repr_raises h = Ok tt -> f64_apply o h vs = f64_op o h vs.
Proof.
  intros Hh. unfold f64_apply, f64_op.
  destruct (tree_eqb_spec h Add) as [->|_]; [reflexivity|]. destruct (tree_eqb_spec h Mul) as [->|_]; [reflexivity|].
  destruct (tree_eqb_spec h Pow) as [->|_]; [reflexivity|]. destruct (tree_eqb_spec h sin) as [->|_]; [reflexivity|].
  destruct (tree_eqb_spec h cos) as [->|_]; [reflexivity|]. rewrite Hh. reflexivity.
Qed.
Lemma f64_value_meaning {F} (o : float_ops F) values e : whole e -> int_atoms e ->
  f64_value o values e = meaning (f64_leaf o values) (f64_op o) e.
Proof.
  induction e as [a|cs IH] using tree_ind_all; intros Hw Hi.
  - rewrite f64_value_leaf; [reflexivity|reflexivity|discriminate|].
    intros b [= <-]. apply Hi. left. reflexivity.
  - destruct cs as [|h args]; [exfalso; apply Hw; constructor; intros []|].
    cbn [f64_value meaning]. rewrite (mapM_ext _ (meaning (f64_leaf o values) (f64_op o)) args).
    + destruct (mapM _ args) as [vs|]; [|reflexivity]. cbn [bind]. apply f64_apply_op, repr_fine.
      eapply whole_child; [exact Hw|]. left. reflexivity.
    + intros a Ha. apply IH; [right; exact Ha| |].
      * eapply whole_child; [exact Hw|]. right. exact Ha.
      * intros b Hb. apply Hi. cbn [leaves]. apply in_flat_map. eauto.
Qed.
Lemma eval_f64_outcome {F} (o : float_ops F) values e : whole e -> int_atoms e ->
  eval_f64 o e (Some values) =
  match first_error (f64_value o values) (leaves e) with Some x => Err x | None => f64_value o values e end.
Proof.
  intros Hw Hi. destruct (f64_ev o) as (ev & E & Hl & Ho). unfold eval_f64. rewrite E. cbn [bind]. unfold sym_evaluate, evaluate.
  rewrite forward_outcome, f64_value_meaning by assumption.
  rewrite (fe_ext (eval_leaf (fun _ => false) ev values) (f64_value o values)).
  - rewrite (meaning_ext _ (f64_leaf o values) _ (f64_op o) e); [reflexivity| |].
    + intros s _ Hs. apply Hl, Hs.
    + intros h args vs _ _. apply Ho.
  - intros a Ha. rewrite Hl by exact (leaves_childless e a Ha). symmetry. apply f64_value_leaf.
    + exact (leaves_childless e a Ha).
    + intros ->. apply Hw. rewrite leaves_post, filter_In, post_reach in Ha. apply reach_false_true, Ha.
    + intros b ->. apply Hi, Ha.
Qed.

(** ** Differentiation *)
Section DiffOutcome.
  Context (p : diff_props) (s : tree).
  Lemma dsem_meaning e : dsem p s e = meaning (fun t => Ok (t, if tree_eqb t s then dp_one p else dp_zero p)) (dop p) e.
  Proof.
    induction e as [a|cs IH] using tree_ind_all; [reflexivity|]. destruct cs as [|h args]; [reflexivity|].
    rewrite dsem_node by discriminate. cbn [meaning args_of head_of]. f_equal. apply mapM_ext. intros c Hc. apply IH. right. exact Hc.
  Qed.
  Lemma diff_outcome e : diff_forward e s p = deriv p s e.
  Proof.
    destruct (diff_forward e s p) as [d|x] eqn:E; [symmetry; apply diff_forward_deriv, E|].
    rewrite diff_forward_order in E.
    assert (Hx : first_error (dsem p s) (forder e) = Some x).
    { rewrite fe_mapM. destruct (mapM (dsem p s) (forder e)) as [vs|y] eqn:Ev; cbn [bind] in E; [|congruence].
      exfalso. apply mapM_length in Ev. destruct (forder_last e) as (l & Hl). rewrite Hl, app_length in Ev.
      destruct (last_item_nonempty vs) as (v & Hv); [|rewrite Hv in E; discriminate]. intros ->. simpl in Ev. lia. }
    assert (Hleaf : forall t, children t = [] -> exists v, dsem p s t = Ok v).
    { intros t Ht. eexists. destruct t as [a|[|]]; [reflexivity|reflexivity|discriminate]. }
    unfold forder, tsort in Hx. rewrite fe_app, <- !keep_first_filter, !fe_keep_first in Hx.
    assert (H0 : first_error (dsem p s) (filter childless (postorder false [] e)) = None).
    { rewrite <- leaves_post. pose proof (leaves_childless e) as Hc. induction (leaves e) as [|t l IH]; [reflexivity|]. cbn [first_error].
      destruct (Hleaf t (Hc t (or_introl eq_refl))) as (v & ->). apply IH. intros b Hb. apply Hc. right. exact Hb. }
    rewrite H0, fe_filter in Hx.
    - rewrite (fe_ext _ _ _ (fun t _ => dsem_meaning t)), fe_meaning, <- dsem_meaning in Hx. unfold dsem in Hx.
      destruct (deriv p s e); cbn [bind] in Hx; congruence.
    - intros t _ Hc. apply Hleaf. unfold compound in Hc. apply Bool.negb_false_iff in Hc. unfold childless in Hc. destruct (children t); [reflexivity|discriminate].
  Qed.
End DiffOutcome.
