(** * Differentiation *)
From Verif Require Import Py ModelTree SpecTree ModelDiff SpecDiff ProofBase ProofTopo ProofGraph
  ProofSubs ProofTree.

Lemma rule_key_eqb_spec k1 k2 : reflect (k1 = k2) (rule_key_eqb k1 k2).
Proof.
  unfold rule_key_eqb. destruct k1 as [h1 n1], k2 as [h2 n2]; simpl.
  destruct (tree_eqb_spec h1 h2) as [->|H]; simpl; [|constructor; congruence].
  destruct (Nat.eqb_spec n1 n2) as [->|H]; constructor; congruence.
Qed.

Lemma enumerate_combine {A} (l : list A) n : enumerate_from n l = combine (seq n (length l)) l.
Proof. revert n. induction l as [|a l IH]; intros n; simpl; [reflexivity|]. rewrite IH. reflexivity. Qed.

Lemma set_nth_split (l : list tree) i d : i < length l ->
  set_nth l i d = firstn i l ++ [d] ++ skipn (i + 1) l.
Proof.
  revert i. induction l as [|a l IH]; intros i Hi; simpl in Hi; [lia|].
  destruct i as [|i]; simpl; [reflexivity|]. rewrite IH by lia. reflexivity.
Qed.

Lemma nonzero_filter (zero : tree) ds : forall n,
  map snd (filter (fun id => negb (tree_eqb (snd id) zero)) (combine (seq n (length ds)) ds)) =
  filter (fun d => negb (tree_eqb d zero)) ds.
Proof.
  induction ds as [|d ds IH]; intros n; simpl; [reflexivity|].
  destruct (negb (tree_eqb d zero)); simpl; rewrite IH; reflexivity.
Qed.

Lemma all_zero_dependent zero ds : all_zero ds zero = true -> dependent zero ds = [].
Proof.
  intros H. unfold dependent.
  assert (Hall : forall d, In d ds -> tree_eqb d zero = true).
  { unfold all_zero in H. destruct ds; [discriminate|]. apply forallb_forall. exact H. }
  clear H. generalize 0 as n. induction ds as [|d ds IH]; intros n; simpl; [reflexivity|].
  rewrite Hall by (left; reflexivity). simpl. apply IH. intros; apply Hall; right; assumption.
Qed.

Lemma product_fold args zero mul ds : forall n terms,
  n + length ds <= length args ->
  fold_left (product_step args zero mul) (enumerate_from n ds) terms =
  terms ++ map (fun id => Node (mul :: set_nth args (fst id) (snd id)))
             (filter (fun id => negb (tree_eqb (snd id) zero)) (combine (seq n (length ds)) ds)).
Proof.
  induction ds as [|d ds IH]; intros n terms Hn; simpl in *; [rewrite app_nil_r; reflexivity|].
  rewrite IH by lia. unfold product_step. destruct (negb (tree_eqb d zero)); [|reflexivity].
  cbn [map fst snd]. rewrite <- app_assoc. unfold tree_call. rewrite set_nth_split by lia. reflexivity.
Qed.

Lemma chain_fold p func args ds : forall n terms,
  foldM (chain_step func args (dp_zero p) (dp_one p) (dp_mul p) (dp_rules p)) (enumerate_from n ds) terms =
  do ts <- mapM (chain_term p func args)
             (filter (fun id => negb (tree_eqb (snd id) (dp_zero p))) (combine (seq n (length ds)) ds));
  Ok (terms ++ ts).
Proof.
  induction ds as [|d ds IH]; intros n terms; cbn [enumerate_from foldM length seq combine filter snd].
  - cbn [mapM bind]. rewrite app_nil_r. reflexivity.
  - unfold chain_step at 1. destruct (negb (tree_eqb d (dp_zero p))) eqn:Ed.
    + cbn [mapM]. unfold chain_term at 1. cbn [fst snd]. unfold dict_getitem.
      destruct (dict_get rule_key_eqb (dp_rules p) (func, n)) as [sf|]; cbn [of_option bind]; [|reflexivity].
      destruct (subs_call sf args) as [r|x]; cbn [bind]; [|reflexivity].
      rewrite IH. unfold tree_call.
      destruct (mapM _ _) as [ts|x]; cbn [bind]; [|reflexivity].
      rewrite <- app_assoc. destruct (tree_eqb d (dp_one p)); reflexivity.
    + cbn [bind]. apply IH.
Qed.

(** The body of the loop is the recursion's step. *)
Lemma diff_terms_spec p f args ds : length ds = length args ->
  (do terms <- diff_terms_of p f args ds; Ok (sum_terms p terms)) =
  if mem f (dp_distributive p) then Ok (Node (f :: ds))
  else
    do terms <-
      (if tree_eqb f (dp_add p) then Ok (map snd (dependent (dp_zero p) ds))
       else if tree_eqb f (dp_mul p)
       then Ok (map (fun id => Node (dp_mul p :: set_nth args (fst id) (snd id)))
                    (dependent (dp_zero p) ds))
       else mapM (chain_term p f args) (dependent (dp_zero p) ds));
    Ok (total p terms).
Proof.
  intros Hl. unfold diff_terms_of. destruct (mem f (dp_distributive p)); [reflexivity|].
  destruct (all_zero ds (dp_zero p)) eqn:Ez.
  - rewrite (all_zero_dependent _ _ Ez). simpl.
    destruct (tree_eqb f (dp_add p)); [reflexivity|]. destruct (tree_eqb f (dp_mul p)); reflexivity.
  - destruct (tree_eqb f (dp_add p)).
    + cbn [bind]. unfold dependent. rewrite nonzero_filter. reflexivity.
    + destruct (tree_eqb f (dp_mul p)).
      * cbn [bind]. unfold product_rule_forward. rewrite product_fold by lia. reflexivity.
      * unfold chain_rule_forward. rewrite chain_fold. cbn [app].
        unfold dependent. destruct (mapM _ _); reflexivity.
Qed.

Section DiffGraph.
  Variable p : diff_props.
  Variable s : tree.

  Definition dsem (t : tree) : res (tree * tree) := do d <- deriv p s t; Ok (t, d).
  Definition dop (head : tree) (vs : list (tree * tree)) : res (tree * tree) :=
    do terms <- diff_terms_of p head (map fst vs) (map snd vs);
    Ok (tree_call head (map fst vs), sum_terms p terms).

  Lemma mapM_dsem l : mapM dsem l = do ds <- mapM (deriv p s) l; Ok (combine l ds).
  Proof.
    induction l as [|t l IH]; simpl; [reflexivity|]. unfold dsem at 1.
    destruct (deriv p s t) as [d|x]; cbn [bind]; [|reflexivity]. rewrite IH.
    destruct (mapM (deriv p s) l); reflexivity.
  Qed.

  Lemma combine_fst {A B} (l : list A) (l' : list B) : length l' = length l -> map fst (combine l l') = l.
  Proof. revert l'. induction l as [|a l IH]; intros [|b l']; simpl; intros H; try discriminate; [reflexivity|]. f_equal; auto. Qed.
  Lemma combine_snd {A B} (l : list A) (l' : list B) : length l' = length l -> map snd (combine l l') = l'.
  Proof. revert l'. induction l as [|a l IH]; intros [|b l']; simpl; intros H; try discriminate; [reflexivity|]. f_equal; auto. Qed.

  Lemma dsem_node t : children t <> [] -> dsem t = do vs <- mapM dsem (args_of t); dop (head_of t) vs.
  Proof.
    destruct t as [a|[|h args]]; simpl; try congruence. intros _.
    unfold dsem at 1. cbn [deriv]. rewrite mapM_dsem. unfold args_of, head_of; cbn [children tl hd].
    destruct (mapM (deriv p s) args) as [ds|x] eqn:E; cbn [bind]; [|reflexivity].
    assert (Hl : length ds = length args) by (apply mapM_length in E; congruence).
    rewrite <- diff_terms_spec by exact Hl.
    unfold dop. rewrite combine_fst, combine_snd by exact Hl.
    destruct (diff_terms_of p h args ds); reflexivity.
  Qed.

  Lemma mapM_getitem_map {A B} (h : A -> B) (stack : list A) l :
    mapM (getitem (map h stack)) l = do vs <- mapM (getitem stack) l; Ok (map h vs).
  Proof.
    induction l as [|i l IH]; simpl; [reflexivity|]. unfold getitem at 1 3. rewrite nth_error_map.
    destruct (nth_error stack i); simpl; [|reflexivity]. rewrite IH.
    destruct (mapM (getitem stack) l); reflexivity.
  Qed.

  Lemma two_stacks ops : forall stack,
    foldM (diff_step p) ops (map fst stack, map snd stack) =
    do st <- foldM (run_op dop) ops stack; Ok (map fst st, map snd st).
  Proof.
    induction ops as [|[h idx] ops IH]; intros stack; cbn [foldM]; [reflexivity|].
    unfold diff_step at 1, run_op at 1. cbn [fst snd]. rewrite !mapM_getitem_map.
    destruct (mapM (getitem stack) idx) as [vs|x]; cbn [bind]; [|reflexivity].
    unfold dop at 1. destruct (diff_terms_of p h (map fst vs) (map snd vs)) as [ts|x]; cbn [bind]; [|reflexivity].
    rewrite <- IH, !map_app. reflexivity.
  Qed.

  Lemma last_item_map {A B} (h : A -> B) l : last_item (map h l) = do v <- last_item l; Ok (h v).
  Proof. unfold last_item. rewrite <- map_rev. destruct (rev l); reflexivity. Qed.

  Lemma diff_forward_order e :
    diff_forward e s p = do vs <- mapM dsem (forder e); do v <- last_item vs; Ok (snd v).
  Proof.
    unfold diff_forward. destruct (forward_graph_spec e) as (hs & -> & _). cbn [bind g_atoms g_operations].
    set (A := filter childless (tsort e [])).
    assert (Ha : exists st, mapM dsem A = Ok st /\ map fst st = A /\
               map snd st = map (fun t => if tree_eqb t s then dp_one p else dp_zero p) A).
    { assert (Hc : forall t, In t A -> children t = []).
      { intros t Ht. apply filter_In in Ht as [_ Ht]. unfold childless in Ht.
        destruct (children t); [reflexivity|discriminate]. }
      revert Hc. generalize A as l. induction l as [|t l IH]; intros Hc; [exists []; auto|].
      destruct IH as (st & E & E1 & E2); [intros; apply Hc; right; assumption|].
      exists ((t, if tree_eqb t s then dp_one p else dp_zero p) :: st). cbn [mapM].
      assert (Ht : children t = []) by (apply Hc; left; reflexivity).
      assert (Hd : dsem t = Ok (t, if tree_eqb t s then dp_one p else dp_zero p)).
      { unfold dsem. destruct t as [a|[|]]; [reflexivity|reflexivity|discriminate]. }
      rewrite Hd. cbn [bind]. rewrite E. cbn [bind map fst snd]. rewrite E1, E2. auto. }
    destruct Ha as (st & E & E1 & E2). rewrite <- E2. rewrite <- E1 at 1. rewrite two_stacks.
    assert (Hn : forall t, In t (filter compound (tsort e [])) ->
              dsem t = do vs <- mapM dsem (args_of t); dop (head_of t) vs).
    { intros t Ht. apply dsem_node. apply filter_In in Ht as [_ Ht].
      unfold compound, childless in Ht. destruct (children t); [discriminate|congruence]. }
    pose proof (run_graph dop dsem e Hn hs) as H. cbn [g_atoms] in H. fold A in H.
    rewrite E in H. cbn [bind] in H. rewrite H.
    destruct (mapM dsem (forder e)) as [vs|x]; cbn [bind]; [|reflexivity]. apply last_item_map.
  Qed.

  Lemma diff_forward_deriv e d : diff_forward e s p = Ok d <-> deriv p s e = Ok d.
  Proof.
    rewrite diff_forward_order.
    assert (Hn : forall t, In t (filter compound (tsort e [])) ->
              dsem t = do vs <- mapM dsem (args_of t); dop (head_of t) vs).
    { intros t Ht. apply dsem_node. apply filter_In in Ht as [_ Ht].
      unfold compound, childless in Ht. destruct (children t); [discriminate|congruence]. }
    pose proof (fun v => graph_eval_iff dop dsem e Hn v) as H.
    destruct (mapM dsem (forder e)) as [vs|x] eqn:Ev; cbn [bind] in *.
    - destruct (last_item vs) as [[t d']|x] eqn:El; cbn [bind snd] in *.
      + specialize (H (t, d')). destruct H as [H _]. specialize (H eq_refl).
        unfold dsem in H. destruct (deriv p s e) as [d''|x]; cbn [bind] in H; [|discriminate].
        injection H as _ ->. reflexivity.
      + split; [discriminate|]. intros Hd. specialize (H (e, d)). destruct H as [_ H].
        unfold dsem in H. rewrite Hd in H. specialize (H eq_refl). discriminate.
    - split; [discriminate|]. intros Hd. specialize (H (e, d)). destruct H as [_ H].
      unfold dsem in H. rewrite Hd in H. specialize (H eq_refl). discriminate.
  Qed.

  (** Every error of diff_forward is an error of the recursion on some subexpression. *)
  Lemma diff_forward_Err e x : diff_forward e s p = Err x ->
    exists t, reach false [] e t /\ deriv p s t = Err x.
  Proof.
    rewrite diff_forward_order.
    destruct (mapM dsem (forder e)) as [vs|x'] eqn:Ev; cbn [bind].
    - apply mapM_length in Ev. destruct (forder_last e) as (l & Hl). rewrite Hl, app_length in Ev.
      destruct (last_item_nonempty vs) as (v & ->); [|discriminate]. intros ->. simpl in Ev. lia.
    - intros [= ->].
      assert (Hm : forall l, mapM dsem l = Err x -> exists a, In a l /\ dsem a = Err x).
      { clear. induction l as [|a l IH]; simpl; [discriminate|].
        destruct (dsem a) as [b|x'] eqn:E; cbn [bind].
        - destruct (mapM dsem l) as [bs|x']; cbn [bind]; [discriminate|].
          intros [= ->]. destruct IH as (a' & Ha & Hx); [reflexivity|]. eauto.
        - intros [= ->]. eauto. }
      apply Hm in Ev as (t & Ht & Hx). exists t. split; [apply forder_In, Ht|].
      unfold dsem in Hx. destruct (deriv p s t); [discriminate|]. injection Hx as ->. reflexivity.
  Qed.
End DiffGraph.

(** ** C25 *)
Lemma dependent_zeros zero ds : (forall d, In d ds -> d = zero) -> dependent zero ds = [].
Proof.
  intros H. unfold dependent. generalize 0 as n. induction ds as [|d ds IH]; intros n; simpl; [reflexivity|].
  rewrite (H d) by (left; reflexivity). rewrite tree_eqb_refl. simpl. apply IH.
  intros; apply H; right; assumption.
Qed.

Lemma deriv_absent p s e :
  ~ (children s = [] /\ reach false [] e s) ->
  (forall h args, reach false [] e (Node (h :: args)) -> ~ In h (dp_distributive p)) ->
  deriv p s e = Ok (dp_zero p).
Proof.
  induction e as [a|cs IH] using tree_ind_all; intros Hs Hd.
  - cbn [deriv]. destruct (tree_eqb_spec (Atm a) s) as [<-|_]; [|reflexivity].
    exfalso. apply Hs. split; [reflexivity|constructor; intros []].
  - destruct cs as [|h args].
    + cbn [deriv]. destruct (tree_eqb_spec (Node []) s) as [<-|_]; [|reflexivity].
      exfalso. apply Hs. split; [reflexivity|constructor; intros []].
    + cbn [deriv].
      assert (Hm : exists ds, mapM (deriv p s) args = Ok ds /\ forall d, In d ds -> d = dp_zero p).
      { assert (Hall : forall c, In c args -> deriv p s c = Ok (dp_zero p)).
        { intros c Hc. apply IH; [right; exact Hc| |].
          - intros [H1 H2]. apply Hs. split; [exact H1|]. eapply reach_child; [intros []|exact Hc|exact H2].
          - intros h' args' Hr. apply (Hd h' args'). eapply reach_child; [intros []|exact Hc|exact Hr]. }
        clear -Hall. induction args as [|c args IHa]; [exists []; split; [reflexivity|intros d []]|].
        destruct IHa as (ds & E & Hds); [intros; apply Hall; right; assumption|].
        exists (dp_zero p :: ds). simpl. rewrite Hall by (left; reflexivity). cbn [bind]. rewrite E.
        split; [reflexivity|]. intros d [<-|H]; auto. }
      destruct Hm as (ds & -> & Hds). cbn [bind].
      assert (Hni : mem h (dp_distributive p) = false).
      { apply mem_false. apply (Hd h args). constructor. intros []. }
      rewrite Hni, (dependent_zeros _ _ Hds). simpl.
      destruct (tree_eqb h (dp_add p)); [reflexivity|]. destruct (tree_eqb h (dp_mul p)); reflexivity.
Qed.

(** ** C28 *)
Lemma deriv_sub_ok p s e t d : deriv p s e = Ok d -> reach false [] e t -> exists d', deriv p s t = Ok d'.
Proof.
  intros Hv Hr. revert d Hv. induction Hr as [u|u c t _ Hc Hr IH]; intros d Hd; [eauto|].
  unfold kids in Hc. destruct u as [a|[|h args]]; simpl in Hc; try tauto.
  simpl in Hd. destruct (mapM (deriv p s) args) as [vs|x] eqn:E; [|discriminate].
  apply mapM_Ok_Forall2 in E. clear Hd. induction E as [|a b l l' Hab Hrest IH']; [destruct Hc|].
  destruct Hc as [->|Hc]; [eauto|auto].
Qed.

Lemma mapM_iff {A B} (f g : A -> res B) l :
  (forall a, In a l -> forall v, f a = Ok v <-> g a = Ok v) ->
  forall vs, mapM f l = Ok vs <-> mapM g l = Ok vs.
Proof.
  induction l as [|a l IH]; simpl; intros H vs; [reflexivity|].
  specialize (IH (fun a' Ha => H a' (or_intror Ha))). specialize (H a (or_introl eq_refl)).
  revert H IH. generalize (f a) (g a) (mapM f l) (mapM g l). clear. intros A1 B1 C D HBA HDC.
  destruct A1 as [a|xa], B1 as [b|xb]; cbn [bind].
  - pose proof (proj1 (HBA a) eq_refl) as [= ->].
    destruct C as [cc|xc], D as [dd|xd]; cbn [bind].
    + pose proof (proj1 (HDC cc) eq_refl) as [= ->]. reflexivity.
    + pose proof (proj1 (HDC cc) eq_refl); discriminate.
    + pose proof (proj2 (HDC dd) eq_refl); discriminate.
    + split; discriminate.
  - pose proof (proj1 (HBA a) eq_refl); discriminate.
  - pose proof (proj2 (HBA b) eq_refl); discriminate.
  - split; discriminate.
Qed.

Lemma diff_distributive p s h args d : In h (dp_distributive p) ->
  (diff_forward (tree_call h args) s p = Ok d <->
   exists ds, mapM (fun a => diff_forward a s p) args = Ok ds /\ d = tree_call h ds).
Proof.
  intros Hh. apply mem_true in Hh. rewrite diff_forward_deriv. cbn [tree_call deriv]. rewrite Hh.
  pose proof (mapM_iff (fun a => diff_forward a s p) (deriv p s) args
    (fun a _ v => diff_forward_deriv p s a v)) as Hm.
  split.
  - destruct (mapM (deriv p s) args) as [ds|x]; cbn [bind]; [|discriminate].
    intros [= <-]. exists ds. split; [apply Hm; reflexivity|reflexivity].
  - intros (ds & E & ->). apply Hm in E. rewrite E. reflexivity.
Qed.

(** ** C29: rules *)
Lemma tuple_index_spec l t : count l t = 1 ->
  exists i, tuple_index l t = Ok i /\ nth_error l i = Some t.
Proof.
  unfold count. intros H.
  assert (Hin : In t l).
  { destruct (filter (tree_eqb t) l) as [|u r] eqn:E; [discriminate|].
    assert (Hu : In u (filter (tree_eqb t) l)) by (rewrite E; left; reflexivity).
    apply filter_In in Hu as [Hu Hq]. destruct (tree_eqb_spec t u); [subst; exact Hu|discriminate]. }
  clear H. induction l as [|a l IH]; [destruct Hin|]. simpl.
  destruct (tree_eqb_spec a t) as [->|Hne]; [exists 0; auto|].
  destruct IH as (i & -> & E); [destruct Hin; [contradiction|assumption]|].
  exists (S i). auto.
Qed.

Lemma diff_setitem_ok p expr sym dexpr :
  forall h args, expr = tree_call h args -> count args sym = 1 ->
  exists i rule, nth_error args i = Some sym /\ subs_new dexpr args = Ok rule /\
    diff_setitem p (STuple [expr; sym]) dexpr = (add_diff_rule p h i rule, Ok tt).
Proof.
  intros h args -> Hc. destruct (tuple_index_spec args sym Hc) as (i & Hi & Hn).
  destruct (subs_new_total dexpr args) as (rule & Hr & _).
  exists i, rule. split; [exact Hn|]. split; [exact Hr|].
  unfold diff_setitem, tree_call. cbn [children getitem of_option nth_error bind tl].
  unfold getitem. cbn [nth_error of_option bind]. rewrite Hc. cbn [Nat.eqb negb]. rewrite Hi. cbn [bind].
  rewrite Hr. reflexivity.
Qed.

Lemma diff_setitem_bad p sub dexpr p' :
  (forall h args sym, sub = STuple [tree_call h args; sym] -> count args sym <> 1) ->
  forall r, diff_setitem p sub dexpr = (p', r) ->
  p' = p /\ (r = Err TypeError \/
             exists expr sym, sub = STuple [expr; sym] /\ children expr = [] /\ r = Err IndexError).
Proof.
  intros Hbad r H. destruct sub as [l|t]; simpl in H; [|injection H as <- <-; auto].
  destruct l as [|expr [|sym [|]]]; try (injection H as <- <-; auto).
  destruct (children expr) as [|h args] eqn:Ec.
  - simpl in H. injection H as <- <-. split; [reflexivity|]. right. exists expr, sym. auto.
  - cbn [getitem of_option nth_error bind tl] in H. unfold getitem in H; cbn [nth_error of_option bind] in H.
    destruct expr as [a|cs]; [discriminate|]. simpl in Ec. subst cs.
    specialize (Hbad h args sym eq_refl). apply Nat.eqb_neq in Hbad. rewrite Hbad in H.
    cbn [negb] in H. injection H as <- <-. auto.
Qed.

Lemma chain_term_add p h i rule f args id :
  chain_term (add_diff_rule p h i rule) f args id =
  if rule_key_eqb (f, fst id) (h, i) then
    (do r <- subs_call rule args;
     Ok (if tree_eqb (snd id) (dp_one p) then r else Node [dp_mul p; r; snd id]))
  else chain_term p f args id.
Proof.
  unfold chain_term, add_diff_rule. cbn [dp_rules dp_one dp_mul].
  rewrite (dict_get_set _ rule_key_eqb_spec). destruct (rule_key_eqb (f, fst id) (h, i)); reflexivity.
Qed.

Lemma deriv_ext p p' s e :
  dp_zero p = dp_zero p' -> dp_one p = dp_one p' -> dp_add p = dp_add p' -> dp_mul p = dp_mul p' ->
  dp_distributive p = dp_distributive p' ->
  (forall h args id, reach false [] e (Node (h :: args)) -> fst id < length args ->
     chain_term p h args id = chain_term p' h args id) ->
  deriv p s e = deriv p' s e.
Proof.
  intros E0 E1 Ea Em Ed. induction e as [a|cs IH] using tree_ind_all; intros Hc.
  - simpl. rewrite E0, E1. reflexivity.
  - destruct cs as [|h args]; [simpl; rewrite E0, E1; reflexivity|]. cbn [deriv].
    assert (Ea' : mapM (deriv p s) args = mapM (deriv p' s) args).
    { apply mapM_ext. intros c Hin. apply IH; [right; exact Hin|]. intros h' args' id Hr.
      apply Hc. eapply reach_child; [intros []|exact Hin|exact Hr]. }
    rewrite Ea'. destruct (mapM (deriv p' s) args) as [ds|x] eqn:Ev; cbn [bind]; [|reflexivity].
    rewrite Ed, Ea, Em, E0. destruct (mem h (dp_distributive p')); [reflexivity|].
    assert (Et : forall ts, total p ts = total p' ts).
    { intros ts. unfold total. rewrite E0, Ea. reflexivity. }
    destruct (tree_eqb h (dp_add p')); [cbn [bind]; rewrite Et; reflexivity|].
    destruct (tree_eqb h (dp_mul p')); [cbn [bind]; rewrite Et; reflexivity|].
    replace (mapM (chain_term p h args) (dependent (dp_zero p') ds))
       with (mapM (chain_term p' h args) (dependent (dp_zero p') ds)).
    + destruct (mapM (chain_term p' h args) _); cbn [bind]; [rewrite Et|]; reflexivity.
    + apply mapM_ext. intros [i d] Hin. symmetry. apply Hc; [constructor; intros []|].
      unfold dependent in Hin. apply filter_In in Hin as [Hin _]. apply in_combine_l in Hin.
      apply in_seq in Hin. apply mapM_length in Ev. simpl. lia.
Qed.

(** ** C27 *)
Lemma repeatM_app {S} (f : S -> res S) m n s :
  repeatM f (m + n) s = do t <- repeatM f m s; repeatM f n t.
Proof.
  revert s. induction m as [|m IH]; intros s; simpl; [reflexivity|].
  destruct (f s) as [t|x]; cbn [bind]; [apply IH|reflexivity].
Qed.

Lemma repeatM_ext {S} (f g : S -> res S) n s : (forall s, f s = g s) -> repeatM f n s = repeatM g n s.
Proof.
  intros H. revert s. induction n as [|n IH]; intros s; simpl; [reflexivity|].
  rewrite H. destruct (g s); cbn [bind]; [apply IH|reflexivity].
Qed.

Lemma sym_diff_call_plus p e s m n : (0 <= m)%Z -> (0 <= n)%Z ->
  sym_diff_call p e s (m + n) = do d <- sym_diff_call p e s m; sym_diff_call p d s n.
Proof. intros Hm Hn. unfold sym_diff_call. rewrite Z2Nat.inj_add by assumption. apply repeatM_app. Qed.

Lemma sym_diff_call_one p e s : sym_diff_call p e s 1 = diff_forward e s p.
Proof. unfold sym_diff_call. simpl. destruct (diff_forward e s p); reflexivity. Qed.

Lemma sym_diff_call_nonpos p e s n : (n <= 0)%Z -> sym_diff_call p e s n = Ok e.
Proof. intros H. unfold sym_diff_call. destruct n; try reflexivity. lia. Qed.

(** ** C29, C30 in the form of PropsDiff.v *)
Lemma dependent_single zero ds i d :
  nth_error ds i = Some d -> d <> zero ->
  (forall j d', nth_error ds j = Some d' -> j <> i -> d' = zero) ->
  dependent zero ds = [(i, d)].
Proof.
  unfold dependent. intros Hi Hd Hother.
  assert (G : forall ds n i, nth_error ds i = Some d ->
            (forall j d', nth_error ds j = Some d' -> j <> i -> d' = zero) ->
            filter (fun id => negb (tree_eqb (snd id) zero)) (combine (seq n (length ds)) ds) = [(n + i, d)]).
  { clear -Hd. induction ds as [|d0 ds IH]; intros n i Hi Hother; [destruct i; discriminate|].
    cbn [length seq combine filter snd]. destruct i as [|i].
    - simpl in Hi. injection Hi as ->.
      destruct (tree_eqb_spec d zero) as [->|_]; [congruence|]. cbn [negb]. f_equal; [f_equal; lia|].
      assert (Hz : forall d', In d' ds -> d' = zero).
      { intros d' Hin. apply In_nth_error in Hin as (j & Hj). apply (Hother (S j) d'); [exact Hj|lia]. }
      clear -Hz. generalize (S n) as m. induction ds as [|d1 ds IH]; intros m; [reflexivity|].
      cbn [length seq combine filter snd]. rewrite (Hz d1) by (left; reflexivity).
      rewrite tree_eqb_refl. cbn [negb]. apply IH. intros; apply Hz; right; assumption.
    - rewrite (Hother 0 d0) by (reflexivity || lia). rewrite tree_eqb_refl. cbn [negb].
      rewrite (IH (S n) i); [f_equal; f_equal; lia|exact Hi|].
      intros j d' Hj Hne. apply (Hother (S j) d'); [exact Hj|lia]. }
  rewrite (G ds 0 i Hi Hother). reflexivity.
Qed.

Lemma registered_rule_fires p h args i sym rhs :
  nth_error args i = Some sym -> count args sym = 1 ->
  exists p', diff_setitem p (STuple [tree_call h args; sym]) rhs = (p', Ok tt) /\
    forall s us ds d,
      ~ In h (dp_distributive p) -> h <> dp_add p -> h <> dp_mul p ->
      length us = length args ->
      mapM (fun u => diff_forward u s p') us = Ok ds ->
      nth_error ds i = Some d -> d <> dp_zero p ->
      (forall j d', nth_error ds j = Some d' -> j <> i -> d' = dp_zero p) ->
      exists r,
        (~ In rhs args -> r = subst args us rhs) /\
        (In rhs args -> last_item us = Ok r) /\
        diff_forward (tree_call h us) s p' =
          Ok (if tree_eqb d (dp_one p) then r else tree_call (dp_mul p) [r; d]).
Proof.
  intros Hi Hc. destruct (diff_setitem_ok p (tree_call h args) sym rhs h args eq_refl Hc)
    as (i' & rule & Hi' & Hr & Hset).
  assert (i' = i) as ->.
  { unfold count in Hc. clear -Hi Hi' Hc. revert i i' Hi Hi'.
    induction args as [|a args IH]; intros i i' Hi Hi'; [destruct i; discriminate|].
    cbn [filter] in Hc. destruct (tree_eqb_spec sym a) as [Ea|Hne].
    - assert (Hno : forall j, nth_error args j <> Some sym).
      { intros j Hj. apply nth_error_In in Hj.
        assert (In sym (filter (tree_eqb sym) args)) by (apply filter_In; split; [exact Hj|apply tree_eqb_refl]).
        simpl in Hc. destruct (filter (tree_eqb sym) args); [destruct H|discriminate]. }
      destruct i, i'; simpl in *; try reflexivity; exfalso; eapply Hno; eauto.
    - destruct i, i'; simpl in *; try congruence. f_equal. eapply IH; eauto. }
  exists (add_diff_rule p h i rule). split; [exact Hset|].
  intros s us ds d Hnd Hna Hnm Hlen Hds Hdi Hdz Hother.
  set (p' := add_diff_rule p h i rule) in *.
  assert (Hcall : exists r, subs_call rule us = Ok r /\ (~ In rhs args -> r = subst args us rhs) /\
                            (In rhs args -> last_item us = Ok r)).
  { destruct (In_dec tree_eq_dec rhs args) as [H|H].
    - assert (Hne : us <> []) by (intros ->; destruct args; [destruct H|discriminate]).
      destruct (last_item_nonempty us Hne) as (r & Hl). exists r.
      rewrite (subs_root_last rhs args us rule H Hlen Hr). split; [exact Hl|]. split; [tauto|auto].
    - exists (subst args us rhs). rewrite (subs_correct rhs args us rule H Hlen Hr).
      split; [reflexivity|]. split; [auto|tauto]. }
  destruct Hcall as (r & Hcall & Hr1 & Hr2). exists r. split; [exact Hr1|]. split; [exact Hr2|].
  apply diff_forward_deriv. cbn [tree_call deriv].
  pose proof (mapM_iff (fun a => diff_forward a s p') (deriv p' s) us
    (fun a _ v => diff_forward_deriv p' s a v) ds) as Hm.
  apply Hm in Hds. rewrite Hds. cbn [bind].
  assert (E1 : mem h (dp_distributive p') = false) by (apply mem_false; exact Hnd).
  rewrite E1.
  assert (E2 : tree_eqb h (dp_add p') = false).
  { destruct (tree_eqb_spec h (dp_add p')) as [E|_]; [exfalso; exact (Hna E)|reflexivity]. }
  assert (E3 : tree_eqb h (dp_mul p') = false).
  { destruct (tree_eqb_spec h (dp_mul p')) as [E|_]; [exfalso; exact (Hnm E)|reflexivity]. }
  rewrite E2, E3. change (dp_zero p') with (dp_zero p).
  rewrite (dependent_single _ _ _ _ Hdi Hdz Hother). cbn [mapM].
  unfold p' at 1. rewrite chain_term_add. cbn [fst snd].
  destruct (rule_key_eqb_spec (h, i) (h, i)) as [_|H]; [|congruence].
  rewrite Hcall. cbn [bind total]. reflexivity.
Qed.

Lemma rule_scope p h args sym rhs p' :
  diff_setitem p (STuple [tree_call h args; sym]) rhs = (p', Ok tt) ->
  exists i, nth_error args i = Some sym /\
    forall s e, (forall us, reach false [] e (tree_call h us) -> length us <= i) ->
      forall d, diff_forward e s p' = Ok d <-> diff_forward e s p = Ok d.
Proof.
  intros Hset.
  destruct (Nat.eqb_spec (count args sym) 1) as [Hc|Hc].
  - destruct (diff_setitem_ok p (tree_call h args) sym rhs h args eq_refl Hc) as (i & rule & Hi & Hr & Hset').
    rewrite Hset in Hset'. injection Hset' as ->. exists i. split; [exact Hi|].
    intros s e He d. rewrite !diff_forward_deriv.
    rewrite (deriv_ext (add_diff_rule p h i rule) p s e); try reflexivity.
    intros h' us id Hreach Hlt. rewrite chain_term_add.
    destruct (rule_key_eqb_spec (h', fst id) (h, i)) as [[= -> E]|_]; [|reflexivity].
    specialize (He us Hreach). lia.
  - exfalso. destruct (diff_setitem_bad p (STuple [tree_call h args; sym]) rhs p') with (r := Ok tt : res unit)
      as [_ [H|(x1 & x2 & _ & _ & H)]]; try discriminate; [|exact Hset].
    intros h' args' sym' [= <- <- <-]. exact Hc.
Qed.

(** A dependent argument without a rule. *)
Lemma missing_rule_fails p s e h args i u d :
  reach false [] e (tree_call h args) ->
  ~ In h (dp_distributive p) -> h <> dp_add p -> h <> dp_mul p ->
  nth_error args i = Some u -> diff_forward u s p = Ok d -> d <> dp_zero p ->
  dict_get rule_key_eqb (dp_rules p) (h, i) = None ->
  exists x, diff_forward e s p = Err x.
Proof.
  intros Hr Hnd Hna Hnm Hu Hd Hz Hrule.
  destruct (diff_forward e s p) as [d'|x] eqn:E; [|eauto]. exfalso.
  apply diff_forward_deriv in E. destruct (deriv_sub_ok _ _ _ _ _ E Hr) as (d2 & Hd2).
  cbn [tree_call deriv] in Hd2.
  destruct (mapM (deriv p s) args) as [ds|x] eqn:Em; cbn [bind] in Hd2; [|discriminate].
  apply diff_forward_deriv in Hd.
  assert (Hdi : nth_error ds i = Some d).
  { clear -Em Hu Hd. apply mapM_Ok_Forall2 in Em. revert i Hu. induction Em as [|a b l l' Hab Hrest IH]; intros i Hu;
      destruct i; try discriminate; simpl in *; [congruence|auto]. }
  assert (Hin : In (i, d) (dependent (dp_zero p) ds)).
  { unfold dependent. apply filter_In. split.
    - assert (G : forall ds n i, nth_error ds i = Some d -> In (n + i, d) (combine (seq n (length ds)) ds)).
      { clear. induction ds as [|d0 ds IH]; intros n i H; [destruct i; discriminate|].
        destruct i; simpl in *; [left; f_equal; [lia|congruence]|]. right.
        replace (n + S i) with (S n + i) by lia. apply IH, H. }
      apply (G ds 0 i Hdi).
    - simpl. destruct (tree_eqb_spec d (dp_zero p)); [contradiction|reflexivity]. }
  apply mem_false in Hnd. rewrite Hnd in Hd2.
  destruct (tree_eqb_spec h (dp_add p)) as [H|_]; [contradiction|].
  destruct (tree_eqb_spec h (dp_mul p)) as [H|_]; [contradiction|].
  destruct (mapM (chain_term p h args) (dependent (dp_zero p) ds)) as [ts|x] eqn:Ec; [|discriminate].
  apply mapM_Ok_Forall2 in Ec.
  assert (Hok : forall id, In id (dependent (dp_zero p) ds) -> exists t, chain_term p h args id = Ok t).
  { clear -Ec. induction Ec; [intros ? []|]. intros id [<-|H']; eauto. }
  destruct (Hok _ Hin) as (t & Ht). unfold chain_term in Ht. cbn [fst] in Ht. rewrite Hrule in Ht. discriminate.
Qed.

Lemma dependent_app zero ds i d : nth_error ds i = Some d -> d <> zero ->
  exists l1 l2, dependent zero ds = l1 ++ (i, d) :: l2.
Proof.
  intros Hi Hd. apply in_split. unfold dependent. apply filter_In. split.
  - assert (G : forall ds n i, nth_error ds i = Some d -> In (n + i, d) (combine (seq n (length ds)) ds)).
    { clear. induction ds as [|d0 ds IH]; intros n i H; [destruct i; discriminate|].
      destruct i; simpl in *; [left; f_equal; [lia|congruence]|]. right.
      replace (n + S i) with (S n + i) by lia. apply IH, H. }
    apply (G ds 0 i Hi).
  - simpl. destruct (tree_eqb_spec d zero); [contradiction|reflexivity].
Qed.

Lemma mapM_app_inv {A B} (f : A -> res B) l1 l2 v : mapM f (l1 ++ l2) = Ok v ->
  exists v1 v2, v = v1 ++ v2 /\ mapM f l1 = Ok v1 /\ mapM f l2 = Ok v2.
Proof.
  revert v. induction l1 as [|a l1 IH]; simpl; intros v H; [exists [], v; auto|].
  destruct (f a) as [b|x]; cbn [bind] in *; [|discriminate].
  destruct (mapM f (l1 ++ l2)) as [w|x]; cbn [bind] in H; [|discriminate]. injection H as <-.
  destruct (IH w eq_refl) as (v1 & v2 & -> & E1 & E2). exists (b :: v1), v2. rewrite E1. auto.
Qed.

(** As [registered_rule_fires], with any number of other dependent arguments. *)
Lemma registered_rule_contributes p h args i w rhs :
  nth_error args i = Some w -> count args w = 1 ->
  exists p', diff_setitem p (STuple [tree_call h args; w]) rhs = (p', Ok tt) /\
    forall s us ds d result,
      ~ In h (dp_distributive p) -> h <> dp_add p -> h <> dp_mul p ->
      length us = length args ->
      mapM (fun u => diff_forward u s p') us = Ok ds ->
      nth_error ds i = Some d -> d <> dp_zero p ->
      diff_forward (tree_call h us) s p' = Ok result ->
      exists r before after,
        (~ In rhs args -> r = subst args us rhs) /\
        (In rhs args -> last_item us = Ok r) /\
        result = total p (before ++ (if tree_eqb d (dp_one p) then r else tree_call (dp_mul p) [r; d]) :: after).
Proof.
  intros Hi Hc. destruct (diff_setitem_ok p (tree_call h args) w rhs h args eq_refl Hc)
    as (i' & rule & Hi' & Hr & Hset).
  assert (i' = i) as ->.
  { unfold count in Hc. clear -Hi Hi' Hc. revert i i' Hi Hi'.
    induction args as [|a args IH]; intros i i' Hi Hi'; [destruct i; discriminate|].
    cbn [filter] in Hc. destruct (tree_eqb_spec w a) as [Ea|Hne].
    - assert (Hno : forall j, nth_error args j <> Some w).
      { intros j Hj. apply nth_error_In in Hj.
        assert (In w (filter (tree_eqb w) args)) by (apply filter_In; split; [exact Hj|apply tree_eqb_refl]).
        simpl in Hc. destruct (filter (tree_eqb w) args); [destruct H|discriminate]. }
      destruct i, i'; simpl in *; try reflexivity; exfalso; eapply Hno; eauto.
    - destruct i, i'; simpl in *; try congruence. f_equal. eapply IH; eauto. }
  exists (add_diff_rule p h i rule). split; [exact Hset|].
  intros s us ds d result Hnd Hna Hnm Hlen Hds Hdi Hdz Hres.
  set (p' := add_diff_rule p h i rule) in *.
  assert (Hcall : exists r, subs_call rule us = Ok r /\ (~ In rhs args -> r = subst args us rhs) /\
                            (In rhs args -> last_item us = Ok r)).
  { destruct (In_dec tree_eq_dec rhs args) as [H|H].
    - assert (Hne : us <> []) by (intros ->; destruct args; [destruct H|discriminate]).
      destruct (last_item_nonempty us Hne) as (r & Hl). exists r.
      rewrite (subs_root_last rhs args us rule H Hlen Hr). split; [exact Hl|]. split; [tauto|auto].
    - exists (subst args us rhs). rewrite (subs_correct rhs args us rule H Hlen Hr).
      split; [reflexivity|]. split; [auto|tauto]. }
  destruct Hcall as (r & Hcall & Hr1 & Hr2). exists r.
  apply diff_forward_deriv in Hres. cbn [tree_call deriv] in Hres.
  pose proof (mapM_iff (fun a => diff_forward a s p') (deriv p' s) us
    (fun a _ v => diff_forward_deriv p' s a v) ds) as Hm.
  apply Hm in Hds. rewrite Hds in Hres. cbn [bind] in Hres.
  assert (E1 : mem h (dp_distributive p') = false) by (apply mem_false; exact Hnd).
  rewrite E1 in Hres.
  assert (E2 : tree_eqb h (dp_add p') = false).
  { destruct (tree_eqb_spec h (dp_add p')) as [E|_]; [exfalso; exact (Hna E)|reflexivity]. }
  assert (E3 : tree_eqb h (dp_mul p') = false).
  { destruct (tree_eqb_spec h (dp_mul p')) as [E|_]; [exfalso; exact (Hnm E)|reflexivity]. }
  rewrite E2, E3 in Hres. change (dp_zero p') with (dp_zero p) in Hres.
  destruct (dependent_app _ _ _ _ Hdi Hdz) as (l1 & l2 & El). rewrite El in Hres.
  destruct (mapM (chain_term p' h us) (l1 ++ (i, d) :: l2)) as [ts|x] eqn:Et; [|discriminate].
  cbn [bind] in Hres. injection Hres as <-.
  apply mapM_app_inv in Et as (v1 & v2 & -> & _ & E4). cbn [mapM] in E4.
  unfold p' in E4 at 1. rewrite chain_term_add in E4. cbn [fst snd] in E4.
  destruct (rule_key_eqb_spec (h, i) (h, i)) as [_|H]; [|congruence].
  rewrite Hcall in E4. cbn [bind] in E4.
  destruct (mapM (chain_term p' h us) l2) as [v3|x]; [|discriminate]. cbn [bind] in E4. injection E4 as <-.
  exists v1, v3. split; [exact Hr1|]. split; [exact Hr2|]. reflexivity.
Qed.
