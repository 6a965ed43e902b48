(** * Laws of substitution and its interplay with differentiation: proofs for C60, C61 *)
From Coq Require Import Permutation.
From Verif Require Import Py ModelTree SpecTree ProofBase ProofSubs ProofTree ModelDiff SpecDiff ProofDiff ModelSym ModelCas SpecCas
  ProofCasDiff SpecAlg.

(** ** xreplace with Expr keys and values *)

Lemma expressify_exprs l : mapM expressify (map PExpr l) = Ok l.
Proof. induction l as [|t l IH]; [reflexivity|]. cbn [map mapM]. rewrite IH. reflexivity. Qed.

Lemma xreplace_items e l : xreplace e (items l) = do sf <- subs_new e (map fst l); subs_call sf (map snd l).
Proof.
  unfold xreplace, expr_function, expr_function_call, items. rewrite !map_map.
  assert (E1 : map (fun p : tree * tree => fst (PExpr (fst p), PExpr (snd p))) l = map PExpr (map fst l)) by (rewrite map_map; reflexivity).
  assert (E2 : map (fun p : tree * tree => snd (PExpr (fst p), PExpr (snd p))) l = map PExpr (map snd l)) by (rewrite map_map; reflexivity).
  rewrite E1, E2, expressify_exprs. cbn [bind]. rewrite expressify_exprs. reflexivity.
Qed.

Lemma xreplace_subst e l : ~ In e (map fst l) -> xreplace e (items l) = Ok (subst (map fst l) (map snd l) e).
Proof. intros H. rewrite xreplace_items. apply subs_is_subst; [exact H|]. rewrite !map_length. reflexivity. Qed.

Lemma subst_unfold args vals t : subst args vals t =
  match replacement args vals t with
  | Some v => v
  | None => match t with Atm a => Atm a | Node cs => Node (map (subst args vals) cs) end
  end.
Proof. destruct t; reflexivity. Qed.

(** One key: right in every case. *)
Lemma xreplace_one e k r : xreplace e (items [(k, r)]) = Ok (subst [k] [r] e).
Proof.
  destruct (tree_eq_dec e k) as [->|H].
  - rewrite xreplace_items. rewrite subs_of_root by (simpl; auto). rewrite subst_unfold. cbn [map fst snd replacement].
    rewrite tree_eqb_refl. reflexivity.
  - apply xreplace_subst. simpl. intuition.
Qed.

Lemma map_id_in {A} (f : A -> A) l : (forall a, In a l -> f a = a) -> map f l = l.
Proof. induction l as [|a l IH]; intros H; [reflexivity|]. cbn [map]. rewrite (H a (or_introl eq_refl)), IH; [reflexivity|]. intros b Hb. apply H. right. exact Hb. Qed.

Lemma replacement_same ks t v : replacement ks ks t = Some v -> v = t.
Proof.
  induction ks as [|k ks IH]; [discriminate|]. cbn [replacement]. destruct (replacement ks ks t) as [w|].
  - intros H. injection H as <-. apply IH. reflexivity.
  - destruct (tree_eqb_spec t k) as [->|]; congruence.
Qed.

Lemma subst_same ks t : subst ks ks t = t.
Proof.
  induction t as [a|cs IH] using tree_ind_all; rewrite subst_unfold.
  - destruct (replacement ks ks (Atm a)) as [v|] eqn:E; [apply replacement_same in E; exact E|reflexivity].
  - destruct (replacement ks ks (Node cs)) as [v|] eqn:E; [apply replacement_same in E; exact E|].
    f_equal. apply map_id_in, IH.
Qed.

Lemma replacement_key ks vs t v : replacement ks vs t = Some v -> In t ks.
Proof.
  revert vs. induction ks as [|k ks IH]; intros [|w vs] H; cbn [replacement] in H; try discriminate.
  destruct (replacement ks vs t) as [u|] eqn:E; [right; apply (IH vs); congruence|].
  destruct (tree_eqb_spec t k) as [->|Hk]; [left; reflexivity|discriminate].
Qed.

Lemma subst_absent ks vs t : (forall k, In k ks -> ~ occurs k t) -> subst ks vs t = t.
Proof.
  induction t as [a|cs IH] using tree_ind_all; intros H; rewrite subst_unfold.
  - destruct (replacement ks vs (Atm a)) as [v|] eqn:E; [|reflexivity]. apply replacement_key in E.
    destruct (H _ E). constructor.
  - destruct (replacement ks vs (Node cs)) as [v|] eqn:E; [apply replacement_key in E; destruct (H _ E); constructor|].
    f_equal. apply map_id_in. intros c Hc. apply IH; [exact Hc|]. intros k Hk Ho. apply (H k Hk). econstructor; eauto.
Qed.

(** The order of the items does not matter. *)
Lemma replacement_in l t v : NoDup (map fst l) -> replacement (map fst l) (map snd l) t = Some v <-> In (t, v) l.
Proof.
  induction l as [|[k w] l IH]; cbn [map fst snd replacement]; intros Hn; [split; [discriminate|intros []]|].
  inversion Hn as [|? ? Hk Hn']; subst. specialize (IH Hn'). destruct (replacement _ _ t) as [u|] eqn:E.
  - split.
    + intros H. right. apply IH. exact H.
    + intros [H|H]; [injection H as <- <-; apply replacement_key in E; contradiction|]. apply IH, H.
  - destruct (tree_eqb_spec t k) as [->|Hne]; split.
    + intros H. injection H as <-. left. reflexivity.
    + intros [H|H]; [injection H as <-; reflexivity|]. apply IH in H. discriminate.
    + discriminate.
    + intros [H|H]; [congruence|]. apply IH in H. discriminate.
Qed.

Lemma replacement_perm l l' t : NoDup (map fst l) -> Permutation l l' ->
  replacement (map fst l) (map snd l) t = replacement (map fst l') (map snd l') t.
Proof.
  intros Hn Hp. assert (Hn' : NoDup (map fst l')) by (eapply Permutation_NoDup; [apply Permutation_map, Hp|exact Hn]).
  destruct (replacement (map fst l) (map snd l) t) as [v|] eqn:E.
  - symmetry. apply replacement_in; [exact Hn'|]. apply replacement_in in E; [|exact Hn]. eapply Permutation_in; eauto.
  - destruct (replacement (map fst l') (map snd l') t) as [v|] eqn:E'; [|reflexivity].
    apply replacement_in in E'; [|exact Hn']. apply Permutation_sym in Hp. apply (Permutation_in _ Hp) in E'.
    apply replacement_in in E'; [|exact Hn]. congruence.
Qed.

Lemma subst_perm l l' t : NoDup (map fst l) -> Permutation l l' ->
  subst (map fst l) (map snd l) t = subst (map fst l') (map snd l') t.
Proof.
  intros Hn Hp. induction t as [a|cs IH] using tree_ind_all; rewrite !subst_unfold, (replacement_perm l l' _ Hn Hp);
    destruct (replacement (map fst l') _ _); try reflexivity.
  f_equal. apply map_ext_in. intros c Hc. apply IH, Hc.
Qed.

(** ** One after the other *)
Lemma subst_one k r t : subst [k] [r] t = if tree_eqb t k then r else match t with Atm a => Atm a | Node cs => Node (map (subst [k] [r]) cs) end.
Proof. rewrite subst_unfold. cbn [replacement]. destruct (tree_eqb t k); reflexivity. Qed.

Lemma subst_two k r k' r' t : k <> k' ->
  subst [k; k'] [r; r'] t = if tree_eqb t k then r else if tree_eqb t k' then r' else
    match t with Atm a => Atm a | Node cs => Node (map (subst [k; k'] [r; r']) cs) end.
Proof.
  intros Hne. rewrite subst_unfold. cbn [replacement]. destruct (tree_eqb_spec t k) as [->|Hk].
  - destruct (tree_eqb_spec k k'); [contradiction|reflexivity].
  - destruct (tree_eqb t k'); reflexivity.
Qed.

Lemma subst_sequence x r y s t : x <> y -> children y = [] ->
  subst [y] [s] (subst [x] [r] t) = subst [x; y] [subst [y] [s] r; s] t.
Proof.
  intros Hne Hy. induction t as [a|cs IH] using tree_ind_all; rewrite (subst_one x r), (subst_two x _ y) by exact Hne.
  - destruct (tree_eqb (Atm a) x); [reflexivity|]. rewrite subst_one. destruct (tree_eqb (Atm a) y); reflexivity.
  - destruct (tree_eqb_spec (Node cs) x) as [_|Hx]; [reflexivity|].
    rewrite subst_one. destruct (tree_eqb_spec (Node cs) y) as [<-|Hy'].
    + cbn [children] in Hy. subst cs. cbn [map]. rewrite tree_eqb_refl. reflexivity.
    + destruct (tree_eqb_spec (Node (map (subst [x] [r]) cs)) y) as [E|_].
      * rewrite <- E in Hy. cbn [children] in Hy. destruct cs; [|discriminate]. cbn [map] in E. congruence.
      * f_equal. rewrite map_map. apply map_ext_in. intros c Hc. apply IH, Hc.
Qed.

Lemma subst_undo x y t : ~ occurs y t -> children y = [] -> subst [y] [x] (subst [x] [y] t) = t.
Proof.
  intros Ho Hy. destruct (tree_eq_dec x y) as [->|Hne]; [rewrite !subst_same; reflexivity|].
  induction t as [a|cs IH] using tree_ind_all; rewrite (subst_one x y).
  - destruct (tree_eqb_spec (Atm a) x) as [->|Hx]; rewrite subst_one; [rewrite tree_eqb_refl; reflexivity|].
    destruct (tree_eqb_spec (Atm a) y) as [<-|]; [destruct Ho; constructor|reflexivity].
  - destruct (tree_eqb_spec (Node cs) x) as [->|Hx]; rewrite subst_one; [rewrite tree_eqb_refl; reflexivity|].
    destruct (tree_eqb_spec (Node (map (subst [x] [y]) cs)) y) as [E|_].
    + exfalso. rewrite <- E in Hy. cbn [children] in Hy. destruct cs; [|discriminate]. cbn [map] in E. subst y. apply Ho. constructor.
    + f_equal. rewrite map_map. apply map_id_in. intros c Hc. apply IH; [exact Hc|]. intros H. apply Ho. econstructor; eauto.
Qed.

(** ** Differentiation *)
Definition rmap {A B} (f : A -> B) (r : res A) : res B := match r with Ok a => Ok (f a) | Err x => Err x end.

Lemma deriv_not_symbol s e d s' : arith e -> deriv cas_diff (Symbol s) e = Ok d -> d <> Symbol s'.
Proof.
  intros He. revert d. induction He as [n|s0|args Har IH|args Har IH|a Ha IH|a Ha IH|a b Ha Hb IHa IHb]
    using arith_ind_all; intros d Hd.
  - injection Hd as <-. discriminate.
  - rewrite sym_D in Hd. injection Hd as <-. destruct (String.eqb s0 s); discriminate.
  - rewrite D_add in Hd. destruct (mapM _ args) as [ds|] eqn:E; [|discriminate]. cbn [bind] in Hd. injection Hd as <-.
    apply mapM_Ok_Forall2 in E.
    assert (Hds : forall d, In d ds -> d <> Symbol s').
    { clear -E IH. induction E as [|a d args ds Ha E IHE]; [intros ? []|]. inversion IH as [|? ? I1 I2]; subst.
      intros d' [<-|Hd']; [apply I1, Ha|apply IHE; assumption]. }
    assert (Hdep : forall t, In t (map snd (dependent zero ds)) -> t <> Symbol s').
    { intros t Ht. apply in_map_iff in Ht as ([i d] & <- & Hid). unfold dependent in Hid. apply filter_In in Hid as [Hid _].
      apply in_combine_r in Hid. apply Hds, Hid. }
    destruct (map snd (dependent zero ds)) as [|t [|t2 r]]; cbn [total]; try discriminate. apply Hdep. left. reflexivity.
  - rewrite D_mul in Hd. destruct (mapM _ args) as [ds|] eqn:E; [|discriminate]. cbn [bind] in Hd. injection Hd as <-.
    destruct (dependent zero ds) as [|i [|j r]]; discriminate.
  - rewrite D_sin in Hd. destruct (deriv _ _ a) as [da|]; [|discriminate]. injection Hd as <-. unfold times.
    destruct (tree_eqb da zero); [discriminate|]. destruct (tree_eqb da one); discriminate.
  - rewrite D_cos in Hd. destruct (deriv _ _ a) as [da|]; [|discriminate]. injection Hd as <-. unfold times.
    destruct (tree_eqb da zero); [discriminate|]. destruct (tree_eqb da one); discriminate.
  - rewrite D_pow in Hd. destruct (deriv _ _ a) as [da|]; [|discriminate]. cbn [bind] in Hd. destruct (deriv _ _ b) as [db|]; [|discriminate].
    cbn [bind] in Hd. destruct (tree_eqb db zero); [|discriminate]. injection Hd as <-. unfold times.
    destruct (tree_eqb da zero); [discriminate|]. destruct (tree_eqb da one); discriminate.
Qed.

Section DiffSubst.
  Variables (x x' y : string) (r : tree).
  Notation sg := (subst [Symbol y] [r]).

  Lemma sg_node h args : sg (Node (Function h :: args)) = Node (Function h :: map sg args).
  Proof. reflexivity. Qed.
  Lemma sg_int n : sg (Integer n) = Integer n.
  Proof. reflexivity. Qed.

  Lemma sg_integer d n : d <> Symbol y -> sg d = Integer n <-> d = Integer n.
  Proof.
    intros Hd. split; [|intros ->; apply sg_int]. rewrite subst_one. destruct (tree_eqb_spec d (Symbol y)); [contradiction|].
    destruct d; [auto|discriminate].
  Qed.
  Lemma sg_eqb d n : d <> Symbol y -> tree_eqb (sg d) (Integer n) = tree_eqb d (Integer n).
  Proof.
    intros Hd. pose proof (sg_integer d n Hd) as H.
    destruct (tree_eqb_spec (sg d) (Integer n)), (tree_eqb_spec d (Integer n)); tauto.
  Qed.

  Lemma sg_dependent ds : Forall (fun d => d <> Symbol y) ds ->
    dependent zero (map sg ds) = map (fun id => (fst id, sg (snd id))) (dependent zero ds).
  Proof.
    unfold dependent. rewrite map_length. generalize 0 as i. intros i H. revert i. induction H as [|d ds Hd _ IH]; intros i; [reflexivity|].
    cbn [map length seq combine filter fst snd]. unfold zero in *. rewrite sg_eqb by exact Hd.
    destruct (tree_eqb d (Integer 0)); cbn [negb map fst snd]; rewrite IH; reflexivity.
  Qed.

  Lemma sg_total ts : sg (total cas_diff ts) = total cas_diff (map sg ts).
  Proof. destruct ts as [|t [|t2 l]]; reflexivity. Qed.

  Lemma sg_set_nth l i d : map sg (set_nth l i d) = set_nth (map sg l) i (sg d).
  Proof. revert i. induction l as [|a l IH]; intros [|i]; cbn [set_nth map]; try reflexivity. rewrite IH. reflexivity. Qed.

  Lemma sg_times t d : d <> Symbol y -> sg (times t d) = times (sg t) (sg d).
  Proof.
    intros Hd. unfold times, zero, one. rewrite !sg_eqb by exact Hd. destruct (tree_eqb d (Integer 0)); [reflexivity|].
    destruct (tree_eqb d (Integer 1)); reflexivity.
  Qed.

  Lemma deriv_subst e : arith e ->
    (forall s, contains e s -> deriv cas_diff (Symbol x') (sg (Symbol s)) = rmap sg (deriv cas_diff (Symbol x) (Symbol s))) ->
    deriv cas_diff (Symbol x') (sg e) = rmap sg (deriv cas_diff (Symbol x) e).
  Proof.
    intros He. induction He as [n|s|args Har IH|args Har IH|a Ha IH|a Ha IH|a b Ha Hb IHa IHb]
      using arith_ind_all; intros Hs.
    - reflexivity.
    - apply Hs. constructor. intros [].
    - unfold Add. rewrite sg_node. fold Add. rewrite !D_add.
      assert (E : mapM (deriv cas_diff (Symbol x')) (map sg args) = rmap (map sg) (mapM (deriv cas_diff (Symbol x)) args)).
      { assert (Hs' : forall a, In a args -> forall s, contains a s -> deriv cas_diff (Symbol x') (sg (Symbol s)) = rmap sg (deriv cas_diff (Symbol x) (Symbol s))).
        { intros a Ha s Hc. apply Hs. apply contains_node. eauto. }
        clear -IH Hs'. induction IH as [|a args Ia _ IHl]; [reflexivity|]. cbn [map mapM]. rewrite Ia by (apply Hs'; left; reflexivity).
        destruct (deriv cas_diff (Symbol x) a); [|reflexivity]. cbn [rmap bind]. rewrite IHl by (intros; eapply Hs'; [right|]; eauto).
        destruct (mapM (deriv cas_diff (Symbol x)) args); reflexivity. }
      rewrite E. destruct (mapM (deriv cas_diff (Symbol x)) args) as [ds|] eqn:Ed; [|reflexivity]. cbn [rmap bind].
      assert (Hn : Forall (fun d => d <> Symbol y) ds).
      { apply mapM_Ok_Forall2 in Ed. clear -Ed Har. induction Ed as [|a d args ds Hd _ IH]; [constructor|].
        inversion Har; subst. constructor; [eapply deriv_not_symbol; eauto|auto]. }
      rewrite sg_total, (sg_dependent ds Hn), !map_map. reflexivity.
    - unfold Mul. rewrite sg_node. fold Mul. rewrite !D_mul.
      assert (E : mapM (deriv cas_diff (Symbol x')) (map sg args) = rmap (map sg) (mapM (deriv cas_diff (Symbol x)) args)).
      { assert (Hs' : forall a, In a args -> forall s, contains a s -> deriv cas_diff (Symbol x') (sg (Symbol s)) = rmap sg (deriv cas_diff (Symbol x) (Symbol s))).
        { intros a Ha s Hc. apply Hs. apply contains_node. eauto. }
        clear -IH Hs'. induction IH as [|a args Ia _ IHl]; [reflexivity|]. cbn [map mapM]. rewrite Ia by (apply Hs'; left; reflexivity).
        destruct (deriv cas_diff (Symbol x) a); [|reflexivity]. cbn [rmap bind]. rewrite IHl by (intros; eapply Hs'; [right|]; eauto).
        destruct (mapM (deriv cas_diff (Symbol x)) args); reflexivity. }
      rewrite E. destruct (mapM (deriv cas_diff (Symbol x)) args) as [ds|] eqn:Ed; [|reflexivity]. cbn [rmap bind].
      assert (Hn : Forall (fun d => d <> Symbol y) ds).
      { apply mapM_Ok_Forall2 in Ed. clear -Ed Har. induction Ed as [|a d args ds Hd _ IH]; [constructor|].
        inversion Har; subst. constructor; [eapply deriv_not_symbol; eauto|auto]. }
      rewrite sg_total, (sg_dependent ds Hn), !map_map. f_equal. f_equal. apply map_ext. intros [i d]. cbn [fst snd].
      unfold Mul. rewrite sg_node, sg_set_nth. reflexivity.
    - unfold sin. rewrite sg_node. fold sin. cbn [map]. rewrite !D_sin.
      rewrite IH by (intros s Hc; apply Hs, contains_node; exists a; split; [left; reflexivity|exact Hc]).
      destruct (deriv cas_diff (Symbol x) a) as [d|] eqn:E; [|reflexivity]. cbn [rmap bind].
      rewrite sg_times by (eapply deriv_not_symbol; eauto). reflexivity.
    - unfold cos. rewrite sg_node. fold cos. cbn [map]. rewrite !D_cos.
      rewrite IH by (intros s Hc; apply Hs, contains_node; exists a; split; [left; reflexivity|exact Hc]).
      destruct (deriv cas_diff (Symbol x) a) as [d|] eqn:E; [|reflexivity]. cbn [rmap bind].
      rewrite sg_times by (eapply deriv_not_symbol; eauto). reflexivity.
    - unfold Pow. rewrite sg_node. fold Pow. cbn [map]. rewrite !D_pow.
      rewrite IHa by (intros s Hc; apply Hs, contains_node; exists a; split; [left; reflexivity|exact Hc]).
      destruct (deriv cas_diff (Symbol x) a) as [d|] eqn:E; [|reflexivity]. cbn [rmap bind].
      rewrite IHb by (intros s Hc; apply Hs, contains_node; exists b; split; [right; left; reflexivity|exact Hc]).
      destruct (deriv cas_diff (Symbol x) b) as [d'|] eqn:E'; [|reflexivity]. cbn [rmap bind].
      unfold zero. rewrite sg_eqb by exact (deriv_not_symbol _ _ _ _ Hb E'). destruct (tree_eqb d' (Integer 0)); [|reflexivity].
      cbn [rmap]. rewrite sg_times by exact (deriv_not_symbol _ _ _ _ Ha E). reflexivity.
  Qed.

  (** Differentiation of arithmetic can only fail in one way. *)
  Lemma diff_deriv s e : arith e -> diff_forward e (Symbol s) cas_diff = deriv cas_diff (Symbol s) e.
  Proof.
    intros He. destruct (diff_succeeds s e He) as [(d & E & _)|[E Hv]]; rewrite E; symmetry.
    - apply diff_forward_deriv, E.
    - destruct (deriv_cases s e He) as [(d & _ & _ & Hn)|[E' _]]; [contradiction|exact E'].
  Qed.
End DiffSubst.

Lemma arith_subst y r e : arith r -> arith e -> arith (subst [Symbol y] [r] e).
Proof.
  intros Hr He. induction He as [n|s|args Har IH|args Har IH|a Ha IH|a Ha IH|a b Ha Hb IHa IHb] using arith_ind_all.
  - apply ar_int.
  - rewrite subst_one. destruct (tree_eqb (Symbol s) (Symbol y)); [exact Hr|apply ar_sym].
  - change (arith (Node (Add :: map (subst [Symbol y] [r]) args))). apply ar_add, Forall_map, IH.
  - change (arith (Node (Mul :: map (subst [Symbol y] [r]) args))). apply ar_mul, Forall_map, IH.
  - apply ar_sin, IH.
  - apply ar_cos, IH.
  - apply ar_pow; assumption.
Qed.

Lemma diff_subst x y r e : arith e -> arith r -> x <> y -> ~ contains r x ->
  (do e1 <- xreplace e (items [(Symbol y, r)]); expr_diff e1 (Symbol x) 1) =
  (do d <- expr_diff e (Symbol x) 1; xreplace d (items [(Symbol y, r)])).
Proof.
  intros He Hr Hne Hc. rewrite xreplace_one. cbn [bind]. rewrite !expr_diff_one, !diff_deriv by auto using arith_subst.
  rewrite (deriv_subst x x y r e He).
  - destruct (deriv cas_diff (Symbol x) e); cbn [rmap bind]; [rewrite xreplace_one|]; reflexivity.
  - intros s _. rewrite sym_D, subst_one. destruct (tree_eqb_spec (Symbol s) (Symbol y)) as [E|Hsy].
    + injection E as ->. destruct (String.eqb_spec y x) as [->|_]; [contradiction|]. cbn [rmap]. unfold zero. rewrite sg_int.
      destruct (deriv_cases x r Hr) as [(d & E & _)|[_ (a & b & Hrab & Hb)]].
      * rewrite E. f_equal. apply (deriv_zero_iff x r Hr d E). exact Hc.
      * exfalso. apply Hc. unfold contains in *. eapply ProofTopo.reach_trans; [exact Hrab|].
        eapply reach_child; [intros []|right; left; reflexivity|exact Hb].
    + change (match Symbol s with Atm a => Atm a | Node cs => Node (map (subst [Symbol y] [r]) cs) end) with (Symbol s).
      rewrite sym_D. destruct (String.eqb s x); reflexivity.
Qed.

Lemma diff_rename x z e : arith e -> ~ contains e z ->
  (do e1 <- xreplace e (items [(Symbol x, Symbol z)]); expr_diff e1 (Symbol z) 1) =
  (do d <- expr_diff e (Symbol x) 1; xreplace d (items [(Symbol x, Symbol z)])).
Proof.
  intros He Hc. rewrite xreplace_one. cbn [bind]. rewrite !expr_diff_one, !diff_deriv by auto using arith_subst, ar_sym.
  rewrite (deriv_subst x z x (Symbol z) e He).
  - destruct (deriv cas_diff (Symbol x) e); cbn [rmap bind]; [rewrite xreplace_one|]; reflexivity.
  - intros s Hs. rewrite sym_D, subst_one. destruct (tree_eqb_spec (Symbol s) (Symbol x)) as [E|Hsx].
    + injection E as ->. rewrite sym_D, !String.eqb_refl. reflexivity.
    + change (match Symbol s with Atm a => Atm a | Node cs => Node (map (subst [Symbol x] [Symbol z]) cs) end) with (Symbol s).
      rewrite sym_D. destruct (String.eqb_spec s z) as [->|_]; [contradiction|].
      destruct (String.eqb_spec s x) as [->|_]; [congruence|]. reflexivity.
Qed.
