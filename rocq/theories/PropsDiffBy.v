(** * C125: differentiating by numbers and by compound expressions. *)
From Verif Require Import Py ModelTree SpecTree ProofBase ProofTopo ModelDiff SpecDiff ProofDiff ModelSym ModelCas SpecCas ProofCasDiff SpecAlg ProofBin ProofSwell ProofAlg Samples.
From Verif Require PropsPoly ProofOutcome ProofCas ProofEval.

Section Any.
  Variables (x y : string) (v r : tree).
  Notation sg := (subst [Symbol y] [r]).
  Lemma deriv_subst_any e : arith e ->
    (forall m, reach false [] e (Integer m) -> deriv cas_diff v (Integer m) = Ok zero) ->
    (forall s, contains e s -> deriv cas_diff v (sg (Symbol s)) = rmap sg (deriv cas_diff (Symbol x) (Symbol s))) ->
    deriv cas_diff v (sg e) = rmap sg (deriv cas_diff (Symbol x) e).
  Proof.
    intros He. induction He as [n|s|args Har IH|args Har IH|a Ha IH|a Ha IH|a b Ha Hb IHa IHb]
      using arith_ind_all; intros Hi Hs.
    - rewrite sg_int. rewrite Hi by apply reach_refl. reflexivity.
    - apply Hs. apply reach_refl.
    - unfold Add. rewrite sg_node. fold Add. rewrite !D_add.
      assert (E : mapM (deriv cas_diff v) (map sg args) = rmap (map sg) (mapM (deriv cas_diff (Symbol x)) args)).
      { assert (Hs' : forall a, In a args -> forall s, contains a s -> deriv cas_diff v (sg (Symbol s)) = rmap sg (deriv cas_diff (Symbol x) (Symbol s))).
        { intros a Ha s Hc. apply Hs. apply contains_node. eauto. }
        assert (Hi' : forall a, In a args -> forall m, reach false [] a (Integer m) -> deriv cas_diff v (Integer m) = Ok zero) by (intros a Ha m Hm; apply Hi; eapply ProofBin.reach_arg; eassumption).
        clear -IH Hs' Hi'. induction IH as [|a args Ia _ IHl]; [reflexivity|]. cbn [map mapM]. rewrite Ia; [|apply Hi'; left; reflexivity|apply Hs'; left; reflexivity].
        destruct (deriv cas_diff (Symbol x) a); [|reflexivity]. cbn [rmap bind]. rewrite IHl; [|intros; eapply Hs'; [right|]; eauto|intros; eapply Hi'; [right|]; eauto].
        destruct (mapM (deriv cas_diff (Symbol x)) args); reflexivity. }
      rewrite E. destruct (mapM (deriv cas_diff (Symbol x)) args) as [ds|] eqn:Ed; [|reflexivity]. cbn [rmap bind].
      assert (Hn : Forall (fun d => d <> Symbol y) ds).
      { apply mapM_Ok_Forall2 in Ed. clear -Ed Har. induction Ed as [|a d args ds Hd _ IH]; [constructor|].
        inversion Har; subst. constructor; [eapply deriv_not_symbol; eauto|auto]. }
      rewrite sg_total, (sg_dependent y r ds Hn), !map_map. reflexivity.
    - unfold Mul. rewrite sg_node. fold Mul. rewrite !D_mul.
      assert (E : mapM (deriv cas_diff v) (map sg args) = rmap (map sg) (mapM (deriv cas_diff (Symbol x)) args)).
      { assert (Hs' : forall a, In a args -> forall s, contains a s -> deriv cas_diff v (sg (Symbol s)) = rmap sg (deriv cas_diff (Symbol x) (Symbol s))).
        { intros a Ha s Hc. apply Hs. apply contains_node. eauto. }
        assert (Hi' : forall a, In a args -> forall m, reach false [] a (Integer m) -> deriv cas_diff v (Integer m) = Ok zero) by (intros a Ha m Hm; apply Hi; eapply ProofBin.reach_arg; eassumption).
        clear -IH Hs' Hi'. induction IH as [|a args Ia _ IHl]; [reflexivity|]. cbn [map mapM]. rewrite Ia; [|apply Hi'; left; reflexivity|apply Hs'; left; reflexivity].
        destruct (deriv cas_diff (Symbol x) a); [|reflexivity]. cbn [rmap bind]. rewrite IHl; [|intros; eapply Hs'; [right|]; eauto|intros; eapply Hi'; [right|]; eauto].
        destruct (mapM (deriv cas_diff (Symbol x)) args); reflexivity. }
      rewrite E. destruct (mapM (deriv cas_diff (Symbol x)) args) as [ds|] eqn:Ed; [|reflexivity]. cbn [rmap bind].
      assert (Hn : Forall (fun d => d <> Symbol y) ds).
      { apply mapM_Ok_Forall2 in Ed. clear -Ed Har. induction Ed as [|a d args ds Hd _ IH]; [constructor|].
        inversion Har; subst. constructor; [eapply deriv_not_symbol; eauto|auto]. }
      rewrite sg_total, (sg_dependent y r ds Hn), !map_map. f_equal. f_equal. apply map_ext. intros [i d]. cbn [fst snd].
      unfold Mul. rewrite sg_node, sg_set_nth. reflexivity.
    - unfold sin. rewrite sg_node. fold sin. cbn [map]. rewrite !D_sin.
      rewrite IH; [|intros m Hm; apply Hi; eapply ProofBin.reach_arg; [left; reflexivity|exact Hm]|intros s Hc; apply Hs, contains_node; exists a; split; [left; reflexivity|exact Hc]].
      destruct (deriv cas_diff (Symbol x) a) as [d|] eqn:E; [|reflexivity]. cbn [rmap bind].
      rewrite sg_times by (eapply deriv_not_symbol; eauto). reflexivity.
    - unfold cos. rewrite sg_node. fold cos. cbn [map]. rewrite !D_cos.
      rewrite IH; [|intros m Hm; apply Hi; eapply ProofBin.reach_arg; [left; reflexivity|exact Hm]|intros s Hc; apply Hs, contains_node; exists a; split; [left; reflexivity|exact Hc]].
      destruct (deriv cas_diff (Symbol x) a) as [d|] eqn:E; [|reflexivity]. cbn [rmap bind].
      rewrite sg_times by (eapply deriv_not_symbol; eauto). reflexivity.
    - unfold Pow. rewrite sg_node. fold Pow. cbn [map]. rewrite !D_pow.
      rewrite IHa; [|intros m Hm; apply Hi; eapply ProofBin.reach_arg; [left; reflexivity|exact Hm]|intros s Hc; apply Hs, contains_node; exists a; split; [left; reflexivity|exact Hc]].
      destruct (deriv cas_diff (Symbol x) a) as [d|] eqn:E; [|reflexivity]. cbn [rmap bind].
      rewrite IHb; [|intros m Hm; apply Hi; eapply ProofBin.reach_arg; [right; left; reflexivity|exact Hm]|intros s Hc; apply Hs, contains_node; exists b; split; [right; left; reflexivity|exact Hc]].
      destruct (deriv cas_diff (Symbol x) b) as [d'|] eqn:E'; [|reflexivity]. cbn [rmap bind].
      unfold zero. rewrite sg_eqb by exact (deriv_not_symbol _ _ _ _ Hb E'). destruct (tree_eqb d' (Integer 0)); [|reflexivity].
      cbn [rmap]. rewrite sg_times by exact (deriv_not_symbol _ _ _ _ Ha E). reflexivity.
  Qed.
End Any.

Lemma expr_diff_deriv e v : expr_diff e v 1 = deriv cas_diff v e.
Proof. rewrite expr_diff_one. apply ProofOutcome.diff_outcome. Qed.
(** C125. An integer that does not occur in e can stand for the variable: differentiating by it is differentiating by a symbol and
    replacing the symbol by the integer afterwards. *)
Theorem C125_by_number x n e : arith e -> ~ reach false [] e (Integer n) ->
  (do e1 <- xreplace e (items [(Symbol x, Integer n)]); expr_diff e1 (Integer n) 1) =
  (do d <- expr_diff e (Symbol x) 1; xreplace d (items [(Symbol x, Integer n)])).
Proof.
  intros He Hn. rewrite xreplace_one. cbn [bind]. rewrite !expr_diff_deriv.
  rewrite (deriv_subst_any x x (Integer n) (Integer n) e He).
  - destruct (deriv cas_diff (Symbol x) e); cbn [rmap bind]; [rewrite xreplace_one|]; reflexivity.
  - intros m Hm. change (deriv cas_diff (Integer n) (Integer m)) with (Ok (if tree_eqb (Integer m) (Integer n) then one else zero)).
    destruct (tree_eqb_spec (Integer m) (Integer n)) as [E|_]; [rewrite E in Hm; contradiction|reflexivity].
  - intros s _. rewrite sym_D, subst_one. destruct (tree_eqb_spec (Symbol s) (Symbol x)) as [E|Hs].
    + injection E as ->. rewrite String.eqb_refl. change (deriv cas_diff (Integer n) (Integer n)) with (Ok (if tree_eqb (Integer n) (Integer n) then one else zero)).
      rewrite tree_eqb_refl. reflexivity.
    + change (match Symbol s with Atm a => Atm a | Node cs => Node (map (subst [Symbol x] [Integer n]) cs) end) with (Symbol s).
      change (deriv cas_diff (Integer n) (Symbol s)) with (Ok (if tree_eqb (Symbol s) (Integer n) then one else zero)).
      destruct (tree_eqb_spec (Symbol s) (Integer n)) as [E|_]; [discriminate|]. destruct (String.eqb_spec s x) as [->|_]; [contradiction|reflexivity].
Qed.
(** Finding: a compound expression cannot stand for the variable: differentiating by it gives 0, also where the expression is itself what is differentiated. *)
Theorem C125_by_compound e h args k : arith e -> (1 <= k)%nat -> expr_diff e (Node (h :: args)) (Z.of_nat k) = Ok zero.
Proof.
  intros He Hk. assert (H1 : forall e, arith e -> expr_diff e (Node (h :: args)) 1 = Ok zero).
  { clear. intros e He. rewrite expr_diff_deriv. apply (deriv_absent cas_diff); [intros [H _]; discriminate|]. intros h' l H [<-|[]].
    assert (Ha : arith (Node (List_ :: l))) by (exact (PropsPoly.reach_arith e _ He H)). inversion Ha. }
  destruct k as [|k]; [lia|]. clear Hk. revert e He. induction k as [|k IH]; intros e He; [exact (H1 e He)|].
  specialize (H1 e He). unfold expr_diff in *. rewrite Nat2Z.id in *. change (Z.to_nat 1) with 1%nat in H1. cbn [repeatM] in H1.
  change (repeatM ?f (S (S k)) ?t) with (do d <- f t; repeatM f (S k) d). destruct (sym_diff_call cas_diff e (Node (h :: args)) 1) as [d|]; [|discriminate]. injection H1 as ->.
  cbn [bind]. apply (IH zero). apply ar_int.
Qed.
Theorem C125_by_itself_refuted h args : arith (Node (h :: args)) -> expr_diff (Node (h :: args)) (Node (h :: args)) 1 = Ok zero /\ expr_diff (Symbol "x") (Symbol "x") 1 = Ok one.
Proof. intros He. split; [exact (C125_by_compound _ h args 1 He (le_n 1))|reflexivity]. Qed.
(** A case: (x*y + sin(x)).xreplace({x: 7}).diff(7) is 1*y + cos(7). *)
Example C125_case : let e := m_add (m_mul x y) (Node [sin; x]) in arith e /\ ~ reach false [] e (Integer 7) /\
  (do e1 <- xreplace e (items [(x, int 7)]); expr_diff e1 (int 7) 1) = Ok (m_add (m_mul (int 1) y) (Node [cos; int 7])) /\
  expr_diff (Node [sin; x]) (Node [sin; x]) 1 = Ok zero.
Proof.
  cbv zeta. split; [repeat constructor|]. split; [|split; vm_compute; reflexivity].
  intros H. apply post_reach in H. vm_compute in H. intuition discriminate.
Qed.
