(** * C118: derivatives contain only the symbols of the expression. *)
From Verif Require Import Py ModelTree SpecTree ProofBase ProofTopo ProofSubs ModelDiff SpecDiff ProofDiff ModelSym ModelCas SpecCas ProofCasDiff SpecRules ProofSubstDiff ModelApi Samples.
From Verif Require ProofBin PropsGrowth PropsRules PropsCas PropsTextSize SpecTextSize SpecPrint ProofRepr ProofCas PropsPoly SpecAlg ProofAlg.

Lemma replacement_atom ws y : In y ws -> forall vals, length vals = length ws -> replacement (map Atm ws) vals (Atm y) <> None.
Proof.
  induction ws as [|w ws IH]; intros Hy [|v vals] Hl; try discriminate; [destruct Hy|]. cbn [map replacement].
  destruct (replacement (map Atm ws) vals (Atm y)) eqn:E; [discriminate|].
  destruct (tree_eqb_spec (Atm y) (Atm w)) as [_|Hn]; [discriminate|]. destruct Hy as [->|Hy]; [congruence|]. injection Hl as Hl. destruct (IH Hy vals Hl E).
Qed.
Lemma replacement_val keys vals t r : replacement keys vals t = Some r -> In r vals.
Proof.
  revert vals. induction keys as [|k keys IH]; intros [|v vals]; try discriminate. cbn [replacement]. destruct (replacement keys vals t) eqn:E.
  - intros [= <-]. right. apply IH, E.
  - destruct (tree_eqb t k); [|discriminate]. intros [= <-]. left. reflexivity.
Qed.

Section Rules.
  Context (rules : list rule) (dist : list tree) (p : diff_props) (y : atom).
  Context (Hreg : registered rules dist p) (Hc : ~ In (Atm y) [zero; one]) (Hr : forall r, In r rules -> reach false [] (r_rhs r) (Atm y) -> In y (r_wilds r)).
  Notation has t := (reach false [] t (Atm y)).
  Lemma rule_atoms r sf args u : In r rules -> subs_new (r_rhs r) (map Atm (r_wilds r)) = Ok sf -> subs_call sf args = Ok u -> has u -> exists a, In a args /\ has a.
  Proof.
    intros Hq Hsf Hu Hy. destruct (Nat.eq_dec (length args) (length (r_wilds r))) as [Hl|Hl].
    - destruct (in_dec tree_eq_dec (r_rhs r) (map Atm (r_wilds r))) as [Hin|Hin].
      + rewrite (subs_root_last _ _ args sf Hin) in Hu by (rewrite ?map_length; assumption). exists u. split; [|exact Hy].
        destruct args as [|a args _] using rev_ind; [discriminate|]. rewrite last_item_app in Hu. injection Hu as <-. apply in_or_app. right. left. reflexivity.
      + rewrite (subs_correct _ _ args sf Hin) in Hu by (rewrite ?map_length; assumption). injection Hu as <-.
        apply PropsGrowth.reach_subst in Hy as [(t & Ht & Hn & E)|(t & v & Ht & Hv & Hy)].
        * exfalso. destruct t as [b|cs]; cbn [subst] in E; rewrite Hn in E; [|discriminate]. injection E as <-.
          exact (replacement_atom _ _ (Hr r Hq Ht) args Hl Hn).
        * exists v. split; [exact (replacement_val _ _ _ _ Hv)|exact Hy].
    - rewrite (subs_wrong_arity _ _ args sf) with (2 := Hsf) in Hu by (rewrite ?map_length; assumption). discriminate.
  Qed.
  Lemma leaf_atoms (b : bool) d : (if b then dp_one p else dp_zero p) = d -> ~ has d.
  Proof.
    destruct (registered_props _ _ _ Hreg) as (Hz & Ho & _). intros <- H. apply Hc. destruct b; rewrite ?Hz, ?Ho in H; (apply ProofBin.reach_leaf in H; [rewrite H|reflexivity]); cbn; auto.
  Qed.
  Lemma in_set_nth l i d a : In a (set_nth l i d) -> In a l \/ a = d.
  Proof. revert i. induction l as [|b l IH]; intros i; [intros []|]. destruct i; cbn [set_nth In]; [intuition|]. intros [<-|H]; [auto|]. destruct (IH i H); auto. Qed.
  Lemma deriv_atoms s e d : deriv p s e = Ok d -> has d -> has e.
  Proof.
    revert d. destruct (registered_props _ _ _ Hreg) as (Hz & Ho & Ha & Hm & _ & Hrules).
    induction e as [a|cs IH] using tree_ind_all; intros d H Hd.
    - cbn [deriv] in H. injection H as H. destruct (leaf_atoms _ _ H Hd).
    - destruct cs as [|f args]; [cbn [deriv] in H; injection H as H; destruct (leaf_atoms _ _ H Hd)|].
      cbn [deriv] in H. apply bind_Ok in H as (ds & Hds & H). apply mapM_Ok_Forall2 in Hds.
      assert (Hkids : forall u, In u ds -> has u -> has (Node (f :: args))).
      { intros u Hin Hu. destruct (Forall2_In_r _ _ _ _ Hds Hin) as (a & Hin' & Hau). eapply ProofBin.reach_arg; [exact Hin'|]. exact (IH a (or_intror Hin') u Hau Hu). }
      assert (Hargs : forall u, In u args -> has u -> has (Node (f :: args))) by (intros u Hin Hu; eapply ProofBin.reach_arg; eassumption).
      destruct (mem f (dp_distributive p)).
      { injection H as <-. apply ProofBin.reach_node_inv in Hd as [Hd|(u & Hin & Hu)]; [discriminate|]. exact (Hkids u Hin Hu). }
      apply bind_Ok in H as (ts & Hts & H). injection H as <-.
      assert (Hdep : forall id, In id (dependent (dp_zero p) ds) -> In (snd id) ds).
      { intros [i u] Hin. unfold dependent in Hin. apply filter_In in Hin as [Hin _]. apply in_combine_r in Hin. exact Hin. }
      assert (Hterm : forall t, In t ts -> has t -> has (Node (f :: args))).
      { intros t Ht Hyt. destruct (tree_eqb f (dp_add p)).
        { injection Hts as <-. apply in_map_iff in Ht as (id & <- & Hid). exact (Hkids _ (Hdep id Hid) Hyt). }
        destruct (tree_eqb f (dp_mul p)).
        { injection Hts as <-. apply in_map_iff in Ht as (id & <- & Hid). apply ProofBin.reach_node_inv in Hyt as [E|(u & Hin & Hu)]; [discriminate|].
          apply in_set_nth in Hin as [Hin| ->]; [exact (Hargs u Hin Hu)|exact (Hkids _ (Hdep id Hid) Hu)]. }
        apply mapM_Ok_Forall2 in Hts. destruct (Forall2_In_r _ _ _ _ Hts Ht) as (id & Hid & E).
        unfold chain_term in E. destruct (dict_get rule_key_eqb (dp_rules p) (f, fst id)) as [sf|] eqn:Esf; [|discriminate].
        apply bind_Ok in E as (u & Hu & E). injection E as <-. destruct (Hrules _ _ _ Esf) as (q & Hq & Hsf).
        assert (Hu' : has u -> has (Node (f :: args))) by (intros Hyu; destruct (rule_atoms q sf args u Hq Hsf Hu Hyu) as (a & Hin & Hya); exact (Hargs a Hin Hya)).
        destruct (tree_eqb (snd id) (dp_one p)); [exact (Hu' Hyt)|].
        apply ProofBin.reach_node_inv in Hyt as [E|(w & [<-|[<-|[]]] & Hw)]; [discriminate|exact (Hu' Hw)|exact (Hkids _ (Hdep id Hid) Hw)]. }
      destruct ts as [|t [|t2 l]]; cbn [total] in Hd.
      + exfalso. rewrite Hz in Hd. apply ProofBin.reach_leaf in Hd; [|reflexivity]. apply Hc. rewrite Hd. cbn. auto.
      + exact (Hterm t (or_introl eq_refl) Hd).
      + apply ProofBin.reach_node_inv in Hd as [E|(u & Hin & Hu)]; [discriminate|exact (Hterm u Hin Hu)].
  Qed.
  (** C118. With any rules, an atom of a derivative is an atom of the expression, 0, 1, or written in a rule. *)
  Theorem C118_rules e s n d : sym_diff_call p e s n = Ok d -> reach false [] d (Atm y) -> reach false [] e (Atm y).
  Proof.
    unfold sym_diff_call. generalize (Z.to_nat n) as k. intros k. revert e. induction k as [|k IH]; intros e; cbn [repeatM]; [intros [= <-]; auto|].
    intros H Hd. apply bind_Ok in H as (d1 & H1 & H). specialize (IH d1 H Hd). rewrite ?diff_forward_deriv in H1. eapply deriv_atoms; eassumption.
  Qed.
End Rules.

Definition sin_rule : rule := mkRule sin [mkAtom T_Wild (VStr "a")] 0 (call1 cos wa).
Definition cos_rule : rule := mkRule cos [mkAtom T_Wild (VStr "a")] 0 (expr_neg (call1 sin wa)).
Definition pow_rule : rule := mkRule Pow [mkAtom T_Wild (VStr "a"); mkAtom T_Wild (VStr "b")] 0 (m_mul wb (m_pow wa (m_add wb (Integer (-1))))).
Lemma cas_registered : registered [pow_rule; cos_rule; sin_rule] [List_] cas_diff.
Proof.
  apply reg_dist. eapply reg_rule with (w := mkAtom T_Wild (VStr "a")); [|reflexivity|reflexivity].
  eapply reg_rule with (w := mkAtom T_Wild (VStr "a")); [|reflexivity|reflexivity].
  eapply reg_rule with (w := mkAtom T_Wild (VStr "a")); [|reflexivity|reflexivity]. apply reg_none.
Qed.
(** With the rules of simplecas: for every expression, every symbol (or any other expression) to differentiate by and every order, the derivative has no other atoms
    than the expression and the numbers 0, 1 and -1. *)
Theorem C118_simplecas e v n d y : expr_diff e v n = Ok d -> reach false [] d (Atm y) -> reach false [] e (Atm y) \/ In (Atm y) [Integer 0; Integer 1; Integer (-1)].
Proof.
  intros Hd Hy. destruct (in_dec tree_eq_dec (Atm y) [Integer 0; Integer 1; Integer (-1)]) as [Hin|Hn]; [right; exact Hin|left].
  assert (E : sym_diff_call cas_diff e v n = Ok d).
  { unfold expr_diff in Hd. unfold sym_diff_call. rewrite <- Hd. apply repeatM_ext. intros c. symmetry. apply sym_diff_call_one. }
  eapply (C118_rules _ _ _ y cas_registered); [| |exact E|exact Hy].
  - intros [H|[H|[]]]; apply Hn; rewrite <- H; cbn; auto.
  - intros r Hr Hyr. apply post_reach in Hyr. destruct Hr as [<-|[<-|[<-|[]]]]; vm_compute in Hyr |- *; repeat (destruct Hyr as [Hyr|Hyr]; [try discriminate Hyr; injection Hyr as <-; auto; exfalso; apply Hn; cbn; auto|]); destruct Hyr.
Qed.
Theorem C118_symbols e v n d s : expr_diff e v n = Ok d -> contains d s -> contains e s.
Proof. intros Hd Hs. destruct (C118_simplecas e v n d _ Hd Hs) as [H|H]; [exact H|]. cbn in H. intuition discriminate. Qed.

(** ** The texts of derivatives (C117) *)
Lemma arith_diff s e n d : arith e -> expr_diff e (Symbol s) n = Ok d -> arith d.
Proof.
  unfold expr_diff. generalize (Z.to_nat n) as k. intros k. revert e. induction k as [|k IH]; intros e He; cbn [repeatM]; [intros [= <-]; exact He|].
  rewrite sym_diff_call_one. intros H. apply bind_Ok in H as (d1 & H1 & H). apply (IH d1); [|exact H]. apply diff_forward_deriv in H1.
  destruct (deriv_cases s e He) as [(d' & E & Hd & _)|[E _]]; rewrite E in H1; [injection H1 as <-; exact Hd|discriminate].
Qed.
Lemma arith_pretty e : arith e -> exists w, SpecPrint.pretty e = Ok w.
Proof.
  intros He. assert (L : forall args, Forall (fun t => exists w, SpecPrint.pretty t = Ok w) args -> exists ws, mapM SpecPrint.pretty args = Ok ws).
  { induction 1 as [|a args [w Hw] _ [ws IH]]; [exists []; reflexivity|]. exists (w :: ws). cbn [mapM]. rewrite Hw, IH. reflexivity. }
  induction He as [n|s|args Har IH|args Har IH|a Ha [w IH]|a Ha [w IH]|a b Ha Hb [w IHa] [u IHb]] using arith_ind_all; try (eexists; reflexivity).
  - destruct (L args IH) as [ws Hw]. cbn [SpecPrint.pretty]. rewrite Hw. eexists. reflexivity.
  - destruct (L args IH) as [ws Hw]. cbn [SpecPrint.pretty]. rewrite Hw. eexists. reflexivity.
  - cbn [SpecPrint.pretty mapM]. rewrite IH. eexists. reflexivity.
  - cbn [SpecPrint.pretty mapM]. rewrite IH. eexists. reflexivity.
  - cbn [SpecPrint.pretty mapM]. rewrite IHa, IHb. eexists. reflexivity.
Qed.
(** The names and numbers in derivatives are as long as in the expression. *)
Lemma derivative_names lo hi e s n d : arith e -> lo <= 1 -> 3 <= hi -> SpecTextSize.names_between lo hi e -> expr_diff e (Symbol s) n = Ok d -> SpecTextSize.names_between lo hi d.
Proof.
  intros He Hlo Hhi [H1 H2] Hd. split.
  - intros a Ha. destruct (C118_simplecas _ _ _ _ a Hd Ha) as [Ha'|Ha']; [exact (H1 a Ha')|]. destruct Ha' as [E|[E|[E|[]]]]; injection E as <-; cbn; lia.
  - intros h args w Ha Hw. pose proof (PropsPoly.reach_arith d _ (arith_diff _ _ _ _ He Hd) Ha) as Har. inversion Har; subst; injection Hw as <-; cbn; lia.
Qed.
(** C117. The text of any derivative of an arithmetic expression has about as many characters as its tree has operations... *)
Theorem C117_derivatives hi e s n d t : arith e -> 3 <= hi -> SpecTextSize.names_between 1 hi e -> expr_diff e (Symbol s) n = Ok d -> count_ops_tree d = Ok t ->
  exists w, eval_repr d = Ok w /\ (t <= Z.of_nat (String.length w) <= (Z.of_nat hi + 6) * t)%Z.
Proof.
  intros He Hhi Hn Hd Ht. destruct (arith_pretty d (arith_diff _ _ _ _ He Hd)) as [w Hw]. apply PropsCas.C40_text in Hw. exists w. split; [exact Hw|].
  destruct (PropsTextSize.C117_str 1 hi d w t (derivative_names 1 hi e s n d He (le_n 1) Hhi Hn Hd) Hw Ht) as [U L]. specialize (L eq_refl). lia.
Qed.
(** ... so that the k-th derivative of sin(x)*sin(x) has a text of at least 2^k characters, although its graph has at most 15*(k+1)^3+3 nodes. *)
Theorem C117_exponential k : exists d w m, expr_diff (Node [Mul; Node [sin; Symbol "x"]; Node [sin; Symbol "x"]]) (Symbol "x") (Z.of_nat k) = Ok d /\
  eval_repr d = Ok w /\ (2 ^ Z.of_nat k <= Z.of_nat (String.length w))%Z /\ count_ops_graph d = Ok m /\ (m <= 15 * (Z.of_nat k + 1) ^ 3 + 3)%Z.
Proof.
  destruct (PropsPoly.C96_tree_is_exponential "x" k) as (d & n & m & Hd & Hn & Hk & Hm & Hg).
  set (e := Node [Mul; Node [sin; Symbol "x"]; Node [sin; Symbol "x"]]) in *.
  assert (Hs : SpecTextSize.names_between 1 3 e).
  { assert (K : forall t, reach false [] e t -> In t (postorder false [] e)) by (intros t; apply post_reach). split.
    - intros a Ha. apply K in Ha. vm_compute in Ha. repeat (destruct Ha as [Ha|Ha]; [try discriminate Ha; injection Ha as <-; vm_compute; lia|]). destruct Ha.
    - intros h args w Ha Hw. apply K in Ha. vm_compute in Ha. repeat (destruct Ha as [Ha|Ha]; [try discriminate Ha; injection Ha as <- <-; vm_compute in Hw; injection Hw as <-; cbn; lia|]). destruct Ha. }
  assert (He : arith e) by (repeat constructor).
  destruct (C117_derivatives 3 e "x" _ d n He (le_n 3) Hs Hd Hn) as (w & Hw & L & _). exists d, w, m. repeat split; auto. lia.
Qed.
(** ** Cases: a rule for tan that mentions no symbol; (x**2 + sin(y)).diff(x) = 2*x**(2 + -1), without y; with a rule diff[f(a), a] = g(z) the symbol z comes in. *)
Example C118_case :
  (exists d, expr_diff (Node [Add; Node [Pow; Symbol "x"; Integer 2]; Node [sin; Symbol "y"]]) (Symbol "x") 1 = Ok d /\ contains d "x" /\ eval_repr d = Ok "(2*x**(2 + -1))"%string) /\
  (registered PropsRules.rules_tan [List_] PropsRules.diff_tan /\ forall r, In r PropsRules.rules_tan -> ~ contains (r_rhs r) "x") /\
  (exists p d, registered [mkRule (Function "f") [mkAtom T_Wild (VStr "a")] 0 (Node [Function "g"; Symbol "z"])] [] p /\
    sym_diff_call p (Node [Function "f"; Symbol "x"]) (Symbol "x") 1 = Ok d /\ contains d "z" /\ ~ contains (Node [Function "f"; Symbol "x"]) "z").
Proof.
  split; [|split].
  - eexists. split; [vm_compute; reflexivity|]. split; [apply post_reach; vm_compute; auto 10|vm_compute; reflexivity].
  - split; [exact PropsRules.tan_registered|]. intros r Hr Hx. apply post_reach in Hx. destruct Hr as [<-|[<-|[<-|[<-|[]]]]]; vm_compute in Hx; intuition discriminate.
  - do 2 eexists. split; [eapply reg_rule with (w := mkAtom T_Wild (VStr "a")); [apply reg_none|reflexivity|reflexivity]|]. split; [vm_compute; reflexivity|].
    split; [apply post_reach; vm_compute; auto 10|]. intros H. apply post_reach in H. vm_compute in H. intuition discriminate.
Qed.
Print Assumptions C118_rules. Print Assumptions C118_symbols. Print Assumptions C117_exponential.
