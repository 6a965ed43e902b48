(** * C95: how substitution and repeated differentiation make expressions grow *)
From Verif Require Import Py ModelTree SpecTree ProofBase ModelEval ModelDiff ModelCas SpecEval SpecDiff SpecCas SpecAlg SpecPrint SpecGrowth ProofTree ProofSubs ProofCasDiff ProofAlg
  ProofCas ProofLLVM ProofSwell ProofCodeSize ProofDiff PropsCost Samples.
From Verif Require ProofBin.

(** The distinct subexpressions of [e] in argument position, that is what count_ops_graph counts. *)
Lemma graph_size e n : count_ops_graph e = Ok n ->
  exists l, n = Z.of_nat (length l) /\ NoDup l /\ (forall s, In s l <-> reach false [] e s) /\ topological_sort e false [] = Ok l.
Proof.
  unfold count_ops_graph. destruct (topological_sort_full e false) as (l & E & Hnd & Hr & _). rewrite E. cbn [bind]. intros [= <-].
  exists (l ++ [e]). repeat split; try assumption; apply Hr.
Qed.
Lemma graph_total e : exists n, count_ops_graph e = Ok n.
Proof. unfold count_ops_graph. destruct (topological_sort_full e false) as (l & E & _). rewrite E. eexists. reflexivity. Qed.

Lemma reach_subst keys vals e u : reach false [] (subst keys vals e) u ->
  (exists s, reach false [] e s /\ replacement keys vals s = None /\ u = subst keys vals s) \/
  (exists s r, reach false [] e s /\ replacement keys vals s = Some r /\ reach false [] r u).
Proof.
  induction e as [a|cs IH] using tree_ind_all; rewrite subst_unfold; destruct (replacement keys vals _) as [r|] eqn:E; intros H.
  - right. exists (Atm a), r. split; [apply ProofBin.reach_refl|auto].
  - left. apply ProofBin.reach_leaf in H; [|reflexivity]. exists (Atm a). rewrite subst_unfold, E. split; [apply ProofBin.reach_refl|auto].
  - right. exists (Node cs), r. split; [apply ProofBin.reach_refl|auto].
  - destruct cs as [|h args].
    + left. apply ProofBin.reach_leaf in H; [|reflexivity]. exists (Node []). rewrite subst_unfold, E. split; [apply ProofBin.reach_refl|auto].
    + cbn [map] in H. apply ProofBin.reach_node_inv in H as [->|(a & Ha & H)].
      * left. exists (Node (h :: args)). split; [apply ProofBin.reach_refl|]. split; [exact E|]. rewrite (subst_unfold _ _ (Node (h :: args))), E. reflexivity.
      * apply in_map_iff in Ha as (b & <- & Hb). destruct (IH b (or_intror Hb) H) as [(s & Hs & H1 & H2)|(s & r & Hs & H1 & H2)].
        -- left. exists s. split; [eapply ProofBin.reach_arg; eauto|auto].
        -- right. exists s, r. split; [eapply ProofBin.reach_arg; eauto|auto].
Qed.

Lemma replacement_in keys vals t r : replacement keys vals t = Some r -> In t keys /\ In r vals.
Proof.
  revert vals. induction keys as [|k keys IH]; intros [|v vals]; cbn; try discriminate.
  destruct (replacement keys vals t) as [w|] eqn:E.
  - intros [= <-]. destruct (IH vals E). auto.
  - destruct (tree_eqb_spec t k); [|discriminate]. intros [= <-]. auto.
Qed.
Lemma union_bound (l : list tree) : NoDup l -> forall (a : list tree) (ll : list (list tree)),
  (forall u, In u l -> In u a \/ exists b, In b ll /\ In u b) -> length l <= length a + list_sum (map (@length tree) ll).
Proof.
  intros Hn a ll H. rewrite <- (map_id ll) at 1. assert (Hi : incl l (a ++ concat ll)).
  { intros u Hu. apply in_or_app. destruct (H u Hu) as [|(b & Hb & Hub)]; [auto|]. right. apply in_concat. eauto. }
  apply (NoDup_incl_length Hn) in Hi. rewrite app_length in Hi. rewrite map_id.
  assert (E : length (concat ll) = list_sum (map (@length tree) ll)).
  { clear. induction ll as [|b ll IH]; [reflexivity|]. cbn [concat map list_sum fold_right]. change (fold_right Nat.add 0) with list_sum. rewrite app_length, IH. reflexivity. }
  lia.
Qed.
Lemma sizes_lists vals sizes : mapM count_ops_graph vals = Ok sizes ->
  exists ll, Forall2 (fun r l => forall s, In s l <-> reach false [] r s) vals ll /\ fold_right Z.add 0%Z sizes = Z.of_nat (list_sum (map (@length tree) ll)).
Proof.
  revert sizes. induction vals as [|r vals IH]; intros sizes H; cbn in H.
  - injection H as <-. exists []. split; [constructor|reflexivity].
  - destruct (count_ops_graph r) as [n|] eqn:En; [|discriminate]. cbn in H. destruct (mapM count_ops_graph vals) as [ns|] eqn:Em; [|discriminate]. injection H as <-.
    destruct (IH ns eq_refl) as (ll & H1 & H2). apply graph_size in En as (l & -> & _ & Hr & _). exists (l :: ll). split; [constructor; assumption|].
    cbn [fold_right map list_sum]. change (fold_right Nat.add 0) with list_sum. lia.
Qed.

(** C95. Substitution adds at most the distinct subexpressions of the replacements, however often they are put in. *)
Theorem C95_substitution e reps e' n m sizes : xreplace e (items reps) = Ok e' -> count_ops_graph e = Ok n -> count_ops_graph e' = Ok m ->
  mapM count_ops_graph (map snd reps) = Ok sizes -> (m <= n + fold_right Z.add 0 sizes)%Z.
Proof.
  intros H Hn Hm Hs. apply graph_size in Hn as (ln & -> & _ & Hrn & _). apply graph_size in Hm as (lm & -> & Hnd & Hrm & _).
  apply sizes_lists in Hs as (ll & Hll & ->).
  assert (G : forall r u, In r (map snd reps) -> reach false [] r u -> exists b, In b ll /\ In u b).
  { intros r u Hr Hu. clear -Hll Hr Hu. induction Hll as [|r' b vals ll Hb _ IH]; [destruct Hr|]. destruct Hr as [->|Hr].
    - exists b. split; [left; reflexivity|apply Hb, Hu].
    - destruct (IH Hr) as (b' & H1 & H2). exists b'. split; [right; exact H1|exact H2]. }
  assert (length lm <= length (map (subst (map fst reps) (map snd reps)) ln) + list_sum (map (@length tree) ll)).
  { apply union_bound; [exact Hnd|]. intros u Hu. apply Hrm in Hu.
    destruct (in_dec tree_eq_dec e (map fst reps)) as [Hin|Hin].
    - rewrite xreplace_items, subs_of_root in H by (try assumption; rewrite !map_length; reflexivity).
      right. apply (G e'); [|exact Hu]. clear -H. unfold last_item in H. destruct (rev (map snd reps)) as [|a r] eqn:E; [discriminate|]. injection H as <-.
      apply in_rev. rewrite E. left. reflexivity.
    - rewrite xreplace_subst in H by exact Hin. injection H as <-. apply reach_subst in Hu as [(s & Hs & _ & ->)|(s & r & Hs & Hr & Hu)].
      + left. apply in_map. apply Hrn, Hs.
      + right. apply (G r); [|exact Hu]. apply (replacement_in _ _ _ _ Hr). }
  rewrite map_length in H0. lia.
Qed.
(** Replacing one subexpression that occurs as an argument. *)
Theorem C95_one_replacement e k r e' n m nr : xreplace e (items [(k, r)]) = Ok e' -> reach false [] e k ->
  count_ops_graph e = Ok n -> count_ops_graph e' = Ok m -> count_ops_graph r = Ok nr -> (m <= n - 1 + nr)%Z.
Proof.
  intros H Hk Hn Hm Hs. apply graph_size in Hn as (ln & -> & Hndn & Hrn & _). apply graph_size in Hm as (lm & -> & Hnd & Hrm & _). apply graph_size in Hs as (lr & -> & _ & Hrr & _).
  rewrite xreplace_one in H. injection H as <-.
  set (others := filter (fun s => negb (tree_eqb s k)) ln).
  assert (length lm <= length (map (subst [k] [r]) others) + list_sum (map (@length tree) [lr])).
  { apply union_bound; [exact Hnd|]. intros u Hu. apply Hrm in Hu. apply reach_subst in Hu as [(s & Hs & Hno & ->)|(s & r' & Hs & Hr & Hu)].
    - left. apply in_map. apply filter_In. split; [apply Hrn, Hs|]. cbn in Hno. destruct (tree_eqb s k); [discriminate|reflexivity].
    - right. exists lr. split; [left; reflexivity|]. cbn in Hr. destruct (tree_eqb s k); [|discriminate]. injection Hr as <-. apply Hrr, Hu. }
  assert (E : length ln = S (length others)).
  { apply Hrn in Hk. unfold others. clear -Hk Hndn. induction Hndn as [|a l Ha Hn IH]; [destruct Hk|]. cbn [filter]. destruct (tree_eqb_spec a k) as [->|Hne]; cbn [negb length].
    - f_equal. clear -Ha. induction l as [|b l IH]; [reflexivity|]. cbn [filter]. destruct (tree_eqb_spec b k) as [->|]; [destruct Ha; left; reflexivity|]. cbn [negb length]. f_equal. apply IH. intros H. apply Ha. right. exact H.
    - f_equal. apply IH. destruct Hk as [->|Hk]; [congruence|exact Hk]. }
  rewrite map_length in H. cbn in H. lia.
Qed.

(** As a tree it grows with every occurrence. *)
Lemma sum_occurrences k r args : Forall (fun t => Z.of_nat (tree_size (subst [k] [r] t)) = (Z.of_nat (tree_size t) + occurrences k t * (Z.of_nat (tree_size r) - Z.of_nat (tree_size k)))%Z) args ->
  Z.of_nat (list_sum (map tree_size (map (subst [k] [r]) args))) =
  (Z.of_nat (list_sum (map tree_size args)) + fold_right Z.add 0 (map (occurrences k) args) * (Z.of_nat (tree_size r) - Z.of_nat (tree_size k)))%Z.
Proof.
  induction 1 as [|t l Ht _ IH]; [reflexivity|]. cbn [map list_sum fold_right]. change (fold_right Nat.add 0) with list_sum. rewrite !Nat2Z.inj_add, Ht, IH. ring.
Qed.
Lemma size_subst k r t : Z.of_nat (tree_size (subst [k] [r] t)) = (Z.of_nat (tree_size t) + occurrences k t * (Z.of_nat (tree_size r) - Z.of_nat (tree_size k)))%Z.
Proof.
  induction t as [a|cs IH] using tree_ind_all; rewrite subst_unfold; cbn [replacement].
  - cbn [occurrences]. destruct (tree_eqb_spec (Atm a) k) as [<-|]; [ring|]. cbn. ring.
  - destruct (tree_eqb_spec (Node cs) k) as [<-|Hne].
    + destruct cs as [|h args]; cbn [occurrences]; rewrite tree_eqb_refl; ring.
    + destruct cs as [|h args]; cbn [occurrences map]; match goal with |- context [tree_eqb ?u k] => destruct (tree_eqb_spec u k); [contradiction|] end; [cbn; ring|].
      cbn [tree_size]. rewrite !Nat2Z.inj_succ, sum_occurrences; [ring|]. apply Forall_forall. intros t Ht. apply IH. right. exact Ht.
Qed.
Lemma subst_proper k r e : proper e -> proper r -> proper (subst [k] [r] e).
Proof.
  intros He Hr H. apply reach_subst in H as [(s & Hs & Hno & E)|(s & r' & Hs & Hx & H)].
  - rewrite subst_unfold, Hno in E. destruct s as [|[|]]; try discriminate. exact (He Hs).
  - apply replacement_in in Hx as [_ [<-|[]]]. exact (Hr H).
Qed.
Theorem C95_tree_growth e k r e' n nk nr : proper e -> proper k -> proper r -> xreplace e (items [(k, r)]) = Ok e' ->
  count_ops_tree e = Ok n -> count_ops_tree k = Ok nk -> count_ops_tree r = Ok nr -> count_ops_tree e' = Ok (n + occurrences k e * (nr - nk))%Z.
Proof.
  intros He Hk Hr H Hn Hnk Hnr. rewrite xreplace_one in H. injection H as <-.
  rewrite count_ops_tree_spec in Hn, Hnk, Hnr by assumption. injection Hn as <-. injection Hnk as <-. injection Hnr as <-.
  rewrite count_ops_tree_spec by (apply subst_proper; assumption). f_equal. apply size_subst.
Qed.

(** ** Repeated derivatives *)
Lemma binary_node h args : (h = Add \/ h = Mul -> length args = 2) -> (forall c, In c args -> binary c) -> binary (Node (h :: args)).
Proof. intros Hl Hc h' args' Hr. apply ProofBin.reach_node_inv in Hr as [E|(a & Ha & Hr)]; [injection E as -> ->; exact Hl|exact (Hc a Ha h' args' Hr)]. Qed.
Lemma binary_leaf t : children t = [] -> binary t.
Proof. intros Ht h args Hr. apply ProofBin.reach_leaf in Hr; [|exact Ht]. subst t. discriminate. Qed.
Definition tidy (t : tree) : Prop := arith t /\ binary t.
Lemma tidy_zero : tidy zero. Proof. split; [apply (ar_int 0)|apply binary_leaf; reflexivity]. Qed.
Lemma tidy_add a b : tidy a -> tidy b -> tidy (Node [Add; a; b]).
Proof. intros [A1 B1] [A2 B2]. split; [constructor; repeat constructor; assumption|]. apply binary_node; [reflexivity|]. intros c [<-|[<-|[]]]; assumption. Qed.
Lemma tidy_mul a b : tidy a -> tidy b -> tidy (Node [Mul; a; b]).
Proof. intros [A1 B1] [A2 B2]. split; [constructor; repeat constructor; assumption|]. apply binary_node; [reflexivity|]. intros c [<-|[<-|[]]]; assumption. Qed.
Lemma tidy_total terms : length terms <= 2 -> (forall c, In c terms -> tidy c) -> tidy (total cas_diff terms).
Proof.
  destruct terms as [|t [|t2 [|]]]; cbn [total length]; intros Hl Hc; try lia.
  - apply tidy_zero.
  - apply Hc. left. reflexivity.
  - apply (tidy_add t t2); apply Hc; cbn; auto.
Qed.
Lemma tidy_times r d : tidy r -> tidy d -> tidy (times r d).
Proof.
  intros Hr Hd. unfold times. destruct (tree_eqb d zero); [apply tidy_zero|]. destruct (tree_eqb d one); [exact Hr|]. apply (tidy_mul); assumption.
Qed.
Lemma tidy_arg h args a : arith (Node (h :: args)) -> binary (Node (h :: args)) -> In a args -> tidy a.
Proof.
  intros Ha Hb Hin. split; [|eapply binary_arg; eauto].
  inversion Ha as [n E|n E|l Hl|l Hl|u Hu|u Hu|u v Hu Hv]; subst; cbn in Hin; try (rewrite Forall_forall in Hl; auto; fail).
  - destruct Hin as [<-|[]]; assumption.
  - destruct Hin as [<-|[]]; assumption.
  - destruct Hin as [<-|[<-|[]]]; assumption.
Qed.
Lemma deriv_tidy s e : arith e -> binary e -> forall d, deriv cas_diff (Symbol s) e = Ok d -> tidy d.
Proof.
  intros He. induction He as [n|s'|args Har IH|args Har IH|a Ha IH|a Ha IH|a b Ha Hb IHa IHb] using arith_ind_all; intros Hbin d Hd.
  - rewrite atom_D in Hd. injection Hd as <-. apply tidy_zero.
  - rewrite sym_D in Hd. injection Hd as <-. destruct (String.eqb s' s); (split; [apply (ar_int _)|apply binary_leaf; reflexivity]).
  - rewrite D_add in Hd. destruct (mapM (deriv cas_diff (Symbol s)) args) as [ds|] eqn:E; [|discriminate]. cbn [bind] in Hd. injection Hd as <-.
    apply mapM_Ok_Forall2 in E. pose proof (Forall2_len _ _ _ E) as Hl. rewrite (Hbin Add args (ProofBin.reach_refl _)) in Hl by auto.
    apply tidy_total.
    + rewrite map_length. pose proof (dependent_length ds). lia.
    + intros t Ht. apply in_map_iff in Ht as (id & <- & Hid). apply dependent_in in Hid. rewrite Forall_forall in IH.
      clear Hl. assert (Hb : forall a, In a args -> binary a) by (intros; eapply binary_arg; eauto). clear Hbin Har.
      induction E as [|a d args ds Ha E IHE]; [destruct Hid|]. destruct Hid as [<-|Hid].
      * eapply (IH a); [left; reflexivity|apply Hb; left; reflexivity|exact Ha].
      * apply IHE; [intros; eapply IH; eauto; right; assumption|exact Hid|intros; apply Hb; right; assumption].
  - rewrite D_mul in Hd. destruct (mapM (deriv cas_diff (Symbol s)) args) as [ds|] eqn:E; [|discriminate]. cbn [bind] in Hd. injection Hd as <-.
    apply mapM_Ok_Forall2 in E. pose proof (Forall2_len _ _ _ E) as Hl. pose proof (Hbin Mul args (ProofBin.reach_refl _)) as H2. rewrite H2 in Hl by auto.
    assert (Hb : forall a, In a args -> binary a) by (intros; eapply binary_arg; eauto). rewrite Forall_forall in IH, Har.
    apply tidy_total.
    + rewrite map_length. pose proof (dependent_length ds). lia.
    + intros t Ht. apply in_map_iff in Ht as (id & <- & Hid).
      assert (G : forall c, In c (set_nth args (fst id) (snd id)) -> tidy c).
      { intros c Hc. apply set_nth_in in Hc as [->|Hc].
        - apply dependent_in in Hid. clear H2 Hl Hbin. induction E as [|a d args ds Ha E IHE]; [destruct Hid|]. destruct Hid as [<-|Hid].
          + eapply (IH a); [left; reflexivity|apply Hb; left; reflexivity|exact Ha].
          + apply IHE; [intros; apply Har; right; assumption|intros; eapply IH; eauto; right; assumption|intros; apply Hb; right; assumption|exact Hid].
        - split; [apply Har, Hc|apply Hb, Hc]. }
      assert (L : length (set_nth args (fst id) (snd id)) = 2) by (rewrite set_nth_len; apply H2; auto).
      destruct (set_nth args (fst id) (snd id)) as [|u [|w [|]]]; try discriminate L. apply tidy_mul; apply G; cbn; auto.
  - rewrite D_sin in Hd. destruct (deriv cas_diff (Symbol s) a) as [da|] eqn:E; [|discriminate]. cbn [bind] in Hd. injection Hd as <-.
    assert (Hba : binary a) by (eapply binary_arg; [exact Hbin|left; reflexivity]).
    apply tidy_times; [|apply (IH Hba da eq_refl)]. split; [constructor; exact Ha|]. apply binary_node; [intros [H|H]; discriminate H|]. intros c [<-|[]]. exact Hba.
  - rewrite D_cos in Hd. destruct (deriv cas_diff (Symbol s) a) as [da|] eqn:E; [|discriminate]. cbn [bind] in Hd. injection Hd as <-.
    assert (Hba : binary a) by (eapply binary_arg; [exact Hbin|left; reflexivity]).
    apply tidy_times; [|apply (IH Hba da eq_refl)]. apply tidy_mul; [split; [apply (ar_int (-1))|apply binary_leaf; reflexivity]|].
    split; [constructor; exact Ha|]. apply binary_node; [intros [H|H]; discriminate H|]. intros c [<-|[]]. exact Hba.
  - assert (Hba : binary a) by (eapply binary_arg; [exact Hbin|left; reflexivity]).
    assert (Hbb : binary b) by (eapply binary_arg; [exact Hbin|right; left; reflexivity]).
    rewrite D_pow in Hd. destruct (deriv cas_diff (Symbol s) a) as [da|] eqn:E; [|discriminate]. cbn [bind] in Hd.
    destruct (deriv cas_diff (Symbol s) b) as [db|] eqn:E2; [|discriminate]. cbn [bind] in Hd. destruct (tree_eqb db zero); [|discriminate]. injection Hd as <-.
    apply tidy_times; [|apply (IHa Hba da eq_refl)]. apply tidy_mul; [split; assumption|].
    assert (T : tidy (Node [Add; b; negone])) by (apply tidy_add; [split; assumption|split; [apply (ar_int (-1))|apply binary_leaf; reflexivity]]).
    split; [constructor; [exact Ha|exact (proj1 T)]|]. apply binary_node; [intros [H|H]; discriminate H|]. intros c [<-|[<-|[]]]; [exact Hba|exact (proj2 T)].
Qed.

(** The derivative of an expression with binary sums and products is one again, so that C59 can be iterated: every differentiation makes the graph
    at most about five times as large. *)
Theorem C95_repeated_derivative s e k d n m : arith e -> binary e -> expr_diff e (Symbol s) (Z.of_nat k) = Ok d ->
  count_ops_graph e = Ok n -> count_ops_graph d = Ok m -> arith d /\ binary d /\ (m + 1 <= 5 ^ Z.of_nat k * (n + 1))%Z.
Proof.
  intros Ha Hb Hd Hn Hm. unfold expr_diff in Hd. rewrite Nat2Z.id in Hd. revert e n Ha Hb Hd Hn. induction k as [|k IH]; intros e n Ha Hb Hd Hn.
  - injection Hd as <-. rewrite Hm in Hn. injection Hn as <-. split; [exact Ha|]. split; [exact Hb|]. change (5 ^ Z.of_nat 0)%Z with 1%Z. lia.
  - cbn [repeatM] in Hd. destruct (sym_diff_call cas_diff e (Symbol s) 1) as [e1|] eqn:E1; [|discriminate]. cbn [bind] in Hd.
    assert (D1 : expr_diff e (Symbol s) 1 = Ok e1) by (unfold expr_diff; change (Z.to_nat 1) with 1; cbn [repeatM]; rewrite E1; reflexivity).
    assert (T : tidy e1) by (eapply (deriv_tidy s e Ha Hb); rewrite expr_diff_one, ProofDiff.diff_forward_deriv in D1; exact D1).
    destruct (graph_total e1) as [n1 Hn1]. destruct (IH e1 n1 (proj1 T) (proj2 T) Hd Hn1) as (R1 & R2 & R3). split; [exact R1|]. split; [exact R2|].
    pose proof (C59_binary_expressions s e e1 n n1 Ha Hb D1 Hn Hn1) as H5. rewrite Nat2Z.inj_succ, Z.pow_succ_r by lia.
    assert (0 < 5 ^ Z.of_nat k)%Z by (apply Z.pow_pos_nonneg; lia). nia.
Qed.
Print Assumptions C95_substitution.
Print Assumptions C95_one_replacement.
Print Assumptions C95_tree_growth.
Print Assumptions C95_repeated_derivative.

Definition grow_sample : tree := m_add (m_mul x (tree_call sin [x])) (m_pow x (int 2)).
Definition grow_by : tree := m_mul (m_add y z) (m_add y (int 1)).
Lemma proper_dec t : ~ In (Node []) (postorder false [] t) -> proper t.
Proof. intros H Hr. apply H. apply ProofTopo.post_reach, Hr. Qed.
Example C95_case :
  reach false [] grow_sample x /\ proper grow_sample /\ proper x /\ proper grow_by /\ tidy grow_sample /\
  occurrences x grow_sample = 3%Z /\ count_ops_graph grow_sample = Ok 6%Z /\ count_ops_graph grow_by = Ok 6%Z /\
  (do e' <- xreplace grow_sample (items [(x, grow_by)]); count_ops_graph e') = Ok 11%Z /\
  count_ops_tree grow_sample = Ok 8%Z /\ count_ops_tree grow_by = Ok 7%Z /\
  (do e' <- xreplace grow_sample (items [(x, grow_by)]); count_ops_tree e') = Ok 26%Z /\
  (do d <- expr_diff grow_sample x 3; count_ops_graph d) = Ok 21%Z.
Proof.
  assert (Hx : forall s, tidy (Symbol s)) by (intros s; split; [constructor|apply binary_leaf; reflexivity]).
  split; [apply ProofTopo.post_reach; cbn; auto|].
  split; [apply proper_dec; cbn; intuition discriminate|]. split; [apply proper_dec; cbn; intuition discriminate|]. split; [apply proper_dec; cbn; intuition discriminate|].
  split.
  { apply tidy_add; [apply tidy_mul; [apply Hx|]|].
    - split; [constructor; apply Hx|]. apply binary_node; [intros [H|H]; discriminate H|]. intros c [<-|[]]. apply Hx.
    - split; [constructor; [apply Hx|apply (ar_int 2)]|]. apply binary_node; [intros [H|H]; discriminate H|]. intros c [<-|[<-|[]]]; [apply Hx|apply binary_leaf; reflexivity]. }
  repeat split; vm_compute; reflexivity.
Qed.
