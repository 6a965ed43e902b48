(** * Rules registered by other threads: proofs for C85 *)
From Verif Require Import Py ModelTree SpecTree ModelEval ModelDiff ModelShared SpecShared ProofBase ProofTopo ProofGraph ProofTree.

(** ** The outcome does not depend on the history *)
Definition same {A} (p : shared A) (q : res A) : Prop := forall n, fst (p n) = q.
(** A result is found if it is found with the state at the start. *)
Definition downward (n0 : nat) {A} (p : shared A) (q : res A) : Prop :=
  forall n v, n0 <= n -> q = Ok v -> exists m, n <= m /\ p n = (Ok v, m).
(** A result is also found with the state [N], at the end. *)
Definition upward (N : nat) {A} (p : shared A) (q : res A) : Prop :=
  forall n v m, p n = (Ok v, m) -> n <= m /\ (m <= N -> q = Ok v).

(** A relation between computations that respects their structure. *)
Definition modular (R : forall A, shared A -> res A -> Prop) : Prop :=
  (forall A (r : res A), R A (slift r) r) /\
  (forall A B (p : shared A) q (f : A -> shared B) g, R A p q -> (forall a, R B (f a) (g a)) -> R B (sbind p f) (do a <- q; g a)).
Lemma same_modular : modular (@same).
Proof.
  split; [intros A r n; reflexivity|]. intros A B p q f g Hp Hf n. unfold sbind. specialize (Hp n). destruct (p n) as [[a|x] n']; cbn [fst] in Hp; subst q; [apply Hf|reflexivity].
Qed.
Lemma downward_modular n0 : modular (@downward n0).
Proof.
  split.
  - intros A r n v Hn ->. exists n. split; [lia|reflexivity].
  - intros A B p q f g Hp Hf n v Hn E. destruct q as [a|x]; [|discriminate]. cbn [bind] in E.
    destruct (Hp n a Hn eq_refl) as (m & Hm & Em). destruct (Hf a m v ltac:(lia) E) as (m' & Hm' & Em').
    exists m'. split; [lia|]. unfold sbind. rewrite Em. exact Em'.
Qed.
Lemma upward_modular N : modular (@upward N).
Proof.
  split.
  - intros A r n v m E. injection E as -> ->. split; [lia|reflexivity].
  - intros A B p q f g Hp Hf n v m E. unfold sbind in E. destruct (p n) as [[a|x] n'] eqn:Ep; [|discriminate].
    destruct (Hp n a n' Ep) as [H1 H2]. destruct (Hf a n' v m E) as [H3 H4]. split; [lia|]. intros Hm. rewrite H2 by lia. exact (H4 Hm).
Qed.

Section Modular.
  Context (R : forall A, shared A -> res A -> Prop) (M : modular R).
  Lemma m_lift {A} (r : res A) : R A (slift r) r.
  Proof. apply M. Qed.
  Lemma m_bind {A B} (p : shared A) q (f : A -> shared B) g : R A p q -> (forall a, R B (f a) (g a)) -> R B (sbind p f) (do a <- q; g a).
  Proof. apply M. Qed.
  Lemma m_mapM {A B} (f : A -> shared B) g l : (forall a, In a l -> R B (f a) (g a)) -> R _ (smapM f l) (mapM g l).
  Proof.
    induction l as [|a l IH]; intros H; [apply m_lift|]. cbn [smapM mapM]. apply m_bind; [apply H; left; reflexivity|]. intros b.
    apply m_bind; [apply IH; intros; apply H; right; assumption|]. intros bs. apply m_lift.
  Qed.
  Lemma m_foldM {A S} (f : S -> A -> shared S) g l : (forall s a, In a l -> R S (f s a) (g s a)) -> forall s, R _ (sfoldM f l s) (foldM g l s).
  Proof.
    induction l as [|a l IH]; intros H s; [apply m_lift|]. cbn [sfoldM foldM]. apply m_bind; [apply H; left; reflexivity|]. intros s'.
    apply IH. intros; apply H; right; assumption.
  Qed.

  (** ** Evaluators *)
  Section Evaluate.
    Context {V : Type} (is_none : V -> bool) (seen : nat -> evaluator V) (ev : evaluator V) (e : tree).
    Hypothesis Hatom : forall a, reach false [] e (Atm a) -> R V (s_eval_atom seen (Atm a)) (eval_atom ev (Atm a)).
    Hypothesis Hop : forall h args vs, reach false [] e (Node (h :: args)) -> R V (s_eval_operation seen h vs) (eval_operation ev h vs).
    Hypothesis Hempty : R V (s_eval_atom seen (Node [])) (eval_atom ev (Node [])).
    Lemma m_eval_forward values : R V (s_eval_forward is_none seen values e) (eval_forward is_none ev values e).
    Proof.
      unfold s_eval_forward, eval_forward. destruct (forward_graph_spec e) as (hs & Eg & _). rewrite Eg.
      set (g := mkGraph _ _ _) in *.
      change (R V (sbind (smapM (s_eval_leaf is_none seen values) (g_atoms g)) (fun stack0 =>
        sbind (sfoldM (s_run_op seen) (g_operations g) stack0) (fun stack => slift (last_item stack))))
        (do stack0 <- mapM (eval_leaf is_none ev values) (g_atoms g);
         do stack <- foldM (run_op (eval_operation ev)) (g_operations g) stack0; last_item stack)).
      apply m_bind.
      { apply m_mapM. intros t Ht. cbn [g g_atoms] in Ht. apply filter_In in Ht as [Ht Hc].
        assert (Hr : reach false [] e t) by (apply forder_In, in_or_app; left; apply filter_In; split; assumption).
        assert (Ha : R V (s_eval_atom seen t) (eval_atom ev t)).
        { destruct t as [a|[|h args]]; [apply Hatom; exact Hr|exact Hempty|discriminate]. }
        unfold s_eval_leaf, eval_leaf. destruct (dict_get tree_eqb values t) as [v|]; [destruct (is_none v)|]; try exact Ha. apply m_lift. }
      intros stack0. apply m_bind; [|intros stack; apply m_lift]. apply m_foldM. intros stack op Hin.
      cbn [g g_operations] in Hin. apply in_map_iff in Hin as (t & <- & Ht). apply filter_In in Ht as [Ht Hc].
      assert (Hr : reach false [] e t) by (apply forder_In, in_or_app; right; apply filter_In; split; assumption).
      destruct t as [a|[|h args]]; [discriminate|discriminate|].
      unfold s_run_op, run_op. apply m_bind; [apply m_lift|]. intros argvals. apply m_bind; [|intros v; apply m_lift].
      exact (Hop h args argvals Hr).
    Qed.
  End Evaluate.

  (** ** Differentiation *)
  Section Differentiate.
    Context (zero one add mul : tree) (seen : nat -> diff_props) (p : diff_props).
    Hypothesis Hz : dp_zero p = zero. Hypothesis Ho : dp_one p = one. Hypothesis Ha : dp_add p = add. Hypothesis Hm : dp_mul p = mul.
    Lemma m_diff_forward e s :
      (forall h args args' ds, reach false [] e (Node (h :: args)) -> R _ (s_diff_terms_of zero one add mul seen h args' ds) (diff_terms_of p h args' ds)) ->
      R _ (s_diff_forward zero one add mul seen e s) (diff_forward e s p).
    Proof.
      intros H. unfold s_diff_forward, diff_forward. destruct (forward_graph_spec e) as (hs & Eg & _). rewrite Eg. set (g := mkGraph _ _ _) in *.
      change (R _ (sbind (sfoldM (s_diff_step zero one add mul seen) (g_operations g)
          (g_atoms g, map (fun e => if tree_eqb e s then one else zero) (g_atoms g))) (fun stacks => slift (last_item (snd stacks))))
        (do (_, diff_stack) <- foldM (diff_step p) (g_operations g) (g_atoms g, map (fun e => if tree_eqb e s then dp_one p else dp_zero p) (g_atoms g));
         last_item diff_stack)).
      rewrite Hz, Ho. apply m_bind; [|intros [st ds]; apply m_lift]. apply m_foldM. intros [stack dstack] op Hin.
      cbn [g g_operations] in Hin. apply in_map_iff in Hin as (t & <- & Ht). apply filter_In in Ht as [Ht Hc].
      assert (Hr : reach false [] e t) by (apply forder_In, in_or_app; right; apply filter_In; split; assumption).
      destruct t as [a|[|h args]]; [discriminate|discriminate|]. unfold op_of. cbn [s_diff_step diff_step].
      apply m_bind; [apply m_lift|]. intros args'. apply m_bind; [apply m_lift|]. intros ds.
      apply m_bind; [exact (H h args args' ds Hr)|]. intros terms. unfold sum_terms. rewrite Hz, Ha. apply m_lift.
    Qed.
    Lemma m_repeat s :
      (forall h args' ds, R _ (s_diff_terms_of zero one add mul seen h args' ds) (diff_terms_of p h args' ds)) ->
      forall n e, R _ (s_repeat zero one add mul seen n s e) (repeatM (fun d => diff_forward d s p) n e).
    Proof.
      intros H. induction n as [|n IH]; intros e; [apply m_lift|]. cbn [s_repeat repeatM]. apply m_bind; [|exact IH].
      apply m_diff_forward. intros; apply H.
    Qed.
  End Differentiate.
End Modular.

(** ** The reading steps *)
Section EvalSteps.
  Context {V : Type} (seen : nat -> evaluator V).
  Lemma same_atom e ev a : (forall n, same_rules_for e (seen n) ev) -> reach false [] e (Atm a) -> same (s_eval_atom seen (Atm a)) (eval_atom ev (Atm a)).
  Proof.
    intros H Hr n. unfold s_eval_atom, eval_atom, sbind, slift, sread. cbn [tree_value bind].
    rewrite (proj1 (H n) a Hr). destruct (dict_get atype_eqb (ev_atoms ev) (atom_type a)); [reflexivity|]. cbn [fst].
    apply (proj1 (proj2 (proj2 (H (S n))))).
  Qed.
  Lemma same_op e ev h args vs : (forall n, same_rules_for e (seen n) ev) -> reach false [] e (Node (h :: args)) -> same (s_eval_operation seen h vs) (eval_operation ev h vs).
  Proof.
    intros H Hr n. unfold s_eval_operation, eval_operation, sbind, slift, sread.
    rewrite (proj1 (proj2 (H n)) h args Hr). destruct (dict_get tree_eqb (ev_operations ev) h) as [[f [|]]|]; [reflexivity|reflexivity|]. cbn [fst].
    apply (proj2 (proj2 (proj2 (H (S n))))).
  Qed.
  Lemma generic_atom_raises (t : tree) v : @generic_atom_error V t <> Ok v.
  Proof. unfold generic_atom_error. destruct (repr_raises t); discriminate. Qed.
  Lemma generic_operation_raises h vs v : @generic_operation_error V h vs <> Ok v.
  Proof. unfold generic_operation_error. destruct (repr_raises h); discriminate. Qed.
  Lemma down_atom n0 a : growing more_rules seen -> downward n0 (s_eval_atom seen (Atm a)) (eval_atom (seen n0) (Atm a)).
  Proof.
    intros G n v Hn. destruct (G n0 n Hn) as (H1 & _ & H3 & _). unfold s_eval_atom, eval_atom, sbind, slift, sread. cbn [tree_value bind].
    destruct (dict_get atype_eqb (ev_atoms (seen n0)) (atom_type a)) as [f|] eqn:E.
    - rewrite (H1 _ _ E). intros ->. exists (S n). split; [lia|reflexivity].
    - rewrite H3. intros X. exfalso. exact (generic_atom_raises _ _ X).
  Qed.
  Lemma down_op n0 h vs : growing more_rules seen -> downward n0 (s_eval_operation seen h vs) (eval_operation (seen n0) h vs).
  Proof.
    intros G n v Hn. destruct (G n0 n Hn) as (_ & H1 & _ & H3 & _). unfold s_eval_operation, eval_operation, sbind, slift, sread.
    destruct (dict_get tree_eqb (ev_operations (seen n0)) h) as [[f star]|] eqn:E.
    - rewrite (H1 _ _ E). intros X. exists (S n). split; [lia|]. rewrite X. reflexivity.
    - rewrite H3. intros X. exfalso. exact (generic_operation_raises _ _ _ X).
  Qed.
  Lemma up_atom N a : growing more_rules seen -> upward N (s_eval_atom seen (Atm a)) (eval_atom (seen N) (Atm a)).
  Proof.
    intros G n v m. unfold s_eval_atom, eval_atom, sbind, slift, sread. cbn [tree_value bind].
    destruct (dict_get atype_eqb (ev_atoms (seen n)) (atom_type a)) as [f|] eqn:E.
    - intros X. injection X as X <-. split; [lia|]. intros Hm. destruct (G n N ltac:(lia)) as (H1 & _). rewrite (H1 _ _ E). exact X.
    - destruct (G (S n) (S n) ltac:(lia)) as (_ & _ & H3 & _). rewrite H3. intros X. injection X as X _. exfalso. exact (generic_atom_raises _ _ X).
  Qed.
  Lemma up_op N h vs : growing more_rules seen -> upward N (s_eval_operation seen h vs) (eval_operation (seen N) h vs).
  Proof.
    intros G n v m. unfold s_eval_operation, eval_operation, sbind, slift, sread.
    destruct (dict_get tree_eqb (ev_operations (seen n)) h) as [[f star]|] eqn:E.
    - intros X. injection X as X <-. split; [lia|]. intros Hm. destruct (G n N ltac:(lia)) as (_ & H1 & _). rewrite (H1 _ _ E). exact X.
    - destruct (G (S n) (S n) ltac:(lia)) as (_ & _ & _ & H3 & _). rewrite H3. intros X. injection X as X _. exfalso. exact (generic_operation_raises _ _ _ X).
  Qed.
End EvalSteps.

Section DiffSteps.
  Context (zero one add mul : tree) (seen : nat -> diff_props).
  Lemma mem_iff (h : tree) (l l' : list tree) : (In h l <-> In h l') -> mem h l = mem h l'.
  Proof. intros H. destruct (mem_spec h l), (mem_spec h l'); tauto. Qed.

  (** Each step of the chain rule reads the dict of rules. *)
  Lemma terms_same e p h args args' ds : (forall n, same_derivatives_for e (seen n) p) ->
    dp_zero p = zero -> dp_one p = one -> dp_add p = add -> dp_mul p = mul -> reach false [] e (Node (h :: args)) ->
    same (s_diff_terms_of zero one add mul seen h args' ds) (diff_terms_of p h args' ds).
  Proof.
    intros H Hz Ho Ha Hm Hr n. unfold s_diff_terms_of, diff_terms_of. rewrite Hz, Ha, Hm, Ho. cbv [sread]. unfold sbind at 1.
    destruct (proj2 (H n) h args Hr) as [Hd _]. rewrite (mem_iff _ _ _ Hd).
    destruct (mem h (dp_distributive p)); [reflexivity|]. destruct (all_zero ds zero); [reflexivity|].
    destruct (tree_eqb h add); [reflexivity|]. destruct (tree_eqb h mul); [reflexivity|].
    unfold chain_rule_forward. generalize (S n). apply (m_foldM (@same) same_modular). intros terms [i d] _. unfold s_chain_step, chain_step.
    destruct (negb (tree_eqb d zero)); [|intros k; reflexivity]. intros k. unfold sbind at 1, sread.
    destruct (proj2 (H k) h args Hr) as [_ Hk]. unfold dict_getitem. rewrite Hk.
    destruct (dict_get rule_key_eqb (dp_rules p) (h, i)) as [r|]; [|reflexivity]. cbn. destruct (subs_call r args'); reflexivity.
  Qed.
  Lemma terms_down n0 h args' ds : growing more_derivatives seen ->
    dp_zero (seen n0) = zero -> dp_one (seen n0) = one -> dp_add (seen n0) = add -> dp_mul (seen n0) = mul ->
    downward n0 (s_diff_terms_of zero one add mul seen h args' ds) (diff_terms_of (seen n0) h args' ds).
  Proof.
    intros G Hz Ho Ha Hm n v Hn E. unfold s_diff_terms_of, diff_terms_of in *. rewrite Hz, Ha, Hm, Ho in E. cbv [sread]. unfold sbind at 1.
    destruct (G n0 n Hn) as (_ & Hd & _). rewrite <- (mem_iff _ _ _ (Hd h)).
    destruct (mem h (dp_distributive (seen n0))); [exists (S n); rewrite <- E; split; [lia|reflexivity]|].
    destruct (all_zero ds zero); [exists (S n); rewrite <- E; split; [lia|reflexivity]|].
    destruct (tree_eqb h add); [exists (S n); rewrite <- E; split; [lia|reflexivity]|].
    destruct (tree_eqb h mul); [exists (S n); rewrite <- E; split; [lia|reflexivity]|].
    unfold chain_rule_forward in E.
    assert (F : downward n0 (sfoldM (s_chain_step zero one mul seen h args') (enumerate_from 0 ds) []) (foldM (chain_step h args' zero one mul (dp_rules (seen n0))) (enumerate_from 0 ds) [])).
    { apply (m_foldM (@downward n0) (downward_modular n0)). intros terms [i d] _ k w Hk. unfold s_chain_step, chain_step.
      destruct (negb (tree_eqb d zero)); [|intros X; exists k; rewrite <- X; split; [lia|reflexivity]]. intros X. unfold sbind at 1, sread. unfold dict_getitem in *.
      destruct (dict_get rule_key_eqb (dp_rules (seen n0)) (h, i)) as [r|] eqn:Er; [|discriminate].
      destruct (G n0 k Hk) as (_ & _ & Hr). rewrite (Hr _ _ Er). cbn in X |- *. unfold sbind, slift. cbn.
      destruct (subs_call r args'); [|discriminate]. exists (S k). cbn in X. injection X as <-. split; [lia|reflexivity]. }
    destruct (F (S n) v ltac:(lia) E) as (m & Hm' & Em). exists m. split; [lia|exact Em].
  Qed.
  Lemma terms_up N h args' ds : growing more_derivatives seen ->
    dp_zero (seen N) = zero -> dp_one (seen N) = one -> dp_add (seen N) = add -> dp_mul (seen N) = mul ->
    upward N (s_diff_terms_of zero one add mul seen h args' ds) (diff_terms_of (seen N) h args' ds).
  Proof.
    intros G Hz Ho Ha Hm n v m E. unfold s_diff_terms_of, diff_terms_of in *. rewrite Hz, Ha, Hm, Ho. cbv [sread] in E. unfold sbind at 1 in E.
    assert (F : upward N (sfoldM (s_chain_step zero one mul seen h args') (enumerate_from 0 ds) []) (foldM (chain_step h args' zero one mul (dp_rules (seen N))) (enumerate_from 0 ds) [])).
    { apply (m_foldM (@upward N) (upward_modular N)). intros terms [i d] _ k w m'. unfold s_chain_step, chain_step.
      destruct (negb (tree_eqb d zero)); [|intros X; injection X as <- <-; split; [lia|reflexivity]]. intros X. unfold sbind at 1, sread in X. unfold dict_getitem in *.
      destruct (dict_get rule_key_eqb (dp_rules (seen k)) (h, i)) as [r|] eqn:Er; [|discriminate]. cbn in X. unfold sbind, slift in X. cbn in X.
      destruct (subs_call r args') as [dt|] eqn:Es; [|discriminate]. injection X as <- <-. split; [lia|]. intros HN.
      destruct (G k N ltac:(lia)) as (_ & _ & Hr). rewrite (Hr _ _ Er). cbn. rewrite Es. reflexivity. }
    assert (D : n <= N -> mem h (dp_distributive (seen n)) = mem h (dp_distributive (seen N))).
    { intros HN. destruct (G n N HN) as (_ & Hd & _). apply mem_iff, Hd. }
    destruct (mem h (dp_distributive (seen n))). { injection E as <- <-. split; [lia|]. intros HN. rewrite <- D by lia. reflexivity. }
    destruct (all_zero ds zero). { injection E as <- <-. split; [lia|]. intros HN. rewrite <- D by lia. reflexivity. }
    destruct (tree_eqb h add). { injection E as <- <-. split; [lia|]. intros HN. rewrite <- D by lia. reflexivity. }
    destruct (tree_eqb h mul). { injection E as <- <-. split; [lia|]. intros HN. rewrite <- D by lia. reflexivity. }
    destruct (F _ _ _ E) as [H1 H2]. split; [lia|]. intros HN. rewrite <- D by lia. exact (H2 HN).
  Qed.
End DiffSteps.
