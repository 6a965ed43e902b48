(** * Proofs for C37 - C41 *)
From Verif Require Import Py ModelTree SpecTree ProofBase ProofTopo ProofTree ModelEval SpecEval ProofEval ModelDiff ModelSym
  ModelCas SpecPrint.

(** ** Counting *)
Lemma tree_size_postorder t : tree_size t = length (postorder false [] t).
Proof.
  induction t as [a|cs IH] using tree_ind_all; [reflexivity|].
  destruct cs as [|h args]; [reflexivity|]. cbn [tree_size postorder mem existsb app].
  rewrite app_length. cbn [length]. rewrite Nat.add_1_r. f_equal.
  assert (IH' : forall c, In c args -> tree_size c = length (postorder false [] c)) by (intros; apply IH; right; assumption).
  clear IH. induction args as [|a args IHa]; [reflexivity|]. simpl. rewrite app_length.
  rewrite (IH' a) by (left; reflexivity). rewrite IHa; [reflexivity|]. intros; apply IH'; right; assumption.
Qed.

Lemma keep_first_length l : length (keep_first l) <= length l.
Proof.
  induction l as [|t l IH]; simpl; [lia|]. apply le_n_S. etransitivity; [|exact IH].
  generalize (keep_first l) as m. induction m as [|u m IHm]; simpl; [lia|]. destruct (negb _); simpl; lia.
Qed.

Lemma filter_length_all {A} (p : A -> bool) l : length (filter p l) = length l -> filter p l = l.
Proof.
  assert (Hle : forall m, length (filter p m) <= length m).
  { induction m as [|u m IHm]; simpl; [lia|]. destruct (p u); simpl; lia. }
  induction l as [|a l IH]; simpl; [reflexivity|]. destruct (p a); simpl; intros H.
  - f_equal. apply IH. lia.
  - specialize (Hle l). lia.
Qed.

Lemma filter_In_all {A} (p : A -> bool) l a : filter p l = l -> In a l -> p a = true.
Proof. intros H Hin. rewrite <- H in Hin. apply filter_In in Hin. tauto. Qed.

Lemma keep_first_full l : length (keep_first l) = length l -> NoDup l.
Proof.
  induction l as [|t l IH]; simpl; [constructor|]. intros H. injection H as H.
  pose proof (keep_first_length l) as Hk.
  assert (Hf : length (filter (fun y => negb (tree_eqb t y)) (keep_first l)) <= length (keep_first l)).
  { generalize (keep_first l) as m. induction m as [|u m IHm]; simpl; [lia|]. destruct (negb _); simpl; lia. }
  assert (Hl : length (keep_first l) = length l) by lia.
  constructor; [|apply IH, Hl]. intros Hin.
  assert (Hin' : In t (keep_first l)) by (apply keep_first_In; exact Hin).
  assert (E : filter (fun y => negb (tree_eqb t y)) (keep_first l) = keep_first l).
  { apply filter_length_all. lia. }
  pose proof (filter_In_all _ _ _ E Hin') as Ht. simpl in Ht. rewrite tree_eqb_refl in Ht. discriminate.
Qed.

Definition count_ev : evaluator Z :=
  add_op_generic (add_atom_generic new_evaluator (fun _ => Ok 1%Z))
    (fun _ counts => Ok (1 + fold_left Z.add counts 0)%Z).
Lemma count_ev_eq : count_ops_tree_ev = Ok count_ev. Proof. reflexivity. Qed.

Lemma fold_add l acc : fold_left Z.add (map Z.of_nat l) (Z.of_nat acc) = Z.of_nat (acc + list_sum l).
Proof.
  revert acc. induction l as [|n l IH]; intros acc; simpl; [f_equal; lia|].
  rewrite <- Nat2Z.inj_add, IH. f_equal. lia.
Qed.

Lemma count_ops_tree_spec e : proper e -> count_ops_tree e = Ok (Z.of_nat (tree_size e)).
Proof.
  intros Hp. unfold count_ops_tree. rewrite count_ev_eq. cbn [bind].
  unfold sym_evaluate, evaluate. apply eval_forward_meaning.
  induction e as [a|cs IH] using tree_ind_all; [reflexivity|].
  destruct cs as [|h args]; [exfalso; apply Hp; constructor; intros []|].
  cbn [meaning tree_size].
  assert (Hm : mapM (meaning (eval_leaf (fun _ => false) count_ev []) (eval_operation count_ev)) args
               = Ok (map Z.of_nat (map tree_size args))).
  { assert (IH' : forall c, In c args -> meaning (eval_leaf (fun _ => false) count_ev []) (eval_operation count_ev) c
                        = Ok (Z.of_nat (tree_size c))).
    { intros c Hc. apply IH; [right; exact Hc|]. intros H. apply Hp. eapply reach_child; [intros []|exact Hc|exact H]. }
    clear -IH'. induction args as [|a args IHa]; [reflexivity|]. cbn [mapM map].
    rewrite (IH' a) by (left; reflexivity). cbn [bind]. rewrite IHa; [reflexivity|]. intros; apply IH'; right; assumption. }
  rewrite Hm. cbn [bind]. change (Ok (1 + fold_left Z.add (map Z.of_nat (map tree_size args)) (Z.of_nat 0))%Z
     = Ok (Z.of_nat (S (list_sum (map tree_size args))))).
  rewrite fold_add. f_equal. lia.
Qed.

Lemma count_ops_graph_spec e : count_ops_graph e = Ok (Z.of_nat (length (keep_first (postorder false [] e)))).
Proof. unfold count_ops_graph. rewrite topological_sort_spec. reflexivity. Qed.

(** ** The documented family *)
Lemma reach_size t s : reach false [] t s -> tree_size s <= tree_size t.
Proof.
  induction 1 as [t _|t c s _ Hc _ IH]; [lia|]. etransitivity; [exact IH|].
  destruct t as [a|[|h args]]; simpl in Hc; try tauto. cbn [tree_size].
  clear IH. induction args as [|a args IHa]; [destruct Hc|]. simpl. destruct Hc as [->|Hc]; [lia|].
  specialize (IHa Hc). lia.
Qed.

Lemma make_size n : Z.of_nat (tree_size (make_expression n)) = (2 ^ (Z.of_nat n + 2) - 3)%Z.
Proof.
  induction n as [|n IH]; [reflexivity|].
  change (tree_size (make_expression (S n)))
    with (S (S (tree_size (make_expression n) + (1 + 0)) + (tree_size (make_expression n) + 0))).
  replace (Z.of_nat (S n) + 2)%Z with (Z.succ (Z.of_nat n + 2)) by lia.
  rewrite Z.pow_succ_r by lia. lia.
Qed.

Lemma reach_make n s : reach false [] (make_expression (S n)) s <->
  s = make_expression (S n) \/ s = m_pow (make_expression n) (Integer 2) \/ s = Integer 2 \/
  reach false [] (make_expression n) s.
Proof.
  split.
  - intros H. inversion H as [|? c ? _ Hc Hr]; subst; [auto|]. destruct Hc as [<-|[<-|[]]]; [|auto].
    inversion Hr as [|? c ? _ Hc' Hr']; subst; [auto|]. destruct Hc' as [<-|[<-|[]]]; [auto|].
    inversion Hr' as [|? c ? _ Hc'']; subst; [auto|]. destruct Hc''.
  - intros [->|[->|[->|H]]].
    + constructor. intros [].
    + eapply reach_child; [intros []|left; reflexivity|]. constructor. intros [].
    + eapply reach_child; [intros []|left; reflexivity|]. eapply reach_child; [intros []|right; left; reflexivity|].
      constructor. intros [].
    + eapply reach_child; [intros []|right; left; reflexivity|]. exact H.
Qed.

Lemma make_nodes n : exists l, NoDup l /\ length l = 2 * S n + 2 /\
  forall s, In s l <-> reach false [] (make_expression (S n)) s.
Proof.
  induction n as [|n (l & Hnd & Hlen & Hl)].
  - exists [Symbol "x"; Integer 2; m_pow (Symbol "x") (Integer 2); make_expression 1].
    split; [repeat constructor; simpl; intuition discriminate|]. split; [reflexivity|].
    intros s. rewrite reach_make. cbn [make_expression In].
    assert (H : reach false [] (Symbol "x") s <-> s = Symbol "x").
    { split; [intros H; inversion H as [|? c ? _ Hc]; subst; [reflexivity|destruct Hc]|intros ->; constructor; intros []]. }
    rewrite H. intuition congruence.
  - set (e := make_expression (S n)) in *.
    assert (Hbig : forall s, tree_size e < tree_size s -> ~ In s l).
    { intros s Hs Hin. apply Hl in Hin. apply reach_size in Hin. lia. }
    exists (l ++ [m_pow e (Integer 2); make_expression (S (S n))]).
    assert (S1 : tree_size e < tree_size (m_pow e (Integer 2))).
    { change (tree_size e < S (tree_size e + (1 + 0))). lia. }
    assert (S2 : tree_size (m_pow e (Integer 2)) < tree_size (make_expression (S (S n)))).
    { change (tree_size (m_pow e (Integer 2)) < S (tree_size (m_pow e (Integer 2)) + (tree_size e + 0))). lia. }
    split; [|split].
    + apply (Permutation.Permutation_NoDup (l := [m_pow e (Integer 2); make_expression (S (S n))] ++ l));
        [apply Permutation.Permutation_app_comm|].
      constructor; [|constructor; [apply Hbig; lia|exact Hnd]].
      intros [E|Hin]; [rewrite E in S2; lia|]. apply (Hbig _ S1 Hin).
    + rewrite app_length. simpl. lia.
    + intros s. rewrite in_app_iff. rewrite (reach_make (S n)). fold e. rewrite <- Hl. simpl.
      assert (H2 : In (Integer 2) l).
      { apply Hl. apply reach_make. auto. }
      split.
      * intros [H|[<-|[<-|[]]]]; auto.
      * intros [->|[->|[->|H]]]; auto.
Qed.

Lemma make_graph n : count_ops_graph (make_expression (S n)) = Ok (2 * Z.of_nat (S n) + 2)%Z.
Proof.
  rewrite count_ops_graph_spec. destruct (make_nodes n) as (l & Hnd & Hlen & Hl).
  f_equal. replace (length (keep_first (postorder false [] (make_expression (S n))))) with (length l); [lia|].
  apply Nat.le_antisymm; apply NoDup_incl_length; try exact Hnd; try apply keep_first_NoDup; intros s Hs.
  - apply keep_first_In, post_reach, Hl, Hs.
  - apply keep_first_In, post_reach in Hs. apply Hl, Hs.
Qed.

Lemma make_proper n : proper (make_expression n).
Proof.
  unfold proper. induction n as [|n IH].
  - intros H. inversion H as [|? c ? _ Hc]; subst. destruct Hc.
  - rewrite reach_make. intros [E|[E|[E|H]]]; try discriminate. exact (IH H).
Qed.
