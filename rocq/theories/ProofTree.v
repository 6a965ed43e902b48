(** * The tree properties in the form stated in PropsTree.v *)
From Coq Require Import Permutation.
From Verif Require Import Py ModelTree SpecTree ProofBase ProofTopo ProofGraph ProofSubs Samples.

Lemma topological_sort_full expr heads :
  exists l, topological_sort expr heads [] = Ok (l ++ [expr]) /\
    is_topological_order heads [] expr (l ++ [expr]).
Proof.
  destruct (topological_sort_last expr heads []) as (l & Hl); [intros []|].
  destruct (topological_sort_order expr heads []) as (l' & Hl' & Ho).
  rewrite Hl in Hl'. injection Hl' as <-. eauto.
Qed.

Lemma topological_sort_exclude expr heads exclude :
  exists l, topological_sort expr heads exclude = Ok l /\
    is_topological_order heads exclude expr l /\
    (In expr exclude -> l = []) /\ (~ In expr exclude -> exists l', l = l' ++ [expr]).
Proof.
  destruct (topological_sort_order expr heads exclude) as (l & Hl & Ho).
  exists l. split; [exact Hl|]. split; [exact Ho|]. split.
  - intros H. rewrite topological_sort_spec, post_excl in Hl by exact H.
    injection Hl as <-. reflexivity.
  - intros H. destruct (topological_sort_last expr heads exclude H) as (l' & Hl').
    rewrite Hl in Hl'. injection Hl' as ->. eauto.
Qed.

Lemma topological_split_partition expr exclude :
  exists sort atoms heads nodes,
    topological_sort expr false exclude = Ok sort /\
    topological_split expr exclude = Ok (atoms, heads, nodes) /\
    atoms = filter (fun s => match children s with [] => true | _ => false end) sort /\
    nodes = filter (fun s => match children s with [] => false | _ => true end) sort /\
    length sort = length atoms + length nodes /\
    NoDup heads /\
    (forall h, In h heads <-> exists s args, In s nodes /\ s = Node (h :: args)).
Proof.
  destruct (topological_split_spec expr exclude) as (hs & Hs & Hnd & Hin).
  exists (tsort expr exclude), (filter childless (tsort expr exclude)), hs,
    (filter compound (tsort expr exclude)).
  split; [apply topological_sort_spec|]. split; [exact Hs|]. split; [reflexivity|].
  split.
  { apply filter_ext. intros s. unfold compound, childless. destruct (children s); reflexivity. }
  split.
  { generalize (tsort expr exclude) as l. induction l as [|t l IH]; [reflexivity|].
    cbn [filter length]. unfold compound at 1. destruct (childless t); cbn [negb length]; lia. }
  split; [exact Hnd|].
  intros h. rewrite Hin. split.
  - intros (s & H & Hh). destruct s as [a|[|h' args]]; simpl in Hh; try discriminate.
    injection Hh as ->. eauto.
  - intros (s & args & H & ->). exists (Node (h :: args)). auto.
Qed.

Lemma forward_graph_rebuilds expr :
  exists g stack,
    forward_graph expr = Ok g /\ rebuild_stack g = Ok stack /\ last_item stack = Ok expr /\
    (forall k head indices i, nth_error (g_operations g) k = Some (head, indices) ->
       In i indices -> i < length (g_atoms g) + k) /\
    (exists nodes, NoDup nodes /\ length nodes = length (g_operations g) /\
       forall s, In s nodes <-> reach false [] expr s /\ children s <> []) /\
    (exists atoms, g_atoms g = atoms /\ NoDup atoms /\
       forall s, In s atoms <-> reach false [] expr s /\ children s = []).
Proof.
  destruct (forward_graph_spec expr) as (hs & Hg & _).
  eexists _, (forder expr). split; [exact Hg|]. split; [apply rebuild_spec, Hg|].
  cbn [g_operations g_atoms]. split.
  { destruct (forder_last expr) as (l & ->). apply last_item_app. }
  split.
  { intros k head indices i Hk Hi. rewrite nth_error_map in Hk.
    destruct (nth_error (filter compound (tsort expr [])) k) as [s|] eqn:Es; [|discriminate].
    simpl in Hk. injection Hk as <- <-.
    apply in_map_iff in Hi as (c & <- & Hc).
    apply nth_error_split in Es as (p & q & Epq & <-).
    pose proof (forder_args_before expr p s q c Epq Hc) as Hb.
    unfold forder. rewrite Epq, app_assoc, index_of_app_l by exact Hb.
    apply index_of_lt in Hb. rewrite app_length in Hb. exact Hb. }
  split.
  - exists (filter compound (tsort expr [])).
    split; [apply NoDup_filter, keep_first_NoDup|]. split; [symmetry; apply map_length|].
    intros s. rewrite filter_In. unfold tsort. rewrite keep_first_In, post_reach.
    unfold compound, childless. destruct (children s); simpl; intuition congruence.
  - eexists. split; [reflexivity|].
    split; [apply NoDup_filter, keep_first_NoDup|].
    intros s. rewrite filter_In. unfold tsort. rewrite keep_first_In, post_reach.
    unfold compound, childless. destruct (children s); simpl; intuition congruence.
Qed.

Lemma filter_partition_perm {A} (p : A -> bool) l :
  Permutation (filter p l ++ filter (fun x => negb (p x)) l) l.
Proof.
  induction l as [|a l IH]; simpl; [constructor|].
  destruct (p a); simpl; [constructor; exact IH|].
  transitivity (a :: filter p l ++ filter (fun x => negb (p x)) l); [|constructor; exact IH].
  symmetry. apply Permutation_middle.
Qed.

Lemma forder_order expr : is_topological_order false [] expr (forder expr).
Proof.
  split; [apply forder_NoDup|]. split; [intros s; apply forder_In|].
  intros s c Hs Hc _. unfold forder in *.
  assert (Hcomp : In s (filter compound (tsort expr []))).
  { apply in_app_iff in Hs as [Hs|Hs]; [|exact Hs]. apply filter_In in Hs as [_ Hs].
    unfold childless in Hs. unfold kids in Hc. destruct (children s); [destruct Hc|discriminate]. }
  apply in_split in Hcomp as (p & q & E).
  pose proof (forder_args_before expr p s q c E Hc) as Hb. rewrite E.
  apply in_split in Hb as (l1 & l2 & Hb). exists l1, l2, q.
  rewrite app_assoc, Hb, <- app_assoc. reflexivity.
Qed.

Lemma rebuilt_stack_order expr :
  exists g stack sort,
    forward_graph expr = Ok g /\ rebuild_stack g = Ok stack /\
    topological_sort expr false [] = Ok sort /\
    Permutation stack sort /\ is_topological_order false [] expr stack.
Proof.
  destruct (forward_graph_spec expr) as (hs & Hg & _).
  eexists _, (forder expr), (tsort expr []). split; [exact Hg|].
  split; [apply rebuild_spec, Hg|]. split; [apply topological_sort_spec|].
  split; [apply filter_partition_perm|apply forder_order].
Qed.

Lemma rebuilt_stack_same_iff expr g stack sort :
  forward_graph expr = Ok g -> rebuild_stack g = Ok stack ->
  topological_sort expr false [] = Ok sort ->
  (stack = sort <->
   ~ exists l1 n l2 a l3, sort = l1 ++ n :: l2 ++ a :: l3 /\ children n <> [] /\ children a = []).
Proof.
  intros Hg Hs Ht. apply rebuild_spec in Hg. rewrite Hg in Hs. injection Hs as <-.
  rewrite topological_sort_spec in Ht. injection Ht as <-.
  change (keep_first (postorder false [] expr)) with (tsort expr []).
  unfold forder. generalize (tsort expr []) as l. clear.
  intros l. split.
  - intros E (l1 & n & l2 & a & l3 & El & Hn & Ha).
    assert (Hc : forall l1 n l2 a l3 (A N : list tree), A ++ N = l1 ++ n :: l2 ++ a :: l3 ->
      (forall s, In s A -> children s = []) -> (forall s, In s N -> children s <> []) ->
      children n <> [] -> children a = [] -> False).
    { clear. intros l1 n l2 a l3 A N E HA HN Hn Ha.
      apply app_split_cases in E as [(l2' & E)|(l1' & E1 & E2)].
      - apply Hn, HA. rewrite E. apply in_or_app; right; left; reflexivity.
      - apply (HN a); [|exact Ha]. rewrite E2. apply in_or_app; right; right.
        apply in_or_app; right; left; reflexivity. }
    rewrite <- E in El. eapply Hc; [exact El| | |exact Hn|exact Ha].
    + intros s H. apply filter_In in H as [_ H]. unfold childless in H.
      destruct (children s); [reflexivity|discriminate].
    + intros s H. apply filter_In in H as [_ H]. unfold compound, childless in H.
      destruct (children s); [discriminate|congruence].
  - induction l as [|t l IH]; intros H; [reflexivity|]. cbn [filter].
    unfold compound at 1. destruct (childless t) eqn:Et; cbn [negb].
    + cbn [app]. f_equal. apply IH. intros (l1 & n & l2 & a & l3 & El & Hn & Ha).
      apply H. exists (t :: l1), n, l2, a, l3. rewrite El. auto.
    + assert (Hno : forall s, In s l -> childless s = false).
      { intros s Hs. destruct (childless s) eqn:Es; [|reflexivity]. exfalso.
        apply in_split in Hs as (m1 & m2 & ->). apply H.
        exists [], t, m1, s, m2. split; [reflexivity|].
        unfold childless in *. destruct (children t), (children s); try discriminate.
        split; [congruence|reflexivity]. }
      assert (E1 : filter childless l = []).
      { clear -Hno. induction l as [|s l IH]; [reflexivity|]. cbn [filter].
        rewrite (Hno s) by (left; reflexivity). apply IH. intros; apply Hno; right; auto. }
      assert (E2 : filter compound l = l).
      { clear -Hno. induction l as [|s l IH]; [reflexivity|]. cbn [filter]. unfold compound at 1.
        rewrite (Hno s) by (left; reflexivity). cbn [negb]. f_equal. apply IH.
        intros; apply Hno; right; auto. }
      rewrite E1, E2. reflexivity.
Qed.

Lemma forward_graph_docstring_refuted :
  exists g stack sort, forward_graph e_fgxy = Ok g /\ rebuild_stack g = Ok stack /\
    topological_sort e_fgxy false [] = Ok sort /\ stack <> sort.
Proof.
  eexists _, _, _. split; [reflexivity|]. split; [reflexivity|]. split; [reflexivity|].
  discriminate.
Qed.

Lemma subs_is_subst expr args vals :
  ~ In expr args -> length vals = length args ->
  (do sf <- subs_new expr args; subs_call sf vals) = Ok (subst args vals expr).
Proof.
  intros H Hl. destruct (subs_new_total expr args) as (sf & Hsf & _). rewrite Hsf.
  cbn [bind]. eapply subs_correct; eauto.
Qed.

Lemma subs_of_root expr args vals :
  In expr args -> length vals = length args ->
  (do sf <- subs_new expr args; subs_call sf vals) = last_item vals.
Proof.
  intros H Hl. destruct (subs_new_total expr args) as (sf & Hsf & _). rewrite Hsf.
  cbn [bind]. eapply subs_root_last; eauto.
Qed.

Lemma subs_correct_iff expr args vals :
  length vals = length args ->
  ((do sf <- subs_new expr args; subs_call sf vals) = Ok (subst args vals expr) <->
   (In expr args -> last_item vals = Ok (subst args vals expr))).
Proof.
  intros Hl. destruct (In_dec tree_eq_dec expr args) as [H|H].
  - rewrite subs_of_root by assumption. tauto.
  - rewrite subs_is_subst by assumption. tauto.
Qed.

Lemma last_item_nonempty {A} (l : list A) : l <> [] -> exists v, last_item l = Ok v.
Proof.
  intros H. destruct (exists_last H) as (l' & v & ->). exists v. apply last_item_app.
Qed.

Lemma subs_arity expr args :
  exists sf, subs_new expr args = Ok sf /\
    (forall vals, length vals <> length args -> subs_call sf vals = Err TypeError) /\
    (forall vals, length vals = length args -> exists t, subs_call sf vals = Ok t).
Proof.
  destruct (subs_new_total expr args) as (sf & Hsf & _). exists sf. split; [exact Hsf|]. split.
  - intros vals Hl. eapply subs_wrong_arity; eauto.
  - intros vals Hl. destruct (In_dec tree_eq_dec expr args) as [H|H].
    + rewrite (subs_root_last expr args vals sf) by assumption.
      apply last_item_nonempty. intros ->. destruct args; [destruct H|discriminate].
    + rewrite (subs_correct expr args vals sf) by assumption. eauto.
Qed.

Lemma subs_minimal_work expr args sf :
  subs_new expr args = Ok sf ->
  exists rebuilt, NoDup rebuilt /\ length (sf_operations sf) = length rebuilt /\
    (forall s, In s rebuilt <-> reach true args expr s /\ exists a, In a args /\ occurs a s).
Proof.
  intros Hsf. destruct (In_dec tree_eq_dec expr args) as [H|H].
  - rewrite subs_new_root in Hsf by exact H. injection Hsf as <-.
    exists []. split; [constructor|]. split; [reflexivity|].
    intros s. split; [intros []|]. intros [Hr _]. apply reach_not_excl in Hr. tauto.
  - destruct (subs_new_spec expr args H) as (sf' & E & _ & Hl & _).
    rewrite E in Hsf. injection Hsf as <-.
    eexists. split; [|split; [exact Hl|]].
    + apply NoDup_filter, keep_first_NoDup.
    + intros s. rewrite filter_In, keep_first_In, post_reach, depb_occurs. reflexivity.
Qed.
