(** * topological_split, forward_graph, and evaluation over the forward graph. *)
From Verif Require Import Py ModelTree SpecTree ProofBase ProofTopo.

Definition childless (t : tree) : bool := match children t with [] => true | _ => false end.
Definition compound (t : tree) : bool := negb (childless t).

(** The subexpressions through arguments, in topological_sort's order. *)
Definition tsort (e : tree) (excl : list tree) : list tree :=
  keep_first (postorder false excl e).

(** ** topological_split *)
Lemma split_fold l : forall a h n,
  exists h',
    fold_left split_step l (a, h, n) = (a ++ filter childless l, h', n ++ filter compound l) /\
    (NoDup h -> NoDup h') /\
    (forall x, In x h' <-> In x h \/ exists s, In s (filter compound l) /\ hd_error (children s) = Some x).
Proof.
  induction l as [|t l IH]; intros a h n; cbn [fold_left filter].
  - exists h. rewrite !app_nil_r. split; [reflexivity|]. split; [auto|].
    intros x. split; [tauto|]. intros [H|(s & [] & _)]; exact H.
  - unfold split_step at 2. unfold compound, childless.
    destruct (children t) as [|c cs] eqn:E; cbn [negb].
    + destruct (IH (a ++ [t]) h n) as (h' & E1 & E2 & E3). exists h'.
      rewrite E1, <- app_assoc. auto.
    + destruct (IH a (set_add h c) (n ++ [t])) as (h' & E1 & E2 & E3). exists h'.
      rewrite E1, <- app_assoc. split; [reflexivity|]. split.
      * intros Hnd. apply E2. unfold set_add. destruct (mem_spec c h) as [Hc|Hc]; [exact Hnd|].
        clear - Hnd Hc. induction h as [|y h IHh]; simpl.
        -- constructor; [intros []|constructor].
        -- inversion Hnd; subst. simpl in Hc. constructor.
           ++ rewrite in_app_iff. simpl. intros [H|[H|[]]]; subst; tauto.
           ++ apply IHh; tauto.
      * intros x. rewrite E3. unfold set_add.
        split.
        -- intros [H|(s & Hs & Hx)].
           ++ destruct (mem_spec c h) as [Hc|Hc]; [left; exact H|].
              apply in_app_iff in H as [H|[<-|[]]]; [left; exact H|].
              right. exists t. split; [left; reflexivity|]. rewrite E. reflexivity.
           ++ right. exists s. split; [right; exact Hs|exact Hx].
        -- intros [H|(s & [<-|Hs] & Hx)].
           ++ left. destruct (mem_spec c h); [exact H|]. apply in_or_app. left; exact H.
           ++ rewrite E in Hx. injection Hx as <-. left.
              destruct (mem_spec c h) as [Hc|Hc]; [exact Hc|]. apply in_or_app. right; left; reflexivity.
           ++ right. exists s. auto.
Qed.

Lemma topological_split_spec e excl :
  exists hs,
    topological_split e excl =
      Ok (filter childless (tsort e excl), hs, filter compound (tsort e excl)) /\
    NoDup hs /\
    (forall h, In h hs <-> exists s, In s (filter compound (tsort e excl)) /\ hd_error (children s) = Some h).
Proof.
  unfold topological_split. rewrite topological_sort_spec. cbn [bind].
  fold (tsort e excl).
  destruct (split_fold (tsort e excl) [] [] []) as (h' & E1 & E2 & E3).
  exists h'. rewrite E1. split; [reflexivity|]. split; [apply E2; constructor|].
  intros h. rewrite E3. simpl. tauto.
Qed.

(** ** forward_graph *)
Definition forder (e : tree) : list tree :=
  filter childless (tsort e []) ++ filter compound (tsort e []).

Fixpoint index_of (l : list tree) (t : tree) : nat :=
  match l with
  | [] => 0
  | x :: r => if tree_eqb t x then 0 else S (index_of r t)
  end.

Lemma index_of_nth l t : In t l -> nth_error l (index_of l t) = Some t.
Proof.
  induction l as [|x l IH]; simpl; [intros []|].
  destruct (tree_eqb_spec t x) as [->|Hne]; simpl; [reflexivity|].
  intros [->|H]; [congruence|auto].
Qed.

Lemma index_of_app_l l l' t : In t l -> index_of (l ++ l') t = index_of l t.
Proof.
  induction l as [|x l IH]; simpl; [intros []|].
  destruct (tree_eqb_spec t x) as [->|Hne]; [reflexivity|].
  intros [->|H]; [congruence|]. rewrite IH; auto.
Qed.

Lemma index_of_lt l t : In t l -> index_of l t < length l.
Proof. intros H. apply nth_error_Some. rewrite index_of_nth by exact H. discriminate. Qed.

Lemma index_of_unique l i t : NoDup l -> nth_error l i = Some t -> index_of l t = i.
Proof.
  intros Hnd Hi. assert (Hin : In t l) by (eapply nth_error_In; eauto).
  apply (proj1 (NoDup_nth_error l) Hnd).
  - apply index_of_lt, Hin.
  - rewrite index_of_nth by exact Hin. symmetry; exact Hi.
Qed.

Definition head_of (s : tree) : tree := hd s (children s).
Definition args_of (s : tree) : list tree := tl (children s).
Definition op_of (order : list tree) (s : tree) : tree * list nat :=
  (head_of s, map (index_of order) (args_of s)).

Lemma filter_NoDup_app (p : tree -> bool) l :
  NoDup l -> NoDup (filter p l ++ filter (fun x => negb (p x)) l).
Proof.
  intros Hnd.
  induction l as [|x l IH]; simpl; [constructor|].
  inversion Hnd as [|? ? Hni Hnd']; subst. specialize (IH Hnd').
  assert (Hni' : ~ In x (filter p l ++ filter (fun x => negb (p x)) l)).
  { rewrite in_app_iff, !filter_In. tauto. }
  destruct (p x); simpl.
  - constructor; auto.
  - apply NoDup_Add with (a := x) (l := filter p l ++ filter (fun x => negb (p x)) l).
    + apply Add_app.
    + auto.
Qed.

Lemma forder_NoDup e : NoDup (forder e).
Proof. apply filter_NoDup_app, keep_first_NoDup. Qed.

Lemma forder_In e s : In s (forder e) <-> reach false [] e s.
Proof.
  unfold forder. rewrite in_app_iff, !filter_In. unfold compound, tsort.
  rewrite keep_first_In, post_reach. destruct (childless s); simpl; intuition congruence.
Qed.

Lemma forder_last e : exists l, forder e = l ++ [e].
Proof.
  unfold forder, tsort. rewrite post_unfold by (intros []).
  rewrite keep_first_app_new by apply post_kids_not_self.
  rewrite !filter_app. cbn [filter]. unfold compound at 2. destruct (childless e) eqn:E; cbn [negb].
  - assert (Hk : kids false e = []).
    { unfold kids, childless in *. destruct (children e); [reflexivity|discriminate]. }
    rewrite Hk. simpl. exists []. reflexivity.
  - rewrite app_nil_r. rewrite app_assoc. eauto.
Qed.

(** Every argument of a node of the graph precedes it in [forder]. *)
Lemma forder_args_before e p s q c :
  filter compound (tsort e []) = p ++ s :: q -> In c (args_of s) ->
  In c (filter childless (tsort e []) ++ p).
Proof.
  intros E Hc.
  apply filter_split in E as (k1 & k2 & Ek & -> & -> & Hs).
  assert (Hcf : children_first false [] (tsort e [])).
  { apply keep_first_children_first, post_children_first. }
  specialize (Hcf _ _ _ Ek c Hc (fun H => H)).
  rewrite Ek. rewrite in_app_iff, filter_app, in_app_iff, !filter_In.
  unfold compound. destruct (childless c); simpl; intuition congruence.
Qed.

Lemma combine_seq_dict (l : list tree) : forall n d t i,
  NoDup l ->
  (dict_get tree_eqb (dict_update tree_eqb d (combine l (seq n (length l)))) t = Some i <->
   (In t l /\ i = n + index_of l t) \/ (~ In t l /\ dict_get tree_eqb d t = Some i)).
Proof.
  induction l as [|x l IH]; intros n d t i Hnd; simpl.
  - unfold dict_update; simpl. intuition.
  - inversion Hnd as [|? ? Hni Hnd']; subst.
    change (dict_update tree_eqb d ((x, n) :: combine l (seq (S n) (length l))))
      with (dict_update tree_eqb (dict_set tree_eqb d x n) (combine l (seq (S n) (length l)))).
    rewrite IH by exact Hnd'. rewrite (dict_get_set _ tree_eqb_spec).
    destruct (tree_eqb_spec t x) as [->|Hne].
    + split.
      * intros [[H _]|[_ [= <-]]]; [contradiction|]. left. split; [left; reflexivity|lia].
      * intros [[_ ->]|[H _]]; [right; split; [exact Hni|f_equal; lia]|]. exfalso; auto.
    + split.
      * intros [[H ->]|[H1 H2]]; [left; split; [right; exact H|lia]|right].
        split; [intros [->|H]; auto|exact H2].
      * intros [[[->|H] ->]|[H1 H2]]; [congruence| left; split; [exact H|lia] | right].
        split; [tauto|exact H2].
Qed.

Lemma fg_fold e : forall q p ops d,
  filter compound (tsort e []) = p ++ q ->
  (forall t i, dict_get tree_eqb d t = Some i <->
     In t (filter childless (tsort e []) ++ p) /\ i = index_of (forder e) t) ->
  exists d',
  foldM fg_step (enumerate_from (length (filter childless (tsort e []) ++ p)) q) (ops, d)
  = Ok (ops ++ map (op_of (forder e)) q, d').
Proof.
  set (A := filter childless (tsort e [])).
  induction q as [|s q IH]; intros p ops d E Hd; cbn [enumerate_from foldM map].
  - exists d. rewrite app_nil_r. reflexivity.
  - assert (Hs : compound s = true).
    { assert (Hin : In s (filter compound (tsort e []))).
      { rewrite E. apply in_or_app. right. left. reflexivity. }
      apply filter_In in Hin. tauto. }
    unfold compound, childless in Hs.
    destruct (children s) as [|h args] eqn:Ech; [discriminate|].
    unfold fg_step at 1. rewrite Ech. cbn [getitem nth_error of_option bind tl].
    rewrite (mapM_ok_map _ (index_of (forder e))).
    2:{ intros c Hc. unfold dict_getitem.
        rewrite (proj2 (Hd c (index_of (forder e) c))); [reflexivity|].
        split; [|reflexivity].
        eapply forder_args_before; [exact E|]. unfold args_of. rewrite Ech. exact Hc. }
    cbn [bind].
    assert (Hfo : forder e = (A ++ p) ++ s :: q).
    { unfold forder. rewrite E. fold A. rewrite app_assoc. reflexivity. }
    assert (Hnd := forder_NoDup e). rewrite Hfo in Hnd.
    assert (Hidx : index_of (forder e) s = length (A ++ p)).
    { apply index_of_unique; [apply forder_NoDup|]. rewrite Hfo. apply nth_error_app_len. }
    replace (S (length (A ++ p))) with (length (A ++ (p ++ [s]))).
    2:{ rewrite !app_length. simpl. lia. }
    destruct (IH (p ++ [s]) (ops ++ [(h, map (index_of (forder e)) args)])
                (dict_set tree_eqb d s (length (A ++ p)))) as (d' & Hd').
    { rewrite <- app_assoc. exact E. }
    { intros t i. rewrite (dict_get_set _ tree_eqb_spec).
      assert (Hsni : ~ In s (A ++ p)).
      { apply NoDup_remove_2 in Hnd. intros H. apply Hnd. apply in_or_app. left; exact H. }
      rewrite (app_assoc A p [s]), in_app_iff.
      destruct (tree_eqb_spec t s) as [->|Hne].
      - split.
        + intros [= <-]. split; [right; left; reflexivity|]. symmetry; exact Hidx.
        + intros [_ ->]. f_equal. symmetry; exact Hidx.
      - rewrite Hd. simpl. split; [intros [H ->]; auto|].
        intros [[H|[H|[]]] ->]; [auto|congruence]. }
    exists d'. rewrite Hd'. f_equal. f_equal. rewrite <- app_assoc. simpl.
    unfold op_of at 2. unfold head_of, args_of. rewrite Ech. reflexivity.
Qed.

Lemma forward_graph_spec e :
  exists hs,
    forward_graph e = Ok (mkGraph (filter childless (tsort e [])) hs
                            (map (op_of (forder e)) (filter compound (tsort e [])))) /\
    NoDup hs /\
    (forall h, In h hs <-> exists s, In s (filter compound (tsort e [])) /\ hd_error (children s) = Some h).
Proof.
  destruct (topological_split_spec e []) as (hs & E & Hnd & Hh).
  exists hs. split; [|split; assumption].
  unfold forward_graph. rewrite E. cbn [bind].
  set (A := filter childless (tsort e [])).
  destruct (fg_fold e (filter compound (tsort e [])) [] []
              (dict_update tree_eqb [] (combine A (seq 0 (length A))))) as (d' & Hd').
  - reflexivity.
  - intros t i. rewrite combine_seq_dict.
    2:{ apply NoDup_filter, keep_first_NoDup. }
    rewrite app_nil_r. simpl. fold A. unfold forder; fold A.
    split.
    + intros [[H ->]|[_ H]]; [|discriminate]. split; [exact H|].
      symmetry. apply index_of_app_l, H.
    + intros [H ->]. left. split; [exact H|]. apply index_of_app_l, H.
  - rewrite app_nil_r in Hd'. fold A in Hd'. rewrite Hd'. reflexivity.
Qed.

(** ** Evaluation over the graph *)
Section GraphEval.
  Context {V : Type}.
  Variable f : tree -> list V -> res V.
  Variable sem : tree -> res V.
  Variable e : tree.
  Let A := filter childless (tsort e []).
  Let N := filter compound (tsort e []).
  Hypothesis sem_node : forall s, In s N ->
    sem s = do vs <- mapM sem (args_of s); f (head_of s) vs.

  Lemma lookup_args order vs cs :
    mapM sem order = Ok vs -> (forall c, In c cs -> In c order) ->
    mapM (getitem vs) (map (index_of order) cs) = mapM sem cs.
  Proof.
    intros Hv Hin. rewrite mapM_map. apply mapM_ext. intros c Hc.
    apply mapM_Ok_Forall2 in Hv. specialize (Hin c Hc). clear Hc.
    revert Hin. induction Hv as [|x v l vs Hx Hv IH]; simpl; [intros []|].
    intros Hin. destruct (tree_eqb_spec c x) as [->|Hne]; simpl.
    - symmetry; exact Hx.
    - destruct Hin as [->|Hin]; [congruence|]. apply IH, Hin.
  Qed.

  Lemma run_ops_gen : forall q p vs,
    N = p ++ q -> mapM sem (A ++ p) = Ok vs ->
    foldM (run_op f) (map (op_of (forder e)) q) vs = do ws <- mapM sem q; Ok (vs ++ ws).
  Proof.
    induction q as [|s q IH]; intros p vs E Hv; cbn [map foldM mapM bind].
    - rewrite app_nil_r. reflexivity.
    - assert (Hargs : forall c, In c (args_of s) -> In c (A ++ p)).
      { intros c Hc. eapply forder_args_before; [exact E|exact Hc]. }
      unfold run_op at 1.
      change (op_of (forder e) s) with (head_of s, map (index_of (forder e)) (args_of s)).
      cbn [fst snd].
      assert (Hmap : map (index_of (forder e)) (args_of s) = map (index_of (A ++ p)) (args_of s)).
      { apply map_ext_in. intros c Hc.
        assert (Hfo : forder e = (A ++ p) ++ s :: q).
        { unfold forder. fold A N. rewrite E. rewrite app_assoc. reflexivity. }
        rewrite Hfo. apply index_of_app_l, Hargs, Hc. }
      rewrite Hmap, (lookup_args (A ++ p) vs) by assumption.
      rewrite (sem_node s) by (rewrite E; apply in_or_app; right; left; reflexivity).
      destruct (mapM sem (args_of s)) as [avs|x] eqn:Ea; cbn [bind]; [|reflexivity].
      destruct (f (head_of s) avs) as [v|x] eqn:Ef; cbn [bind]; [|reflexivity].
      rewrite (IH (p ++ [s]) (vs ++ [v])).
      + destruct (mapM sem q) as [ws|x]; cbn [bind]; [|reflexivity].
        rewrite <- app_assoc. reflexivity.
      + rewrite <- app_assoc. exact E.
      + rewrite app_assoc, mapM_app, Hv. cbn [bind mapM].
        rewrite (sem_node s) by (rewrite E; apply in_or_app; right; left; reflexivity).
        rewrite Ea. cbn [bind]. rewrite Ef. reflexivity.
  Qed.

  (** Atoms first, then operations in order. *)
  Lemma run_graph hs :
    (do vs <- mapM sem (g_atoms (mkGraph A hs (map (op_of (forder e)) N)));
     foldM (run_op f) (map (op_of (forder e)) N) vs)
    = mapM sem (forder e).
  Proof.
    cbn [g_atoms]. unfold forder. fold A N. rewrite mapM_app.
    destruct (mapM sem A) as [vs|x] eqn:Ev; cbn [bind]; [|reflexivity].
    apply (run_ops_gen N [] vs); [reflexivity|]. rewrite app_nil_r. exact Ev.
  Qed.

  Lemma sem_sub_ok s v : sem s = Ok v -> (forall u, In u (forder e) -> In s (forder e) ->
     reach false [] s u -> exists w, sem u = Ok w).
  Proof.
    intros Hv u Hu Hs Hr. revert v Hv Hs. induction Hr as [t _|t c u _ Hc Hr IH]; intros v Hv Hs.
    - eauto.
    - assert (HN : In t N).
      { apply forder_In in Hs. unfold N. apply filter_In. split.
        - unfold tsort. apply keep_first_In, post_reach. exact Hs.
        - unfold compound, childless. unfold kids in Hc. destruct (children t); [destruct Hc|reflexivity]. }
      rewrite (sem_node t HN) in Hv.
      destruct (mapM sem (args_of t)) as [avs|x] eqn:Ea; [|discriminate].
      apply mapM_Ok_Forall2 in Ea.
      assert (Hcs : exists w, sem c = Ok w).
      { clear - Ea Hc. unfold kids in Hc. fold (args_of t) in Hc.
        induction Ea as [|y w l ws Hy Ha IH]; [destruct Hc|].
        destruct Hc as [->|Hc]; eauto. }
      destruct Hcs as (w & Hw). apply (IH Hu w Hw).
      apply forder_In. apply forder_In in Hs. eapply reach_trans; [exact Hs|].
      eapply reach_child; [intros []|exact Hc|]. constructor. intros [].
  Qed.

  Lemma forder_mapM_ok v : sem e = Ok v ->
    exists vs, mapM sem (forder e) = Ok vs /\ last_item vs = Ok v.
  Proof.
    intros Hv. destruct (forder_last e) as (l & Hl).
    assert (Hall : forall u, In u (forder e) -> exists w, sem u = Ok w).
    { intros u Hu. eapply sem_sub_ok; eauto.
      - rewrite Hl. apply in_or_app. right; left; reflexivity.
      - apply forder_In, Hu. }
    assert (Hl' : exists ws, mapM sem l = Ok ws).
    { assert (Hall' : forall u, In u l -> exists w, sem u = Ok w).
      { intros u Hu. apply Hall. rewrite Hl. apply in_or_app. left; exact Hu. }
      clear - Hall'. induction l as [|x l IH]; simpl; [eauto|].
      destruct (Hall' x (or_introl eq_refl)) as (w & ->).
      destruct IH as (ws & ->); [intros u Hu; apply Hall'; right; exact Hu|].
      simpl. eauto. }
    destruct Hl' as (ws & Hws). exists (ws ++ [v]). split; [|apply last_item_app].
    rewrite Hl, mapM_app, Hws. cbn [bind mapM]. rewrite Hv. reflexivity.
  Qed.

  Lemma forder_mapM_inv vs : mapM sem (forder e) = Ok vs ->
    exists v, sem e = Ok v /\ last_item vs = Ok v.
  Proof.
    destruct (forder_last e) as (l & ->). rewrite mapM_app.
    destruct (mapM sem l) as [ws|x]; cbn [bind]; [|discriminate].
    cbn [mapM bind]. destruct (sem e) as [v|x]; cbn [bind]; [|discriminate].
    intros [= <-]. exists v. split; [reflexivity|apply last_item_app].
  Qed.

  Lemma graph_eval_iff v :
    (do vs <- mapM sem (forder e); last_item vs) = Ok v <-> sem e = Ok v.
  Proof.
    split.
    - destruct (mapM sem (forder e)) as [vs|x] eqn:E; cbn [bind]; [|discriminate].
      intros H. apply forder_mapM_inv in E as (w & Hw & Hl). congruence.
    - intros H. apply forder_mapM_ok in H as (vs & -> & Hl). exact Hl.
  Qed.
End GraphEval.

(** ** The documented rebuild loop *)
Lemma rebuild_spec e g : forward_graph e = Ok g ->
  rebuild_stack g = Ok (forder e).
Proof.
  destruct (forward_graph_spec e) as (hs & -> & _). intros [= <-].
  unfold rebuild_stack. cbn [g_operations g_atoms].
  assert (H := run_graph (fun h a => Ok (tree_call h a)) (fun t => Ok t) e).
  assert (Hid : forall l : list tree, mapM (fun t => Ok t) l = Ok l).
  { intros l. rewrite (mapM_ok_map _ (fun t => t)) by auto. rewrite map_id. reflexivity. }
  specialize (H (fun s Hs => ltac:(
     apply filter_In in Hs as [_ Hs]; rewrite Hid; cbn [bind]; unfold tree_call, head_of, args_of;
     unfold compound, childless in Hs; destruct s as [a|[|h cs]]; try discriminate; reflexivity)) hs).
  cbn [g_atoms] in H. rewrite !Hid in H. cbn [bind] in H. exact H.
Qed.
