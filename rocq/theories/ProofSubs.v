(** * SubsFunc is simultaneous substitution. *)
From Verif Require Import Py ModelTree SpecTree ProofBase ProofTopo ProofGraph.

Section Subs.
  Variable e : tree.
  Variable args : list tree.

  (** [t] contains one of [args]. *)
  Fixpoint depb (t : tree) : bool :=
    mem t args || match t with Atm _ => false | Node cs => existsb depb cs end.

  Lemma depb_occurs t : depb t = true <-> exists a, In a args /\ occurs a t.
  Proof.
    induction t as [b|cs IH] using tree_ind_all; simpl; rewrite orb_true_iff, mem_true.
    - split.
      + intros [H|H]; [|discriminate]. exists (Atm b). split; [exact H|constructor].
      + intros (a & Ha & Ho). inversion Ho; subst. left; exact Ha.
    - rewrite existsb_exists. split.
      + intros [H|(c & Hc & Hd)].
        * exists (Node cs). split; [exact H|constructor].
        * apply IH in Hd as (a & Ha & Ho); [|exact Hc]. exists a. split; [exact Ha|].
          econstructor; eauto.
      + intros (a & Ha & Ho). inversion Ho as [|cs' c Hc Ho']; subst.
        * left; exact Ha.
        * right. exists c. split; [exact Hc|]. apply IH; [exact Hc|]. eauto.
  Qed.

  Lemma depb_children t : ~ In t args -> depb t = existsb depb (children t).
  Proof.
    intros H. apply mem_false in H. destruct t as [b|cs]; simpl; rewrite H; reflexivity.
  Qed.

  Let L := keep_first (postorder true args e).

  Lemma L_not_args t : In t L -> ~ In t args.
  Proof.
    unfold L. rewrite keep_first_In, post_reach. intros H. apply reach_not_excl in H. tauto.
  Qed.

  Lemma L_children_first : children_first true args L.
  Proof. apply keep_first_children_first, post_children_first. Qed.

  Lemma subs_fold : forall q p has nc,
    L = p ++ q ->
    (forall t, In t has <-> In t args \/ (In t p /\ depb t = true)) ->
    (forall t, In t nc <-> exists n, In n (filter depb p) /\ In t (children n)) ->
    exists has' nc',
      fold_left subs_step q (filter (fun t => negb (depb t)) p, filter depb p, has, nc) =
      (filter (fun t => negb (depb t)) L, filter depb L, has', nc') /\
      (forall t, In t nc' <-> exists n, In n (filter depb L) /\ In t (children n)).
  Proof.
    induction q as [|s q IH]; intros p has nc E Hh Hn.
    - rewrite app_nil_r in E. subst p. exists has, nc. split; [reflexivity|exact Hn].
    - assert (Hs : In s L) by (rewrite E; apply in_or_app; right; left; reflexivity).
      assert (Hdep : depb s = existsb depb (children s)) by (apply depb_children, L_not_args, Hs).
      assert (Hint : intersects (children s) has = depb s).
      { apply Bool.eq_iff_eq_true. rewrite Hdep, intersects_spec, existsb_exists.
        split; intros (c & Hc & H); exists c; (split; [exact Hc|]).
        - apply Hh in H. destruct H as [H|[_ H]]; [|exact H].
          apply mem_true in H. destruct c; simpl; rewrite H; reflexivity.
        - apply Hh. destruct (mem_spec c args) as [Ha|Ha]; [left; exact Ha|right].
          split; [|exact H]. eapply L_children_first; [exact E| |exact Ha]. exact Hc. }
      assert (E' : L = (p ++ [s]) ++ q) by (rewrite <- app_assoc; exact E).
      cbn [fold_left].
      assert (Hstep : subs_step (filter (fun t => negb (depb t)) p, filter depb p, has, nc) s =
               (filter (fun t => negb (depb t)) (p ++ [s]), filter depb (p ++ [s]),
                if depb s then s :: has else has, if depb s then children s ++ nc else nc)).
      { rewrite !filter_app. cbn [filter]. unfold subs_step.
        destruct (children s) as [|c cs] eqn:Ec.
        - assert (depb s = false) as -> by (rewrite Hdep; reflexivity).
          cbn [negb]. rewrite app_nil_r. reflexivity.
        - rewrite Hint. destruct (depb s); cbn [negb]; rewrite app_nil_r; reflexivity. }
      rewrite Hstep. apply IH; [exact E'| |].
      + intros t. rewrite in_app_iff. destruct (depb s) eqn:Ed.
        * simpl. rewrite Hh. split.
          -- intros [<-|[H|[H1 H2]]]; auto.
          -- intros [H|[[H|[H|[]]] H2]]; auto.
        * rewrite Hh. split.
          -- intros [H|[H1 H2]]; auto.
          -- intros [H|[[H|[H|[]]] H2]]; auto. subst; congruence.
      + intros t. rewrite filter_app. cbn [filter]. destruct (depb s) eqn:Ed.
        * rewrite in_app_iff, Hn. split.
          -- intros [H|(n & Hin & H)].
             ++ exists s. split; [apply in_or_app; right; left; reflexivity|exact H].
             ++ exists n. split; [apply in_or_app; left; exact Hin|exact H].
          -- intros (n & Hin & H). apply in_app_iff in Hin as [Hin|[<-|[]]]; eauto.
        * rewrite Hn, app_nil_r. reflexivity.
  Qed.

  (** ** substitution *)
  Lemma replacement_None vals t : length vals = length args ->
    (replacement args vals t = None <-> ~ In t args).
  Proof.
    revert vals. induction args as [|a as_ IH]; intros [|v vals]; simpl; try discriminate.
    - tauto.
    - intros [= Hl]. specialize (IH vals Hl).
      destruct (replacement as_ vals t) as [w|] eqn:E.
      + split; [discriminate|]. intros H. exfalso. apply H. right.
        destruct (In_dec tree_eq_dec t as_) as [Hi|Hi]; [exact Hi|]. apply IH in Hi. discriminate.
      + destruct (tree_eqb_spec t a) as [->|Hne].
        * split; [discriminate|]. intros H; exfalso; auto.
        * split; [|reflexivity]. intros _ [->|H]; [congruence|]. revert H. apply IH. reflexivity.
  Qed.

  Lemma replacement_None_any vals t : ~ In t args -> replacement args vals t = None.
  Proof.
    revert vals. induction args as [|a as_ IH]; intros [|v vals]; simpl; try reflexivity.
    intros H. rewrite IH by tauto. destruct (tree_eqb_spec t a) as [->|]; [exfalso; auto|reflexivity].
  Qed.

  Lemma subst_nodep vals t : depb t = false -> subst args vals t = t.
  Proof.
    induction t as [b|cs IH] using tree_ind_all; intros H; simpl in H;
      apply orb_false_iff in H as [Hm Hc]; apply mem_false in Hm; simpl;
      rewrite replacement_None_any by exact Hm; [reflexivity|].
    f_equal. rewrite <- (map_id cs) at 2. apply map_ext_in. intros c Hin. apply IH; [exact Hin|].
    destruct (depb c) eqn:E; [|reflexivity]. exfalso.
    assert (existsb depb cs = true) by (apply existsb_exists; eauto). congruence.
  Qed.

  Lemma subst_unfold vals t : ~ In t args -> children t <> [] ->
    subst args vals t = Node (map (subst args vals) (children t)).
  Proof.
    intros H Hc. destruct t as [b|cs]; simpl in *; [congruence|].
    rewrite replacement_None_any by exact H. reflexivity.
  Qed.

  Fixpoint last_index (l : list tree) (t : tree) : option nat :=
    match l with
    | [] => None
    | a :: r => match last_index r t with
                | Some i => Some (S i)
                | None => if tree_eqb t a then Some 0 else None
                end
    end.

  Lemma args_dict (l : list tree) : forall n d t,
    dict_get tree_eqb (dict_update tree_eqb d (combine l (seq n (length l)))) t =
    match last_index l t with Some i => Some (n + i) | None => dict_get tree_eqb d t end.
  Proof.
    induction l as [|a l IH]; intros n d t; simpl; [reflexivity|].
    change (dict_update tree_eqb d ((a, n) :: combine l (seq (S n) (length l))))
      with (dict_update tree_eqb (dict_set tree_eqb d a n) (combine l (seq (S n) (length l)))).
    rewrite IH, (dict_get_set _ tree_eqb_spec).
    destruct (last_index l t) as [i|].
    - f_equal; lia.
    - destruct (tree_eqb t a); [|reflexivity]. f_equal; lia.
  Qed.

  Lemma last_index_replacement (l : list tree) : forall vals t,
    length vals = length l ->
    match last_index l t with
    | Some i => nth_error vals i = replacement l vals t /\ i < length l
    | None => replacement l vals t = None /\ ~ In t l
    end.
  Proof.
    induction l as [|a l IH]; intros [|v vals] t; simpl; try discriminate.
    - intros _. split; [reflexivity|tauto].
    - intros [= Hl]. specialize (IH vals t Hl).
      destruct (last_index l t) as [i|].
      + destruct IH as [E Hi]. simpl. rewrite E.
        destruct (replacement l vals t) as [w|] eqn:Ew; [split; [reflexivity|lia]|].
        exfalso. apply nth_error_None in E. lia.
      + destruct IH as [-> Hn]. destruct (tree_eqb_spec t a) as [->|Hne]; simpl.
        * split; [reflexivity|lia].
        * split; [reflexivity|]. intros [->|H]; auto.
  Qed.

  Definition exec_op (stack : list tree) (indices : list nat) : res (list tree) :=
    do cs <- mapM (getitem stack) indices; Ok (stack ++ [Node cs]).

  (** The index dictionary [d] finds in [stack] the substituted value of every known tree. *)
  Definition dict_ok vals (known : tree -> Prop) (d : dict tree nat) (stack : list tree) : Prop :=
    (forall t i, dict_get tree_eqb d t = Some i -> nth_error stack i = Some (subst args vals t)) /\
    (forall t, known t -> dict_get tree_eqb d t <> None).

  Lemma subs_index_fold vals (ats : list tree) :
    (forall t n, In n (filter depb L) -> In t (children n) ->
       In t args \/ In t ats \/ In t (filter depb L)) ->
    forall q p ops d stack,
    filter depb L = p ++ q ->
    dict_ok vals (fun t => In t args \/ In t ats \/ In t p) d stack ->
    exists nops d',
      foldM subs_index_step (enumerate_from (length stack) q) (ops, d) = Ok (ops ++ nops, d') /\
      length nops = length q /\
      foldM exec_op nops stack = Ok (stack ++ map (subst args vals) q).
  Proof.
    intros Hkids. induction q as [|s q IH]; intros p ops d stack E [Hsound Hknown];
      cbn [enumerate_from foldM map].
    - exists [], d. rewrite !app_nil_r. auto.
    - assert (HsN : In s (filter depb L)) by (rewrite E; apply in_or_app; right; left; reflexivity).
      assert (HsL : In s L) by (apply filter_In in HsN; tauto).
      unfold subs_index_step at 1.
      assert (Hnd : NoDup (filter depb L)) by apply NoDup_filter, keep_first_NoDup.
      (* the children of s are all known *)
      assert (Hch : forall c, In c (children s) -> In c args \/ In c ats \/ In c p).
      { intros c Hc. destruct (Hkids c s HsN Hc) as [H|[H|H]]; auto.
        right; right.
        assert (Hca : ~ In c args) by (apply L_not_args; apply filter_In in H; tauto).
        (* c precedes s in L, so also in the filtered list *)
        assert (Hnd' := Hnd).
        apply filter_split in E as (k1 & k2 & EL & -> & -> & Hds).
        pose proof (L_children_first _ _ _ EL c Hc Hca) as Hk1.
        apply filter_In. split; [exact Hk1|]. apply filter_In in H; tauto. }
      set (d1 := dict_set tree_eqb d s (length stack)).
      assert (Hex : exists ci, mapM (dict_getitem tree_eqb d1) (children s) = Ok ci /\
                 mapM (getitem stack) ci = Ok (map (subst args vals) (children s))).
      { revert Hch. assert (Hsz : forall c, In c (children s) -> c <> s).
        { intros c Hc ->. apply tsize_child in Hc. lia. }
        revert Hsz. generalize (children s) as cs. induction cs as [|c cs IHcs]; intros Hsz Hch.
        - exists []. auto.
        - destruct IHcs as (ci & H1 & H2).
          { intros x Hx; apply Hsz; right; exact Hx. }
          { intros x Hx; apply Hch; right; exact Hx. }
          assert (Hc : exists i, dict_get tree_eqb d c = Some i).
          { specialize (Hknown c (Hch c (or_introl eq_refl))).
            destruct (dict_get tree_eqb d c); [eauto|congruence]. }
          destruct Hc as (i & Hi). exists (i :: ci). simpl.
          unfold dict_getitem at 1. unfold d1 at 1. rewrite (dict_get_set_other _ tree_eqb_spec).
          2:{ apply Hsz. left; reflexivity. }
          rewrite Hi. simpl. rewrite H1. simpl. split; [reflexivity|].
          rewrite (getitem_nth _ _ _ (Hsound c i Hi)). simpl. rewrite H2. reflexivity. }
      destruct Hex as (ci & Hci & Hst).
      fold d1. rewrite Hci. cbn [bind].
      assert (Hsub : subst args vals s = Node (map (subst args vals) (children s))).
      { apply subst_unfold; [apply L_not_args, HsL|].
        apply filter_In in HsN as [_ Hd]. rewrite depb_children in Hd by (apply L_not_args, HsL).
        intros Hnil. rewrite Hnil in Hd. discriminate. }
      replace (S (length stack)) with (length (stack ++ [subst args vals s])).
      2:{ rewrite app_length; simpl; lia. }
      destruct (IH (p ++ [s]) (ops ++ [ci]) d1 (stack ++ [subst args vals s])) as (nops & d' & H1 & H2 & H3).
      { rewrite <- app_assoc. exact E. }
      { split.
        - intros t i. unfold d1. rewrite (dict_get_set _ tree_eqb_spec).
          destruct (tree_eqb_spec t s) as [->|Hne].
          + intros [= <-]. apply nth_error_app_len.
          + intros H. apply nth_error_app_l, Hsound, H.
        - intros t Ht. unfold d1. rewrite (dict_get_set _ tree_eqb_spec).
          destruct (tree_eqb_spec t s) as [->|Hne]; [discriminate|].
          apply Hknown. rewrite in_app_iff in Ht. simpl in Ht. intuition congruence. }
      exists (ci :: nops), d'. split; [|split].
      + rewrite H1. rewrite <- app_assoc. reflexivity.
      + simpl. lia.
      + cbn [foldM]. unfold exec_op at 1. rewrite Hst. cbn [bind]. rewrite <- Hsub, H3.
        rewrite <- app_assoc. reflexivity.
  Qed.

  Lemma depb_reach t : reach true args e t -> depb t = true -> depb e = true.
  Proof.
    induction 1 as [|t c s Hni Hc Hr IH]; [auto|].
    intros H. specialize (IH H). destruct t as [b|cs]; simpl in *; [destruct Hc|].
    apply orb_true_iff. right. apply existsb_exists. eauto.
  Qed.

  (** ** the constructor *)
  Lemma subs_new_spec : ~ In e args ->
    exists sf, subs_new e args = Ok sf /\ sf_nargs sf = length args /\
      length (sf_operations sf) = length (filter depb L) /\
      forall vals, length vals = length args ->
        exists front, foldM exec_op (sf_operations sf) (vals ++ sf_atoms sf)
                      = Ok (front ++ [subst args vals e]).
  Proof.
    intros He. unfold subs_new. rewrite topological_sort_spec. cbn [bind]. fold L.
    destruct (subs_fold L [] args []) as (has' & nc' & Hf & Hnc).
    { reflexivity. }
    { intros t. simpl. tauto. }
    { intros t. simpl. split; [tauto|]. intros (n & [] & _). }
    cbn [filter] in Hf. rewrite Hf. clear Hf.
    assert (HL : exists l, L = l ++ [e]).
    { unfold L. rewrite post_unfold by exact He.
      rewrite keep_first_app_new by apply post_kids_not_self. eauto. }
    destruct HL as (l & HL).
    destruct (depb e) eqn:Ede.
    - (* the expression contains some of args *)
      assert (HN : filter depb L = filter depb l ++ [e]).
      { rewrite HL, filter_app. cbn [filter]. rewrite Ede. reflexivity. }
      set (ats := filter (fun a => mem a nc') (filter (fun t => negb (depb t)) L)).
      assert (Hats : match filter (fun t => negb (depb t)) L, filter depb L with
                     | _ :: _, [] => [e]
                     | _, _ => ats end = ats).
      { rewrite HN. destruct (filter (fun t => negb (depb t)) L), (filter depb l); reflexivity. }
      change (filter (fun a => mem a nc') (filter (fun t => negb (depb t)) L)) with ats.
      rewrite Hats. clear Hats.
      set (d0 := dict_update tree_eqb (dict_update tree_eqb [] (combine args (seq 0 (length args))))
                   (combine ats (seq (length args) (length ats)))).
      assert (Hnda : NoDup ats) by (apply NoDup_filter, NoDup_filter, keep_first_NoDup).
      assert (Hkids : forall t n, In n (filter depb L) -> In t (children n) ->
                        In t args \/ In t ats \/ In t (filter depb L)).
      { intros t n Hn Ht. destruct (mem_spec t args) as [Ha|Ha]; [left; exact Ha|right].
        assert (HnL : In n L) by (apply filter_In in Hn; tauto).
        assert (HtL : In t L).
        { unfold L in *. rewrite keep_first_In, post_reach in *.
          eapply reach_trans; [exact HnL|]. eapply reach_child; [|exact Ht|constructor; exact Ha].
          apply reach_not_excl in HnL. tauto. }
        rewrite filter_In. destruct (depb t) eqn:Ed; [right; auto|left].
        unfold ats. rewrite !filter_In. rewrite Ed. split; [auto|].
        apply mem_true, Hnc. eauto. }
      assert (Hd0 : forall vals, length vals = length args ->
                 dict_ok vals (fun t => In t args \/ In t ats \/ In t []) d0 (vals ++ ats)).
      { intros vals Hv. split.
        - intros t i Hg. unfold d0 in Hg. apply combine_seq_dict in Hg; [|exact Hnda].
          destruct Hg as [[Hin ->]|[Hni Hg]].
          + rewrite <- Hv. rewrite nth_error_app2 by lia.
            replace (length vals + index_of ats t - length vals) with (index_of ats t) by lia.
            rewrite index_of_nth by exact Hin. f_equal. symmetry. apply subst_nodep.
            unfold ats in Hin. rewrite !filter_In in Hin. destruct Hin as [[_ H] _].
            destruct (depb t); [discriminate|reflexivity].
          + rewrite args_dict in Hg. pose proof (last_index_replacement args vals t Hv) as Hr.
            destruct (last_index args t) as [j|]; [|discriminate]. injection Hg as <-.
            simpl. destruct Hr as [Hr Hj].
            apply nth_error_app_l. destruct (replacement args vals t) as [w|] eqn:Ew.
            * rewrite Hr. f_equal. destruct t; simpl; rewrite Ew; reflexivity.
            * exfalso. apply nth_error_None in Hr. lia.
        - intros t Ht Hg. unfold d0 in Hg.
          destruct (In_dec tree_eq_dec t ats) as [Hi|Hi].
          + assert (Hg' := proj2 (combine_seq_dict ats (length args)
               (dict_update tree_eqb [] (combine args (seq 0 (length args)))) t
               (length args + index_of ats t) Hnda) (or_introl (conj Hi eq_refl))).
            congruence.
          + assert (Hta : In t args) by (simpl in Ht; tauto).
            pose proof (args_dict args 0 [] t) as Ha.
            pose proof (last_index_replacement args args t eq_refl) as Hr.
            destruct (last_index args t) as [j|]; [|tauto].
            assert (Hg' := proj2 (combine_seq_dict ats (length args)
               (dict_update tree_eqb [] (combine args (seq 0 (length args)))) t
               (0 + j) Hnda) (or_intror (conj Hi Ha))).
            congruence. }
      (* the operations do not depend on the replacements *)
      destruct (subs_index_fold args ats Hkids (filter depb L) [] [] d0 (args ++ ats) eq_refl)
        as (nops & d' & H1 & H2 & _).
      { apply Hd0. reflexivity. }
      rewrite app_length in H1. rewrite H1. cbn [bind].
      eexists. split; [reflexivity|]. cbn [sf_nargs sf_operations sf_atoms].
      split; [reflexivity|]. split; [exact H2|].
      intros vals Hv.
      destruct (subs_index_fold vals ats Hkids (filter depb L) [] [] d0 (vals ++ ats) eq_refl)
        as (nops' & d'' & H1' & _ & H3').
      { apply Hd0, Hv. }
      rewrite app_length, Hv, H1 in H1'. injection H1' as <- _.
      cbn [app]. rewrite H3', HN, map_app. cbn [map]. rewrite app_assoc. eauto.
    - (* the expression does not contain any of args *)
      assert (Hnone : filter depb L = []).
      { destruct (filter depb L) as [|t r] eqn:E; [reflexivity|]. exfalso.
        assert (Ht : In t (filter depb L)) by (rewrite E; left; reflexivity).
        apply filter_In in Ht as [HtL Hd]. unfold L in HtL.
        rewrite keep_first_In, post_reach in HtL. apply depb_reach in HtL; congruence. }
      rewrite Hnone.
      assert (Hat : filter (fun t => negb (depb t)) L <> []).
      { rewrite HL, filter_app. cbn [filter]. rewrite Ede. cbn [negb].
        destruct (filter (fun t => negb (depb t)) l); discriminate. }
      destruct (filter (fun t => negb (depb t)) L) as [|t r]; [congruence|].
      cbn [enumerate_from foldM bind].
      eexists. split; [reflexivity|]. cbn [sf_nargs sf_operations sf_atoms].
      split; [reflexivity|]. split; [reflexivity|].
      intros vals Hv. exists vals. cbn [foldM]. rewrite subst_nodep by exact Ede. reflexivity.
  Qed.

  Lemma subs_new_root : In e args ->
    subs_new e args = Ok (mkSubs (length args) [] []).
  Proof.
    intros H. unfold subs_new. rewrite topological_sort_spec, post_excl by exact H.
    reflexivity.
  Qed.
End Subs.

Lemma subs_new_total e args : exists sf, subs_new e args = Ok sf /\ sf_nargs sf = length args.
Proof.
  destruct (In_dec tree_eq_dec e args) as [H|H].
  - rewrite subs_new_root by exact H. eauto.
  - destruct (subs_new_spec e args H) as (sf & E & Hn & _). eauto.
Qed.

Lemma subs_correct e args vals sf :
  ~ In e args -> length vals = length args -> subs_new e args = Ok sf ->
  subs_call sf vals = Ok (subst args vals e).
Proof.
  intros He Hl Hsf. destruct (subs_new_spec e args He) as (sf' & E & Hn & _ & Hrun).
  rewrite E in Hsf. injection Hsf as <-.
  unfold subs_call. rewrite Hn, Hl, Nat.eqb_refl. cbn [negb].
  destruct (Hrun vals Hl) as (front & Hf).
  unfold exec_op in Hf. rewrite Hf. cbn [bind]. apply last_item_app.
Qed.

Lemma subs_root_last e args vals sf :
  In e args -> length vals = length args -> subs_new e args = Ok sf ->
  subs_call sf vals = last_item vals.
Proof.
  intros He Hl Hsf. rewrite subs_new_root in Hsf by exact He. injection Hsf as <-.
  unfold subs_call. cbn [sf_nargs sf_operations sf_atoms].
  rewrite Hl, Nat.eqb_refl. cbn [negb foldM bind]. rewrite app_nil_r. reflexivity.
Qed.

Lemma subs_wrong_arity e args vals sf :
  length vals <> length args -> subs_new e args = Ok sf -> subs_call sf vals = Err TypeError.
Proof.
  intros Hl Hsf. destruct (subs_new_total e args) as (sf' & E & Hn).
  rewrite E in Hsf. injection Hsf as <-. unfold subs_call. rewrite Hn.
  apply Nat.eqb_neq in Hl. rewrite Hl. reflexivity.
Qed.
