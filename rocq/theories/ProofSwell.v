(** * Differentiation does not swell the graph: proofs for C59 *)
From Verif Require Import Py ModelTree SpecTree ProofBase ProofTopo ProofTree ModelDiff SpecDiff ProofDiff ModelSym ModelCas SpecCas
  ProofCasDiff SpecCost.

Section Swell.
  Variable s : string.
  Notation D := (deriv cas_diff (Symbol s)).

  (** The subexpressions that differentiating one node can create. *)
  Definition dd (t : tree) : tree := match D t with Ok d => d | Err _ => zero end.
  Definition made (t : tree) : list tree :=
    match t with
    | Node (h :: args) =>
        let ds := map dd args in
        if tree_eqb h Add then [dd t]
        else if tree_eqb h Mul
        then dd t :: map (fun id => Node (Mul :: set_nth args (fst id) (snd id))) (dependent zero ds)
        else match args with
             | [a] => if tree_eqb h sin then [Node [cos; a]; dd t]
                      else [Node [sin; a]; Node [Mul; negone; Node [sin; a]]; dd t]
             | [a; b] => [Node [Add; b; negone]; Node [Pow; a; Node [Add; b; negone]];
                          Node [Mul; b; Node [Pow; a; Node [Add; b; negone]]]; dd t]
             | _ => []
             end
    | _ => []
    end.

  Definition covered (u x : tree) : Prop :=
    In x [zero; one; negone] \/ reach false [] u x \/ exists v, reach false [] u v /\ In x (made v).

  Lemma covered_up u c x : reach false [] u c -> covered c x -> covered u x.
  Proof.
    intros Hu [H|[H|(v & Hv & Hx)]].
    - left. exact H.
    - right. left. eapply reach_trans; eauto.
    - right. right. exists v. split; [eapply reach_trans; eauto|exact Hx].
  Qed.

  Lemma reach_refl t : reach false [] t t.
  Proof. constructor. intros []. Qed.
  Lemma reach_arg h args a : In a args -> reach false [] (Node (h :: args)) a.
  Proof. intros H. eapply reach_child; [intros []|exact H|apply reach_refl]. Qed.
  Lemma covered_made u x : In x (made u) -> covered u x.
  Proof. intros H. right. right. exists u. split; [apply reach_refl|exact H]. Qed.
  Lemma covered_here u x : reach false [] u x -> covered u x.
  Proof. intros H. right. left. exact H. Qed.
  Lemma reach_leaf_inv t x : children t = [] -> reach false [] t x -> x = t.
  Proof.
    intros Ht H. inversion H as [|? c ? _ Hc]; subst; [reflexivity|]. unfold kids in Hc. rewrite Ht in Hc. destruct Hc.
  Qed.

  Lemma set_nth_in l i d x : In x (set_nth l i d) -> x = d \/ In x l.
  Proof.
    revert i. induction l as [|a l IH]; intros [|i]; cbn [set_nth In]; intros H; try tauto.
    - destruct H as [<-|H]; auto.
    - destruct H as [<-|H]; [auto|]. apply IH in H as [->|H]; auto.
  Qed.

  Lemma dependent_in ds id : In id (dependent zero ds) -> In (snd id) ds.
  Proof.
    destruct id as [i d]. unfold dependent. intros H. apply filter_In in H as [H _]. apply in_combine_r in H. exact H.
  Qed.

  (** Everything reachable from a tree whose own node is covered and whose children's parts are covered. *)
  Lemma covered_node u h l x : covered u (Node (h :: l)) -> (forall c y, In c l -> reach false [] c y -> covered u y) ->
    reach false [] (Node (h :: l)) x -> covered u x.
  Proof.
    intros H1 H2 H. inversion H as [|? c ? _ Hc Hr]; subst; [exact H1|]. eapply H2; eauto.
  Qed.

  Lemma total_covered u terms x : covered u (total cas_diff terms) ->
    (forall t y, In t terms -> reach false [] t y -> covered u y) ->
    reach false [] (total cas_diff terms) x -> covered u x.
  Proof.
    destruct terms as [|t [|t2 r]]; cbn [total]; intros H1 H2 H.
    - apply reach_leaf_inv in H as ->; [exact H1|reflexivity].
    - eapply H2; [left; reflexivity|exact H].
    - eapply covered_node; eauto.
  Qed.

  Lemma times_covered u r d x : covered u (times r d) -> (forall y, reach false [] r y -> covered u y) ->
    (forall y, reach false [] d y -> covered u y) -> reach false [] (times r d) x -> covered u x.
  Proof.
    unfold times. intros H1 H2 H3 H. destruct (tree_eqb d zero).
    - apply reach_leaf_inv in H as ->; [exact H1|reflexivity].
    - destruct (tree_eqb d one); [apply H2, H|]. eapply covered_node; [exact H1| |exact H].
      intros c y [<-|[<-|[]]] Hy; auto.
  Qed.

  Lemma deriv_covered e : arith e -> forall d x, D e = Ok d -> reach false [] d x -> covered e x.
  Proof.
    intros He. induction He as [n|s'|args Har IH|args Har IH|a Ha IH|a Ha IH|a b Ha Hb IHa IHb]
      using arith_ind_all; intros d x Hd Hx.
    - rewrite atom_D in Hd. injection Hd as <-. apply reach_leaf_inv in Hx as ->; [left; left; reflexivity|reflexivity].
    - rewrite sym_D in Hd. injection Hd as <-. destruct (String.eqb s' s); apply reach_leaf_inv in Hx as ->; try reflexivity;
        left; simpl; auto.
    - assert (Em : dd (Node (Add :: args)) = d) by (unfold dd; rewrite Hd; reflexivity).
      rewrite D_add in Hd. destruct (mapM D args) as [ds|] eqn:E; [|discriminate]. cbn [bind] in Hd. injection Hd as <-.
      revert Hx. apply total_covered.
      + apply covered_made. cbn [made]. rewrite tree_eqb_refl. left. exact Em.
      + intros t y Ht Hy. apply in_map_iff in Ht as (id & <- & Hid). apply dependent_in in Hid.
        apply mapM_Ok_Forall2 in E. rewrite Forall_forall in IH.
        assert (H : exists a, In a args /\ D a = Ok (snd id)).
        { clear -E Hid. induction E as [|a d args ds Ha E IHE]; [destruct Hid|]. destruct Hid as [<-|Hid].
          - exists a. split; [left; reflexivity|exact Ha].
          - destruct (IHE Hid) as (a' & Ha' & Hd). exists a'. split; [right; exact Ha'|exact Hd]. }
        destruct H as (a & Ha & Hda). eapply covered_up; [apply reach_arg, Ha|]. eapply IH; eauto.
    - assert (Em : dd (Node (Mul :: args)) = d) by (unfold dd; rewrite Hd; reflexivity).
      rewrite D_mul in Hd. destruct (mapM D args) as [ds|] eqn:E; [|discriminate]. cbn [bind] in Hd. injection Hd as <-.
      apply mapM_Ok_Forall2 in E.
      assert (Eds : map dd args = ds).
      { clear -E. induction E as [|a d args ds Ha E IHE]; [reflexivity|]. cbn [map]. rewrite IHE. unfold dd at 1. rewrite Ha. reflexivity. }
      assert (Emade : made (Node (Mul :: args)) = dd (Node (Mul :: args)) ::
        map (fun id => Node (Mul :: set_nth args (fst id) (snd id))) (dependent zero ds)) by (rewrite <- Eds; reflexivity).
      revert Hx. apply total_covered.
      + apply covered_made. rewrite Emade. left. exact Em.
      + intros t y Ht Hy. revert Hy. pose proof Ht as Ht'. apply in_map_iff in Ht' as (id & <- & Hid). apply covered_node.
        * apply covered_made. rewrite Emade. right. exact Ht.
        * intros c z Hc Hz. apply set_nth_in in Hc as [->|Hc].
          -- apply dependent_in in Hid. rewrite Forall_forall in IH.
             assert (H : exists a, In a args /\ D a = Ok (snd id)).
             { clear -E Hid. induction E as [|a d args ds Ha E IHE]; [destruct Hid|]. destruct Hid as [<-|Hid].
               - exists a. split; [left; reflexivity|exact Ha].
               - destruct (IHE Hid) as (a' & Ha' & Hd). exists a'. split; [right; exact Ha'|exact Hd]. }
             destruct H as (a & Ha & Hda). eapply covered_up; [apply reach_arg, Ha|]. eapply IH; eauto.
          -- apply covered_here. eapply reach_trans; [apply reach_arg, Hc|exact Hz].
    - assert (Em : dd (Node [sin; a]) = d) by (unfold dd; rewrite Hd; reflexivity).
      assert (Emade : made (Node [sin; a]) = [Node [cos; a]; dd (Node [sin; a])]) by reflexivity.
      rewrite D_sin in Hd. destruct (D a) as [da|] eqn:E; [|discriminate]. cbn [bind] in Hd. injection Hd as <-.
      revert Hx. apply times_covered.
      + apply covered_made. rewrite Emade. right. left. exact Em.
      + intros y. apply covered_node; [apply covered_made; rewrite Emade; left; reflexivity|].
        intros c z [<-|[]] Hz. apply covered_here. eapply reach_trans; [apply reach_arg; left; reflexivity|exact Hz].
      + intros y Hy. eapply covered_up; [apply reach_arg; left; reflexivity|]. eapply IH; eauto.
    - assert (Em : dd (Node [cos; a]) = d) by (unfold dd; rewrite Hd; reflexivity).
      assert (Emade : made (Node [cos; a]) = [Node [sin; a]; Node [Mul; negone; Node [sin; a]]; dd (Node [cos; a])]) by reflexivity.
      rewrite D_cos in Hd. destruct (D a) as [da|] eqn:E; [|discriminate]. cbn [bind] in Hd. injection Hd as <-.
      revert Hx. apply times_covered.
      + apply covered_made. rewrite Emade. right. right. left. exact Em.
      + intros y. apply covered_node; [apply covered_made; rewrite Emade; right; left; reflexivity|].
        intros c z [<-|[<-|[]]] Hz.
        * apply reach_leaf_inv in Hz as ->; [left; simpl; auto|reflexivity].
        * revert Hz. apply covered_node; [apply covered_made; rewrite Emade; left; reflexivity|].
          intros c z' [<-|[]] Hz. apply covered_here. eapply reach_trans; [apply reach_arg; left; reflexivity|exact Hz].
      + intros y Hy. eapply covered_up; [apply reach_arg; left; reflexivity|]. eapply IH; eauto.
    - assert (Em : dd (Node [Pow; a; b]) = d) by (unfold dd; rewrite Hd; reflexivity).
      assert (Emade : made (Node [Pow; a; b]) = [Node [Add; b; negone]; Node [Pow; a; Node [Add; b; negone]];
                          Node [Mul; b; Node [Pow; a; Node [Add; b; negone]]]; dd (Node [Pow; a; b])]) by reflexivity.
      rewrite D_pow in Hd. destruct (D a) as [da|] eqn:E; [|discriminate]. cbn [bind] in Hd.
      destruct (D b) as [db|] eqn:E2; [|discriminate]. cbn [bind] in Hd. destruct (tree_eqb db zero); [|discriminate]. injection Hd as <-.
      assert (Hra : forall z, reach false [] a z -> covered (Node [Pow; a; b]) z).
      { intros z Hz. apply covered_here. eapply reach_trans; [apply reach_arg; left; reflexivity|exact Hz]. }
      assert (Hrb : forall z, reach false [] b z -> covered (Node [Pow; a; b]) z).
      { intros z Hz. apply covered_here. eapply reach_trans; [apply reach_arg; right; left; reflexivity|exact Hz]. }
      revert Hx. apply times_covered.
      + apply covered_made. rewrite Emade. right. right. right. left. exact Em.
      + intros y. apply covered_node; [apply covered_made; rewrite Emade; right; right; left; reflexivity|].
        intros c z [<-|[<-|[]]] Hz; [auto|]. revert Hz.
        apply covered_node; [apply covered_made; rewrite Emade; right; left; reflexivity|].
        intros c z' [<-|[<-|[]]] Hz; [auto|]. revert Hz.
        apply covered_node; [apply covered_made; rewrite Emade; left; reflexivity|].
        intros c z'' [<-|[<-|[]]] Hz; [auto|]. apply reach_leaf_inv in Hz as ->; [left; simpl; auto|reflexivity].
      + intros y Hy. eapply covered_up; [apply reach_arg; left; reflexivity|]. eapply IHa; eauto.
  Qed.

  Lemma dependent_length ds : length (dependent zero ds) <= length ds.
  Proof.
    assert (H : forall (q : nat * tree -> bool) l, length (filter q l) <= length l).
    { intros q l. induction l as [|a l IH]; simpl; [lia|]. destruct (q a); simpl; lia. }
    unfold dependent. etransitivity; [apply H|]. rewrite combine_length, seq_length. lia.
  Qed.

  Lemma made_length t : length (made t) <= length (kids false t) + 2.
  Proof.
    destruct t as [a|[|h args]]; cbn [made kids children tl length]; try lia.
    destruct (tree_eqb h Add); [simpl; lia|]. destruct (tree_eqb h Mul).
    - cbn [length]. rewrite map_length. pose proof (dependent_length (map dd args)) as H. rewrite map_length in H. lia.
    - destruct args as [|a [|b [|c r]]]; [simpl; lia|destruct (tree_eqb h sin); simpl; lia|simpl; lia|simpl; lia].
  Qed.

  Lemma swell e d le ld : arith e -> expr_diff e (Symbol s) 1 = Ok d ->
    topological_sort e false [] = Ok le -> topological_sort d false [] = Ok ld ->
    length ld <= 3 * length le + links le + 3.
  Proof.
    intros He Hd Hle Hld. rewrite expr_diff_one, diff_forward_deriv in Hd.
    destruct (topological_sort_full e false) as (l1 & E1 & _ & H1 & _). rewrite Hle in E1. injection E1 as E1. rewrite <- E1 in H1.
    destruct (topological_sort_full d false) as (l2 & E2 & Hn & H2 & _). rewrite Hld in E2. injection E2 as E2. rewrite <- E2 in H2, Hn.
    assert (Hincl : incl ld ([zero; one; negone] ++ le ++ flat_map made le)).
    { intros x Hx. apply H2 in Hx. destruct (deriv_covered e He d x Hd Hx) as [H|[H|(v & Hv & Hm)]].
      - apply in_or_app. left. exact H.
      - apply in_or_app. right. apply in_or_app. left. apply H1, H.
      - apply in_or_app. right. apply in_or_app. right. apply in_flat_map. exists v. split; [apply H1, Hv|exact Hm]. }
    apply NoDup_incl_length in Hincl; [|exact Hn]. rewrite !app_length in Hincl. cbn [length] in Hincl.
    assert (Hf : length (flat_map made le) <= 2 * length le + links le).
    { clear. unfold links. induction le as [|t l IH]; [simpl; lia|]. cbn [flat_map map list_sum fold_right length].
      change (fold_right Nat.add 0) with list_sum. rewrite app_length. pose proof (made_length t). lia. }
    lia.
  Qed.
End Swell.
