(** * The work done by the traversals: proofs for C58 *)
From Verif Require Import Py ModelTree SpecTree ProofBase ProofTopo ProofTree SpecCost.

Section Cost.
  Variable heads : bool.
  Variable excl : list tree.
  Variable root : tree.
  Variable U : list tree.
  Hypothesis HU : NoDup U.
  Hypothesis Hkids : forall s c, In s U -> In c (kids heads s) -> In c excl \/ In c U.

  Definition w (s : tree) : nat := 1 + length (kids heads s).
  Definition rem (seen : list tree) : nat := list_sum (map w (filter (fun s => negb (mem s seen)) U)).
  Definition pot (stack : list (tree * list tree)) : nat := list_sum (map (fun p => 1 + length (snd p)) stack).

  Lemma rem_add seen c : In c U -> ~ In c seen -> rem seen = w c + rem (c :: seen).
  Proof.
    unfold rem. intros Hc Hs. clear Hkids. revert Hc. induction HU as [|u U' Hu HU' IH]; intros Hc; [destruct Hc|].
    cbn [filter]. assert (Em : forall s, mem s (c :: seen) = tree_eqb s c || mem s seen) by reflexivity.
    rewrite Em. destruct Hc as [->|Hc].
    - rewrite tree_eqb_refl. cbn [orb negb]. apply mem_false in Hs. rewrite Hs. cbn [negb map list_sum fold_right].
      change (fold_right Nat.add 0) with list_sum. do 2 f_equal. f_equal.
      apply filter_ext_in. intros s HsU. rewrite Em.
      destruct (tree_eqb_spec s c) as [->|_]; [contradiction|reflexivity].
    - destruct (tree_eqb_spec u c) as [->|_]; [contradiction|]. cbn [orb]. specialize (IH HU' Hc).
      destruct (mem u seen); cbn [negb]; [exact IH|]. cbn [map list_sum fold_right].
      change (fold_right Nat.add 0) with list_sum. rewrite IH. lia.
  Qed.

  Lemma loop_cost fuel : forall seen stack out l,
    (forall s, In s excl -> In s seen) ->
    (forall top cs c, In (top, cs) stack -> In c cs -> In c excl \/ In c U) ->
    (forall top cs, In (top, cs) stack -> In top seen \/ top = root) -> (forall s, In s out -> In s seen \/ s = root) ->
    topo_loop fuel heads seen stack out = Ok l ->
    exists k seen', k + rem seen' = pot stack + rem seen /\ (forall s, In s l -> In s seen' \/ s = root) /\
      forall fuel', topo_loop (S fuel') heads seen stack out = if k <=? fuel' then Ok l else Err OutOfFuel.
  Proof.
    induction fuel as [|fuel IH]; intros seen stack out l He Hc Ht Ho H; [discriminate|].
    cbn [topo_loop] in H. destruct stack as [|[top cs] stack].
    - injection H as <-. exists 0, seen. split; [reflexivity|]. split; [exact Ho|]. reflexivity.
    - destruct (rev cs) as [|c rc] eqn:Er.
      + assert (cs = []) by (rewrite <- (rev_involutive cs), Er; reflexivity). subst cs. cbn [pop rev] in H.
        apply IH in H as (k & seen' & Hk & Hl & Hf); [|exact He| | |].
        * exists (S k), seen'. split; [unfold pot in *; cbn [map list_sum fold_right snd length]; change (fold_right Nat.add 0) with list_sum; lia|].
          split; [exact Hl|]. intros [|fuel']; [reflexivity|]. remember (S fuel') as f'. cbn [topo_loop pop rev]. subst f'.
          rewrite Hf. reflexivity.
        * intros t' cs' c' H1. apply (Hc t' cs'). right. exact H1.
        * intros t' cs' H1. apply (Ht t' cs'). right. exact H1.
        * intros s Hs. apply in_app_or in Hs as [Hs|[<-|[]]]; [auto|]. apply (Ht _ []). left. reflexivity.
      + assert (Ecs : cs = rev (c :: rev (rev rc))) by (rewrite rev_involutive, <- Er, rev_involutive; reflexivity).
        rewrite Ecs, pop_rev in H. assert (Hcs' : incl (rev (rev (rev rc))) cs).
        { intros x Hx. rewrite Ecs. apply in_rev. rewrite rev_involutive. right. rewrite <- in_rev in Hx. exact Hx. }
        assert (Hcin : In c cs) by (rewrite Ecs, <- in_rev; left; reflexivity).
        assert (Hlen : length cs = S (length (rev (rev (rev rc))))) by (rewrite Ecs; cbn [rev]; rewrite app_length; simpl; lia).
        destruct (mem_spec c seen) as [Hs|Hs].
        * apply IH in H as (k & seen' & Hk & Hl & Hf); [|exact He| | |exact Ho].
          -- exists (S k), seen'. split; [unfold pot in *; cbn [map list_sum fold_right snd] in *; change (fold_right Nat.add 0) with list_sum in *; lia|].
             split; [exact Hl|]. intros [|fuel'].
             ++ cbn [topo_loop]. rewrite Ecs at 1. rewrite pop_rev. destruct (mem c seen); reflexivity.
             ++ remember (S fuel') as f'. cbn [topo_loop]. rewrite Ecs at 1. rewrite pop_rev. apply mem_true in Hs. rewrite Hs.
                subst f'. rewrite Hf. reflexivity.
          -- intros t' cs' c' [E|H1] H2; [injection E as <- <-|apply (Hc t' cs'); [right|]; assumption].
             apply (Hc top cs); [left; reflexivity|]. apply Hcs', H2.
          -- intros t' cs' [E|H1]; [injection E as <- <-; apply (Ht top cs); left; reflexivity|apply (Ht t' cs'); right; exact H1].
        * assert (HcU : In c U) by (destruct (Hc top cs c (or_introl eq_refl) Hcin) as [H1|H1]; [destruct (Hs (He c H1))|exact H1]).
          apply IH in H as (k & seen' & Hk & Hl & Hf).
          -- exists (S k), seen'. split.
             { rewrite (rem_add seen c HcU Hs). unfold w. unfold pot in *. cbn [map list_sum fold_right snd] in *.
               change (fold_right Nat.add 0) with list_sum in *. rewrite get_children_kids, rev_length in Hk. lia. }
             split; [exact Hl|]. intros [|fuel'].
             ++ cbn [topo_loop]. rewrite Ecs at 1. rewrite pop_rev. destruct (mem c seen); reflexivity.
             ++ remember (S fuel') as f'. cbn [topo_loop]. rewrite Ecs at 1. rewrite pop_rev. apply mem_false in Hs. rewrite Hs.
                subst f'. rewrite Hf. reflexivity.
          -- intros s Hse. right. auto.
          -- intros t' cs' c' [E|[E|H1]] H2.
             ++ injection E as <- <-. rewrite get_children_kids, <- in_rev in H2. eapply Hkids; eauto.
             ++ injection E as <- <-. apply (Hc top cs); [left; reflexivity|]. apply Hcs', H2.
             ++ apply (Hc t' cs'); [right|]; assumption.
          -- intros t' cs' [E|[E|H1]].
             ++ injection E as <- <-. left. left. reflexivity.
             ++ injection E as <- <-. destruct (Ht top cs (or_introl eq_refl)); [left; right|right]; assumption.
             ++ destruct (Ht t' cs' (or_intror H1)); [left; right|right]; assumption.
          -- intros s Hso. destruct (Ho s Hso); [left; right|right]; assumption.
  Qed.
End Cost.

Lemma sort_cost expr heads exclude :
  exists l, topological_sort expr heads exclude = Ok l /\ is_topological_order heads exclude expr l /\
    sort_takes expr heads exclude (graph_cost heads l) l.
Proof.
  destruct (topological_sort_exclude expr heads exclude) as (l & Hl & Ho & H1 & H2). exists l.
  split; [exact Hl|]. split; [exact Ho|]. destruct Ho as (Hn & Hr & _).
  unfold topological_sort in Hl. destruct (mem_spec expr exclude) as [Hin|Hni].
  - rewrite (H1 Hin). intros n. apply mem_true in Hin. rewrite Hin. reflexivity.
  - destruct (H2 Hni) as (l' & ->). clear H1 H2.
    assert (Hmem : mem expr exclude = false) by (apply mem_false; exact Hni). cbv beta iota zeta in Hl.
    assert (Hl'n : NoDup l' /\ ~ In expr l').
    { apply NoDup_remove in Hn. rewrite app_nil_r in Hn. exact Hn. }
    destruct Hl'n as [Hl'n Hnot].
    assert (Hin : forall s, In s l' <-> reach heads exclude expr s /\ s <> expr).
    { intros s. rewrite <- Hr, in_app_iff. cbn [In]. split.
      - intros Hs. split; [left; exact Hs|]. intros ->. contradiction.
      - intros [[Hs|[<-|[]]] Hne]; [exact Hs|congruence]. }
    assert (Hkids : forall s c, reach heads exclude expr s -> In c (kids heads s) -> In c exclude \/ In c l').
    { intros s c Hs Hc. destruct (mem_spec c exclude) as [Hce|Hce]; [left; exact Hce|right]. apply Hin. split.
      - eapply reach_trans; [exact Hs|]. apply reach_not_excl in Hs as [Hs _].
        eapply reach_child; [exact Hs|exact Hc|constructor; exact Hce].
      - intros ->. apply kids_tsize in Hc. apply reach_tsize in Hs as [->|Hs]; lia. }
    assert (Hroot : reach heads exclude expr expr) by (constructor; exact Hni).
    destruct (loop_cost heads exclude expr l' Hl'n (fun s c Hs => Hkids s c (proj1 (proj1 (Hin s) Hs)))
                (S (topo_weight expr)) exclude [(expr, get_children heads expr)] [] (l' ++ [expr]))
      as (k & seen' & Hk & Hl2 & Hf); [auto| | | |exact Hl|].
    + intros top cs c [E|[]] Hc. injection E as <- <-. rewrite get_children_kids, <- in_rev in Hc. eapply Hkids; eauto.
    + intros top cs [E|[]]. injection E as <- <-. right. reflexivity.
    + intros s [].
    + assert (H0 : rem heads l' seen' = 0).
      { unfold rem. replace (filter _ l') with (@nil tree); [reflexivity|]. symmetry.
        destruct (filter _ l') as [|s r] eqn:E; [reflexivity|]. exfalso.
        assert (Hs : In s (filter (fun s => negb (mem s seen')) l')) by (rewrite E; left; reflexivity).
        apply filter_In in Hs as [Hs Hm]. destruct (Hl2 s) as [H| ->]; [apply in_or_app; left; exact Hs| |contradiction].
        apply mem_true in H. rewrite H in Hm. discriminate. }
      assert (H3 : rem heads l' exclude = graph_cost heads l').
      { unfold rem, graph_cost. replace (filter _ l') with l'.
        - clear. induction l' as [|s l IH]; [reflexivity|]. cbn [map list_sum fold_right length] in *.
          change (fold_right Nat.add 0) with list_sum in *. rewrite IH. unfold w. lia.
        - symmetry. assert (Hall : forall s, In s l' -> negb (mem s exclude) = true).
          { intros s Hs. apply Hin in Hs as [Hs _]. apply reach_not_excl in Hs as [Hs _]. apply mem_false in Hs. rewrite Hs. reflexivity. }
          clear -Hall. induction l' as [|s l IH]; [reflexivity|]. cbn [filter]. rewrite (Hall s) by (left; reflexivity).
          rewrite IH; [reflexivity|]. intros t Ht. apply Hall. right. exact Ht. }
      unfold sort_takes. rewrite Hmem. intros n. rewrite Hf. replace k with (graph_cost heads (l' ++ [expr])); [reflexivity|].
      rewrite H0, H3 in Hk. unfold pot in Hk. cbn [map list_sum fold_right snd] in Hk. rewrite get_children_kids, rev_length in Hk.
      unfold graph_cost in *. rewrite app_length, map_app, list_sum_app. cbn [map list_sum fold_right length]. lia.
Qed.
