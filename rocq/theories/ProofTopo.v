(** * topological_sort is the first-occurrence dedup of the naive post-order. *)
From Verif Require Import Py ModelTree SpecTree ProofBase.

Section Topo.
  Variable heads : bool.
  Variable excl : list tree.
  Notation post := (postorder heads excl).

  (** ** postorder *)
  Lemma get_children_kids t : get_children heads t = rev (kids heads t).
  Proof. reflexivity. Qed.

  Lemma kids_children t c : In c (kids heads t) -> In c (children t).
  Proof.
    unfold kids. destruct heads; [auto|].
    destruct (children t); simpl; [intros []|auto].
  Qed.

  Lemma kids_tsize t c : In c (kids heads t) -> tsize c < tsize t.
  Proof. intros H. apply tsize_child, kids_children, H. Qed.

  Lemma post_excl t : In t excl -> post t = [].
  Proof. intros H. apply mem_true in H. destruct t; simpl; rewrite H; reflexivity. Qed.

  Lemma post_unfold t : ~ In t excl -> post t = flat_map post (kids heads t) ++ [t].
  Proof.
    intros H. apply mem_false in H. destruct t as [a|[|h args]]; simpl; rewrite H.
    - destruct heads; reflexivity.
    - destruct heads; reflexivity.
    - unfold kids; destruct heads; simpl; rewrite <- ?app_assoc; reflexivity.
  Qed.

  Lemma post_self t : ~ In t excl -> In t (post t).
  Proof. intros H. rewrite post_unfold by exact H. apply in_or_app. right. left. reflexivity. Qed.

  Lemma post_reach t : forall s, In s (post t) <-> reach heads excl t s.
  Proof.
    induction t as [t IH] using (well_founded_induction (Wf_nat.well_founded_ltof _ tsize)).
    unfold Wf_nat.ltof in IH. intros s.
    destruct (mem_spec t excl) as [Hin|Hni].
    - rewrite post_excl by exact Hin. split; [intros []|].
      intros H; inversion H; subst; contradiction.
    - rewrite post_unfold by exact Hni. rewrite in_app_iff, in_flat_map. split.
      + intros [(c & Hc & Hs)|[<-|[]]].
        * apply reach_child with c; auto. apply IH; auto. apply kids_tsize, Hc.
        * constructor; exact Hni.
      + intros H; inversion H as [|? c ? ? Hc Hr]; subst.
        * right; left; reflexivity.
        * left. exists c. split; [exact Hc|]. apply IH; auto. apply kids_tsize, Hc.
  Qed.

  Lemma reach_tsize t s : reach heads excl t s -> s = t \/ tsize s < tsize t.
  Proof.
    induction 1 as [|t c s Hni Hc Hr IH]; [left; reflexivity|].
    right. apply kids_tsize in Hc. destruct IH as [->|IH]; lia.
  Qed.

  Lemma reach_trans t s u : reach heads excl t s -> reach heads excl s u -> reach heads excl t u.
  Proof. induction 1; auto. intros; econstructor; eauto. Qed.

  Lemma reach_not_excl t s : reach heads excl t s -> ~ In s excl /\ ~ In t excl.
  Proof. induction 1; intuition. Qed.

  Lemma post_tsize t s : In s (post t) -> tsize s <= tsize t.
  Proof. rewrite post_reach. intros H. apply reach_tsize in H as [->|H]; lia. Qed.

  Lemma post_trans t s u : In s (post t) -> In u (post s) -> In u (post t).
  Proof. rewrite !post_reach. apply reach_trans. Qed.

  Lemma post_kids_not_self t : ~ In t (flat_map post (kids heads t)).
  Proof.
    rewrite in_flat_map. intros (c & Hc & Ht).
    apply post_tsize in Ht. apply kids_tsize in Hc. lia.
  Qed.

  (** ** dedup relative to a set *)
  Fixpoint dd (S l : list tree) : list tree :=
    match l with
    | [] => []
    | x :: r => if mem x S then dd S r else x :: dd (x :: S) r
    end.

  Lemma dd_ext l : forall S S', (forall x, In x S <-> In x S') -> dd S l = dd S' l.
  Proof.
    induction l as [|x l IH]; intros S S' H; simpl; [reflexivity|].
    replace (mem x S') with (mem x S).
    - rewrite (IH S S' H), (IH (x :: S) (x :: S')); [reflexivity|].
      intros y; simpl. rewrite H. reflexivity.
    - specialize (H x). destruct (mem_spec x S), (mem_spec x S'); tauto.
  Qed.

  Lemma dd_In l : forall S x, In x (dd S l) <-> In x l /\ ~ In x S.
  Proof.
    induction l as [|y l IH]; intros S x; simpl; [tauto|].
    destruct (mem_spec y S) as [Hy|Hy].
    - rewrite IH. split; [tauto|]. intros [[->|H] Hn]; [contradiction|auto].
    - simpl. rewrite IH. simpl. destruct (tree_eq_dec y x) as [->|Hne]; [tauto|].
      split; [intuition congruence|intuition].
  Qed.

  Lemma dd_app l1 : forall S l2, dd S (l1 ++ l2) = dd S l1 ++ dd (l1 ++ S) l2.
  Proof.
    induction l1 as [|x l IH]; intros S l2; simpl; [reflexivity|].
    destruct (mem_spec x S) as [Hx|Hx].
    - rewrite IH. f_equal. apply dd_ext. intros y; simpl. rewrite in_app_iff.
      split; [tauto|]. intros [->|[H|H]]; auto.
    - rewrite IH. simpl. f_equal. f_equal. apply dd_ext. intros y.
      rewrite in_app_iff. simpl. rewrite in_app_iff. tauto.
  Qed.

  Lemma dd_nil_incl l S : (forall x, In x l -> In x S) -> dd S l = [].
  Proof.
    intros H. destruct (dd S l) as [|x r] eqn:E; [reflexivity|].
    assert (Hx : In x (dd S l)) by (rewrite E; left; reflexivity).
    apply dd_In in Hx. destruct Hx as [H1 H2]. exfalso; auto.
  Qed.

  Lemma dd_add_fresh l : forall S x, ~ In x l -> dd (x :: S) l = dd S l.
  Proof.
    induction l as [|y l IH]; intros S x Hx; simpl; [reflexivity|].
    simpl in Hx. assert (Hne : y <> x) by tauto.
    destruct (tree_eqb_spec y x) as [->|_]; [contradiction|]. simpl.
    fold (mem y S). destruct (mem y S).
    - apply IH; tauto.
    - f_equal. rewrite (dd_ext l (y :: x :: S) (x :: y :: S)).
      + apply IH; tauto.
      + intros z; simpl; tauto.
  Qed.

  Lemma dd_keep_first l : forall S,
    dd S l = filter (fun y => negb (mem y S)) (keep_first l).
  Proof.
    induction l as [|x l IH]; intros S; simpl; [reflexivity|].
    assert (Hff : forall S', filter (fun y => negb (mem y S'))
                 (filter (fun y => negb (tree_eqb x y)) (keep_first l)) =
                 filter (fun y => negb (mem y (x :: S'))) (keep_first l)).
    { intros S'. generalize (keep_first l). induction l0 as [|z l0 IH0]; simpl; [reflexivity|].
      rewrite (tree_eqb_sym z x). destruct (tree_eqb x z); simpl; [exact IH0|].
      fold (mem z S'). destruct (mem z S'); simpl; rewrite IH0; reflexivity. }
    destruct (mem_spec x S) as [Hx|Hx]; simpl.
    - rewrite IH, Hff. apply filter_ext_in. intros y _. f_equal.
      simpl. destruct (tree_eqb_spec y x) as [->|_]; simpl; [|reflexivity].
      apply mem_true, Hx.
    - rewrite IH, Hff. reflexivity.
  Qed.

  Lemma keep_first_dd l : keep_first l = dd [] l.
  Proof.
    rewrite dd_keep_first. symmetry.
    generalize (keep_first l) as k. induction k as [|z k IHk]; [reflexivity|].
    cbn [filter]. change (mem z []) with false. cbn [negb]. f_equal. exact IHk.
  Qed.

  Lemma dd_disjoint l S : (forall x, In x l -> ~ In x S) -> dd S l = keep_first l.
  Proof.
    intros H. rewrite dd_keep_first.
    assert (Hk : forall x, In x (keep_first l) -> In x l).
    { intros x Hx. rewrite keep_first_dd in Hx. apply dd_In in Hx. tauto. }
    revert Hk. generalize (keep_first l) as k. induction k as [|z k IHk]; simpl; intros Hk;
      [reflexivity|].
    assert (Hz : ~ In z S) by (apply H, Hk; left; reflexivity).
    apply mem_false in Hz. rewrite Hz. simpl. rewrite IHk; auto.
  Qed.

  (** ** the loop as a transition system *)
  Definition tstate : Type := list tree * list (tree * list tree) * list tree.

  Definition topo_step (st : tstate) : option tstate :=
    let '(seen, stack, out) := st in
    match stack with
    | [] => None
    | (top, cs) :: stack' =>
        match pop cs with
        | Some (child, cs') =>
            if mem child seen then Some (seen, (top, cs') :: stack', out)
            else Some (child :: seen,
                       (child, get_children heads child) :: (top, cs') :: stack', out)
        | None => Some (seen, stack', out ++ [top])
        end
    end.

  Inductive steps : tstate -> tstate -> Prop :=
  | steps_refl st : steps st st
  | steps_step st st' st'' : topo_step st = Some st' -> steps st' st'' -> steps st st''.

  Lemma steps_trans a b c : steps a b -> steps b c -> steps a c.
  Proof. induction 1; auto. intros; econstructor; eauto. Qed.

  Lemma steps_one a b : topo_step a = Some b -> steps a b.
  Proof. intros H. econstructor; [exact H|constructor]. Qed.

  Definition frame_weight (f : tree * list tree) : nat :=
    S (list_sum (map topo_weight (snd f))).
  Definition weight (st : tstate) : nat :=
    let '(_, stack, _) := st in list_sum (map frame_weight stack).

  Lemma list_sum_rev l : list_sum (rev l) = list_sum l.
  Proof.
    induction l as [|x l IH]; simpl; [reflexivity|].
    rewrite list_sum_app. simpl. rewrite IH. lia.
  Qed.

  Lemma pop_Some {A} (l : list A) x r : pop l = Some (x, r) -> l = r ++ [x].
  Proof.
    unfold pop. destruct (rev l) as [|y s] eqn:E; [congruence|].
    intros [= <- <-]. rewrite <- (rev_involutive l), E. reflexivity.
  Qed.

  Lemma get_children_weight c :
    S (list_sum (map topo_weight (get_children heads c))) < topo_weight c.
  Proof.
    rewrite get_children_kids, map_rev, list_sum_rev.
    unfold kids. destruct heads, c as [a|[|h cs]]; simpl; lia.
  Qed.

  Lemma topo_step_weight st st' : topo_step st = Some st' -> weight st' < weight st.
  Proof.
    destruct st as [[seen [|[top cs] stack]] out]; simpl; [congruence|].
    destruct (pop cs) as [[child cs']|] eqn:E.
    - apply pop_Some in E. subst cs. unfold frame_weight; simpl.
      rewrite map_app, list_sum_app. simpl.
      pose proof (get_children_weight child).
      destruct (mem child seen); intros [= <-]; unfold weight, frame_weight; simpl; lia.
    - intros [= <-]. unfold weight, frame_weight; simpl. lia.
  Qed.

  Lemma topo_loop_step fuel seen stack out :
    topo_loop (S fuel) heads seen stack out =
    match topo_step (seen, stack, out) with
    | None => Ok out
    | Some (seen', stack', out') => topo_loop fuel heads seen' stack' out'
    end.
  Proof.
    destruct stack as [|[top cs] stack]; simpl; [reflexivity|].
    destruct (pop cs) as [[child cs']|]; [|reflexivity].
    destruct (mem child seen); reflexivity.
  Qed.

  Lemma steps_loop st st' : steps st st' ->
    forall fuel, snd (fst st') = [] -> weight st < fuel ->
    topo_loop fuel heads (fst (fst st)) (snd (fst st)) (snd st) = Ok (snd st').
  Proof.
    induction 1 as [st|st st1 st2 Hs Hr IH]; intros fuel Hfin Hf.
    - destruct fuel as [|fuel]; [lia|]. destruct st as [[seen stack] out]; simpl in *; subst.
      reflexivity.
    - destruct fuel as [|fuel]; [lia|]. destruct st as [[seen stack] out].
      cbn [fst snd]. rewrite topo_loop_step, Hs.
      apply topo_step_weight in Hs. destruct st1 as [[seen1 stack1] out1].
      cbn [fst snd] in IH. apply IH; [exact Hfin|lia].
  Qed.

  (** ** simulation *)
  Definition closed (S anc : list tree) : Prop :=
    forall s, In s S -> In s anc \/ (forall u, In u (post s) -> In u S).

  Definition visits (c : tree) : Prop :=
    forall S anc top rem stk out,
      incl excl S -> closed S anc -> (forall a, In a anc -> tsize c < tsize a) ->
      exists S',
        steps (S, (top, rev (c :: rem)) :: stk, out)
              (S', (top, rev rem) :: stk, out ++ dd S (post c)) /\
        (forall x, In x S' <-> In x S \/ In x (post c)).

  Lemma closed_extend S S' anc cs :
    closed S anc -> (forall x, In x S' <-> In x S \/ In x (flat_map post cs)) -> closed S' anc.
  Proof.
    intros Hc HS' s Hs. apply HS' in Hs. destruct Hs as [Hs|Hs].
    - destruct (Hc s Hs) as [H|H]; [left; exact H|]. right. intros u Hu. apply HS'. left; auto.
    - right. intros u Hu. apply HS'. right. apply in_flat_map in Hs. destruct Hs as (c & Hcc & Hs).
      apply in_flat_map. exists c. split; [exact Hcc|]. eapply post_trans; eauto.
  Qed.

  Lemma visits_list cs : (forall c, In c cs -> visits c) ->
    forall S anc top stk out,
      incl excl S -> closed S anc ->
      (forall c a, In c cs -> In a anc -> tsize c < tsize a) ->
      exists S',
        steps (S, (top, rev cs) :: stk, out)
              (S', (top, []) :: stk, out ++ dd S (flat_map post cs)) /\
        (forall x, In x S' <-> In x S \/ In x (flat_map post cs)).
  Proof.
    induction cs as [|c cs IH]; intros Hv S anc top stk out Hex Hcl Hanc.
    - exists S. simpl. rewrite app_nil_r. split; [constructor|]. intros x; tauto.
    - destruct (Hv c (or_introl eq_refl) S anc top cs stk out Hex Hcl) as (S1 & Hs1 & HS1).
      { intros a Ha. apply Hanc; [left; reflexivity|exact Ha]. }
      assert (Hcl1 : closed S1 anc).
      { apply closed_extend with S [c]; auto. intros x. rewrite HS1. simpl.
        rewrite app_nil_r. tauto. }
      assert (Hex1 : incl excl S1).
      { intros x Hx. apply HS1. left. apply Hex, Hx. }
      destruct (IH (fun d Hd => Hv d (or_intror Hd)) S1 anc top stk (out ++ dd S (post c)) Hex1 Hcl1)
        as (S2 & Hs2 & HS2).
      { intros d a Hd Ha. apply Hanc; [right; exact Hd|exact Ha]. }
      exists S2. split.
      + eapply steps_trans; [exact Hs1|].
        replace (out ++ dd S (flat_map post (c :: cs)))
          with ((out ++ dd S (post c)) ++ dd S1 (flat_map post cs)); [exact Hs2|].
        simpl. rewrite dd_app, <- app_assoc. do 2 f_equal. apply dd_ext.
        intros x. rewrite HS1, in_app_iff. tauto.
      + intros x. rewrite HS2, HS1. simpl. rewrite in_app_iff. tauto.
  Qed.

  Lemma visits_all c : visits c.
  Proof.
    induction c as [c IH] using (well_founded_induction (Wf_nat.well_founded_ltof _ tsize)).
    unfold Wf_nat.ltof in IH.
    intros S anc top rem stk out Hex Hcl Hanc.
    destruct (mem_spec c S) as [Hin|Hni].
    - exists S. destruct (Hcl c Hin) as [Ha|Hp].
      { specialize (Hanc c Ha). lia. }
      rewrite dd_nil_incl by exact Hp. rewrite app_nil_r. split.
      + apply steps_one. unfold topo_step. rewrite pop_rev.
        apply mem_true in Hin. rewrite Hin. reflexivity.
      + intros x. split; [tauto|]. intros [H|H]; auto.
    - assert (Hce : ~ In c excl) by (intros H; apply Hni, Hex, H).
      destruct (visits_list (kids heads c)
                  (fun d Hd => IH d (kids_tsize c d Hd))
                  (c :: S) (c :: anc) c ((top, rev rem) :: stk) out) as (S1 & Hs1 & HS1).
      { intros x Hx. right. apply Hex, Hx. }
      { intros s [<-|Hs]; [left; left; reflexivity|].
        destruct (Hcl s Hs) as [H|H]; [left; right; exact H|].
        right. intros u Hu. right. auto. }
      { intros d a Hd [<-|Ha]; [apply kids_tsize, Hd|].
        apply kids_tsize in Hd. specialize (Hanc a Ha). lia. }
      exists S1. split.
      + eapply steps_step.
        { unfold topo_step. rewrite pop_rev. apply mem_false in Hni. rewrite Hni.
          rewrite get_children_kids. reflexivity. }
        eapply steps_trans; [exact Hs1|]. apply steps_one.
        unfold topo_step. rewrite pop_nil. do 2 f_equal.
        rewrite post_unfold by exact Hce. rewrite dd_app, <- app_assoc. f_equal.
        rewrite dd_add_fresh by apply post_kids_not_self. f_equal. simpl.
        destruct (mem_spec c (flat_map post (kids heads c) ++ S)) as [H|H]; [|reflexivity].
        exfalso. apply in_app_iff in H as [H|H]; [|auto]. exact (post_kids_not_self c H).
      + intros x. rewrite HS1. rewrite post_unfold by exact Hce. rewrite in_app_iff. simpl. tauto.
  Qed.
End Topo.

Lemma keep_first_app_new l x : ~ In x l -> keep_first (l ++ [x]) = keep_first l ++ [x].
Proof.
  intros Hx. rewrite !keep_first_dd, dd_app. f_equal. simpl.
  destruct (mem_spec x (l ++ [])) as [H|H]; [|reflexivity].
  rewrite app_nil_r in H. contradiction.
Qed.

(** topological_sort, with any heads flag and exclude set, on every tree. *)
Lemma topological_sort_spec e heads excl :
  topological_sort e heads excl = Ok (keep_first (postorder heads excl e)).
Proof.
  unfold topological_sort.
  destruct (mem_spec e excl) as [Hin|Hni].
  - rewrite post_excl by exact Hin. reflexivity.
  - destruct (visits_list heads excl (kids heads e) (fun c _ => visits_all heads excl c)
                excl [] e [] []) as (S' & Hs & HS').
    { apply incl_refl. }
    { intros s Hs. right. intros u Hu. rewrite post_excl in Hu by exact Hs. destruct Hu. }
    { intros c a _ []. }
    assert (Hfin : steps heads (excl, [(e, get_children heads e)], [])
                     (S', [], dd excl (flat_map (postorder heads excl) (kids heads e)) ++ [e])).
    { eapply steps_trans; [rewrite get_children_kids; exact Hs|].
      apply steps_one. reflexivity. }
    pose proof (steps_loop heads _ _ Hfin (S (topo_weight e)) eq_refl) as HL.
    cbn [fst snd] in HL. rewrite HL.
    + f_equal. rewrite post_unfold by exact Hni.
      rewrite keep_first_app_new by apply post_kids_not_self. f_equal.
      apply dd_disjoint. intros x Hx.
      apply in_flat_map in Hx. destruct Hx as (c & Hc & Hx). apply post_reach in Hx.
      apply reach_not_excl in Hx. tauto.
    + unfold weight, frame_weight. simpl. pose proof (get_children_weight heads e). lia.
Qed.

(** ** Consequences *)
Lemma keep_first_NoDup l : NoDup (keep_first l).
Proof.
  induction l as [|x l IH]; simpl; constructor.
  - rewrite filter_In. rewrite tree_eqb_refl. simpl. intros [_ H]; congruence.
  - apply NoDup_filter, IH.
Qed.

Lemma keep_first_In l x : In x (keep_first l) <-> In x l.
Proof. rewrite keep_first_dd, dd_In. simpl. tauto. Qed.

Lemma before_app_l l l' a b : before l a b -> before (l ++ l') a b.
Proof.
  intros (l1 & l2 & l3 & ->). exists l1, l2, (l3 ++ l').
  rewrite <- !app_assoc. simpl. rewrite <- app_assoc. reflexivity.
Qed.

Lemma before_app_r l l' a b : before l a b -> before (l' ++ l) a b.
Proof.
  intros (l1 & l2 & l3 & ->). exists (l' ++ l1), l2, l3. rewrite <- app_assoc. reflexivity.
Qed.

Lemma before_In l a b : before l a b -> In a l /\ In b l.
Proof.
  intros (l1 & l2 & l3 & ->).
  split; apply in_or_app; right; [left; reflexivity|].
  right. apply in_or_app. right. left. reflexivity.
Qed.

(** In the post-order every listed element is preceded by its own non-excluded children, at every
    one of its positions. *)
Definition children_first heads excl (l : list tree) : Prop :=
  forall l1 s l2, l = l1 ++ s :: l2 ->
  forall c, In c (kids heads s) -> ~ In c excl -> In c l1.

Lemma children_first_nil heads excl : children_first heads excl [].
Proof. intros [|] ? ? H; discriminate. Qed.

Lemma app_split_cases {A} (a b l1 l2 : list A) x :
  a ++ b = l1 ++ x :: l2 ->
  (exists l2', a = l1 ++ x :: l2') \/ (exists l1', l1 = a ++ l1' /\ b = l1' ++ x :: l2).
Proof.
  revert l1. induction a as [|y a IH]; intros l1 H; simpl in H.
  - right. exists l1. split; [reflexivity|exact H].
  - destruct l1 as [|z l1]; simpl in H; injection H as -> H.
    + left. exists a. reflexivity.
    + destruct (IH l1 H) as [(l2' & ->)|(l1' & -> & ->)].
      * left. exists l2'. reflexivity.
      * right. exists l1'. split; reflexivity.
Qed.

Lemma children_first_app heads excl l1 l2 :
  children_first heads excl l1 -> children_first heads excl l2 ->
  children_first heads excl (l1 ++ l2).
Proof.
  intros H1 H2 a s b E c Hc Hx.
  apply app_split_cases in E as [(b' & ->)|(a' & -> & ->)].
  - eapply H1; eauto.
  - apply in_or_app. right. eapply H2; eauto.
Qed.

Lemma post_children_first heads excl t : children_first heads excl (postorder heads excl t).
Proof.
  induction t as [t IH] using (well_founded_induction (Wf_nat.well_founded_ltof _ tsize)).
  unfold Wf_nat.ltof in IH.
  destruct (mem_spec t excl) as [Hin|Hni].
  - rewrite post_excl by exact Hin. apply children_first_nil.
  - rewrite post_unfold by exact Hni.
    assert (Hk : forall ks, (forall c, In c ks -> tsize c < tsize t) ->
                 children_first heads excl (flat_map (postorder heads excl) ks)).
    { induction ks as [|k ks IHk]; intros Hks; simpl; [apply children_first_nil|].
      apply children_first_app.
      - apply IH, Hks. left; reflexivity.
      - apply IHk. intros c Hc. apply Hks. right; exact Hc. }
    intros l1 s l2 E c Hc Hx.
    apply app_split_cases in E as [(b' & E)|(a' & -> & E)].
    + eapply (Hk (kids heads t)); eauto. intros d Hd. eapply kids_tsize; eauto.
    + destruct a' as [|y a']; [|destruct a'; discriminate].
      injection E as <- <-. rewrite app_nil_r. apply in_flat_map. exists c. split; [exact Hc|].
      apply post_self, Hx.
Qed.

Lemma filter_split {A} (p : A -> bool) k l1 s l2 :
  filter p k = l1 ++ s :: l2 ->
  exists k1 k2, k = k1 ++ s :: k2 /\ l1 = filter p k1 /\ l2 = filter p k2 /\ p s = true.
Proof.
  revert l1. induction k as [|z k IHk]; intros l1 E; simpl in E.
  - destruct l1; discriminate.
  - destruct (p z) eqn:Ez.
    + destruct l1 as [|w l1]; simpl in E; injection E as -> E.
      * exists [], k. simpl. auto.
      * destruct (IHk l1 E) as (k1 & k2 & -> & -> & -> & Hs). exists (w :: k1), k2.
        simpl. rewrite Ez. auto.
    + destruct (IHk l1 E) as (k1 & k2 & -> & -> & -> & Hs). exists (z :: k1), k2.
      simpl. rewrite Ez. auto.
Qed.

Lemma keep_first_split l : forall l1 s l2, keep_first l = l1 ++ s :: l2 ->
  exists m1 m2, l = m1 ++ s :: m2 /\ ~ In s m1 /\ (forall x, In x m1 <-> In x l1).
Proof.
  induction l as [|x l IH]; intros l1 s l2 E; simpl in E.
  - destruct l1; discriminate.
  - destruct l1 as [|y l1]; simpl in E; injection E as -> E.
    + exists [], l. split; [reflexivity|]. split; [intros []|]. intros z; tauto.
    + apply filter_split in E as (k1 & k2 & Ek & -> & -> & Hp).
      destruct (IH _ _ _ Ek) as (m1 & m2 & -> & Hns & Hm).
      exists (y :: m1), m2. split; [reflexivity|]. split.
      * intros [->|H]; [rewrite tree_eqb_refl in Hp; discriminate | auto].
      * intros z. simpl. rewrite Hm, filter_In. split; [|tauto].
        intros [->|H]; [tauto|]. destruct (tree_eqb_spec y z) as [->|Hne]; [left; reflexivity|].
        right. split; [exact H|]. reflexivity.
Qed.

Lemma keep_first_children_first heads excl l :
  children_first heads excl l -> children_first heads excl (keep_first l).
Proof.
  intros H l1 s l2 E c Hc Hx.
  apply keep_first_split in E as (m1 & m2 & -> & _ & Hm). apply Hm.
  eapply H; eauto.
Qed.

Lemma children_first_before heads excl l s c :
  children_first heads excl l -> In s l -> In c (kids heads s) -> ~ In c excl -> before l c s.
Proof.
  intros H Hs Hc Hx. apply in_split in Hs as (l1 & l2 & ->).
  specialize (H l1 s l2 eq_refl c Hc Hx).
  apply in_split in H as (a & b & ->). exists a, b, l2. rewrite <- app_assoc. reflexivity.
Qed.

Lemma topological_sort_order e heads excl :
  exists l, topological_sort e heads excl = Ok l /\ is_topological_order heads excl e l.
Proof.
  exists (keep_first (postorder heads excl e)). split; [apply topological_sort_spec|].
  split; [apply keep_first_NoDup|]. split.
  - intros s. rewrite keep_first_In. apply post_reach.
  - intros s c Hs Hc Hx. eapply children_first_before; eauto.
    apply keep_first_children_first, post_children_first.
Qed.

Lemma topological_sort_last e heads excl :
  ~ In e excl -> exists l, topological_sort e heads excl = Ok (l ++ [e]).
Proof.
  intros H. rewrite topological_sort_spec, post_unfold by exact H.
  rewrite keep_first_app_new by apply post_kids_not_self. eauto.
Qed.

Lemma topological_sort_excluded e heads excl :
  In e excl -> topological_sort e heads excl = Ok [].
Proof. intros H. rewrite topological_sort_spec, post_excl by exact H. reflexivity. Qed.
