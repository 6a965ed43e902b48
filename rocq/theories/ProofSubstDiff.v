(** * Differentiation by user-defined rules commutes with substitution *)
From Verif Require Import Py ModelTree SpecTree ProofBase ProofTopo ProofSubs ModelDiff SpecDiff ProofDiff ModelCas SpecCas SpecAlg ProofAlg SpecRules SpecSubstDiff.

Lemma bind_Ok {A B} (m : res A) (k : A -> res B) b : (do a <- m; k a) = Ok b -> exists a, m = Ok a /\ k a = Ok b.
Proof. destruct m as [a|]; [eauto|discriminate]. Qed.
Lemma Forall2_In_r {A B} (P : A -> B -> Prop) l l' b : Forall2 P l l' -> In b l' -> exists a, In a l /\ P a b.
Proof. induction 1 as [|a b' l l' H _ IH]; [intros []|]. intros [<-|Hin]; [exists a; split; [left; reflexivity|exact H]|]. destruct (IH Hin) as (a' & ? & ?). exists a'. split; [right|]; assumption. Qed.

Lemma registered_props rules dist p : registered rules dist p ->
  dp_zero p = zero /\ dp_one p = one /\ dp_add p = Add /\ dp_mul p = Mul /\
  (forall h, In h (dp_distributive p) <-> In h dist) /\
  (forall f k sf, dict_get rule_key_eqb (dp_rules p) (f, k) = Some sf ->
     exists r, In r rules /\ subs_new (r_rhs r) (map Atm (r_wilds r)) = Ok sf).
Proof.
  induction 1 as [|rules dist p p' r w Hreg IH Hw Hset|rules dist p h Hreg IH].
  - repeat (split; [reflexivity|]). intros f k sf H. discriminate H.
  - destruct IH as (Hz & Ho & Ha & Hm & Hd & Hr).
    destruct (Nat.eq_dec (count (map Atm (r_wilds r)) (Atm w)) 1) as [Hc|Hc].
    + destruct (diff_setitem_ok p _ (Atm w) (r_rhs r) (r_head r) (map Atm (r_wilds r)) eq_refl Hc) as (i & sf & Hi & Hsf & E).
      rewrite E in Hset. injection Hset as <-.
      cbn [add_diff_rule dp_zero dp_one dp_add dp_mul dp_distributive dp_rules].
      repeat (split; [assumption|]). intros f k sf'.
      rewrite (dict_get_set rule_key_eqb rule_key_eqb_spec). destruct (rule_key_eqb (f, k) (r_head r, i)).
      * intros [= <-]. exists r. split; [left; reflexivity|exact Hsf].
      * intros H. destruct (Hr f k sf' H) as (r' & Hin & H'). exists r'. split; [right; exact Hin|exact H'].
    + destruct (diff_setitem_bad p (STuple [tree_call (r_head r) (map Atm (r_wilds r)); Atm w]) (r_rhs r) p') with (r := Ok tt) as [_ [?|(e & s & _ & _ & ?)]]; try discriminate; [|exact Hset].
      intros h args sym E. injection E as _ <- <-. exact Hc.
  - destruct IH as (Hz & Ho & Ha & Hm & Hd & Hr). cbn [add_distributive dp_zero dp_one dp_add dp_mul dp_distributive dp_rules].
    repeat (split; [assumption|]). split; [|exact Hr]. intros h'. unfold set_add.
    destruct (mem h (dp_distributive p)) eqn:E.
    + apply mem_true in E. rewrite Hd. cbn [In]. split; [tauto|]. intros [<-|H]; [apply Hd, E|exact H].
    + rewrite in_app_iff. rewrite Hd. cbn [In]. tauto.
Qed.

Section Commute.
  Variables (rules : list rule) (dist : list tree) (p : diff_props) (y : atom) (r : tree).
  Hypothesis Hreg : registered rules dist p.
  Hypothesis Hun : unmentioned rules y.
  Hypothesis Hr01 : (r <> zero /\ r <> one) \/ (forall q, In q rules -> ~ projects q).
  Notation sg := (subst [Atm y] [r]).

  Lemma sgn cs : sg (Node cs) = Node (map sg cs).
  Proof. rewrite subst_one. reflexivity. Qed.
  Lemma sg_atm a : Atm a <> Atm y -> sg (Atm a) = Atm a.
  Proof. intros H. rewrite subst_one. destruct (tree_eqb_spec (Atm a) (Atm y)); [contradiction|reflexivity]. Qed.
  Lemma sg_absent t : ~ occurs (Atm y) t -> sg t = t.
  Proof. intros H. apply subst_absent. intros k [<-|[]]. exact H. Qed.

  (** Substitution in the instance of a rule is substitution in the arguments. *)
  Lemma sg_instance wilds vals t : length vals = length wilds -> (occurs (Atm y) t -> In y wilds) ->
    sg (subst (map Atm wilds) vals t) = subst (map Atm wilds) (map sg vals) t.
  Proof.
    intros Hl. induction t as [b|cs IH] using tree_ind_all; intros Hy; rewrite (subst_unfold _ vals), (subst_unfold _ (map sg vals)).
    - assert (E : replacement (map Atm wilds) (map sg vals) (Atm b) = option_map sg (replacement (map Atm wilds) vals (Atm b)) /\
                  (replacement (map Atm wilds) vals (Atm b) = None -> ~ In b wilds)).
      { clear Hy. revert vals Hl. induction wilds as [|w ws IHw]; intros [|v vs] Hl; try discriminate; [cbn; auto|].
        cbn [map replacement]. destruct (IHw vs) as [E1 E2]; [injection Hl as Hl; exact Hl|]. rewrite E1.
        destruct (replacement (map Atm ws) vs (Atm b)); cbn [option_map]; [split; [reflexivity|discriminate]|].
        destruct (tree_eqb_spec (Atm b) (Atm w)) as [E|Hn]; cbn [option_map]; [split; [reflexivity|discriminate]|].
        split; [reflexivity|]. intros _ [->|H]; [congruence|exact (E2 eq_refl H)]. }
      destruct E as [-> E2]. destruct (replacement (map Atm wilds) vals (Atm b)); cbn [option_map]; [reflexivity|].
      apply sg_atm. intros E. injection E as ->. apply (E2 eq_refl), Hy. constructor.
    - assert (E : forall vs, replacement (map Atm wilds) vs (Node cs) = None).
      { clear. induction wilds as [|w ws IH]; intros [|v vs]; try reflexivity. cbn [map replacement]. rewrite IH. reflexivity. }
      rewrite !E, sgn, map_map. f_equal. apply map_ext_in. intros c Hc. apply IH; [exact Hc|]. intros Ho. apply Hy. econstructor; eassumption.
  Qed.

  Lemma last_item_map (l : list tree) : last_item (map sg l) = rmap sg (last_item l).
  Proof.
    destruct l as [|a l _] using rev_ind; [reflexivity|]. rewrite map_app. cbn [map]. rewrite !last_item_app. reflexivity.
  Qed.

  Lemma sg_rule q sf args : In q rules -> subs_new (r_rhs q) (map Atm (r_wilds q)) = Ok sf ->
    subs_call sf (map sg args) = rmap sg (subs_call sf args).
  Proof.
    intros Hq Hsf. destruct (Nat.eq_dec (length args) (length (r_wilds q))) as [Hl|Hl].
    - destruct (in_dec tree_eq_dec (r_rhs q) (map Atm (r_wilds q))) as [Hin|Hin].
      + rewrite (subs_root_last _ _ args sf Hin), (subs_root_last _ _ (map sg args) sf Hin) by (rewrite ?map_length; assumption). apply last_item_map.
      + rewrite (subs_correct _ _ args sf Hin), (subs_correct _ _ (map sg args) sf Hin) by (rewrite ?map_length; assumption).
        cbn [rmap]. f_equal. symmetry. apply sg_instance; [exact Hl|]. apply (proj2 Hun _ Hq).
    - rewrite (subs_wrong_arity _ _ args sf) with (2 := Hsf) by (rewrite ?map_length; assumption).
      rewrite (subs_wrong_arity _ _ (map sg args) sf) with (2 := Hsf) by (rewrite ?map_length; assumption). reflexivity.
  Qed.

  Lemma not_y t : In t [zero; one; Add; Mul] -> t <> Atm y.
  Proof. intros H ->. exact (proj1 Hun H). Qed.

  Lemma sg_const t : In t [zero; one; Add; Mul] -> sg t = t.
  Proof.
    intros H. pose proof (not_y t H) as Hn. rewrite subst_one. destruct (tree_eqb_spec t (Atm y)); [contradiction|].
    cbn in H. destruct H as [<-|[<-|[<-|[<-|[]]]]]; reflexivity.
  Qed.

  (** A value that can be [y] only if [r] is neither 0 nor 1. *)
  Definition harmless (d : tree) : Prop := d <> Atm y \/ (r <> zero /\ r <> one).
  Lemma sg_is_const d c : harmless d -> In c [zero; one] -> tree_eqb (sg d) c = tree_eqb d c.
  Proof.
    intros Hh Hc. assert (Hc4 : In c [zero; one; Add; Mul]) by (cbn in *; tauto).
    destruct (tree_eqb_spec d c) as [->|Hd]; [rewrite sg_const by exact Hc4; apply tree_eqb_refl|].
    destruct (tree_eqb_spec (sg d) c) as [E|]; [|reflexivity]. exfalso. rewrite subst_one in E.
    destruct (tree_eqb_spec d (Atm y)) as [->|Hdy].
    - destruct Hh as [H|[H0 H1]]; [congruence|]. destruct Hc as [<-|[<-|[]]]; contradiction.
    - destruct d as [a|cs]; [contradiction|]. destruct Hc as [<-|[<-|[]]]; discriminate.
  Qed.

  Lemma deriv_harmless s e d : deriv p s e = Ok d -> harmless d.
  Proof.
    destruct Hr01 as [H|Hnp]; [intros _; right; exact H|]. intros H. left. revert d H.
    destruct (registered_props _ _ _ Hreg) as (Hz & Ho & Ha & Hm & _ & Hr).
    induction e as [a|cs IH] using tree_ind_all; intros d H.
    - cbn [deriv] in H. injection H as <-. rewrite Hz, Ho. match goal with |- (if ?b then _ else _) <> _ => destruct b end; apply not_y; cbn; tauto.
    - destruct cs as [|f args].
      { cbn [deriv] in H. injection H as <-. rewrite Hz, Ho. match goal with |- (if ?b then _ else _) <> _ => destruct b end; apply not_y; cbn; tauto. }
      cbn [deriv] in H. apply bind_Ok in H as (ds & Hds & H). destruct (mem f (dp_distributive p)); [injection H as <-; discriminate|].
      apply bind_Ok in H as (ts & Hts & H). injection H as <-.
      assert (Hne : Forall (fun t => t <> Atm y) ts).
      { assert (Hdep : forall id, In id (dependent (dp_zero p) ds) -> snd id <> Atm y).
        { intros [i d] Hin. unfold dependent in Hin. apply filter_In in Hin as [Hin _]. apply in_combine_r in Hin. cbn [snd].
          apply mapM_Ok_Forall2 in Hds. destruct (Forall2_In_r _ _ _ _ Hds Hin) as (a & Ha' & Hd').
          eapply IH; [right; exact Ha'|exact Hd']. }
        destruct (tree_eqb f (dp_add p)).
        { injection Hts as <-. apply Forall_forall. intros t Ht. apply in_map_iff in Ht as (id & <- & Hid). auto. }
        destruct (tree_eqb f (dp_mul p)).
        { injection Hts as <-. apply Forall_forall. intros t Ht. apply in_map_iff in Ht as (id & <- & Hid). discriminate. }
        apply mapM_Ok_Forall2 in Hts. apply Forall_forall. intros t Ht. destruct (Forall2_In_r _ _ _ _ Hts Ht) as (id & Hid & E).
        unfold chain_term in E. destruct (dict_get rule_key_eqb (dp_rules p) (f, fst id)) as [sf|] eqn:Esf; [|discriminate].
        apply bind_Ok in E as (u & Hu & E). injection E as <-. destruct (tree_eqb (snd id) (dp_one p)); [|discriminate].
        destruct (Hr _ _ _ Esf) as (q & Hq & Hsf).
        destruct (Nat.eq_dec (length args) (length (r_wilds q))) as [Hl|Hl].
        - destruct (in_dec tree_eq_dec (r_rhs q) (map Atm (r_wilds q))) as [Hin|Hin].
          { exfalso. apply in_map_iff in Hin as (w & Hw & Hin). apply (Hnp q Hq). exists w. auto. }
          rewrite (subs_correct _ _ _ _ Hin) in Hu; [|rewrite map_length; exact Hl|exact Hsf].
          injection Hu as <-. rewrite subst_unfold. destruct (r_rhs q) as [b|cs'] eqn:Erhs.
          + assert (E : forall vs, replacement (map Atm (r_wilds q)) vs (Atm b) = None).
            { clear -Hin. induction (r_wilds q) as [|w ws IHw]; intros [|v vs]; try reflexivity. cbn [map replacement].
              rewrite IHw by (intros H; apply Hin; right; exact H). destruct (tree_eqb_spec (Atm b) (Atm w)) as [E|]; [|reflexivity].
              exfalso. apply Hin. left. congruence. }
            rewrite E. intros E'. apply Hin. injection E' as ->. apply in_map. apply (proj2 Hun q Hq). rewrite Erhs. constructor.
          + assert (E : forall vs, replacement (map Atm (r_wilds q)) vs (Node cs') = None).
            { clear. induction (r_wilds q) as [|w ws IHw]; intros [|v vs]; try reflexivity. cbn [map replacement]. rewrite IHw. reflexivity. }
            rewrite E. discriminate.
        - rewrite (subs_wrong_arity _ _ _ _) with (2 := Hsf) in Hu by (rewrite map_length; exact Hl). discriminate. }
      destruct ts as [|t [|t2 l]]; cbn [total].
      + rewrite Hz. apply not_y. cbn. tauto.
      + inversion Hne; subst. assumption.
      + discriminate.
  Qed.

  Lemma dependent_sg ds : Forall harmless ds ->
    dependent (dp_zero p) (map sg ds) = map (fun id => (fst id, sg (snd id))) (dependent (dp_zero p) ds).
  Proof.
    destruct (registered_props _ _ _ Hreg) as (Hz & _). rewrite Hz.
    unfold dependent. rewrite map_length. generalize 0 as i. intros i H. revert i. induction H as [|d ds Hd _ IH]; intros i; [reflexivity|].
    cbn [map length seq combine filter fst snd]. rewrite sg_is_const by (cbn; auto).
    destruct (tree_eqb d zero); cbn [negb map fst snd]; rewrite IH; reflexivity.
  Qed.
  Lemma total_sg ts : sg (total p ts) = total p (map sg ts).
  Proof.
    destruct (registered_props _ _ _ Hreg) as (Hz & _ & Ha & _).
    destruct ts as [|t [|t2 l]]; cbn [total map]; [rewrite Hz; apply sg_const; cbn; tauto|reflexivity|].
    rewrite sgn, Ha. cbn [map]. rewrite sg_const by (cbn; tauto). reflexivity.
  Qed.
  Lemma set_nth_sg l i d : map sg (set_nth l i d) = set_nth (map sg l) i (sg d).
  Proof. revert i. induction l as [|a l IH]; intros [|i]; cbn [set_nth map]; try reflexivity. rewrite IH. reflexivity. Qed.

  (** The recursion commutes, provided that it does at the leaves. *)
  Lemma deriv_sg s s' e : not_applied y e ->
    (forall t, reach false [] e t -> children t = [] -> deriv p s' (sg t) = rmap sg (deriv p s t)) ->
    deriv p s' (sg e) = rmap sg (deriv p s e).
  Proof.
    destruct (registered_props _ _ _ Hreg) as (Hz & Ho & Ha & Hm & _ & Hr).
    induction e as [a|cs IH] using tree_ind_all; intros Hna Hleaf.
    { apply Hleaf; [constructor; intros []|reflexivity]. }
    destruct cs as [|f args].
    { apply Hleaf; [constructor; intros []|reflexivity]. }
    assert (Hf : sg f = f).
    { apply sg_absent. apply (Hna f args). constructor. intros []. }
    rewrite sgn. cbn [map]. rewrite Hf. cbn [deriv].
    assert (E : mapM (deriv p s') (map sg args) = rmap (map sg) (mapM (deriv p s) args)).
    { assert (H : forall c, In c args -> deriv p s' (sg c) = rmap sg (deriv p s c)).
      { intros c Hc. apply IH; [right; exact Hc| |].
        - intros h l Hrc. apply (Hna h l). eapply reach_child; [intros []| |exact Hrc]. exact Hc.
        - intros t Ht Hc0. apply Hleaf; [|exact Hc0]. eapply reach_child; [intros []| |exact Ht]. exact Hc. }
      clear -H. induction args as [|c args IH]; [reflexivity|]. cbn [map mapM]. rewrite H by (left; reflexivity).
      destruct (deriv p s c); [|reflexivity]. cbn [rmap bind]. rewrite IH by (intros; apply H; right; assumption).
      destruct (mapM (deriv p s) args); reflexivity. }
    rewrite E. destruct (mapM (deriv p s) args) as [ds|] eqn:Ed; [|reflexivity]. cbn [rmap bind].
    destruct (mem f (dp_distributive p)).
    { cbn [rmap]. rewrite sgn. cbn [map]. rewrite Hf. reflexivity. }
    assert (Hh : Forall harmless ds).
    { apply mapM_Ok_Forall2 in Ed. clear -Ed Hreg Hun Hr01. induction Ed as [|a d args ds Hd _ IH]; [constructor|].
      constructor; [eapply deriv_harmless; eauto|exact IH]. }
    rewrite (dependent_sg ds Hh).
    assert (Ht : (if tree_eqb f (dp_add p) then Ok (map snd (map (fun id => (fst id, sg (snd id))) (dependent (dp_zero p) ds)))
       else if tree_eqb f (dp_mul p) then Ok (map (fun id => Node (dp_mul p :: set_nth (map sg args) (fst id) (snd id)))
              (map (fun id => (fst id, sg (snd id))) (dependent (dp_zero p) ds)))
       else mapM (chain_term p f (map sg args)) (map (fun id => (fst id, sg (snd id))) (dependent (dp_zero p) ds))) =
      rmap (map sg) (if tree_eqb f (dp_add p) then Ok (map snd (dependent (dp_zero p) ds))
           else if tree_eqb f (dp_mul p)
           then Ok (map (fun id => Node (dp_mul p :: set_nth args (fst id) (snd id))) (dependent (dp_zero p) ds))
           else mapM (chain_term p f args) (dependent (dp_zero p) ds))).
    { destruct (tree_eqb f (dp_add p)); [cbn [rmap]; rewrite !map_map; reflexivity|].
      destruct (tree_eqb f (dp_mul p)).
      { cbn [rmap]. rewrite !map_map. f_equal. apply map_ext. intros [i d]. cbn [fst snd]. rewrite sgn. cbn [map].
        rewrite Hm, (sg_const Mul) by (cbn; tauto). rewrite set_nth_sg. reflexivity. }
      assert (Hd' : forall id, In id (dependent (dp_zero p) ds) -> harmless (snd id)).
      { intros [i d] Hin. unfold dependent in Hin. apply filter_In in Hin as [Hin _]. apply in_combine_r in Hin.
        rewrite Forall_forall in Hh. auto. }
      induction (dependent (dp_zero p) ds) as [|[i d] l IHl]; [reflexivity|]. cbn [map mapM fst snd].
      assert (Ec : chain_term p f (map sg args) (i, sg d) = rmap sg (chain_term p f args (i, d))).
      { unfold chain_term. cbn [fst snd]. destruct (dict_get rule_key_eqb (dp_rules p) (f, i)) as [sf|] eqn:Esf; [|reflexivity].
        destruct (Hr _ _ _ Esf) as (q & Hq & Hsf). rewrite (sg_rule q sf args Hq Hsf).
        destruct (subs_call sf args) as [u|]; [|reflexivity]. cbn [rmap bind]. rewrite Ho, sg_is_const; [|apply (Hd' (i, d)); left; reflexivity|cbn; auto].
        destruct (tree_eqb d one); [reflexivity|]. rewrite sgn, Hm. cbn [map]. rewrite (sg_const Mul) by (cbn; tauto). reflexivity. }
      rewrite Ec. destruct (chain_term p f args (i, d)); [|reflexivity]. cbn [rmap bind]. rewrite IHl by (intros; apply Hd'; right; assumption).
      destruct (mapM (chain_term p f args) l); reflexivity. }
    rewrite Ht. clear Ht. destruct (if tree_eqb f (dp_add p) then _ else _) as [ts|]; [|reflexivity]. cbn [rmap bind].
    rewrite total_sg. reflexivity.
  Qed.

  (** A leaf, when the variable stays. *)
  Lemma leaf_stays s : s <> Atm y -> ~ (children s = [] /\ reach false [] r s) -> no_distributive dist r ->
    forall t, children t = [] -> deriv p s (sg t) = rmap sg (deriv p s t).
  Proof.
    intros Hs Hc Hnd t Ht. destruct (registered_props _ _ _ Hreg) as (Hz & Ho & Ha & Hm & Hdist & _).
    rewrite subst_one. destruct (tree_eqb_spec t (Atm y)) as [->|Hty].
    - rewrite deriv_absent; [|exact Hc|intros h args Hh; rewrite Hdist; exact (Hnd h args Hh)].
      change (Ok (dp_zero p) = Ok (sg (if tree_eqb (Atm y) s then dp_one p else dp_zero p))).
      destruct (tree_eqb_spec (Atm y) s); [congruence|]. rewrite Hz, (sg_const zero) by (cbn; tauto). reflexivity.
    - assert (E : deriv p s t = Ok (if tree_eqb t s then one else zero)).
      { destruct t as [a|cs]; [|cbn [children] in Ht; subst cs]; cbn [deriv]; rewrite Hz, Ho; reflexivity. }
      replace (match t with Atm a => Atm a | Node cs => Node (map sg cs) end) with t
        by (destruct t as [a|cs]; [|cbn [children] in Ht; subst cs]; reflexivity).
      rewrite E. cbn [rmap]. destruct (tree_eqb t s); rewrite sg_const by (cbn; tauto); reflexivity.
  Qed.
  (** A leaf, when the variable [y] is renamed to [z]. *)
  Lemma leaf_renamed z t : r = Atm z -> children t = [] -> t <> Atm z ->
    deriv p (Atm z) (sg t) = rmap sg (deriv p (Atm y) t).
  Proof.
    intros Hrz Ht Htz. destruct (registered_props _ _ _ Hreg) as (Hz & Ho & Ha & Hm & Hdist & _).
    rewrite subst_one. destruct (tree_eqb_spec t (Atm y)) as [->|Hty].
    - assert (E : deriv p (Atm z) r = Ok one).
      { rewrite Hrz. change (Ok (if tree_eqb (Atm z) (Atm z) then dp_one p else dp_zero p) = Ok one). rewrite tree_eqb_refl, Ho. reflexivity. }
      rewrite E. change (Ok one = Ok (sg (if tree_eqb (Atm y) (Atm y) then dp_one p else dp_zero p))).
      rewrite tree_eqb_refl, Ho, (sg_const one) by (cbn; tauto). reflexivity.
    - assert (E : forall s, deriv p s t = Ok (if tree_eqb t s then one else zero)).
      { intros s. destruct t as [a|cs]; [|cbn [children] in Ht; subst cs]; cbn [deriv]; rewrite Hz, Ho; reflexivity. }
      replace (match t with Atm a => Atm a | Node cs => Node (map sg cs) end) with t
        by (destruct t as [a|cs]; [|cbn [children] in Ht; subst cs]; reflexivity).
      rewrite !E. cbn [rmap]. destruct (tree_eqb_spec t (Atm z)); [contradiction|]. destruct (tree_eqb_spec t (Atm y)); [contradiction|].
      rewrite sg_const by (cbn; tauto). reflexivity.
  Qed.
End Commute.

(** ** Repeated differentiation *)
Section Keep.
  Variables (rules : list rule) (dist : list tree) (p : diff_props) (G Hd : tree -> Prop).
  Hypothesis Hreg : registered rules dist p.
  Hypothesis G_node : forall h args, G (Node (h :: args)) <-> Hd h /\ Forall G args.
  Hypothesis G_const : G zero /\ G one /\ Hd Add /\ Hd Mul.
  Hypothesis G_atom : forall q a, In q rules -> occurs (Atm a) (r_rhs q) -> ~ In a (r_wilds q) -> G (Atm a) /\ Hd (Atm a).
  Hypothesis Hplain : forall q, In q rules -> plain (r_wilds q) (r_rhs q).

  Lemma plain_ind_all (wilds : list atom) (P : tree -> Prop) :
    (forall a, P (Atm a)) ->
    (forall b args, ~ In b wilds -> Forall (plain wilds) args -> Forall P args -> P (Node (Atm b :: args))) ->
    forall t, plain wilds t -> P t.
  Proof.
    intros Ha Hn t. induction t as [a|cs IH] using tree_ind_all; intros Hp; [apply Ha|].
    inversion Hp as [|b args Hb Hargs]; subst. apply Hn; [exact Hb|exact Hargs|].
    rewrite Forall_forall in *. intros c Hc. apply IH; [right; exact Hc|auto].
  Qed.

  Lemma instance_G q vals : In q rules -> length vals = length (r_wilds q) -> Forall G vals ->
    forall t, plain (r_wilds q) t -> (forall a, occurs (Atm a) t -> occurs (Atm a) (r_rhs q)) -> G (subst (map Atm (r_wilds q)) vals t).
  Proof.
    intros Hq Hl HG t Ht. induction Ht as [a|b args Hb Hargs IH] using plain_ind_all; intros Ho; rewrite subst_unfold.
    - assert (E : match replacement (map Atm (r_wilds q)) vals (Atm a) with Some v => G v | None => ~ In a (r_wilds q) end).
      { clear -Hl HG. revert vals Hl HG. induction (r_wilds q) as [|w ws IH]; intros [|v vs] Hl HG; try discriminate; [cbn; auto|].
        inversion HG; subst. cbn [map replacement]. specialize (IH vs). destruct (replacement (map Atm ws) vs (Atm a)).
        - apply IH; [injection Hl as Hl; exact Hl|assumption].
        - destruct (tree_eqb_spec (Atm a) (Atm w)) as [E|Hn]; [assumption|]. intros [->|H]; [congruence|].
          apply IH; [injection Hl as Hl; exact Hl|assumption|exact H]. }
      destruct (replacement _ vals (Atm a)); [exact E|]. apply (G_atom q a Hq); [apply Ho; constructor|exact E].
    - assert (E : forall t, (match t with Atm c => ~ In c (r_wilds q) | Node _ => True end) -> forall vs, replacement (map Atm (r_wilds q)) vs t = None).
      { clear. intros t Ht. induction (r_wilds q) as [|w ws IH]; intros [|v vs]; try reflexivity. cbn [map replacement]. rewrite IH.
        - destruct (tree_eqb_spec t (Atm w)) as [->|]; [|reflexivity]. exfalso. apply Ht. left. reflexivity.
        - destruct t; [|exact Logic.I]. intros H. apply Ht. right. exact H. }
      rewrite E by exact Logic.I. cbn [map]. rewrite (subst_unfold _ vals (Atm b)), E by exact Hb. apply G_node. split.
      + apply (G_atom q b Hq); [apply Ho; econstructor; [left; reflexivity|constructor]|exact Hb].
      + apply Forall_map. rewrite Forall_forall in *. intros c Hc. apply IH; [exact Hc|]. intros a Hoc. apply Ho. econstructor; [right; exact Hc|exact Hoc].
  Qed.

  Lemma set_nth_Forall (P : tree -> Prop) l i d : Forall P l -> P d -> Forall P (set_nth l i d).
  Proof. intros H Hdd. revert i. induction H as [|a l Ha Hl IH]; intros [|i]; cbn [set_nth]; constructor; auto. Qed.

  Lemma deriv_G s e d : G e -> deriv p s e = Ok d -> G d.
  Proof.
    destruct (registered_props _ _ _ Hreg) as (Hz & Ho & Ha & Hm & _ & Hr). destruct G_const as (G0 & G1 & HA & HM).
    revert d. induction e as [a|cs IH] using tree_ind_all; intros d Ge H.
    - cbn [deriv] in H. injection H as <-. rewrite Hz, Ho. match goal with |- G (if ?b then _ else _) => destruct b end; assumption.
    - destruct cs as [|f args].
      { cbn [deriv] in H. injection H as <-. rewrite Hz, Ho. match goal with |- G (if ?b then _ else _) => destruct b end; assumption. }
      apply G_node in Ge as [Hf Gargs].
      cbn [deriv] in H. apply bind_Ok in H as (ds & Hds & H).
      assert (Gds : Forall G ds).
      { apply mapM_Ok_Forall2 in Hds. apply Forall_forall. intros d' Hd'. destruct (Forall2_In_r _ _ _ _ Hds Hd') as (a & Ha' & E).
        rewrite Forall_forall in Gargs. eapply IH; [right; exact Ha'|exact (Gargs a Ha')|exact E]. }
      destruct (mem f (dp_distributive p)); [injection H as <-; apply G_node; split; assumption|].
      apply bind_Ok in H as (ts & Hts & H). injection H as <-.
      assert (Gid : forall id, In id (dependent (dp_zero p) ds) -> G (snd id)).
      { intros [i d] Hin. unfold dependent in Hin. apply filter_In in Hin as [Hin _]. apply in_combine_r in Hin. cbn [snd].
        rewrite Forall_forall in Gds. auto. }
      assert (Gts : Forall G ts).
      { destruct (tree_eqb f (dp_add p)).
        { injection Hts as <-. apply Forall_forall. intros t Ht. apply in_map_iff in Ht as (id & <- & Hid). auto. }
        destruct (tree_eqb f (dp_mul p)).
        { injection Hts as <-. apply Forall_forall. intros t Ht. apply in_map_iff in Ht as (id & <- & Hid).
          rewrite Hm. apply G_node. split; [exact HM|]. apply set_nth_Forall; auto. }
        apply mapM_Ok_Forall2 in Hts. apply Forall_forall. intros t Ht. destruct (Forall2_In_r _ _ _ _ Hts Ht) as (id & Hid & E).
        unfold chain_term in E. destruct (dict_get rule_key_eqb (dp_rules p) (f, fst id)) as [sf|] eqn:Esf; [|discriminate].
        apply bind_Ok in E as (u & Hu & E). destruct (Hr _ _ _ Esf) as (q & Hq & Hsf).
        assert (Gu : G u).
        { destruct (Nat.eq_dec (length args) (length (r_wilds q))) as [Hl|Hl].
          - destruct (in_dec tree_eq_dec (r_rhs q) (map Atm (r_wilds q))) as [Hin|Hin].
            + rewrite (subs_root_last _ _ args sf Hin) in Hu by (rewrite ?map_length; assumption).
              destruct args as [|a args _] using rev_ind; [discriminate|]. rewrite last_item_app in Hu. injection Hu as <-.
              apply Forall_app in Gargs as [_ Ga]. inversion Ga. assumption.
            + rewrite (subs_correct _ _ args sf Hin) in Hu by (rewrite ?map_length; assumption).
              injection Hu as <-. apply instance_G; auto.
          - rewrite (subs_wrong_arity _ _ args sf) with (2 := Hsf) in Hu by (rewrite map_length; exact Hl). discriminate. }
        injection E as <-. destruct (tree_eqb (snd id) (dp_one p)); [exact Gu|]. rewrite Hm. apply G_node. split; [exact HM|]. auto. }
      destruct ts as [|t [|t2 l]]; cbn [total].
      + rewrite Hz. exact G0.
      + inversion Gts; assumption.
      + rewrite Ha. apply G_node. split; assumption.
  Qed.
End Keep.

Lemma not_applied_node y h args : not_applied y (Node (h :: args)) <-> ~ occurs (Atm y) h /\ Forall (not_applied y) args.
Proof.
  split.
  - intros H. split; [apply (H h args); constructor; intros []|]. apply Forall_forall. intros c Hc h' args' Hr. apply (H h' args').
    eapply reach_child; [intros []| |exact Hr]. exact Hc.
  - intros [Hh Hargs] h' args' Hr. inversion Hr as [t Ht|t c u _ Hc Hcu]; subst; [exact Hh|].
    cbn [kids children tl] in Hc. rewrite Forall_forall in Hargs. exact (Hargs c Hc h' args' Hcu).
Qed.
Lemma not_applied_atom y a : not_applied y (Atm a).
Proof. intros h args H. inversion H as [|? c ? _ Hc]; subst. cbn [kids children tl] in Hc. destruct Hc. Qed.
Lemma not_reach_node z h args : ~ reach false [] (Node (h :: args)) (Atm z) <-> True /\ Forall (fun c => ~ reach false [] c (Atm z)) args.
Proof.
  split.
  - intros H. split; [exact Logic.I|]. apply Forall_forall. intros c Hc Hr. apply H. eapply reach_child; [intros []| |exact Hr]. exact Hc.
  - intros [_ Hargs] Hr. inversion Hr as [|? c ? _ Hc Hcu]; subst.
    cbn [kids children tl] in Hc. rewrite Forall_forall in Hargs. exact (Hargs c Hc Hcu).
Qed.
Lemma not_reach_atom z a : Atm a <> Atm z -> ~ reach false [] (Atm a) (Atm z).
Proof. intros Hn H. inversion H as [|? c ? _ Hc]; subst; [congruence|]. cbn [kids children tl] in Hc. destruct Hc. Qed.

Lemma deriv_not_applied rules dist p y s e d : registered rules dist p -> unmentioned rules y ->
  (forall q, In q rules -> plain (r_wilds q) (r_rhs q)) -> not_applied y e -> deriv p s e = Ok d -> not_applied y d.
Proof.
  intros Hreg [Hc Hu] Hpl He Hd.
  refine (deriv_G rules dist p (not_applied y) (fun h => ~ occurs (Atm y) h) Hreg (not_applied_node y) _ _ Hpl s e d He Hd).
  - repeat split; try apply not_applied_atom.
    + intros H. apply Hc. inversion H; cbn; tauto.
    + intros H. apply Hc. inversion H; cbn; tauto.
  - intros q a Hq Ho Hn. split; [apply not_applied_atom|]. intros H. inversion H; subst. auto.
Qed.
Lemma deriv_not_reach rules dist p z s e d : registered rules dist p -> unmentioned rules z ->
  (forall q, In q rules -> plain (r_wilds q) (r_rhs q)) -> ~ reach false [] e (Atm z) -> deriv p s e = Ok d -> ~ reach false [] d (Atm z).
Proof.
  intros Hreg [Hc Hu] Hpl He Hd.
  refine (deriv_G rules dist p (fun t => ~ reach false [] t (Atm z)) (fun h => True) Hreg (not_reach_node z) _ _ Hpl s e d He Hd).
  - split; [|split; [|split; exact Logic.I]]; apply not_reach_atom; intros E; apply Hc; rewrite <- E; cbn; tauto.
  - intros q a Hq Ho Hn. split; [|exact Logic.I]. apply not_reach_atom. intros [= ->]. auto.
Qed.

(** ** The code *)
Lemma xreplace_diff rules dist p y r s e d : registered rules dist p -> unmentioned rules y ->
  (r <> zero /\ r <> one) \/ (forall q, In q rules -> ~ projects q) ->
  not_applied y e -> s <> Atm y -> ~ (children s = [] /\ reach false [] r s) -> no_distributive dist r ->
  diff_forward (subst [Atm y] [r] e) s p = Ok d <-> exists d0, diff_forward e s p = Ok d0 /\ d = subst [Atm y] [r] d0.
Proof.
  intros Hreg Hun H01 Hna Hs Hr Hnd. rewrite diff_forward_deriv.
  rewrite (deriv_sg rules dist p y r Hreg Hun H01 s s e Hna) by (intros t _; apply (leaf_stays rules dist p y r Hreg Hun H01 s Hs Hr Hnd)).
  destruct (deriv p s e) as [d0|x] eqn:E; cbn [rmap].
  - apply diff_forward_deriv in E. rewrite E. split; [intros [= <-]; eauto|]. intros (d1 & [= <-] & ->). reflexivity.
  - split; [discriminate|]. intros (d1 & H & _). apply diff_forward_deriv in H. congruence.
Qed.
Lemma xreplace_diff_n rules dist p y r s n : registered rules dist p -> unmentioned rules y ->
  (r <> zero /\ r <> one) \/ (forall q, In q rules -> ~ projects q) ->
  (n <= 1 \/ forall q, In q rules -> plain (r_wilds q) (r_rhs q)) ->
  s <> Atm y -> ~ (children s = [] /\ reach false [] r s) -> no_distributive dist r -> forall e d, not_applied y e ->
  repeatM (fun t => diff_forward t s p) n (subst [Atm y] [r] e) = Ok d <->
  exists d0, repeatM (fun t => diff_forward t s p) n e = Ok d0 /\ d = subst [Atm y] [r] d0.
Proof.
  intros Hreg Hun H01 Hpl Hs Hr Hnd. induction n as [|n IH]; intros e d Hna; cbn [repeatM].
  - split; [intros [= <-]; eauto|]. intros (d0 & [= <-] & ->). reflexivity.
  - split.
    + intros H. apply bind_Ok in H as (d1 & H1 & H). apply (xreplace_diff rules dist p y r s e d1 Hreg Hun H01 Hna Hs Hr Hnd) in H1 as (d0 & H1 & ->).
      rewrite H1. cbn [bind]. destruct Hpl as [Hn|Hpl].
      * replace n with 0 in * by lia. cbn [repeatM] in *. injection H as <-. eauto.
      * apply IH; [right; exact Hpl| |exact H]. eapply deriv_not_applied; [exact Hreg|exact Hun|exact Hpl|exact Hna|]. apply diff_forward_deriv, H1.
    + intros (d0 & H & ->). apply bind_Ok in H as (d1 & H1 & H).
      assert (H2 : diff_forward (subst [Atm y] [r] e) s p = Ok (subst [Atm y] [r] d1)).
      { apply (xreplace_diff rules dist p y r s e _ Hreg Hun H01 Hna Hs Hr Hnd). eauto. }
      rewrite H2. cbn [bind]. destruct Hpl as [Hn|Hpl].
      * replace n with 0 in * by lia. cbn [repeatM] in *. injection H as <-. reflexivity.
      * apply IH; [right; exact Hpl| |eauto]. eapply deriv_not_applied; [exact Hreg|exact Hun|exact Hpl|exact Hna|]. apply diff_forward_deriv, H1.
Qed.
Lemma rename_diff rules dist p x z e d : registered rules dist p -> unmentioned rules x -> ~ In (Atm z) [zero; one] ->
  not_applied x e -> ~ reach false [] e (Atm z) ->
  diff_forward (subst [Atm x] [Atm z] e) (Atm z) p = Ok d <-> exists d0, diff_forward e (Atm x) p = Ok d0 /\ d = subst [Atm x] [Atm z] d0.
Proof.
  intros Hreg Hun Hz01 Hna Hz. rewrite diff_forward_deriv.
  assert (H01 : (Atm z <> zero /\ Atm z <> one) \/ (forall q, In q rules -> ~ projects q)).
  { left. split; intros E; apply Hz01; rewrite E; cbn; tauto. }
  rewrite (deriv_sg rules dist p x (Atm z) Hreg Hun H01 (Atm x) (Atm z) e Hna)
    by (intros t Ht Hc; apply (leaf_renamed rules dist p x (Atm z) Hreg Hun H01 z t eq_refl Hc); intros ->; contradiction).
  destruct (deriv p (Atm x) e) as [d0|err] eqn:E; cbn [rmap].
  - apply diff_forward_deriv in E. rewrite E. split; [intros [= <-]; eauto|]. intros (d1 & [= <-] & ->). reflexivity.
  - split; [discriminate|]. intros (d1 & H & _). apply diff_forward_deriv in H. congruence.
Qed.
Lemma rename_diff_n rules dist p x z n : registered rules dist p -> unmentioned rules x -> unmentioned rules z ->
  (n <= 1 \/ forall q, In q rules -> plain (r_wilds q) (r_rhs q)) -> forall e d,
  not_applied x e -> ~ reach false [] e (Atm z) ->
  repeatM (fun t => diff_forward t (Atm z) p) n (subst [Atm x] [Atm z] e) = Ok d <->
  exists d0, repeatM (fun t => diff_forward t (Atm x) p) n e = Ok d0 /\ d = subst [Atm x] [Atm z] d0.
Proof.
  intros Hreg Hun Huz Hpl. assert (Hz01 : ~ In (Atm z) [zero; one]) by (destruct Huz as [H _]; cbn in *; tauto).
  induction n as [|n IH]; intros e d Hna Hz; cbn [repeatM].
  - split; [intros [= <-]; eauto|]. intros (d0 & [= <-] & ->). reflexivity.
  - assert (Keep : forall d1, diff_forward e (Atm x) p = Ok d1 -> (forall q, In q rules -> plain (r_wilds q) (r_rhs q)) ->
                    not_applied x d1 /\ ~ reach false [] d1 (Atm z)).
    { intros d1 H1 Hp. apply diff_forward_deriv in H1. split; [eapply deriv_not_applied; eassumption|eapply deriv_not_reach; eassumption]. }
    split.
    + intros H. apply bind_Ok in H as (d1 & H1 & H). apply (rename_diff rules dist p x z e d1 Hreg Hun Hz01 Hna Hz) in H1 as (d0 & H1 & ->).
      rewrite H1. cbn [bind]. destruct Hpl as [Hn|Hpl].
      * replace n with 0 in * by lia. cbn [repeatM] in *. injection H as <-. eauto.
      * destruct (Keep d0 H1 Hpl). apply IH; auto.
    + intros (d0 & H & ->). apply bind_Ok in H as (d1 & H1 & H).
      assert (H2 : diff_forward (subst [Atm x] [Atm z] e) (Atm z) p = Ok (subst [Atm x] [Atm z] d1)).
      { apply (rename_diff rules dist p x z e _ Hreg Hun Hz01 Hna Hz). eauto. }
      rewrite H2. cbn [bind]. destruct Hpl as [Hn|Hpl].
      * replace n with 0 in * by lia. cbn [repeatM] in *. injection H as <-. reflexivity.
      * destruct (Keep d1 H1 Hpl). apply IH; eauto.
Qed.
