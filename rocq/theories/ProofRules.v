(** * Differentiation with user rules: proofs for C62 *)
From Coq Require Import Reals Lra.
From Verif Require Import Py ModelTree SpecTree ProofBase ModelDiff SpecDiff ProofDiff ModelSym ModelCas SpecReal ProofReal SpecRules.
Local Open Scope R_scope.

(** ** value *)
Lemma value_node I env h args v : value I env (Node (h :: args)) = Some v <->
  exists vs, Forall2 (fun a w => value I env a = Some w) args vs /\ op_value I h vs = Some v.
Proof.
  cbn [value]. split.
  - destruct (all_defined (value I env) args) as [vs|] eqn:E; [|discriminate].
    intros H. exists vs. split; [apply all_defined_Forall2, E|exact H].
  - intros (vs & H1 & H2). apply all_defined_Forall2 in H1. rewrite H1. exact H2.
Qed.
Lemma value_ext I env env' e : (forall a, env a = env' a) -> value I env e = value I env' e.
Proof.
  intros H. induction e as [a|cs IH] using tree_ind_all; [cbn [value]; rewrite H; reflexivity|].
  destruct cs as [|h args]; [reflexivity|]. cbn [value].
  rewrite (all_defined_ext (value I env) (value I env') args); [reflexivity|]. intros a Ha. apply IH. right. exact Ha.
Qed.
Lemma set_atom_same env a x0 b : env a = Some x0 -> set_atom env a x0 b = env b.
Proof. intros H. unfold set_atom. destruct (atom_eqb_spec b a) as [->|_]; congruence. Qed.
Lemma set_atom_twice env a u u' b : set_atom (set_atom env a u) a u' b = set_atom env a u' b.
Proof. unfold set_atom. destruct (atom_eqb b a); reflexivity. Qed.
Lemma set_atom_here env a u : set_atom env a u a = Some u.
Proof. unfold set_atom. destruct (atom_eqb_spec a a); congruence. Qed.
Lemma value_zero I env : value I env zero = Some 0. Proof. reflexivity. Qed.
Lemma value_one I env : value I env one = Some 1. Proof. reflexivity. Qed.

Section Here.
  Context (I : interpretation) (env : valuation) (a : atom) (x0 : R).
  Hypothesis Ha : env a = Some x0.
  Lemma value_here e : value I (set_atom env a x0) e = value I env e.
  Proof. apply value_ext. intros b. apply set_atom_same, Ha. Qed.
  (** has a local function with that derivative *)
  Definition local (e : tree) (F : R -> R) (l : R) : Prop :=
    derivable_pt_lim F x0 l /\ value I env e = Some (F x0) /\
    exists delta, 0 < delta /\ forall u, Rabs (u - x0) < delta -> value I (set_atom env a u) e = Some (F u).
  Lemma derivative_local e l : derivative_is I env e a l <-> exists F, local e F l.
  Proof.
    split.
    - intros (x1 & F & delta & E & Hd & H & HF). rewrite Ha in E. injection E as <-. exists F. split; [exact HF|].
      split; [|eauto]. rewrite <- value_here. apply H. rewrite Rminus_diag_eq by reflexivity. rewrite Rabs_R0. exact Hd.
    - intros (F & HF & _ & delta & Hd & H). exists x0, F, delta. auto.
  Qed.
  Lemma common_delta args Fs ls : Forall2 (fun e Fl => local e (fst Fl) (snd Fl)) args (combine Fs ls) -> length Fs = length ls ->
    exists delta, 0 < delta /\ forall u, Rabs (u - x0) < delta ->
      Forall2 (fun e w => value I (set_atom env a u) e = Some w) args (map (fun F => F u) Fs).
  Proof.
    revert Fs ls. induction args as [|e args IH]; intros Fs ls H Hl.
    - inversion H as [E|]. destruct Fs, ls; try discriminate. exists 1. split; [lra|]. constructor.
    - destruct Fs as [|F Fs], ls as [|l ls]; try discriminate; try (inversion H; fail).
      cbn [combine] in H. inversion H as [|? ? ? ? (_ & _ & d1 & Hd1 & H1) Hr]; subst.
      destruct (IH Fs ls Hr ltac:(simpl in Hl; lia)) as (d2 & Hd2 & H2). exists (Rmin d1 d2).
      split; [apply Rmin_glb_lt; assumption|]. intros u Hu. cbn [map]. constructor.
      + apply H1. eapply Rlt_le_trans; [exact Hu|apply Rmin_l].
      + apply H2. eapply Rlt_le_trans; [exact Hu|apply Rmin_r].
  Qed.
End Here.

(** ** The terms of a derivative, for any way of giving values *)
Section Terms.
  Context (ev : tree -> option R).
  Hypothesis ev_zero : ev zero = Some 0.
  Lemma g_sum_values ds vs : Forall2 (fun a w => ev a = Some w) (map snd (dependent zero ds)) vs ->
    exists ls, Forall2 (fun a w => ev a = Some w) ds ls /\ Rsum vs = Rsum ls.
  Proof.
    revert vs. induction ds as [|d ds IH]; intros vs H.
    - inversion H. exists []. split; [constructor|reflexivity].
    - rewrite dependent_cons, map_app, map_map in H. cbn [snd] in H.
      destruct (tree_eqb_spec d zero) as [->|Hne]; cbn [map app] in H.
      + destruct (IH vs) as (ls & H1 & H2); [exact H|]. exists (0 :: ls).
        split; [constructor; [exact ev_zero|exact H1]|]. simpl. rewrite H2. ring.
      + inversion H as [|? w ? ws Hw Hws]; subst. destruct (IH ws Hws) as (ls & H1 & H2).
        exists (w :: ls). split; [constructor; assumption|]. simpl. rewrite H2. reflexivity.
  Qed.
  Lemma g_prod_values args ds vals : length ds = length args ->
    Forall2 (fun a w => ev a = Some w) args vals ->
    forall vs, Forall2 (fun l w => exists ws, Forall2 (fun a w => ev a = Some w) l ws /\ w = Rprod ws)
      (map (fun id => set_nth args (fst id) (snd id)) (dependent zero ds)) vs ->
    exists ls, Forall2 (fun a w => ev a = Some w) ds ls /\ Rsum vs = prod_deriv vals ls.
  Proof.
    intros Hlen Hargs. revert ds Hlen. induction Hargs as [|a v args vals Ha Hargs IH]; intros ds Hlen vs H.
    - destruct ds; [|discriminate]. inversion H. exists []. split; [constructor|reflexivity].
    - destruct ds as [|d ds]; [discriminate|]. injection Hlen as Hlen.
      rewrite dependent_cons, map_app, map_map in H. cbn [fst snd set_nth] in H.
      apply Forall2_app_inv_l in H as (vs1 & vs2 & H1 & H2 & ->).
      assert (Hrest : exists us, Forall2 (fun l w => exists ws, Forall2 (fun a w => ev a = Some w) l ws /\ w = Rprod ws)
                (map (fun id => set_nth args (fst id) (snd id)) (dependent zero ds)) us /\ Rsum vs2 = v * Rsum us).
      { clear -H2 Ha. revert vs2 H2. generalize (dependent zero ds) as ids.
        induction ids as [|id ids IHi]; intros vs2 H2.
        - inversion H2. exists []. split; [constructor|]. simpl. ring.
        - inversion H2 as [|? w ? ws (us & Hus & ->) Hws]; subst.
          destruct (IHi ws Hws) as (rs & Hrs & E).
          inversion Hus as [|? w1 ? us' Hw1 Hus']; subst. rewrite Ha in Hw1. injection Hw1 as <-.
          exists (Rprod us' :: rs). split; [constructor; [eauto|exact Hrs]|]. simpl. rewrite E. ring. }
      destruct Hrest as (us & Hus & E2). destruct (IH ds Hlen us Hus) as (ls & Hls & E).
      assert (Hsum : Rsum (vs1 ++ vs2) = Rsum vs1 + Rsum vs2).
      { clear. induction vs1; simpl; [ring|rewrite IHvs1; ring]. }
      destruct (tree_eqb_spec d zero) as [->|Hne]; cbn [map] in H1.
      + inversion H1; subst. exists (0 :: ls). split; [constructor; [exact ev_zero|exact Hls]|].
        simpl. rewrite E2, E. ring.
      + inversion H1 as [|? w ? ws (us1 & Hus1 & ->) Hws]; subst. inversion Hws; subst. clear Hws H1.
        inversion Hus1 as [|? dv ? us' Hdv Hus']; subst.
        assert (us' = vals) as ->.
        { clear -Hus' Hargs. revert us' Hus'. induction Hargs as [|a v args vals Ha _ IH]; intros us' H; inversion H; subst; [reflexivity|].
          f_equal; [congruence|auto]. }
        exists (dv :: ls). split; [constructor; assumption|].
        rewrite Hsum. simpl. rewrite E2, E. ring.
  Qed.
End Terms.

(** ** Substitution *)
Lemma all_defined_map {A B C} (f : B -> option C) (g : A -> B) l : all_defined f (map g l) = all_defined (fun a => f (g a)) l.
Proof. induction l as [|a l IH]; cbn [map all_defined]; [reflexivity|]. rewrite IH. reflexivity. Qed.
Lemma bind_wilds_absent env ws vs b : ~ In b ws -> bind_wilds env ws vs b = env b.
Proof.
  revert vs. induction ws as [|w ws IH]; intros [|v vs] H; cbn [bind_wilds]; try reflexivity. unfold set_atom.
  destruct (atom_eqb_spec b w) as [->|_]; [elim H; left; reflexivity|]. apply IH. intros Hb. apply H. right. exact Hb.
Qed.
Lemma replacement_wilds I env ws us vs b : NoDup ws -> Forall2 (fun u v => value I env u = Some v) us vs -> length us = length ws ->
  match replacement (map Atm ws) us (Atm b) with
  | Some u => In b ws /\ value I env u = bind_wilds env ws vs b
  | None => ~ In b ws
  end.
Proof.
  intros Hnd. revert us vs. induction Hnd as [|w ws Hw _ IH]; intros us vs H Hl.
  - destruct us; [|discriminate]. cbn. auto.
  - destruct us as [|u us]; [discriminate|]. inversion H as [|? v ? vr Hu Hr]; subst.
    cbn [map replacement]. specialize (IH us vr Hr ltac:(simpl in Hl; lia)).
    destruct (replacement (map Atm ws) us (Atm b)) as [u'|].
    + destruct IH as [Hb E]. split; [right; exact Hb|]. cbn [bind_wilds]. unfold set_atom.
      destruct (atom_eqb_spec b w) as [->|_]; [contradiction|]. exact E.
    + destruct (tree_eqb_spec (Atm b) (Atm w)) as [E|E].
      * injection E as ->. split; [left; reflexivity|]. cbn [bind_wilds]. rewrite set_atom_here. exact Hu.
      * intros [->|Hb]; [congruence|contradiction].
Qed.
Lemma replacement_node ws us cs : replacement (map Atm ws) us (Node cs) = None.
Proof.
  revert us. induction ws as [|w ws IH]; intros [|u us]; cbn [map replacement]; try reflexivity. rewrite IH. reflexivity.
Qed.
Lemma plain_ind_all (ws : list atom) (P : tree -> Prop) :
  (forall a, P (Atm a)) ->
  (forall b args, ~ In b ws -> Forall P args -> P (Node (Atm b :: args))) ->
  forall t, plain ws t -> P t.
Proof.
  intros H1 H2. fix rec 2. intros t Ht. destruct Ht as [a|b args Hb Hargs]; [apply H1|]. apply H2; [exact Hb|].
  induction Hargs as [|t l Ht _ IH]; constructor; [apply rec, Ht|exact IH].
Qed.
Lemma value_subst I env ws us vs t : NoDup ws -> (forall w, In w ws -> integer_atom w = None) -> length us = length ws ->
  Forall2 (fun u v => value I env u = Some v) us vs -> plain ws t ->
  value I env (subst (map Atm ws) us t) = value I (bind_wilds env ws vs) t.
Proof.
  intros Hnd Hint Hl Hv Hp. induction Hp as [b|b args Hb IH] using plain_ind_all.
  - cbn [subst]. pose proof (replacement_wilds I env ws us vs b Hnd Hv Hl) as H.
    destruct (replacement (map Atm ws) us (Atm b)) as [u|].
    + destruct H as [Hin E]. cbn [value]. rewrite (Hint b Hin). exact E.
    + cbn [value]. destruct (integer_atom b); [reflexivity|]. symmetry. apply bind_wilds_absent, H.
  - cbn [subst]. rewrite replacement_node. cbn [map].
    assert (Eh : subst (map Atm ws) us (Atm b) = Atm b).
    { cbn [subst]. pose proof (replacement_wilds I env ws us vs b Hnd Hv Hl) as H.
      destruct (replacement (map Atm ws) us (Atm b)) as [u|]; [destruct H; contradiction|reflexivity]. }
    rewrite Eh. cbn [value]. rewrite all_defined_map.
    assert (E : all_defined (fun a => value I env (subst (map Atm ws) us a)) args = all_defined (value I (bind_wilds env ws vs)) args).
    { apply all_defined_ext. intros a Ha. apply (proj1 (Forall_forall _ _) IH a Ha). }
    rewrite E. reflexivity.
Qed.

(** ** What is registered *)
Lemma registered_spec rules dist p : registered rules dist p -> Forall well_formed rules ->
  dp_zero p = zero /\ dp_one p = one /\ dp_add p = Add /\ dp_mul p = Mul /\
  (forall h, mem h (dp_distributive p) = true <-> In h dist) /\
  forall f k, match rule_for rules f k with
              | Some r => In r rules /\ exists sf, dict_get rule_key_eqb (dp_rules p) (f, k) = Some sf /\ subs_new (r_rhs r) (map Atm (r_wilds r)) = Ok sf
              | None => dict_get rule_key_eqb (dp_rules p) (f, k) = None
              end.
Proof.
  induction 1 as [|rules dist p p' r w Hreg IH Hw Hset|rules dist p h Hreg IH]; intros Hwf.
  - repeat (split; [reflexivity|]). split; [|intros f k; reflexivity]. intros h. cbn. split; [discriminate|tauto].
  - inversion Hwf as [|? ? (Hnd & _) Hwf']; subst. destruct (IH Hwf') as (Hz & Ho & Ha & Hm & Hd & Hr).
    destruct (Nat.eq_dec (count (map Atm (r_wilds r)) (Atm w)) 1) as [Hc|Hc].
    + destruct (diff_setitem_ok p _ (Atm w) (r_rhs r) (r_head r) (map Atm (r_wilds r)) eq_refl Hc) as (i & sf & Hi & Hsf & E).
      rewrite E in Hset. injection Hset as <-.
      assert (Ei : i = r_index r).
      { assert (Hi' : nth_error (r_wilds r) i = Some w).
        { rewrite nth_error_map in Hi. destruct (nth_error (r_wilds r) i); [|discriminate]. injection Hi as <-. reflexivity. }
        apply (proj1 (NoDup_nth_error (r_wilds r)) Hnd); [|congruence]. apply nth_error_Some. congruence. }
      subst i. cbn [add_diff_rule dp_zero dp_one dp_add dp_mul dp_distributive dp_rules].
      repeat (split; [assumption|]). intros f k. cbn [rule_for].
      rewrite (dict_get_set rule_key_eqb rule_key_eqb_spec). unfold rule_key_eqb at 1 3. cbn [fst snd].
      destruct (tree_eqb_spec (r_head r) f) as [Ef|Ef].
      * destruct (Nat.eqb_spec (r_index r) k) as [Ek|Ek]; cbn [andb].
        -- subst f k. rewrite tree_eqb_refl, Nat.eqb_refl. cbn [andb]. split; [left; reflexivity|]. eauto.
        -- destruct (Nat.eqb_spec k (r_index r)) as [->|_]; [congruence|]. rewrite andb_false_r.
           specialize (Hr f k). destruct (rule_for rules f k) as [r'|]; [|exact Hr]. destruct Hr as [Hin Hr]. split; [right; exact Hin|exact Hr].
      * cbn [andb]. destruct (tree_eqb_spec f (r_head r)) as [->|_]; [congruence|]. cbn [andb].
        specialize (Hr f k). destruct (rule_for rules f k) as [r'|]; [|exact Hr]. destruct Hr as [Hin Hr]. split; [right; exact Hin|exact Hr].
    + destruct (diff_setitem_bad p (STuple [tree_call (r_head r) (map Atm (r_wilds r)); Atm w]) (r_rhs r) p') with (r := Ok tt) as [_ [?|(e & s & _ & _ & ?)]]; try discriminate; [|exact Hset].
      intros h args sym E. injection E as _ <- <-. exact Hc.
  - destruct (IH Hwf) as (Hz & Ho & Ha & Hm & Hd & Hr). cbn [add_distributive dp_zero dp_one dp_add dp_mul dp_distributive dp_rules].
    repeat (split; [assumption|]). split; [|exact Hr]. intros h'. unfold set_add.
    cbn [In]. rewrite <- Hd. destruct (mem_spec h (dp_distributive p)) as [Hin|Hn].
    + split; [auto|]. intros [<-|H]; [apply mem_true, Hin|exact H].
    + rewrite !mem_true, in_app_iff. cbn [In]. tauto.
Qed.

(** The value of a rule after substitution. *)
Lemma rule_value I env rules f k r sf us vs t : rule_for rules f k = Some r -> well_formed r ->
  subs_new (r_rhs r) (map Atm (r_wilds r)) = Ok sf -> subs_call sf us = Ok t ->
  Forall2 (fun u v => value I env u = Some v) us vs ->
  partial I env rules f k vs = value I env t.
Proof.
  intros Hr (Hnd & Hint & Hpl & Hlast) Hsf Ht Hv. unfold partial. rewrite Hr.
  assert (Hlv : length us = length vs) by (clear -Hv; induction Hv; simpl; congruence).
  destruct (Nat.eq_dec (length us) (length (map Atm (r_wilds r)))) as [Hl|Hl].
  2:{ exfalso. destruct (ProofTree.subs_arity (r_rhs r) (map Atm (r_wilds r))) as (sf' & E & H & _).
      rewrite Hsf in E. injection E as <-. rewrite (H us Hl) in Ht. discriminate. }
  assert (Hl' := Hl). rewrite map_length in Hl'. rewrite <- Hlv, Hl', Nat.eqb_refl.
  assert (E : t = subst (map Atm (r_wilds r)) us (r_rhs r)).
  { enough (H : (do sf <- subs_new (r_rhs r) (map Atm (r_wilds r)); subs_call sf us) = Ok (subst (map Atm (r_wilds r)) us (r_rhs r))).
    { rewrite Hsf in H. cbn [bind] in H. congruence. }
    apply ProofTree.subs_correct_iff; [exact Hl|]. intros Hin.
    apply in_map_iff in Hin as (w & Ew & Hin). apply In_nth_error in Hin as (i & Hi).
    pose proof (Hlast i w Hi (eq_sym Ew)) as Hsi. rewrite <- Ew. clear -Hi Hsi Hl' Hnd.
    destruct (r_wilds r) as [|w0 ws0 _] using rev_ind; [destruct i; discriminate|].
    rewrite app_length in *. cbn [length] in *. assert (i = length ws0) by lia. subst i.
    rewrite nth_error_app2, Nat.sub_diag in Hi by lia. injection Hi as ->.
    destruct us as [|u us _] using rev_ind; [simpl in Hl'; lia|]. rewrite app_length in Hl'. cbn [length] in Hl'.
    rewrite map_app. cbn [map]. unfold last_item. rewrite rev_app_distr. cbn [rev app]. f_equal. cbn [subst].
    assert (H : replacement (map Atm ws0 ++ [Atm w]) (us ++ [u]) (Atm w) = Some u).
    { clear -Hl'. assert (Hl : length us = length ws0) by lia. clear Hl'. revert us Hl. induction ws0 as [|b ws IH]; intros [|v us] Hl; try discriminate.
      - cbn [map app replacement]. rewrite tree_eqb_refl. reflexivity.
      - cbn [map app replacement]. rewrite IH by (simpl in Hl; lia). reflexivity. }
    rewrite H. reflexivity. }
  subst t. symmetry. apply value_subst; assumption.
Qed.

(** ** Local functions for all arguments *)
Lemma constant_on F x0 delta v : (forall u, Rabs (u - x0) < delta -> derivable_pt_lim F u 0) -> F x0 = v ->
  forall u, Rabs (u - x0) < delta -> F u = v.
Proof.
  intros H Hv u Hu. destruct (Rtotal_order u x0) as [Hlt|[->|Hgt]]; [|exact Hv|].
  - destruct (MVT_cor2 F (fun _ => 0) u x0 Hlt) as (c & Hc & _).
    + intros c Hc. apply H. apply Rabs_def1; apply Rabs_def2 in Hu; lra.
    + lra.
  - destruct (MVT_cor2 F (fun _ => 0) x0 u Hgt) as (c & Hc & _).
    + intros c Hc. apply H. apply Rabs_def1; apply Rabs_def2 in Hu; lra.
    + lra.
Qed.

Section Main.
  Context (I : interpretation) (rules : list rule) (dist : list tree) (p : diff_props) (a : atom).
  Hypothesis Hreg : registered rules dist p.
  Hypothesis Hwf : Forall well_formed rules.
  Hypothesis Hright : forall f, rules_right I rules f.
  Hypothesis Hlin : forall h, In h dist -> linear I h.
  Hypothesis Hint : integer_atom a = None.

  Definition correct (e : tree) : Prop := forall env x0 d v v', env a = Some x0 ->
    deriv p (Atm a) e = Ok d -> value I env e = Some v -> value I env d = Some v' -> derivative_is I env e a v'.

  Lemma arg_local env x0 e d v l : env a = Some x0 -> correct e -> deriv p (Atm a) e = Ok d ->
    value I env e = Some v -> value I env d = Some l ->
    exists F, local I env a x0 e F l /\ (d = zero -> F = fun _ => v).
  Proof.
    intros Ha Hc Hd Hv Hl. pose proof (Hc env x0 d v l Ha Hd Hv Hl) as H.
    destruct (proj1 (derivative_local I env a x0 Ha e l) H) as (F & HF & HFx & delta & Hdel & Hnear).
    destruct (tree_eq_dec d zero) as [->|Hne]; [|exists F; split; [split; eauto|contradiction]].
    exists (fun _ => v). split; [|reflexivity]. rewrite value_zero in Hl. injection Hl as <-.
    split; [apply (derivable_pt_lim_const v)|]. split; [exact Hv|]. exists delta. split; [exact Hdel|].
    assert (Hconst : forall u, Rabs (u - x0) < delta -> F u = v).
    { apply constant_on; [|congruence]. intros u Hu.
      assert (Hu' : set_atom env a u a = Some u) by apply set_atom_here.
      pose proof (Hc (set_atom env a u) u zero (F u) 0 Hu' Hd (Hnear u Hu) (value_zero _ _)) as H'.
      destruct (proj1 (derivative_local I _ a u Hu' e 0) H') as (F' & HF' & HFu & d' & Hd' & Hn').
      intros eps Heps. destruct (HF' eps Heps) as (d1 & H1).
      pose (r := Rmin d1 (Rmin d' (delta - Rabs (u - x0)))).
      assert (Hr : 0 < r) by (unfold r; repeat apply Rmin_glb_lt; [apply cond_pos|exact Hd'|lra]).
      exists (mkposreal r Hr). cbn [pos]. intros h Hh Hhr.
      assert (Hh1 : Rabs h < d1) by (eapply Rlt_le_trans; [exact Hhr|apply Rmin_l]).
      assert (Hh2 : Rabs h < d') by (eapply Rlt_le_trans; [exact Hhr|]; unfold r; eapply Rle_trans; [apply Rmin_r|apply Rmin_l]).
      assert (Hh3 : Rabs h < delta - Rabs (u - x0)) by (eapply Rlt_le_trans; [exact Hhr|]; unfold r; eapply Rle_trans; [apply Rmin_r|apply Rmin_r]).
      assert (E1 : F (u + h) = F' (u + h)).
      { assert (E : value I (set_atom (set_atom env a u) a (u + h)) e = Some (F' (u + h))).
        { apply Hn'. replace (u + h - u) with h by ring. exact Hh2. }
        rewrite (value_ext I _ (set_atom env a (u + h)) e (fun b => set_atom_twice env a u (u + h) b)) in E.
        rewrite Hnear in E; [congruence|]. replace (u + h - x0) with (h + (u - x0)) by ring.
        eapply Rle_lt_trans; [apply Rabs_triang|]. lra. }
      assert (E2 : F u = F' u) by (rewrite (Hnear u Hu) in HFu; congruence).
      rewrite E1, E2. apply H1; assumption. }
    intros u Hu. rewrite (Hnear u Hu), (Hconst u Hu). reflexivity.
  Qed.

  Lemma args_local env x0 args ds vals ls : env a = Some x0 -> Forall correct args ->
    mapM (deriv p (Atm a)) args = Ok ds ->
    Forall2 (fun e v => value I env e = Some v) args vals -> Forall2 (fun e v => value I env e = Some v) ds ls ->
    exists Fs, length Fs = length ls /\ Forall2 (fun e Fl => local I env a x0 e (fst Fl) (snd Fl)) args (combine Fs ls) /\
      map (fun F => F x0) Fs = vals /\ Forall2 (fun d F => d = zero -> F = fun _ => F x0) ds Fs /\
      Forall2 (fun F l => derivable_pt_lim F x0 l) Fs ls.
  Proof.
    intros Ha Hc. revert ds vals ls. induction Hc as [|e args He _ IH]; intros ds vals ls Hd Hv Hl.
    - injection Hd as <-. inversion Hv; subst. inversion Hl; subst. exists []. repeat split; constructor.
    - cbn [mapM] in Hd. destruct (deriv p (Atm a) e) as [d|] eqn:E; [|discriminate]. cbn [bind] in Hd.
      destruct (mapM (deriv p (Atm a)) args) as [dr|] eqn:Er; [|discriminate]. injection Hd as <-.
      inversion Hv as [|? v ? vr Hv1 Hvr]; subst. inversion Hl as [|? l ? lr Hl1 Hlr]; subst.
      destruct (IH dr vr lr eq_refl Hvr Hlr) as (Fs & H1 & H2 & H3 & H4 & H5).
      destruct (arg_local env x0 e d v l Ha He E Hv1 Hl1) as (F & HF & Hz).
      assert (EF : F x0 = v) by (destruct HF as (_ & HFx & _); congruence).
      exists (F :: Fs). cbn [length combine map]. split; [congruence|]. split; [constructor; assumption|].
      split; [congruence|]. split; [|constructor; [apply HF|exact H5]]. constructor; [|exact H4].
      intros ->. rewrite EF. apply Hz. reflexivity.
  Qed.

  Lemma chain_values env f args vals : Forall2 (fun e v => value I env e = Some v) args vals ->
    forall ds n ts tvs,
    mapM (chain_term p f args) (filter (fun id => negb (tree_eqb (snd id) zero)) (combine (seq n (length ds)) ds)) = Ok ts ->
    Forall2 (fun e v => value I env e = Some v) ts tvs ->
    exists ps ls, length ps = length ds /\ Forall2 (fun e v => value I env e = Some v) ds ls /\
      (forall k d, nth_error ds k = Some d -> d <> zero -> partial I env rules f (n + k) vals = Some (nth k ps 0)) /\
      Rsum tvs = Rsum (map (fun pl => fst pl * snd pl) (combine ps ls)).
  Proof.
    intros Hv. destruct (registered_spec rules dist p Hreg Hwf) as (Hz & Ho & _ & Hm & _ & Hr).
    induction ds as [|d ds IH]; intros n ts tvs Hts Htv.
    - injection Hts as <-. inversion Htv; subst. exists [], []. repeat split; [constructor|]. intros k d Hk. destruct k; discriminate.
    - cbn [length seq combine filter snd] in Hts. destruct (tree_eqb_spec d zero) as [->|Hne]; cbn [negb] in Hts.
      + destruct (IH (S n) ts tvs Hts Htv) as (ps & ls & H1 & H2 & H3 & H4). exists (0 :: ps), (0 :: ls).
        cbn [length combine map fst snd]. split; [congruence|]. split; [constructor; [apply value_zero|exact H2]|]. split.
        * intros [|k] d Hk Hne; [cbn in Hk; congruence|]. cbn [nth]. rewrite <- (H3 k d Hk Hne). f_equal. lia.
        * rewrite H4. unfold Rsum. cbn [fold_right]. ring.
      + cbn [mapM] in Hts. unfold chain_term at 1 in Hts. cbn [fst snd] in Hts. specialize (Hr f n).
        destruct (rule_for rules f n) as [r|] eqn:Er; [|rewrite Hr in Hts; discriminate].
        destruct Hr as (Hin & sf & Hget & Hsf). rewrite Hget in Hts. destruct (subs_call sf args) as [t|] eqn:Et; [|discriminate].
        cbn [bind] in Hts. destruct (mapM (chain_term p f args) _) as [tr|] eqn:Etr in Hts; [|discriminate]. injection Hts as <-.
        inversion Htv as [|? w ? wr Hw Hwr]; subst. destruct (IH (S n) tr wr Etr Hwr) as (ps & ls & H1 & H2 & H3 & H4).
        assert (Hpart : partial I env rules f n vals = value I env t).
        { eapply rule_value; eauto. apply (proj1 (Forall_forall _ _) Hwf r Hin). }
        assert (Hex : exists q l, value I env t = Some q /\ value I env d = Some l /\ w = q * l).
        { rewrite Ho, Hm in Hw. destruct (tree_eqb_spec d one) as [->|_].
          - exists w, 1. rewrite value_one. repeat split; [exact Hw|ring].
          - apply value_node in Hw as (vs & Hvs & Hop). inversion Hvs as [|? q ? vs1 Hq Hvs1]; subst.
            inversion Hvs1 as [|? l ? vs2 Hl Hvs2]; subst. inversion Hvs2; subst. exists q, l. repeat split; try assumption.
            unfold op_value in Hop. change (tree_eqb Mul Add) with false in Hop. rewrite tree_eqb_refl in Hop. cbn [fold_right] in Hop.
            injection Hop as <-. ring. }
        destruct Hex as (q & l & Hq & Hl & ->). exists (q :: ps), (l :: ls). cbn [length combine map fst snd].
        split; [congruence|]. split; [constructor; assumption|]. split.
        * intros [|k] d' Hk Hne'; cbn [nth].
          -- replace (n + 0)%nat with n by lia. congruence.
          -- rewrite <- (H3 k d' Hk Hne'). f_equal. lia.
        * unfold Rsum in *. cbn [fold_right]. rewrite H4. reflexivity.
  Qed.

  (** How the arguments move. *)
  Fixpoint legs_of (ds : list tree) (Fs : list (R -> R)) (ls ps : list R) (x0 : R) : list leg :=
    match ds, Fs, ls, ps with
    | d :: ds', F :: Fs', l :: ls', q :: ps' =>
        (if tree_eqb d zero then Still (F x0) else Moving F l q) :: legs_of ds' Fs' ls' ps' x0
    | _, _, _, _ => []
    end.
  Lemma legs_place ds Fs ls ps x0 u : Forall2 (fun d F => d = zero -> F = fun _ : R => F x0) ds Fs ->
    length Fs = length ls -> length ps = length ds ->
    map (place u) (legs_of ds Fs ls ps x0) = map (fun F => F u) Fs.
  Proof.
    intros H. revert ls ps. induction H as [|d F ds Fs HF _ IH]; intros [|l ls] [|q ps] H1 H2; try discriminate; [reflexivity|].
    cbn [legs_of map]. rewrite IH by (simpl in *; lia). f_equal.
    destruct (tree_eqb_spec d zero) as [Hz|_]; [|reflexivity]. cbn [place]. rewrite (HF Hz). reflexivity.
  Qed.
  Lemma legs_contribution env ds Fs ls ps x0 : Forall2 (fun e v => value I env e = Some v) ds ls ->
    length Fs = length ls -> length ps = length ds ->
    Rsum (map contribution (legs_of ds Fs ls ps x0)) = Rsum (map (fun pl => fst pl * snd pl) (combine ps ls)).
  Proof.
    intros H. revert Fs ps. induction H as [|d l ds ls Hd _ IH]; intros [|F Fs] [|q ps] H1 H2; try discriminate; [reflexivity|].
    cbn [legs_of map combine fst snd]. unfold Rsum in *. cbn [fold_right]. rewrite IH by (simpl in *; lia).
    destruct (tree_eqb_spec d zero) as [->|_]; cbn [contribution]; [|reflexivity].
    rewrite value_zero in Hd. injection Hd as <-. ring.
  Qed.
  Lemma legs_nth ds Fs ls ps x0 k g d l : nth_error (legs_of ds Fs ls ps x0) k = Some (Moving g d l) ->
    exists d', nth_error ds k = Some d' /\ d' <> zero /\ nth_error Fs k = Some g /\ nth_error ls k = Some d /\ l = nth k ps 0.
  Proof.
    revert Fs ls ps k. induction ds as [|d' ds IH]; intros [|F Fs] [|l' ls] [|q ps] k H; cbn [legs_of] in H; try (destruct k; discriminate).
    destruct k as [|k]; [|apply (IH _ _ _ _ H)]. cbn [nth_error] in H. destruct (tree_eqb_spec d' zero) as [|Hne]; [discriminate|].
    injection H as -> -> ->. exists d'. auto.
  Qed.

  Lemma total_values env ts v : value I env (total p ts) = Some v ->
    exists vs, Forall2 (fun e w => value I env e = Some w) ts vs /\ v = Rsum vs.
  Proof.
    destruct (registered_spec rules dist p Hreg Hwf) as (Hz & _ & Had & _).
    destruct ts as [|t [|t2 ts]]; cbn [total]; intros H.
    - exists []. split; [constructor|]. rewrite Hz, value_zero in H. injection H as <-. reflexivity.
    - exists [v]. split; [repeat constructor; exact H|]. simpl. ring.
    - rewrite Had in H. apply value_node in H as (vs & H1 & H2). exists vs. split; [exact H1|].
      unfold op_value in H2. rewrite tree_eqb_refl in H2. injection H2 as <-. reflexivity.
  Qed.

  Lemma near_op env x0 h args Fs ls l G delta : env a = Some x0 -> length Fs = length ls ->
    Forall2 (fun e Fl => local I env a x0 e (fst Fl) (snd Fl)) args (combine Fs ls) ->
    0 < delta -> (forall u, Rabs (u - x0) < delta -> op_value I h (map (fun F => F u) Fs) = Some (G u)) ->
    derivable_pt_lim G x0 l -> derivative_is I env (Node (h :: args)) a l.
  Proof.
    intros Ha Hlen Hloc Hd HG HG'. destruct (common_delta I env a x0 args Fs ls Hloc Hlen) as (d2 & Hd2 & H2).
    exists x0, G, (Rmin delta d2). split; [exact Ha|]. split; [apply Rmin_glb_lt; assumption|]. split; [|exact HG'].
    intros u Hu. apply value_node. exists (map (fun F => F u) Fs). split.
    - apply H2. eapply Rlt_le_trans; [exact Hu|apply Rmin_r].
    - apply HG. eapply Rlt_le_trans; [exact Hu|apply Rmin_l].
  Qed.

  Theorem all_correct e : correct e.
  Proof.
    induction e as [b|cs IH] using tree_ind_all; intros env x0 d v v' Ha Hd Hv Hv';
    destruct (registered_spec rules dist p Hreg Hwf) as (Hz & Ho & Had & Hm & Hdist & Hrules).
    - cbn [deriv] in Hd. rewrite Ho, Hz in Hd. destruct (tree_eqb_spec (Atm b) (Atm a)) as [E|E]; injection Hd as <-.
      + injection E as ->. rewrite value_one in Hv'. injection Hv' as <-.
        exists x0, (fun u => u), 1. split; [exact Ha|]. split; [lra|]. split; [|apply derivable_pt_lim_id].
        intros u _. cbn [value]. rewrite Hint. apply set_atom_here.
      + rewrite value_zero in Hv'. injection Hv' as <-. exists x0, (fun _ => v), 1. split; [exact Ha|]. split; [lra|].
        split; [|apply (derivable_pt_lim_const v)]. intros u _. rewrite <- Hv. cbn [value]. destruct (integer_atom b); [reflexivity|].
        unfold set_atom. destruct (atom_eqb_spec b a) as [->|_]; [congruence|reflexivity].
    - destruct cs as [|h args]; [discriminate|].
      assert (IHa : Forall correct args) by (apply Forall_forall; intros e He; apply IH; right; exact He). clear IH.
      cbn [deriv] in Hd. destruct (mapM (deriv p (Atm a)) args) as [ds|] eqn:E; [|discriminate]. cbn [bind] in Hd.
      apply value_node in Hv as (vals & Hvals & Hop). assert (Hlen : length ds = length args) by (apply mapM_length in E; exact E).
      destruct (mem h (dp_distributive p)) eqn:Emem.
      { injection Hd as <-. apply Hdist in Emem. apply value_node in Hv' as (ls & Hls & Hopl).
        destruct (args_local env x0 args ds vals ls Ha IHa E Hvals Hls) as (Fs & H1 & H2 & H3 & _ & H5).
        rewrite <- H3 in Hop. destruct (Hlin h Emem x0 Fs ls v v' H5 Hop Hopl) as (G & delta & Hdel & HG & HG').
        eapply near_op; eauto. }
      rewrite Hz, Had, Hm in Hd. destruct (tree_eqb_spec h Add) as [->|Hna].
      { cbn [bind] in Hd. injection Hd as <-. apply total_values in Hv' as (vs & Hvs & ->).
        apply (g_sum_values (value I env) (value_zero I env)) in Hvs as (ls & Hls & ->).
        destruct (args_local env x0 args ds vals ls Ha IHa E Hvals Hls) as (Fs & H1 & H2 & H3 & _ & H5).
        apply (near_op env x0 Add args Fs ls _ (fun u => Rsum (at_ u Fs)) 1); auto; [lra|]. apply derivable_sum, H5. }
      destruct (tree_eqb_spec h Mul) as [->|Hnm].
      { cbn [bind] in Hd. injection Hd as <-. apply total_values in Hv' as (vs & Hvs & ->).
        assert (Hvs' : Forall2 (fun l w => exists ws, Forall2 (fun a w => value I env a = Some w) l ws /\ w = Rprod ws)
          (map (fun id => set_nth args (fst id) (snd id)) (dependent zero ds)) vs).
        { clear -Hvs. revert vs Hvs. generalize (dependent zero ds) as ids. induction ids as [|id ids IHi]; intros vs H.
          - inversion H. constructor.
          - inversion H as [|? w ? ws Hw Hws]; subst. constructor; [|apply IHi, Hws].
            apply value_node in Hw as (us & Hus & Hop). exists us. split; [exact Hus|]. injection Hop as <-. reflexivity. }
        apply (g_prod_values (value I env) (value_zero I env) args ds vals Hlen Hvals) in Hvs' as (ls & Hls & ->).
        destruct (args_local env x0 args ds vals ls Ha IHa E Hvals Hls) as (Fs & H1 & H2 & H3 & _ & H5).
        apply (near_op env x0 Mul args Fs ls _ (fun u => Rprod (at_ u Fs)) 1); auto; [lra|]. rewrite <- H3. apply derivable_prod, H5. }
      destruct (mapM (chain_term p h args) (dependent zero ds)) as [ts|] eqn:Ets; [|discriminate]. cbn [bind] in Hd. injection Hd as <-.
      apply total_values in Hv' as (vs & Hvs & ->).
      destruct (chain_values env h args vals Hvals ds 0 ts vs Ets Hvs) as (ps & ls & Hlp & Hls & Hpart & Hsum).
      destruct (args_local env x0 args ds vals ls Ha IHa E Hvals Hls) as (Fs & H1 & H2 & H3 & H4 & H5).
      pose (legs := legs_of ds Fs ls ps x0).
      assert (Hop' : op_value I h = I h).
      { unfold op_value. destruct (tree_eqb_spec h Add); [contradiction|]. destruct (tree_eqb_spec h Mul); [contradiction|reflexivity]. }
      assert (Hplace : forall u, map (place u) legs = map (fun F => F u) Fs) by (intros u; apply legs_place; assumption).
      destruct (Hright h env x0 legs v) as (G & delta & Hdel & HG & HG').
      + rewrite Hplace, H3, <- Hop'. exact Hop.
      + intros k g d l Hk. apply legs_nth in Hk as (d' & Hk1 & Hne & Hk2 & Hk3 & ->). split.
        * clear -H5 Hk2 Hk3. revert k Hk2 Hk3. induction H5 as [|F l Fs ls HF _ IH]; intros [|k] H1 H2; try discriminate; [injection H1 as <-; injection H2 as <-; exact HF|apply (IH k H1 H2)].
        * rewrite Hplace, H3. apply (Hpart k d' Hk1 Hne).
      + rewrite Hsum, <- (legs_contribution env ds Fs ls ps x0 Hls H1 Hlp).
        apply (near_op env x0 h args Fs ls _ G delta); auto. intros u Hu. rewrite Hop', <- Hplace. apply HG, Hu.
  Qed.
End Main.
