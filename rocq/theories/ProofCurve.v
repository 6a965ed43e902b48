(** * The derivative along a curve: proofs for C102 *)
From Coq Require Import Reals Lra.
From Verif Require Import Py ModelTree SpecTree ProofBase ModelDiff SpecDiff ProofDiff ModelSym ModelCas SpecCas
  ProofCasDiff SpecReal ProofReal ProofChain.
Local Open Scope R_scope.

Section Curve.
  Context (cv : R -> string -> R) (t0 : R) (S : list string) (b : string -> R).
  Context (HS : NoDup S).
  Context (Hder : forall s, In s S -> derivable_pt_lim (fun t => cv t s) t0 (b s)).
  Context (Hfix : forall s t, ~ In s S -> cv t s = cv t0 s).
  Notation env := (cv t0).
  Notation gvv := (gv (cv t0)).
  Notation dotb := (dotf S b).
  Notation goodS := (good (cv t0) S).

  Definition along (e : tree) (l : R) : Prop :=
    exists F delta, 0 < delta /\ (forall t, Rabs (t - t0) < delta -> reval (cv t) e = Some (F t)) /\ derivable_pt_lim F t0 l.

  Lemma along_here e l : along e l -> exists F delta, 0 < delta /\
    (forall u, Rabs (u - t0) < delta -> reval (cv u) e = Some (F u)) /\ derivable_pt_lim F t0 l /\ reval env e = Some (F t0).
  Proof.
    intros (F & delta & Hd & He & HF). exists F, delta. repeat split; auto. apply He.
    rewrite Rminus_diag_eq by reflexivity. rewrite Rabs_R0. exact Hd.
  Qed.
  Lemma along_args args ls : Forall2 along args ls ->
    exists Fs delta, 0 < delta /\
      (forall u, Rabs (u - t0) < delta -> Forall2 (fun a w => reval (cv u) a = Some w) args (at_ u Fs)) /\
      Forall2 (fun F l => derivable_pt_lim F t0 l) Fs ls /\
      Forall2 (fun a w => reval env a = Some w) args (at_ t0 Fs).
  Proof.
    induction 1 as [|a l args ls Ha _ (Fs & d2 & Hd2 & H2 & H3 & H4)].
    - exists [], 1. repeat split; [lra|constructor|constructor|constructor].
    - destruct (along_here _ _ Ha) as (F & d1 & Hd1 & H1 & HF & HFx).
      exists (F :: Fs), (Rmin d1 d2). split; [apply Rmin_glb_lt; assumption|]. split; [|split; constructor; assumption].
      intros u Hu. simpl. constructor.
      + apply H1. eapply Rlt_le_trans; [exact Hu|apply Rmin_l].
      + apply H2. eapply Rlt_le_trans; [exact Hu|apply Rmin_r].
  Qed.
  Lemma along_op h args ls (G : list R -> R) l :
    Forall2 along args ls -> (forall vs, rop h vs = Some (G vs)) ->
    (forall Fs, Forall2 (fun F l => derivable_pt_lim F t0 l) Fs ls ->
       Forall2 (fun a w => reval env a = Some w) args (at_ t0 Fs) -> derivable_pt_lim (fun u => G (at_ u Fs)) t0 l) ->
    along (Node (h :: args)) l.
  Proof.
    intros Hargs Hop HG. destruct (along_args _ _ Hargs) as (Fs & delta & Hd & H1 & H2 & H3).
    exists (fun u => G (at_ u Fs)), delta. split; [exact Hd|]. split; [|apply HG; assumption].
    intros u Hu. apply reval_node. exists (at_ u Fs). split; [apply H1, Hu|apply Hop].
  Qed.
  Lemma along_absent_value e t : (forall s, In s S -> ~ contains e s) -> reval (cv t) e = reval env e.
  Proof. intros H. apply reval_ext. intros s Hs. apply Hfix. intros Hin. exact (H s Hin Hs). Qed.
  Lemma along_absent e v : (forall s, In s S -> ~ contains e s) -> reval env e = Some v -> along e 0.
  Proof.
    intros H He. exists (fun _ => v), 1. split; [lra|]. split; [|apply (derivable_pt_lim_const v)].
    intros u _. rewrite along_absent_value; assumption.
  Qed.
  Lemma values_unique e vs vs' : Forall2 (fun a w => reval env a = Some w) e vs -> Forall2 (fun a w => reval env a = Some w) e vs' -> vs = vs'.
  Proof.
    intros H. revert vs'. induction H as [|a v args ws Ha _ IHx]; intros vs' H'; inversion H'; subst; [reflexivity|]. f_equal; [congruence|auto].
  Qed.
  Lemma along_list args : Forall (fun e => goodS e -> forall w, reval env e = Some w -> along e (dotb (gvv e))) args ->
    Forall goodS args -> forall vals, Forall2 (fun a w => reval env a = Some w) args vals ->
    Forall2 along args (map (fun a => dotb (gvv a)) args).
  Proof.
    intros IH Hg vals Hv. induction Hv as [|a v args vals Hv _ IHv]; [constructor|].
    inversion IH as [|? ? IHa IHr]; inversion Hg as [|? ? Hga Hgr]; subst. cbn [map]. constructor; eauto.
  Qed.

  Theorem along_curve e : arith e -> goodS e -> forall w, reval env e = Some w -> along e (dotb (gvv e)).
  Proof.
    intros He. induction He as [n|s'|args Har IH|args Har IH|a Ha IH|a Ha IH|a b0 Ha Hb IHa IHb] using arith_ind_all; intros Hg w Hw.
    - rewrite (dotf_ext _ _ _ (fun _ => 0)), dotf_zero; [|intros s _; reflexivity].
      apply (along_absent _ w); [|exact Hw]. intros s _. apply contains_int.
    - assert (Hgv : forall s, gvv (Symbol s') s = if String.eqb s' s then 1 else 0).
      { intros s. unfold gv. rewrite sym_D. destruct (String.eqb s' s); reflexivity. }
      destruct (in_dec string_dec s' S) as [Hin|Hnin].
      + assert (E : dotb (gvv (Symbol s')) = b s').
        { clear -Hgv Hin HS. unfold dotf. induction HS as [|s l Hs Hl IH]; [destruct Hin|]. unfold Rsum in *. cbn [map fold_right].
          rewrite Hgv. destruct (String.eqb_spec s' s) as [->|Hne].
          * assert (G : fold_right Rplus 0 (map (fun s0 => gvv (Symbol s) s0 * b s0) l) = 0).
            { clear -Hgv Hs. induction l as [|t l IH]; [reflexivity|]. cbn [map fold_right]. rewrite IH by (intros H; apply Hs; right; exact H).
              rewrite Hgv. destruct (String.eqb_spec s t) as [->|]; [destruct Hs; left; reflexivity|ring]. }
            rewrite G. ring.
          * destruct Hin as [->|Hin]; [contradiction|]. rewrite (IH Hl Hin). ring. }
        rewrite E. exists (fun t => cv t s'), 1. split; [lra|]. split; [intros t _; reflexivity|apply Hder, Hin].
      + rewrite (dotf_ext _ _ _ (fun _ => 0)), dotf_zero.
        * apply (along_absent _ w); [|exact Hw]. intros s Hs. rewrite contains_sym. intros ->. contradiction.
        * intros s Hs. rewrite Hgv. destruct (String.eqb_spec s' s) as [->|]; [contradiction|reflexivity].
    - destruct (list_good env S args (fun s ls => gvv (Node (Add :: args)) s = Rsum ls)) as [Hga Hgv].
      { intros s Hs. destruct (Hg s Hs) as (d & v & Hd & Hv). rewrite (gv_value _ _ s d v Hd Hv). rewrite D_add in Hd.
        destruct (mapM (deriv cas_diff (Symbol s)) args) as [ds|] eqn:E; [|discriminate]. cbn [bind] in Hd. injection Hd as <-.
        apply mapM_Ok_Forall2 in E. apply total_value in Hv as (vs & Hvs & ->). apply sum_values in Hvs as (ls & Hls & ->). eauto. }
      apply reval_node in Hw as (vals & Hvals & _).
      rewrite (dotf_ext _ _ _ _ Hgv), dotf_sum.
      apply (along_op Add args (map (fun a => dotb (gvv a)) args) Rsum); [exact (along_list args IH Hga vals Hvals)|reflexivity|].
      intros Fs HFs _. apply derivable_sum, HFs.
    - apply reval_node in Hw as (vals & Hvals & _).
      destruct (list_good env S args (fun s ls => gvv (Node (Mul :: args)) s = prod_deriv vals ls)) as [Hga Hgv].
      { intros s Hs. destruct (Hg s Hs) as (d & v & Hd & Hv). rewrite (gv_value _ _ s d v Hd Hv). rewrite D_mul in Hd.
        destruct (mapM (deriv cas_diff (Symbol s)) args) as [ds|] eqn:E; [|discriminate]. cbn [bind] in Hd. injection Hd as <-.
        apply mapM_Ok_Forall2 in E. apply total_value in Hv as (vs & Hvs & ->).
        assert (Hvs' : Forall2 (fun l w => exists ws, Forall2 (fun a w => reval env a = Some w) l ws /\ w = Rprod ws)
          (map (fun id => set_nth args (fst id) (snd id)) (dependent zero ds)) vs).
        { clear -Hvs. revert vs Hvs. generalize (dependent zero ds) as ids. induction ids as [|id ids IHi]; intros vs H.
          - inversion H. constructor.
          - inversion H as [|? w ? ws Hw Hws]; subst. constructor; [|apply IHi, Hws].
            apply reval_node in Hw as (us & Hus & Hop). exists us. split; [exact Hus|]. injection Hop as <-. reflexivity. }
        apply (prod_values env args ds vals) in Hvs' as (ls & Hls & ->);
          [|symmetry; clear -E; induction E; simpl; congruence|exact Hvals]. eauto. }
      rewrite (dotf_ext _ _ _ _ Hgv), dotf_prod.
      apply (along_op Mul args (map (fun a => dotb (gvv a)) args) Rprod); [exact (along_list args IH Hga vals Hvals)|reflexivity|].
      intros Fs HFs Hx. rewrite (values_unique _ _ _ Hvals Hx). apply derivable_prod, HFs.
    - apply reval_node in Hw as (vals & Hvals & Hop).
      inversion Hvals as [|? va ? vr Hva Hvr]; subst. inversion Hvr; subst.
      destruct (list_good env S [a] (fun s ls => exists l, ls = [l] /\ gvv (Node [sin; a]) s = Rtrigo_def.cos va * l)) as [Hga Hgv].
      { intros s Hs. destruct (Hg s Hs) as (d & v & Hd & Hv). rewrite (gv_value _ _ s d v Hd Hv). rewrite D_sin in Hd.
        destruct (deriv cas_diff (Symbol s) a) as [da|] eqn:E; [|discriminate]. cbn [bind] in Hd. injection Hd as <-.
        apply times_value in Hv as (l & Hl & Hcase). exists [da], [l]. split; [repeat constructor; exact E|]. split; [repeat constructor; exact Hl|].
        exists l. split; [reflexivity|]. destruct Hcase as [(_ & -> & ->)|(_ & k & Hk & ->)]; [ring|].
        apply reval_node in Hk as (ks & Hks & Hop'). inversion Hks as [|? ka ? kr Hka Hkr]; subst. inversion Hkr; subst.
        injection Hop' as <-. congruence. }
      inversion Hga as [|? ? Hga1 _]; subst.
      destruct (along_here _ _ (IH Hga1 va Hva)) as (F & delta & Hdel & HF & HF' & HFx).
      assert (E : dotb (gvv (Node [sin; a])) = Rtrigo_def.cos (F t0) * dotb (gvv a)).
      { assert (F t0 = va) as -> by congruence. rewrite <- dotf_scale. apply dotf_ext. intros s Hs. destruct (Hgv s Hs) as (l & El & ->). injection El as <-. reflexivity. }
      rewrite E. exists (fun u => Rtrigo_def.sin (F u)), delta. split; [exact Hdel|]. split.
      + intros u Hu. apply reval_node. exists [F u]. split; [repeat constructor; apply HF, Hu|reflexivity].
      + apply (derivable_pt_lim_comp F Rtrigo_def.sin t0 _ _ HF'); apply derivable_pt_lim_sin.
    - apply reval_node in Hw as (vals & Hvals & Hop).
      inversion Hvals as [|? va ? vr Hva Hvr]; subst. inversion Hvr; subst.
      destruct (list_good env S [a] (fun s ls => exists l, ls = [l] /\ gvv (Node [cos; a]) s = - Rtrigo_def.sin va * l)) as [Hga Hgv].
      { intros s Hs. destruct (Hg s Hs) as (d & v & Hd & Hv). rewrite (gv_value _ _ s d v Hd Hv). rewrite D_cos in Hd.
        destruct (deriv cas_diff (Symbol s) a) as [da|] eqn:E; [|discriminate]. cbn [bind] in Hd. injection Hd as <-.
        apply times_value in Hv as (l & Hl & Hcase). exists [da], [l]. split; [repeat constructor; exact E|]. split; [repeat constructor; exact Hl|].
        exists l. split; [reflexivity|]. destruct Hcase as [(_ & -> & ->)|(_ & k & Hk & ->)]; [ring|].
        apply reval_node in Hk as (ks & Hks & Hop'). inversion Hks as [|? k1 ? kr Hk1 Hkr]; subst. inversion Hkr as [|? k2 ? kr2 Hk2 Hkr2]; subst.
        inversion Hkr2; subst. injection Hop' as <-. injection Hk1 as <-.
        apply reval_node in Hk2 as (ks & Hks2 & Hop'). inversion Hks2 as [|? ka ? kr Hka Hkr']; subst. inversion Hkr'; subst.
        injection Hop' as <-. rewrite Hva in Hka. injection Hka as <-. ring. }
      inversion Hga as [|? ? Hga1 _]; subst.
      destruct (along_here _ _ (IH Hga1 va Hva)) as (F & delta & Hdel & HF & HF' & HFx).
      assert (E : dotb (gvv (Node [cos; a])) = - Rtrigo_def.sin (F t0) * dotb (gvv a)).
      { assert (F t0 = va) as -> by congruence. rewrite <- dotf_scale. apply dotf_ext. intros s Hs. destruct (Hgv s Hs) as (l & El & ->). injection El as <-. reflexivity. }
      rewrite E. exists (fun u => Rtrigo_def.cos (F u)), delta. split; [exact Hdel|]. split.
      + intros u Hu. apply reval_node. exists [F u]. split; [repeat constructor; apply HF, Hu|reflexivity].
      + apply (derivable_pt_lim_comp F Rtrigo_def.cos t0 _ _ HF'); apply derivable_pt_lim_cos.
    - pose proof Hw as Hw0. apply reval_node in Hw as (vals & Hvals & Hop).
      inversion Hvals as [|? va ? vr Hva Hvr]; subst. inversion Hvr as [|? vb ? vr2 Hvb Hvr2]; subst. inversion Hvr2; subst.
      change (rpow va vb = Some w) in Hop.
      assert (Hall : forall s, In s S -> exists da l, deriv cas_diff (Symbol s) a = Ok da /\ deriv cas_diff (Symbol s) b0 = Ok zero /\
         reval env da = Some l /\ ((da = zero /\ l = 0 /\ gvv (Node [Pow; a; b0]) s = 0) \/
           (da <> zero /\ exists q, rpow va (vb - 1) = Some q /\ gvv (Node [Pow; a; b0]) s = vb * q * l))).
      { intros s Hs. destruct (Hg s Hs) as (d & v & Hd & Hv). rewrite (gv_value _ _ s d v Hd Hv). rewrite D_pow in Hd.
        destruct (deriv cas_diff (Symbol s) a) as [da|] eqn:E; [|discriminate].
        destruct (deriv cas_diff (Symbol s) b0) as [db|] eqn:Eb; [|discriminate]. cbn [bind] in Hd.
        destruct (tree_eqb_spec db zero) as [->|]; [|discriminate]. injection Hd as <-.
        apply times_value in Hv as (l & Hl & Hcase). exists da, l. do 3 (split; [first [reflexivity|exact Hl]|]).
        destruct Hcase as [(-> & -> & ->)|(Hne & k & Hk & ->)]; [left; auto|right; split; [exact Hne|]].
        apply reval_node in Hk as (ks & Hks & Hopk). inversion Hks as [|? k1 ? kr Hk1 Hkr]; subst.
        inversion Hkr as [|? k2 ? kr2 Hk2 Hkr2]; subst. inversion Hkr2; subst. injection Hopk as <-.
        assert (k1 = vb) as -> by congruence.
        apply reval_node in Hk2 as (ps & Hps & Hopp). inversion Hps as [|? p1 ? pr Hp1 Hpr]; subst.
        inversion Hpr as [|? p2 ? pr2 Hp2 Hpr2]; subst. inversion Hpr2; subst. assert (p1 = va) as -> by congruence.
        change (rpow va p2 = Some k2) in Hopp.
        apply reval_node in Hp2 as (qs & Hqs & Hopq). inversion Hqs as [|? q1 ? qr Hq1 Hqr]; subst.
        inversion Hqr as [|? q2 ? qr2 Hq2 Hqr2]; subst. inversion Hqr2; subst. assert (q1 = vb) as -> by congruence.
        injection Hq2 as <-. injection Hopq as <-. exists k2. rewrite <- Hopp. split; [f_equal; ring|ring]. }
      assert (Hga : goodS a) by (intros s Hs; destruct (Hall s Hs) as (da & l & H1 & _ & H2 & _); eauto).
      assert (Hnb : forall s, In s S -> ~ contains b0 s).
      { intros s Hs. destruct (Hall s Hs) as (da & l & _ & H1 & _). apply (deriv_zero_iff s b0 Hb zero H1). reflexivity. }
      destruct (some_or_none S a Ha) as [(s0 & Hs0 & Hc0)|Hna].
      + destruct (Hall s0 Hs0) as (da0 & l0 & Hd0 & _ & _ & [(-> & _)|(_ & q & Hq & _)]).
        { exfalso. apply (deriv_zero_iff s0 a Ha zero Hd0) in Hc0; [exact Hc0|reflexivity]. }
        assert (E : dotb (gvv (Node [Pow; a; b0])) = vb * q * dotb (gvv a)).
        { rewrite <- dotf_scale. apply dotf_ext. intros s Hs. destruct (Hall s Hs) as (da & l & H1 & _ & H2 & Hc).
          rewrite (gv_value _ a s da l H1 H2). destruct Hc as [(_ & -> & ->)|(_ & q' & Hq' & ->)]; [ring|]. congruence. }
        rewrite E. destruct (rpow_deriv _ _ _ _ Hop Hq) as (G & dg & Hdg & HG & HG').
        destruct (along_here _ _ (IHa Hga va Hva)) as (F & delta & Hdel & HF & HF' & HFx).
        rewrite Hva in HFx. injection HFx as EF.
        destruct (derivable_near F t0 _ dg HF' Hdg) as (d2 & Hd2 & Hnear).
        exists (fun u => G (F u)), (Rmin delta d2). split; [apply Rmin_glb_lt; assumption|]. split.
        * intros u Hu. apply reval_node. exists [F u; vb]. split.
          -- constructor; [apply HF; eapply Rlt_le_trans; [exact Hu|apply Rmin_l]|].
             constructor; [rewrite along_absent_value; assumption|constructor].
          -- apply HG. rewrite EF. apply Hnear. eapply Rlt_le_trans; [exact Hu|apply Rmin_r].
        * apply (derivable_pt_lim_comp F G t0 _ _ HF'). rewrite <- EF. exact HG'.
      + rewrite (dotf_ext _ _ _ (fun _ => 0)), dotf_zero.
        * apply (along_absent _ w); [|exact Hw0]. intros s Hs. rewrite contains_node. intros (c & [<-|[<-|[]]] & Hc); [exact (Hna s Hs Hc)|exact (Hnb s Hs Hc)].
        * intros s Hs. destruct (Hall s Hs) as (da & l & H1 & _ & H2 & [(_ & _ & E)|(Hne & _)]); [exact E|].
          exfalso. apply Hne, (deriv_zero_iff s a Ha da H1), Hna, Hs.
  Qed.
End Curve.
