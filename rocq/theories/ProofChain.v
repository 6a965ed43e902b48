(** * The chain rule for xreplace: proofs for C99 *)
From Coq Require Import Reals Lra.
From Verif Require Import Py ModelTree SpecTree ProofBase ModelDiff SpecDiff ProofDiff ModelSym ModelCas SpecCas
  ProofCasDiff SpecReal ProofReal.
Local Open Scope R_scope.

Section Forward.
  Context (env : string -> R).
  Notation val := (fun a w => reval env a = Some w).
  Lemma total_fwd ts vs : Forall2 val ts vs -> reval env (total cas_diff ts) = Some (Rsum vs).
  Proof.
    intros H. destruct H as [|t v ts vs Hv [|t2 v2 ts' vs' Hv2 H]]; cbn [total].
    - reflexivity.
    - rewrite Hv. cbn [Rsum fold_right]. f_equal. ring.
    - apply reval_node. exists (v :: v2 :: vs'). split; [repeat constructor; assumption|reflexivity].
  Qed.
  Lemma sum_fwd ds ls : Forall2 val ds ls ->
    exists vs, Forall2 val (map snd (dependent zero ds)) vs /\ Rsum vs = Rsum ls.
  Proof.
    induction 1 as [|d l ds ls Hd _ (vs & Hvs & E)]; [exists []; split; [constructor|reflexivity]|].
    rewrite dependent_cons, map_app, map_map. cbn [snd].
    destruct (tree_eqb_spec d zero) as [->|Hne]; cbn [map app].
    - exists vs. split; [exact Hvs|]. injection Hd as <-. cbn [Rsum fold_right] in *. unfold Rsum in *. cbn [fold_right]. rewrite E. ring.
    - exists (l :: vs). split; [constructor; assumption|]. unfold Rsum in *. cbn [fold_right]. rewrite E. reflexivity.
  Qed.
  Lemma prod_fwd args vals : Forall2 val args vals -> forall ds ls, length ds = length args -> Forall2 val ds ls ->
    exists vs, Forall2 (fun l w => exists ws, Forall2 val l ws /\ w = Rprod ws)
      (map (fun id => set_nth args (fst id) (snd id)) (dependent zero ds)) vs /\ Rsum vs = prod_deriv vals ls.
  Proof.
    induction 1 as [|a v args vals Ha Hargs IH]; intros ds ls Hlen Hds.
    - destruct ds; [|discriminate]. exists []. split; [constructor|reflexivity].
    - destruct Hds as [|d l ds ls Hd Hds]; [discriminate|]. injection Hlen as Hlen.
      destruct (IH ds ls Hlen Hds) as (us & Hus & E).
      rewrite dependent_cons, map_app, map_map. cbn [fst snd set_nth].
      assert (Hrest : Forall2 (fun l w => exists ws, Forall2 val l ws /\ w = Rprod ws)
         (map (fun id => a :: set_nth args (fst id) (snd id)) (dependent zero ds)) (map (Rmult v) us) /\ Rsum (map (Rmult v) us) = v * Rsum us).
      { clear -Hus Ha. revert us Hus. generalize (dependent zero ds) as ids. induction ids as [|id ids IHi]; intros us H.
        - inversion H; subst. split; [constructor|unfold Rsum; cbn; ring].
        - inversion H as [|? w ? ws (qs & Hqs & ->) Hws]; subst. destruct (IHi ws Hws) as [H1 H2]. cbn [map]. split.
          + constructor; [|exact H1]. exists (v :: qs). split; [constructor; assumption|reflexivity].
          + unfold Rsum in *. cbn [fold_right]. rewrite H2. ring. }
      destruct Hrest as [H1 H2].
      destruct (tree_eqb_spec d zero) as [->|Hne]; cbn [map app].
      + exists (map (Rmult v) us). split; [exact H1|]. injection Hd as <-. cbn [prod_deriv]. rewrite H2, E. ring.
      + exists (l * Rprod vals :: map (Rmult v) us). split.
        * constructor; [|exact H1]. exists (l :: vals). split; [constructor; assumption|reflexivity].
        * cbn [prod_deriv]. change (l * Rprod vals + Rsum (map (Rmult v) us) = l * Rprod vals + v * prod_deriv vals ls). rewrite H2, E. reflexivity.
  Qed.
  Lemma times_fwd r d k w : (d = zero \/ reval env r = Some k) -> reval env d = Some w -> reval env (times r d) = Some (k * w).
  Proof.
    unfold times. intros Hr Hd. destruct (tree_eqb_spec d zero) as [->|Hne].
    - injection Hd as <-. rewrite reval_zero. f_equal. ring.
    - destruct Hr as [Hr|Hr]; [contradiction|]. destruct (tree_eqb_spec d one) as [->|H1].
      + injection Hd as <-. rewrite Hr. f_equal. ring.
      + apply reval_node. exists [k; w]. split; [repeat constructor; assumption|]. change (Some (k * (w * 1)) = Some (k * w)). f_equal. ring.
  Qed.
End Forward.

Section Chain.
  Context (env env' : string -> R) (y : string) (S : list string) (sig : tree -> tree) (b : string -> R).
  Context (HyS : In y S) (HS : NoDup S).
  Context (Hsym : forall s, In s S -> exists d, deriv cas_diff (Symbol y) (sig (Symbol s)) = Ok d /\ reval env d = Some (b s)).
  Context (Hfix : forall s, ~ In s S -> sig (Symbol s) = Symbol s).
  Context (Hval : forall t, reval env (sig t) = reval env' t).
  Context (Hint : forall n, sig (Integer n) = Integer n).
  Context (Hnode : forall f args, sig (Node (Function f :: args)) = Node (Function f :: map sig args)).

  Definition gv (e : tree) (s : string) : R :=
    match deriv cas_diff (Symbol s) e with
    | Ok d => match reval env' d with Some v => v | None => 0 end
    | Err _ => 0
    end.
  Definition good (e : tree) : Prop :=
    forall s, In s S -> exists d v, deriv cas_diff (Symbol s) e = Ok d /\ reval env' d = Some v.
  Definition dotf (a : string -> R) : R := Rsum (map (fun s => a s * b s) S).

  Lemma dotf_ext a a' : (forall s, In s S -> a s = a' s) -> dotf a = dotf a'.
  Proof. intros H. unfold dotf. f_equal. apply map_ext_in. intros s Hs. rewrite (H s Hs). reflexivity. Qed.
  Lemma dotf_add a a' : dotf (fun s => a s + a' s) = dotf a + dotf a'.
  Proof. unfold dotf. clear. induction S as [|s l IH]; unfold Rsum in *; cbn [map fold_right]; [ring|rewrite IH; ring]. Qed.
  Lemma dotf_scale k a : dotf (fun s => k * a s) = k * dotf a.
  Proof. unfold dotf. clear. induction S as [|s l IH]; unfold Rsum in *; cbn [map fold_right]; [ring|rewrite IH; ring]. Qed.
  Lemma dotf_zero : dotf (fun _ => 0) = 0.
  Proof. unfold dotf. clear. induction S as [|s l IH]; unfold Rsum in *; cbn [map fold_right]; [ring|rewrite IH; ring]. Qed.
  Lemma dotf_sum args : dotf (fun s => Rsum (map (fun a => gv a s) args)) = Rsum (map (fun a => dotf (gv a)) args).
  Proof.
    induction args as [|a args IH]; [exact dotf_zero|].
    change (dotf (fun s => gv a s + Rsum (map (fun a => gv a s) args)) = dotf (gv a) + Rsum (map (fun a => dotf (gv a)) args)).
    rewrite dotf_add, IH. reflexivity.
  Qed.
  Lemma dotf_prod vals args : dotf (fun s => prod_deriv vals (map (fun a => gv a s) args)) = prod_deriv vals (map (fun a => dotf (gv a)) args).
  Proof.
    revert args. induction vals as [|v vals IH]; intros [|a args]; cbn [map prod_deriv]; try exact dotf_zero.
    rewrite dotf_add, dotf_scale, IH. f_equal. rewrite (dotf_ext _ (fun s => Rprod vals * gv a s)) by (intros; ring).
    rewrite dotf_scale. ring.
  Qed.
  Lemma gv_value e s d v : deriv cas_diff (Symbol s) e = Ok d -> reval env' d = Some v -> gv e s = v.
  Proof. unfold gv. intros -> ->. reflexivity. Qed.

  (** An expression without any of the symbols is left alone. *)
  Lemma sig_absent e : arith e -> (forall s, In s S -> ~ contains e s) -> sig e = e.
  Proof.
    assert (Hl : forall f args, Forall (fun e => (forall s, In s S -> ~ contains e s) -> sig e = e) args ->
      (forall s, In s S -> ~ contains (Node (Function f :: args)) s) -> sig (Node (Function f :: args)) = Node (Function f :: args)).
    { intros f args IH H. rewrite Hnode. do 2 f_equal. rewrite <- (map_id args) at 2. apply map_ext_in. intros a Ha.
      rewrite Forall_forall in IH. apply (IH a Ha). intros s Hs Hc. apply (H s Hs), contains_node. eauto. }
    intros He. induction He as [n|s'|args Har IH|args Har IH|a Ha IH|a Ha IH|a b0 Ha Hb IHa IHb] using arith_ind_all; intros H.
    - apply Hint.
    - apply Hfix. intros Hin. apply (H s' Hin), contains_sym. reflexivity.
    - exact (Hl _ args IH H).
    - exact (Hl _ args IH H).
    - refine (Hl _ [a] _ H). repeat constructor. exact IH.
    - refine (Hl _ [a] _ H). repeat constructor. exact IH.
    - refine (Hl _ [a; b0] _ H). repeat constructor; assumption.
  Qed.
  Lemma sig_absent_deriv e : arith e -> (forall s, In s S -> ~ contains e s) -> good e -> deriv cas_diff (Symbol y) (sig e) = Ok zero.
  Proof.
    intros He H Hg. rewrite (sig_absent e He H). destruct (Hg y HyS) as (d & v & Hd & _). rewrite Hd. f_equal.
    apply (deriv_zero_iff y e He d Hd), H, HyS.
  Qed.
  Lemma some_or_none e : arith e -> (exists s, In s S /\ contains e s) \/ (forall s, In s S -> ~ contains e s).
  Proof.
    intros He. clear -He. induction S as [|s l IH]; [right; intros ? []|].
    destruct (contains_dec e s He) as [H|H]; [left; exists s; split; [left; reflexivity|exact H]|].
    destruct IH as [(s' & Hs & Hc)|IH]; [left; exists s'; split; [right; exact Hs|exact Hc]|].
    right. intros s' [<-|Hs]; [exact H|exact (IH s' Hs)].
  Qed.

  Lemma args_fwd args : Forall (fun e => good e -> forall w, reval env' e = Some w ->
      exists d, deriv cas_diff (Symbol y) (sig e) = Ok d /\ reval env d = Some (dotf (gv e))) args ->
    Forall good args -> forall vals, Forall2 (fun a w => reval env' a = Some w) args vals ->
    exists ds, mapM (deriv cas_diff (Symbol y)) (map sig args) = Ok ds /\ length ds = length args /\
      Forall2 (fun a w => reval env a = Some w) ds (map (fun a => dotf (gv a)) args) /\
      Forall2 (fun a w => reval env a = Some w) (map sig args) vals.
  Proof.
    intros IH Hg vals Hv. induction Hv as [|a v args vals Hv _ IHv]; [exists []; repeat split; constructor|].
    inversion IH as [|? ? IHa IHr]; inversion Hg as [|? ? Hga Hgr]; subst.
    destruct (IHv IHr Hgr) as (ds & E & Hlen & H1 & H2). destruct (IHa Hga v Hv) as (d & Ed & Hd).
    exists (d :: ds). cbn [map mapM length]. rewrite Ed. cbn [bind]. rewrite E. split; [reflexivity|]. split; [congruence|].
    split; constructor; [exact Hd|exact H1|rewrite Hval; exact Hv|exact H2].
  Qed.

  (** Derivatives of the arguments are defined where those of the whole are. *)
  Lemma list_good args (P : string -> list R -> Prop) :
    (forall s, In s S -> exists ds ls, Forall2 (fun a d => deriv cas_diff (Symbol s) a = Ok d) args ds /\
       Forall2 (fun a w => reval env' a = Some w) ds ls /\ P s ls) ->
    Forall good args /\ (forall s, In s S -> P s (map (fun a => gv a s) args)).
  Proof.
    intros H. split.
    - apply Forall_forall. intros a Ha s Hs. destruct (H s Hs) as (ds & ls & H1 & H2 & _). clear -Ha H1 H2. revert ls H2.
      induction H1 as [|a' d args ds Hd _ IH]; intros ls H2; [destruct Ha|]. inversion H2; subst.
      destruct Ha as [<-|Ha]; [eauto|eapply IH; eauto].
    - intros s Hs. destruct (H s Hs) as (ds & ls & H1 & H2 & HP). replace (map (fun a => gv a s) args) with ls; [exact HP|].
      clear -H1 H2. revert ls H2. induction H1 as [|a' d args ds Hd _ IH]; intros ls H2; inversion H2; subst; [reflexivity|].
      cbn [map]. f_equal; [symmetry; eapply gv_value; eassumption|eapply IH; eassumption].
  Qed.

  Theorem chain e : arith e -> good e -> forall w, reval env' e = Some w ->
    exists d, deriv cas_diff (Symbol y) (sig e) = Ok d /\ reval env d = Some (dotf (gv e)).
  Proof.
    intros He. induction He as [n|s'|args Har IH|args Har IH|a Ha IH|a Ha IH|a b0 Ha Hb IHa IHb] using arith_ind_all; intros Hg w Hw.
    - rewrite Hint. exists zero. split; [reflexivity|]. rewrite (dotf_ext _ (fun _ => 0)), dotf_zero; [reflexivity|].
      intros s _. reflexivity.
    - assert (Hgv : forall s, gv (Symbol s') s = if String.eqb s' s then 1 else 0).
      { intros s. unfold gv. rewrite sym_D. destruct (String.eqb s' s); reflexivity. }
      destruct (in_dec string_dec s' S) as [Hin|Hnin].
      + destruct (Hsym s' Hin) as (d & Hd & Hv). exists d. split; [exact Hd|]. rewrite Hv. f_equal.
        clear -Hgv Hin HS. unfold dotf. induction HS as [|s l Hs Hl IH]; [destruct Hin|]. unfold Rsum in *. cbn [map fold_right].
        rewrite Hgv. destruct (String.eqb_spec s' s) as [->|Hne].
        * assert (G : fold_right Rplus 0 (map (fun s0 => gv (Symbol s) s0 * b s0) l) = 0).
          { clear -Hgv Hs. induction l as [|t l IH]; [reflexivity|]. cbn [map fold_right]. rewrite IH by (intros H; apply Hs; right; exact H).
            rewrite Hgv. destruct (String.eqb_spec s t) as [->|]; [destruct Hs; left; reflexivity|ring]. }
          rewrite G. ring.
        * destruct Hin as [->|Hin]; [contradiction|]. rewrite <- (IH Hl Hin). ring.
      + rewrite (Hfix s' Hnin), sym_D. destruct (String.eqb_spec s' y) as [->|_]; [contradiction|].
        exists zero. split; [reflexivity|]. rewrite (dotf_ext _ (fun _ => 0)), dotf_zero; [reflexivity|].
        intros s Hs. rewrite Hgv. destruct (String.eqb_spec s' s) as [->|]; [contradiction|reflexivity].
    - rewrite (Hnode "Add"%string). fold Add.
      destruct (list_good args (fun s ls => gv (Node (Add :: args)) s = Rsum ls)) as [Hga Hgv].
      { intros s Hs. destruct (Hg s Hs) as (d & v & Hd & Hv). rewrite (gv_value _ s d v Hd Hv). rewrite D_add in Hd.
        destruct (mapM (deriv cas_diff (Symbol s)) args) as [ds|] eqn:E; [|discriminate]. cbn [bind] in Hd. injection Hd as <-.
        apply mapM_Ok_Forall2 in E. apply total_value in Hv as (vs & Hvs & ->). apply sum_values in Hvs as (ls & Hls & ->). eauto. }
      apply reval_node in Hw as (vals & Hvals & _). destruct (args_fwd args IH Hga vals Hvals) as (ds & E & Hlen & H1 & _).
      rewrite D_add, E. cbn [bind]. eexists. split; [reflexivity|].
      destruct (sum_fwd env _ _ H1) as (vs & Hvs & Es). rewrite (total_fwd env _ vs Hvs), Es, <- dotf_sum. f_equal.
      apply dotf_ext. intros s Hs. symmetry. apply Hgv, Hs.
    - rewrite (Hnode "Mul"%string). fold Mul. apply reval_node in Hw as (vals & Hvals & _).
      destruct (list_good args (fun s ls => gv (Node (Mul :: args)) s = prod_deriv vals ls)) as [Hga Hgv].
      { intros s Hs. destruct (Hg s Hs) as (d & v & Hd & Hv). rewrite (gv_value _ s d v Hd Hv). rewrite D_mul in Hd.
        destruct (mapM (deriv cas_diff (Symbol s)) args) as [ds|] eqn:E; [|discriminate]. cbn [bind] in Hd. injection Hd as <-.
        apply mapM_Ok_Forall2 in E. apply total_value in Hv as (vs & Hvs & ->).
        assert (Hvs' : Forall2 (fun l w => exists ws, Forall2 (fun a w => reval env' a = Some w) l ws /\ w = Rprod ws)
          (map (fun id => set_nth args (fst id) (snd id)) (dependent zero ds)) vs).
        { clear -Hvs. revert vs Hvs. generalize (dependent zero ds) as ids. induction ids as [|id ids IHi]; intros vs H.
          - inversion H. constructor.
          - inversion H as [|? w ? ws Hw Hws]; subst. constructor; [|apply IHi, Hws].
            apply reval_node in Hw as (us & Hus & Hop). exists us. split; [exact Hus|]. injection Hop as <-. reflexivity. }
        apply (prod_values env' args ds vals) in Hvs' as (ls & Hls & ->);
          [|symmetry; clear -E; induction E; simpl; congruence|exact Hvals]. eauto. }
      destruct (args_fwd args IH Hga vals Hvals) as (ds & E & Hlen & H1 & H2).
      rewrite D_mul, E. cbn [bind]. eexists. split; [reflexivity|].
      destruct (prod_fwd env (map sig args) vals H2 ds _ ltac:(rewrite map_length; exact Hlen) H1) as (vs & Hvs & Es).
      rewrite (total_fwd env _ vs).
      + rewrite Es, <- dotf_prod. f_equal. apply dotf_ext. intros s Hs. symmetry. apply Hgv, Hs.
      + clear -Hvs. revert vs Hvs. generalize (dependent zero ds) as ids. induction ids as [|id ids IHi]; intros vs H.
        * inversion H. constructor.
        * inversion H as [|? w ? ws (us & Hus & ->) Hws]; subst. constructor; [|apply IHi, Hws].
          apply reval_node. exists us. split; [exact Hus|reflexivity].
    - rewrite (Hnode "sin"%string). fold sin. apply reval_node in Hw as (vals & Hvals & Hop).
      inversion Hvals as [|? va ? vr Hva Hvr]; subst. inversion Hvr; subst.
      destruct (list_good [a] (fun s ls => exists l, ls = [l] /\ gv (Node [sin; a]) s = Rtrigo_def.cos va * l)) as [Hga Hgv].
      { intros s Hs. destruct (Hg s Hs) as (d & v & Hd & Hv). rewrite (gv_value _ s d v Hd Hv). rewrite D_sin in Hd.
        destruct (deriv cas_diff (Symbol s) a) as [da|] eqn:E; [|discriminate]. cbn [bind] in Hd. injection Hd as <-.
        apply times_value in Hv as (l & Hl & Hcase). exists [da], [l]. split; [repeat constructor; exact E|]. split; [repeat constructor; exact Hl|].
        exists l. split; [reflexivity|]. destruct Hcase as [(_ & -> & ->)|(_ & k & Hk & ->)]; [ring|].
        apply reval_node in Hk as (ks & Hks & Hop'). inversion Hks as [|? ka ? kr Hka Hkr]; subst. inversion Hkr; subst.
        injection Hop' as <-. congruence. }
      inversion Hga as [|? ? Hga1 _]; subst. destruct (IH Hga1 va Hva) as (d & Ed & Hd).
      cbn [map]. rewrite D_sin, Ed. cbn [bind]. eexists. split; [reflexivity|].
      rewrite (times_fwd env _ d (Rtrigo_def.cos va) _) with (2 := Hd).
      + f_equal. rewrite <- dotf_scale. apply dotf_ext. intros s Hs. destruct (Hgv s Hs) as (l & El & ->). injection El as <-. reflexivity.
      + right. apply reval_node. exists [va]. split; [repeat constructor; rewrite Hval; exact Hva|reflexivity].
    - rewrite (Hnode "cos"%string). fold cos. apply reval_node in Hw as (vals & Hvals & Hop).
      inversion Hvals as [|? va ? vr Hva Hvr]; subst. inversion Hvr; subst.
      destruct (list_good [a] (fun s ls => exists l, ls = [l] /\ gv (Node [cos; a]) s = -1 * Rtrigo_def.sin va * l)) as [Hga Hgv].
      { intros s Hs. destruct (Hg s Hs) as (d & v & Hd & Hv). rewrite (gv_value _ s d v Hd Hv). rewrite D_cos in Hd.
        destruct (deriv cas_diff (Symbol s) a) as [da|] eqn:E; [|discriminate]. cbn [bind] in Hd. injection Hd as <-.
        apply times_value in Hv as (l & Hl & Hcase). exists [da], [l]. split; [repeat constructor; exact E|]. split; [repeat constructor; exact Hl|].
        exists l. split; [reflexivity|]. destruct Hcase as [(_ & -> & ->)|(_ & k & Hk & ->)]; [ring|].
        apply reval_node in Hk as (ks & Hks & Hop'). inversion Hks as [|? k1 ? kr Hk1 Hkr]; subst. inversion Hkr as [|? k2 ? kr2 Hk2 Hkr2]; subst.
        inversion Hkr2; subst. injection Hop' as <-. injection Hk1 as <-.
        apply reval_node in Hk2 as (ks & Hks2 & Hop'). inversion Hks2 as [|? ka ? kr Hka Hkr']; subst. inversion Hkr'; subst.
        injection Hop' as <-. rewrite Hva in Hka. injection Hka as <-. ring. }
      inversion Hga as [|? ? Hga1 _]; subst. destruct (IH Hga1 va Hva) as (d & Ed & Hd).
      cbn [map]. rewrite D_cos, Ed. cbn [bind]. eexists. split; [reflexivity|].
      rewrite (times_fwd env _ d (-1 * Rtrigo_def.sin va) _) with (2 := Hd).
      + f_equal. rewrite <- dotf_scale. apply dotf_ext. intros s Hs. destruct (Hgv s Hs) as (l & El & ->). injection El as <-. reflexivity.
      + right. apply reval_node. exists [-1; Rtrigo_def.sin va]. split.
        * constructor; [reflexivity|]. constructor; [|constructor]. apply reval_node. exists [va]. split; [repeat constructor; rewrite Hval; exact Hva|reflexivity].
        * change (Some (-1 * (Rtrigo_def.sin va * 1)) = Some (-1 * Rtrigo_def.sin va)). f_equal. ring.
    - rewrite (Hnode "pow"%string). fold Pow. apply reval_node in Hw as (vals & Hvals & Hop).
      inversion Hvals as [|? va ? vr Hva Hvr]; subst. inversion Hvr as [|? vb ? vr2 Hvb Hvr2]; subst. inversion Hvr2; subst.
      change (rpow va vb = Some w) in Hop.
      assert (Hall : forall s, In s S -> exists da l, deriv cas_diff (Symbol s) a = Ok da /\ deriv cas_diff (Symbol s) b0 = Ok zero /\
         reval env' da = Some l /\ ((da = zero /\ l = 0 /\ gv (Node [Pow; a; b0]) s = 0) \/
           (da <> zero /\ exists q, rpow va (vb + (-1)) = Some q /\ gv (Node [Pow; a; b0]) s = vb * q * l))).
      { intros s Hs. destruct (Hg s Hs) as (d & v & Hd & Hv). rewrite (gv_value _ s d v Hd Hv). rewrite D_pow in Hd.
        destruct (deriv cas_diff (Symbol s) a) as [da|] eqn:E; [|discriminate].
        destruct (deriv cas_diff (Symbol s) b0) as [db|] eqn:Eb; [|discriminate]. cbn [bind] in Hd.
        destruct (tree_eqb_spec db zero) as [->|]; [|discriminate]. injection Hd as <-.
        apply times_value in Hv as (l & Hl & Hcase). exists da, l. do 3 (split; [first [reflexivity|exact Hl]|]).
        destruct Hcase as [(-> & -> & ->)|(Hne & k & Hk & ->)]; [left; auto|right; split; [exact Hne|]].
        apply reval_node in Hk as (ks & Hks & Hopk). inversion Hks as [|? k1 ? kr Hk1 Hkr]; subst.
        inversion Hkr as [|? k2 ? kr2 Hk2 Hkr2]; subst. inversion Hkr2; subst. injection Hopk as <-.
        assert (k1 = vb) as -> by congruence.
        apply reval_node in Hk2 as (ps & Hps & Hopp). inversion Hps as [|? p1 ? pr Hp1 Hpr]; subst.
        inversion Hpr as [|? p2 ? pr2 Hp2 Hpr2]; subst. inversion Hpr2; subst. assert (p1 = va) as -> by congruence.
        change (rpow va p2 = Some k2) in Hopp.
        apply reval_node in Hp2 as (qs & Hqs & Hopq). inversion Hqs as [|? q1 ? qr Hq1 Hqr]; subst.
        inversion Hqr as [|? q2 ? qr2 Hq2 Hqr2]; subst. inversion Hqr2; subst. assert (q1 = vb) as -> by congruence.
        injection Hq2 as <-. injection Hopq as <-. exists k2. rewrite <- Hopp. split; [f_equal; ring|ring]. }
      assert (Hga : good a) by (intros s Hs; destruct (Hall s Hs) as (da & l & H1 & _ & H2 & _); eauto).
      assert (Hgb : good b0) by (intros s Hs; destruct (Hall s Hs) as (da & l & _ & H1 & _); exists zero, 0; split; [exact H1|reflexivity]).
      assert (Hnb : forall s, In s S -> ~ contains b0 s).
      { intros s Hs. destruct (Hall s Hs) as (da & l & _ & H1 & _). apply (deriv_zero_iff s b0 Hb zero H1). reflexivity. }
      cbn [map]. rewrite D_pow, (sig_absent_deriv b0 Hb Hnb Hgb).
      destruct (some_or_none a Ha) as [(s0 & Hs0 & Hc0)|Hna].
      + destruct (IHa Hga va Hva) as (d & Ed & Hd). rewrite Ed. cbn [bind]. rewrite tree_eqb_refl. eexists. split; [reflexivity|].
        destruct (Hall s0 Hs0) as (da0 & l0 & Hd0 & _ & _ & [(-> & _)|(_ & q & Hq & _)]).
        { exfalso. apply (deriv_zero_iff s0 a Ha zero Hd0) in Hc0; [exact Hc0|reflexivity]. }
        rewrite (times_fwd env _ d (vb * q) _) with (2 := Hd).
        * f_equal. rewrite <- dotf_scale. apply dotf_ext. intros s Hs. destruct (Hall s Hs) as (da & l & H1 & _ & H2 & Hc).
          rewrite (gv_value a s da l H1 H2). destruct Hc as [(_ & -> & ->)|(_ & q' & Hq' & ->)]; [ring|]. congruence.
        * right. apply reval_node. exists [vb; q]. split.
          -- constructor; [rewrite Hval; exact Hvb|]. constructor; [|constructor]. apply reval_node. exists [va; vb + -1]. split; [|exact Hq].
             constructor; [rewrite Hval; exact Hva|]. constructor; [|constructor]. apply reval_node. exists [vb; -1]. split.
             ++ constructor; [rewrite Hval; exact Hvb|]. constructor; [reflexivity|constructor].
             ++ change (Some (vb + (-1 + 0)) = Some (vb + -1)). f_equal. ring.
          -- change (Some (vb * (q * 1)) = Some (vb * q)). f_equal. ring.
      + rewrite (sig_absent_deriv a Ha Hna Hga). cbn [bind]. rewrite tree_eqb_refl. eexists. split; [reflexivity|].
        rewrite (times_fwd env _ zero 0 0) by auto. f_equal. rewrite (dotf_ext _ (fun _ => 0)), dotf_zero; [ring|].
        intros s Hs. destruct (Hall s Hs) as (da & l & H1 & _ & H2 & [(_ & _ & E)|(Hne & _)]); [exact E|].
        exfalso. apply Hne, (deriv_zero_iff s a Ha da H1), Hna, Hs.
  Qed.
End Chain.
