(** * C112. Sessions at a prompt: errors, Ctrl-C, deleted variables and collected temporaries change nothing else. *)
From Verif Require Import Py ModelTree SpecTree ModelIntern SpecIntern ModelEval ModelDiff ModelSym ModelCas ModelApi ProofBase ProofIntern ProofInternLive
  ModelObjects SpecObjects ModelObjEval SpecObjEval ModelObjExpr SpecObjExpr SpecObjPrompt ProofTopo ProofObjects ProofObjTree ProofObjEval ProofObjExpr.
From Verif Require PropsIntern PropsObjExpr.

Section Props.
  Context (names : nat -> string) (atomic : bool) (who : nat -> Prop) (t : nat).
  Context (Hsafe : safe atomic who) (Hwho : who t) (Hnames : cas_names names).
  Notation has_expr := (has_expr names t).
  Notation has_tree := (has_tree names t).
  Notation is_tree_obj := (is_tree_obj names).
  Notation ready := (ready atomic who t).
  Notation W := (W atomic who t).
  Notation le := (le t).
  Notation vars := (vars names t).
  Notation module_ok := (module_ok names t).
  Notation between := (between atomic who t).
  Notation stopped := (stopped atomic who t).
  Notation prompt := (prompt atomic who t).
  Notation session := (session atomic who t).
  Notation step := (step pyval_eqb atomic who).
  Implicit Types (s : state pyval).

  (** ** Only what is live stays *)
  Definition restrict s (l : list addr) : state pyval := set_thread s t (mkThread l (at_ (threads s t))).
  Lemma between_trans l s s1 s2 : between l s s1 -> between l s1 s2 -> between l s s2.
  Proof. intros H1 H2. induction H2 as [|s2 s3 _ IH St Hi Hl]; [exact H1|econstructor; eassumption]. Qed.
  Lemma between_ok l s s' : W s -> incl l (held (threads s t)) -> between l s s' -> W s' /\ le (restrict s l) s' /\ incl l (held (threads s' t)).
  Proof.
    intros HW Hl H. induction H as [|s1 s2 _ (W1 & [K1 L1] & I1) St Hi I2].
    - split; [exact HW|]. split; [|exact Hl]. split.
      + intros a Ha. cbn [restrict set_thread threads] in Ha. rewrite upd_same in Ha. apply Hl, Ha.
      + cbn [restrict set_thread heap]. auto.
    - split; [split; [eapply steps_more; [apply W1|exact St]|exact Hi]|]. split; [|exact I2]. split.
      + intros a Ha. cbn [restrict set_thread threads] in Ha. rewrite upd_same in Ha. apply I2, Ha.
      + intros a b Ha Hb. destruct (L1 a b Ha Hb) as [L2 O2].
        destruct (PropsIntern.leads_trans_step pyval_eqb atomic who s1 s2 a b St (ex_intro _ t (or_introl (K1 a Ha))) L2) as [L3 O3].
        split; [exact L3|]. intros o Ho. apply O3, O2, Ho.
  Qed.
  Lemma restrict_expr s l e u : has_expr s e u -> In e l -> has_expr (restrict s l) e u.
  Proof. intros [_ H] Hl. split; [|exact H]. cbn [restrict set_thread threads]. rewrite upd_same. exact Hl. Qed.
  Lemma restrict_tree s l e u : has_tree s e u -> In e l -> has_tree (restrict s l) e u.
  Proof. intros [_ H] Hl. split; [|exact H]. cbn [restrict set_thread threads]. rewrite upd_same. exact Hl. Qed.
  Lemma restrict_list {B} (R : state pyval -> addr -> B -> Prop) s l : (forall e u, R s e u -> In e l -> R (restrict s l) e u) ->
    forall m us, Forall2 (R s) m us -> incl m l -> Forall2 (R (restrict s l)) m us.
  Proof.
    intros K m us H. induction H as [|e u m us He _ IH]; intros Hl; [constructor|]. constructor; [apply K; [exact He|apply Hl; left; reflexivity]|].
    apply IH. intros a Ha. apply Hl. right. exact Ha.
  Qed.
  Lemma in_props l p : incl (props_refs p) l -> In (od_zero p) l /\ In (od_one p) l /\ In (od_add p) l /\ In (od_mul p) l /\
    incl (od_distributive p) l /\ Forall (fun r => In (fst (fst r)) l /\ incl (snd (fst (snd r))) l) (od_rules p).
  Proof.
    unfold props_refs. intros H. repeat split; try (apply H; cbn [In]; tauto).
    - intros a Ha. apply H. do 4 right. apply in_or_app. left. exact Ha.
    - apply Forall_forall. intros r Hr. assert (G : forall a, In a (fst (fst r) :: snd (fst (snd r))) -> In a l).
      { intros a Ha. apply H. do 4 right. apply in_or_app. right. apply in_flat_map. exists r. split; [exact Hr|exact Ha]. }
      split; [apply G; left; reflexivity|intros a Ha; apply G; right; exact Ha].
  Qed.
  Lemma restrict_props s l p q : same_props names t s p q -> incl (props_refs p) l -> same_props names t (restrict s l) p q.
  Proof.
    intros [H1 H2 H3 H4 H5 H6] Hl. destruct (in_props l p Hl) as (I1 & I2 & I3 & I4 & I5 & I6). clear Hl.
    constructor; try (apply restrict_tree; assumption).
    - apply (restrict_list has_tree); [apply restrict_tree|exact H5|exact I5].
    - revert I6. induction H6 as [|r r' m m' (K1 & K2 & K3 & K4 & K5) _ IH]; intros I6; [constructor|]. inversion I6 as [|? ? [J1 J2] J3]; subst.
      constructor; [|apply IH, J3]. split; [apply restrict_tree; assumption|]. split; [exact K2|]. split; [exact K3|]. split; [|exact K5].
      apply (restrict_list has_tree); [apply restrict_tree|exact K4|exact J2].
  Qed.
  Lemma restrict_vars s g st q : vars s st q -> vars (restrict s (live g st)) st q.
  Proof.
    destruct st as [env p], q as [us q]. intros [H1 H2]. cbn [fst snd] in *. unfold live. cbn [fst snd]. split; cbn [fst snd].
    - apply (restrict_list has_expr); [apply restrict_expr|exact H1|]. intros a Ha. apply in_or_app. right. apply in_or_app. left. exact Ha.
    - apply restrict_props; [exact H2|]. intros a Ha. apply in_or_app. right. apply in_or_app. right. exact Ha.
  Qed.
  Lemma restrict_module s g st : module_ok s g -> module_ok (restrict s (live g st)) g.
  Proof.
    intros []. unfold live. constructor; (apply restrict_expr; [assumption|]); apply in_or_app; left; cbn [module_refs In]; tauto.
  Qed.
  Lemma exprs_held s m us : Forall2 (has_expr s) m us -> incl m (held (threads s t)).
  Proof. intros H. induction H as [|e u m us [He _] _ IH]; intros a Ha; [destruct Ha|]. destruct Ha as [<-|Ha]; [exact He|apply IH, Ha]. Qed.
  Lemma trees_held s m us : Forall2 (has_tree s) m us -> incl m (held (threads s t)).
  Proof. intros H. induction H as [|e u m us [He _] _ IH]; intros a Ha; [destruct Ha|]. destruct Ha as [<-|Ha]; [exact He|apply IH, Ha]. Qed.
  Lemma live_held s g st q : module_ok s g -> vars s st q -> incl (live g st) (held (threads s t)).
  Proof.
    intros [] [H1 [P1 P2 P3 P4 P5 P6]] a Ha. unfold live in Ha. apply in_app_or in Ha as [Ha|Ha].
    - cbn [module_refs In] in Ha. do 9 (destruct Ha as [<-|Ha]; [match goal with H : has_expr _ ?x _ |- In ?x _ => apply H end|]). destruct Ha.
    - apply in_app_or in Ha as [Ha|Ha]; [eapply exprs_held; eassumption|]. unfold props_refs in Ha.
      destruct Ha as [<-|[<-|[<-|[<-|Ha]]]]; try (match goal with H : has_tree _ ?x _ |- In ?x _ => apply H end).
      apply in_app_or in Ha as [Ha|Ha]; [eapply trees_held; eassumption|]. apply in_flat_map in Ha as (r & Hr & Ha). clear - P6 Hr Ha.
      induction P6 as [|r0 r' m m' (K1 & K2 & K3 & K4 & K5) _ IH]; [destruct Hr|]. destruct Hr as [<-|Hr]; [|apply IH, Hr].
      destruct Ha as [<-|Ha]; [apply K1|]. eapply trees_held; eassumption.
  Qed.
  Lemma between_keeps s g st q s' : W s -> module_ok s g -> vars s st q -> between (live g st) s s' -> W s' /\ module_ok s' g /\ vars s' st q.
  Proof.
    intros HW Hg Hv H. destruct (between_ok (live g st) s s' HW (live_held s g st q Hg Hv) H) as (W' & L & _). split; [exact W'|]. split.
    - eapply module_le; [exact L|apply restrict_module, Hg].
    - eapply mono_vars; [exact L|apply restrict_vars, Hv].
  Qed.

  (** ** Statements that are stopped *)
  Lemma stopped_ok {A} (p : prog A) s s' : stopped p s s' -> W s -> W s' /\ le s s'.
  Proof.
    induction 1 as [p s|p s s1 s' St K Hi _ IH|a c s o s' Ha Ho _ IH|k c s s1 b s' Hk Hc Hd _ IH|k c s s1 Hk Hc Hd]; intros HW.
    - split; [exact HW|apply le_refl].
    - destruct IH as [W1 L1]; [split; [eapply steps_more; [apply HW|exact St]|exact Hi]|]. split; [exact W1|].
      eapply le_trans; [eapply step_le; eassumption|exact L1].
    - destruct (hold_all_ok atomic who t (obj_refs o) s a o HW Ha Ho) as (W1 & L1 & _); [auto|]. destruct (IH W1) as [W2 L2].
      split; [exact W2|eapply le_trans; eassumption].
    - destruct (new_done atomic who t Hwho s s1 k b HW Hk Hc Hd) as (_ & W1 & L1 & _). destruct (IH W1) as [W2 L2]. split; [exact W2|eapply le_trans; eassumption].
    - pose proof (call_step atomic who t Hwho s k HW Hk) as St.
      destruct (in_call_ok atomic who t _ _ (steps_more _ _ _ _ _ _ (proj1 HW) St) Hc) as [R1 L1].
      assert (St2 : step s1 (goto s1 t Idle)) by (apply s_interrupt, Hd).
      split; [split; [eapply steps_more; eassumption|cbn [goto set_thread threads]; rewrite upd_same; reflexivity]|].
      eapply le_trans; [eapply step_le; [exact St|apply keeps_goto]|]. eapply le_trans; [exact L1|]. eapply step_le; [exact St2|apply keeps_goto].
  Qed.

  (** ** Sessions *)
  Lemma prompt_inv fuel g l st s s' st' os : prompt fuel g l st s s' st' os -> exists s0, between (live g st) s s0 /\
    match l with
    | [] => s' = s0 /\ st' = st /\ os = []
    | CDo c :: l => exists s1 os', (exists st1, os = Silent :: os' /\ runs atomic who t (o_statement fuel g st c) s0 s1 (Ok st1) /\ prompt fuel g l st1 s1 s' st' os') \/
        (exists e, os = Exception e :: os' /\ runs atomic who t (o_statement fuel g st c) s0 s1 (Err e) /\ prompt fuel g l st s1 s' st' os')
    | CStop c :: l => exists s1 os', os = Interrupted :: os' /\ stopped (o_statement fuel g st c) s0 s1 /\ prompt fuel g l st s1 s' st' os'
    | CDel i :: l => exists os', (i < length (fst st) /\ os = Silent :: os' /\ prompt fuel g l (without (fst st) i, snd st) s0 s' st' os') \/
        (length (fst st) <= i /\ os = Exception IndexError :: os' /\ prompt fuel g l st s0 s' st' os')
    end.
  Proof.
    induction 1 as [st s|l st s s1 s' st' os Hb _ IH|c l st s s1 st1 s' st' os Hr Hp _|c l st s s1 e s' st' os Hr Hp _|c l st s s1 s' st' os Hr Hp _
      |i l st s s' st' os Hi Hp _|i l st s s' st' os Hi Hp _].
    - exists s. split; [constructor|]. auto.
    - destruct IH as (s0 & H1 & H2). exists s0. split; [eapply between_trans; eassumption|exact H2].
    - exists s. split; [constructor|]. exists s1, os. left. eauto.
    - exists s. split; [constructor|]. exists s1, os. right. eauto.
    - exists s. split; [constructor|]. eauto.
    - exists s. split; [constructor|]. exists os. left. auto.
    - exists s. split; [constructor|]. exists os. right. auto.
  Qed.
  Lemma getitem_length {A} (l : list A) i : match getitem l i with Ok _ => i < length l | Err e => e = IndexError /\ length l <= i end.
  Proof.
    unfold getitem. destruct (nth_error l i) eqn:E; cbn [of_option]; [apply nth_error_Some; congruence|]. split; [reflexivity|]. apply nth_error_None, E.
  Qed.
  Lemma without_F2 {A B} (R : A -> B -> Prop) l m : Forall2 R l m -> forall i, Forall2 R (without l i) (without m i).
  Proof.
    intros H. unfold without. induction H as [|a b l m Hab Hlm IH]; intros i; [destruct i; constructor|].
    destruct i as [|i]; [exact Hlm|]. cbn [firstn skipn]. constructor; [exact Hab|exact (IH i)].
  Qed.
  Lemma vars_without s st q i : vars s st q -> vars s (without (fst st) i, snd st) (without (fst q) i, snd q).
  Proof. intros [H1 H2]. split; [|exact H2]. cbn [fst]. apply without_F2, H1. Qed.
  Lemma vars_length s st q : vars s st q -> length (fst st) = length (fst q).
  Proof. intros [H _]. exact (rl_length has_expr s _ _ H). Qed.

  Lemma prompt_ref l : forall q, exists N, forall fuel, N <= fuel -> forall s g st, W s -> module_ok s g -> vars s st q ->
    (exists s' st' os, prompt fuel g l st s s' st' os) /\
    forall s' st' os, prompt fuel g l st s s' st' os ->
      os = snd (v_commands q l) /\ W s' /\ module_ok s' g /\ vars s' st' (fst (v_commands q l)).
  Proof.
    induction l as [|c l IH]; intros q.
    - exists 0. intros fuel _ s g st HW Hg Hv. split; [exists s, st, []; constructor|]. intros s' st' os H.
      destruct (prompt_inv _ _ _ _ _ _ _ _ H) as (s0 & Hb & -> & -> & ->). split; [reflexivity|]. eapply between_keeps; eassumption.
    - destruct c as [c|c|i]; cbn [v_commands v_command].
      + destruct q as [env q]. destruct (statement_ref names atomic who t Hsafe Hwho Hnames c env q) as (N & HN).
        set (q1 := match v_statement (env, q) c with Ok q1 => q1 | Err _ => (env, q) end).
        destruct (IH q1) as (M & HM). exists (N + M). intros fuel Hf s g st HW Hg Hv.
        assert (E : forall s0 s1 r, W s0 -> module_ok s0 g -> vars s0 st (env, q) -> runs atomic who t (o_statement fuel g st c) s0 s1 r ->
          W s1 /\ module_ok s1 g /\ match r, v_statement (env, q) c with Ok st1, Ok q2 => vars s1 st1 q2 | Err e, Err e' => e = e' /\ vars s1 st (env, q) | _, _ => False end).
        { intros s0 s1 r W0 G0 V0 Hr. destruct (HN fuel ltac:(lia) s0 g st W0 G0 V0) as [_ H]. specialize (H s1 r Hr).
          destruct (runs_ok atomic who t Hwho _ _ _ _ Hr W0) as [W1 L1]. split; [exact W1|]. split; [eapply module_le; eassumption|].
          destruct r as [st1|e], (v_statement (env, q) c); try exact H. split; [exact H|]. eapply mono_vars; eassumption. }
        split.
        * destruct (HN fuel ltac:(lia) s g st HW Hg Hv) as [(s1 & r & Hr) _]. destruct (E s s1 r HW Hg Hv Hr) as (W1 & G1 & K).
          destruct (HM fuel ltac:(lia) s1 g (match r with Ok st1 => st1 | Err _ => st end) W1 G1) as [(s' & st' & os & Hp) _].
          { unfold q1. destruct r, (v_statement (env, q) c); try contradiction; [exact K|apply K]. }
          destruct r as [st1|e]; [exists s', st', (Silent :: os); eapply prompt_do; eassumption|exists s', st', (Exception e :: os); eapply prompt_raise; eassumption].
        * intros s' st' os H. destruct (prompt_inv _ _ _ _ _ _ _ _ H) as (s0 & Hb & s1 & os' & D).
          destruct (between_keeps s g st _ s0 HW Hg Hv Hb) as (W0 & G0 & V0).
          destruct D as [(st1 & -> & Hr & Hp)|(e & -> & Hr & Hp)].
          -- destruct (E s0 s1 _ W0 G0 V0 Hr) as (W1 & G1 & K). unfold q1 in HM. destruct (v_statement (env, q) c) as [q2|]; [|destruct K].
             destruct (HM fuel ltac:(lia) s1 g st1 W1 G1 K) as [_ R]. specialize (R s' st' os' Hp).
             destruct (v_commands q2 l) as [q3 os3]. cbn [fst snd] in *. destruct R as [-> R]. auto.
          -- destruct (E s0 s1 _ W0 G0 V0 Hr) as (W1 & G1 & K). unfold q1 in HM. destruct (v_statement (env, q) c) as [q2|]; [destruct K|]. destruct K as [<- K].
             destruct (HM fuel ltac:(lia) s1 g st W1 G1 K) as [_ R]. specialize (R s' st' os' Hp).
             destruct (v_commands (env, q) l) as [q3 os3]. cbn [fst snd] in *. destruct R as [-> R]. auto.
      + destruct (IH q) as (M & HM). exists M. intros fuel Hf s g st HW Hg Hv. split.
        * destruct (HM fuel Hf s g st HW Hg Hv) as [(s' & st' & os & Hp) _]. exists s', st', (Interrupted :: os). eapply prompt_stop; [constructor|exact Hp].
        * intros s' st' os H. destruct (prompt_inv _ _ _ _ _ _ _ _ H) as (s0 & Hb & s1 & os' & -> & Hr & Hp).
          destruct (between_keeps s g st _ s0 HW Hg Hv Hb) as (W0 & G0 & V0). destruct (stopped_ok _ _ _ Hr W0) as [W1 L1].
          destruct (HM fuel Hf s1 g st W1) as [_ R]; [eapply module_le; eassumption|eapply mono_vars; eassumption|]. specialize (R s' st' os' Hp).
          destruct (v_commands q l) as [q3 os3]. cbn [fst snd] in *. destruct R as [-> R]. auto.
      + pose proof (getitem_length (fst q) i) as Gi. destruct (getitem (fst q) i) as [u|e].
        * destruct (IH (without (fst q) i, snd q)) as (M & HM). exists M. intros fuel Hf s g st HW Hg Hv. split.
          -- destruct (HM fuel Hf s g (without (fst st) i, snd st) HW Hg (vars_without _ _ _ i Hv)) as [(s' & st' & os & Hp) _]. exists s', st', (Silent :: os).
             eapply prompt_del; [rewrite (vars_length _ _ _ Hv); exact Gi|exact Hp].
          -- intros s' st' os H. destruct (prompt_inv _ _ _ _ _ _ _ _ H) as (s0 & Hb & os' & D).
             destruct (between_keeps s g st _ s0 HW Hg Hv Hb) as (W0 & G0 & V0). destruct D as [(Hi & -> & Hp)|(Hi & _)]; [|rewrite (vars_length _ _ _ Hv) in Hi; lia].
             destruct (HM fuel Hf s0 g (without (fst st) i, snd st) W0 G0 (vars_without _ _ _ i V0)) as [_ R]. specialize (R s' st' os' Hp).
             destruct (v_commands (without (fst q) i, snd q) l) as [q3 os3]. cbn [fst snd] in *. destruct R as [-> R]. auto.
        * destruct Gi as [-> Gi]. destruct (IH q) as (M & HM). exists M. intros fuel Hf s g st HW Hg Hv. split.
          -- destruct (HM fuel Hf s g st HW Hg Hv) as [(s' & st' & os & Hp) _]. exists s', st', (Exception IndexError :: os).
             eapply prompt_del_no; [rewrite (vars_length _ _ _ Hv); exact Gi|exact Hp].
          -- intros s' st' os H. destruct (prompt_inv _ _ _ _ _ _ _ _ H) as (s0 & Hb & os' & D).
             destruct (between_keeps s g st _ s0 HW Hg Hv Hb) as (W0 & G0 & V0). destruct D as [(Hi & _)|(Hi & -> & Hp)]; [rewrite (vars_length _ _ _ Hv) in Hi; lia|].
             destruct (HM fuel Hf s0 g st W0 G0 V0) as [_ R]. specialize (R s' st' os' Hp).
             destruct (v_commands q l) as [q3 os3]. cbn [fst snd] in *. destruct R as [-> R]. auto.
  Qed.
  Lemma session_all l : exists N, forall fuel, N <= fuel -> forall s, ready s ->
    (exists s' g st os, session fuel l s s' g st os) /\
    forall s' g st os, session fuel l s s' g st os ->
      os = snd (v_prompt l) /\ W s' /\ module_ok s' g /\ vars s' st (fst (v_commands ([], cas_diff) l)).
  Proof.
    destruct (prompt_ref l ([], cas_diff)) as (N & HN). exists (import_fuel + N). intros fuel Hf s HW.
    destruct (import_ref names atomic who t Hsafe Hwho Hnames s fuel HW ltac:(lia)) as [(s1 & r & Hr) H].
    assert (E : snd (v_commands ([], cas_diff) l) = snd (v_prompt l)) by (unfold v_prompt; destruct (v_commands ([], cas_diff) l) as [[? ?] ?]; reflexivity).
    assert (G : forall s1 g p, runs atomic who t (o_import fuel) s s1 (Ok (g, p)) -> W s1 /\ module_ok s1 g /\ vars s1 ([], p) ([], cas_diff)).
    { intros s2 g p Hr2. specialize (H s2 _ Hr2). destruct H as [G1 P1]. split; [apply (runs_ok atomic who t Hwho _ _ _ _ Hr2 HW)|]. split; [exact G1|]. split; [constructor|exact P1]. }
    split.
    - pose proof (H s1 r Hr) as K. destruct r as [[g p]|]; [|destruct K]. destruct (G s1 g p Hr) as (W1 & G1 & V1).
      destruct (HN fuel ltac:(lia) s1 g ([], p) W1 G1 V1) as [(s' & st' & os & Hp) _]. exists s', g, st', os. exists s1, p. split; assumption.
    - intros s' g st os (s2 & p & Hr2 & Hp). destruct (G s2 g p Hr2) as (W1 & G1 & V1). rewrite <- E.
      exact (proj2 (HN fuel ltac:(lia) s2 g ([], p) W1 G1 V1) s' st os Hp).
  Qed.

  (** A session can always go on; whatever happens, the user sees the exceptions that the meaning on values says, and the variables hold its expressions. *)
  Theorem C112_prompt l s : ready s -> exists n, forall fuel, n <= fuel ->
    (exists s' g st os, session fuel l s s' g st os) /\
    forall s' g st os, session fuel l s s' g st os -> os = snd (v_prompt l) /\ Forall2 (has_expr s') (fst st) (fst (v_prompt l)).
  Proof.
    intros Hr. destruct (session_all l) as (N & H). exists N. intros fuel Hf. destruct (H fuel Hf s Hr) as [H1 H2]. split; [exact H1|].
    intros s' g st os Hs. destruct (H2 s' g st os Hs) as (E & _ & _ & [V _]). split; [exact E|]. unfold v_prompt.
    destruct (v_commands ([], cas_diff) l) as [[env q] os0]. exact V.
  Qed.
  (** [is] is [==]: two variables are the same object exactly if they have the same expression. Also after deletions and collections. *)
  Theorem C112_identity l s : ready s -> exists n, forall fuel, n <= fuel -> forall s' g st os, session fuel l s s' g st os ->
    forall i j e f u v, nth_error (fst st) i = Some e -> nth_error (fst st) j = Some f ->
      nth_error (fst (v_prompt l)) i = Some u -> nth_error (fst (v_prompt l)) j = Some v -> (e = f <-> u = v).
  Proof.
    intros Hr. destruct (session_all l) as (N & H). exists N. intros fuel Hf s' g st os Hs i j e f u v Ei Ej Ui Uj.
    destruct (proj2 (H fuel Hf s Hr) s' g st os Hs) as (_ & W' & _ & [V _]). unfold v_prompt in Ui, Uj.
    destruct (v_commands ([], cas_diff) l) as [[env q] os0]. cbn [fst] in *.
    assert (G : forall i e u, nth_error (fst st) i = Some e -> nth_error env i = Some u -> has_expr s' e u).
    { clear - V. induction V as [|e u vars env He _ IH]; intros [|i] e' u' E1 E2; cbn [nth_error] in *; try discriminate; [congruence|eapply IH; eassumption]. }
    apply (PropsObjExpr.C72_comparison names atomic who t Hsafe s' e u t f v); [apply W'|eapply G; eassumption|eapply G; eassumption].
  Qed.

  (** ** Memory *)
  Lemma drop_all l s : at_ (threads s t) = Idle -> incl l (held (threads s t)) -> exists s1, between l s s1 /\ held (threads s1 t) = filter (fun a => if in_dec Nat.eq_dec a l then true else false) (held (threads s t)) /\ at_ (threads s1 t) = Idle.
  Proof.
    intros Hi Hl. remember (held (threads s t)) as h eqn:E.
    assert (G : forall back front s0, between l s s0 -> at_ (threads s0 t) = Idle -> held (threads s0 t) = filter (fun a => if in_dec Nat.eq_dec a l then true else false) front ++ back ->
      incl l (held (threads s0 t)) ->
      exists s1, between l s s1 /\ held (threads s1 t) = filter (fun a => if in_dec Nat.eq_dec a l then true else false) (front ++ back) /\ at_ (threads s1 t) = Idle).
    { induction back as [|a back IH]; intros front s0 Hb Hi0 Eh Hl0.
      - exists s0. rewrite app_nil_r in *. auto.
      - replace (front ++ a :: back) with ((front ++ [a]) ++ back) by (rewrite <- app_assoc; reflexivity).
        destruct (in_dec Nat.eq_dec a l) as [Ha|Ha] eqn:D.
        + apply (IH (front ++ [a]) s0); try assumption. rewrite filter_app. cbn [filter]. rewrite D, <- app_assoc. exact Eh.
        + set (s1 := set_thread s0 t (mkThread (filter (fun a => if in_dec Nat.eq_dec a l then true else false) front ++ back) (at_ (threads s0 t)))).
          assert (E1 : threads s1 t = mkThread (filter (fun a => if in_dec Nat.eq_dec a l then true else false) front ++ back) (at_ (threads s0 t))).
          { unfold s1. cbn [set_thread threads]. apply upd_same. }
          assert (L1 : incl l (held (threads s1 t))).
          { rewrite E1. cbn [held]. intros b Hb0. pose proof (Hl0 b Hb0) as K. rewrite Eh in K. apply in_app_or in K as [K|[<-|K]]; [apply in_or_app; auto|contradiction|apply in_or_app; auto]. }
          apply (IH (front ++ [a]) s1).
          * eapply between_more; [exact Hb|apply s_drop with (front := filter (fun a => if in_dec Nat.eq_dec a l then true else false) front) (a := a) (back := back); exact Eh| |exact L1].
            rewrite E1. exact Hi0.
          * rewrite E1. exact Hi0.
          * rewrite E1. cbn [held]. rewrite filter_app. cbn [filter]. rewrite D, app_nil_r. reflexivity.
          * exact L1. }
    destruct (G h [] s) as (s1 & H1 & H2 & H3); [constructor|exact Hi|rewrite <- E; reflexivity|rewrite <- E; exact Hl|]. exists s1. cbn [app] in H2. auto.
  Qed.
  Lemma collects_between l s s' : collects s s' -> at_ (threads s t) = Idle -> incl l (held (threads s t)) -> between l s s'.
  Proof.
    intros H Hi Hl. induction H as [|s1 a o H1 IH Ho Hu|s1 front k w back H1 IH Hd Hw]; [constructor|..].
    - pose proof (collects_threads _ _ H1) as E. eapply between_more; [exact IH|eapply s_collect; eassumption|..]; cbn [collect threads]; rewrite E; assumption.
    - pose proof (collects_threads _ _ H1) as E. eapply between_more; [exact IH|eapply s_callback; eassumption|..]; cbn [remove_entry threads]; rewrite E; assumption.
  Qed.
  Lemma part_trans u v w : part_of u v -> part_of v w -> part_of u w.
  Proof. intros H1 H2. induction H2 as [|us x Hx _ IH]; [exact H1|econstructor; eassumption]. Qed.
  Definition inside (h : addr -> option (ModelIntern.obj pyval)) (w : tree) (a : addr) : Prop :=
    (exists u, is_tree_obj h a u /\ part_of u w) \/ (exists x, is_atom_obj names h a x).
  Lemma inside_refs h w a o b : inside h w a -> h a = Some o -> In b (obj_refs o) -> inside h w b.
  Proof.
    intros [(u & Hu & Hp)|(x & Hx)] Ho Hb.
    - inversion Hu as [? c x Hc Hx|? l us Hc Hl]; subst.
      + assert (o = OLeaf c) by congruence. subst. destruct Hb as [<-|[]]. right. eauto.
      + assert (o = ONode l) by congruence. subst. cbn [obj_refs] in Hb. left.
        assert (G : exists v, In v us /\ is_tree_obj h b v).
        { clear - Hl Hb. induction Hl as [|c v l us Hv _ IH]; [destruct Hb|]. destruct Hb as [<-|Hb]; [exists v; split; [left; reflexivity|exact Hv]|].
          destruct (IH Hb) as (v' & H1 & H2). exists v'. split; [right; exact H1|exact H2]. }
        destruct G as (v & Hv & Hbv). exists v. split; [exact Hbv|]. eapply part_trans; [|exact Hp]. econstructor; [exact Hv|constructor].
    - inversion Hx as [ty v Hc]; subst. assert (o = OAtom ty v) by congruence. subst. destruct Hb.
  Qed.
  Lemma tree_leads h b w a : is_tree_obj h b w -> leads_to h b a -> inside h w a.
  Proof. intros Hw H. induction H as [|c o d _ IH Ho Hd]; [left; exists w; split; [exact Hw|constructor]|eapply inside_refs; eassumption]. Qed.
  Lemma expr_leads h b c w a : h b = Some (OSym 0 c) -> is_tree_obj h c w -> leads_to h b a -> a = b \/ inside h w a.
  Proof.
    intros Hb Hw H. induction H as [|d o e _ IH Ho He]; [left; reflexivity|]. right. destruct IH as [->|IH]; [|eapply inside_refs; eassumption].
    assert (o = OSym 0 c) by congruence. subst. destruct He as [<-|[]]. left. exists w. split; [exact Hw|constructor].
  Qed.
  Lemma inside_tree h w a u : inside h w a -> is_tree_obj h a u -> part_of u w.
  Proof.
    intros [(v & Hv & Hp)|(x & Hx)] Hu; [replace u with v by (eapply tree_obj_fun; eassumption); exact Hp|].
    inversion Hx; inversion Hu; congruence.
  Qed.
  Lemma inside_expr h w a c : inside h w a -> h a = Some (OSym 0 c) -> False.
  Proof. intros [(v & Hv & _)|(x & Hx)] Ha; [inversion Hv|inversion Hx]; congruence. Qed.
  Lemma F2_in {A B} (R : A -> B -> Prop) l m a : Forall2 R l m -> In a l -> exists b, In b m /\ R a b.
  Proof.
    intros H. induction H as [|x y l m Hxy _ IH]; intros Ha; [destruct Ha|]. destruct Ha as [<-|Ha]; [exists y; split; [left; reflexivity|exact Hxy]|].
    destruct (IH Ha) as (b & H1 & H2). exists b. split; [right; exact H1|exact H2].
  Qed.
  (** What is at an address that is live: an expression of a variable or of the module, or a Tree of the rules. *)
  Lemma live_cases s g st q a : module_ok s g -> vars s st q -> In a (live g st) ->
    (exists w, has_expr s a w /\ (In w (fst q) \/ In w module_trees)) \/ (exists w, has_tree s a w /\ In w (rule_trees (snd q))).
  Proof.
    intros [] [H1 [P1 P2 P3 P4 P5 P6]] Ha. unfold live in Ha. apply in_app_or in Ha as [Ha|Ha].
    - left. cbn [module_refs In] in Ha. do 9 (destruct Ha as [<-|Ha]; [eexists; split; [eassumption|]; right; cbn [module_trees In]; tauto|]). destruct Ha.
    - apply in_app_or in Ha as [Ha|Ha].
      + left. destruct (F2_in _ _ _ a H1 Ha) as (w & Hw & He). exists w. auto.
      + right. unfold props_refs in Ha. unfold rule_trees. destruct Ha as [<-|[<-|[<-|[<-|Ha]]]]; try (eexists; split; [eassumption|]; cbn [In]; tauto).
        apply in_app_or in Ha as [Ha|Ha].
        * destruct (F2_in _ _ _ a P5 Ha) as (w & Hw & He). exists w. split; [exact He|]. do 4 right. apply in_or_app. auto.
        * apply in_flat_map in Ha as (r & Hr & Ha). destruct (F2_in _ _ _ r P6 Hr) as (r' & Hr' & K1 & K2 & K3 & K4 & K5).
          destruct Ha as [<-|Ha].
          -- eexists. split; [exact K1|]. do 4 right. apply in_or_app. right. apply in_flat_map. exists r'. split; [exact Hr'|left; reflexivity].
          -- destruct (F2_in _ _ _ a K4 Ha) as (w & Hw & He). exists w. split; [exact He|]. do 4 right. apply in_or_app. right. apply in_flat_map.
             exists r'. split; [exact Hr'|right; exact Hw].
  Qed.
  (** Nothing leaks: after any session the memory of all expressions that are not in use any more can be freed. What stays of Trees are
      parts of the expressions of the variables, the library and its rules, what stays of Exprs are the variables and the names of the
      library; or other threads have them. *)
  Theorem C112_freed l s : ready s -> exists n, forall fuel, n <= fuel -> forall s' g st os, session fuel l s s' g st os ->
    exists s2, session fuel l s s2 g st os /\ between (live g st) s' s2 /\
      (forall a u, is_tree_obj (heap s2) a u ->
        (exists w, part_of u w /\ (In w (fst (v_prompt l)) \/ In w module_trees \/ In w (rule_trees (snd (fst (v_commands ([], cas_diff) l)))))) \/
        (exists t' b, t' <> t /\ (In b (held (threads s2 t')) \/ In b (pc_refs (at_ (threads s2 t')))) /\ leads_to (heap s2) b a)) /\
      (forall a b u, heap s2 a = Some (OSym 0 b) -> is_tree_obj (heap s2) b u ->
        (In u (fst (v_prompt l)) \/ In u module_trees) \/
        (exists t' b, t' <> t /\ (In b (held (threads s2 t')) \/ In b (pc_refs (at_ (threads s2 t')))) /\ leads_to (heap s2) b a)).
  Proof.
    intros Hr. destruct (session_all l) as (N & H). exists N. intros fuel Hf s' g st os Hs.
    destruct (proj2 (H fuel Hf s Hr) s' g st os Hs) as (_ & W' & G' & V').
    pose proof (live_held s' g st _ G' V') as Hl.
    destruct (drop_all (live g st) s' (proj2 W') Hl) as (s1 & B1 & E1 & I1).
    destruct (between_keeps s' g st _ s1 W' G' V' B1) as (W1 & G1 & V1). pose proof (live_held s1 g st _ G1 V1) as Hl1.
    destruct (PropsIntern.C55_no_leaks pyval_eqb atomic who s1 pyval_equivalence Hsafe (proj1 W1)) as (s2 & C2 & T2 & K2 & _).
    assert (B2 : between (live g st) s1 s2) by (apply collects_between; assumption).
    assert (B : between (live g st) s' s2) by (eapply between_trans; eassumption).
    destruct (between_keeps s' g st _ s2 W' G' V' B) as (W2 & G2 & V2).
    assert (S2 : forall c, session fuel l s c g st os -> between (live g st) c s2 -> session fuel l s s2 g st os).
    { intros c (s3 & p & Hr3 & Hp) Bc. exists s3, p. split; [exact Hr3|]. clear - Hp Bc. induction Hp.
      - eapply prompt_between; [exact Bc|constructor].
      - eapply prompt_between; [eassumption|]. auto.
      - eapply prompt_do; [eassumption|]. auto.
      - eapply prompt_raise; [eassumption|]. auto.
      - eapply prompt_stop; [eassumption|]. auto.
      - eapply prompt_del; [eassumption|]. auto.
      - eapply prompt_del_no; [eassumption|]. auto. }
    exists s2. split; [eapply S2; eassumption|]. split; [exact B|].
    assert (Ev : fst (v_prompt l) = fst (fst (v_commands ([], cas_diff) l))) by (unfold v_prompt; destruct (v_commands ([], cas_diff) l) as [[? ?] ?]; reflexivity).
    rewrite Ev.
    assert (R : forall a, heap s2 a <> None -> (exists b, In b (live g st) /\ leads_to (heap s2) b a) \/
      (exists t' b, t' <> t /\ (In b (held (threads s2 t')) \/ In b (pc_refs (at_ (threads s2 t')))) /\ leads_to (heap s2) b a)).
    { intros a Ha. destruct (K2 a Ha) as (b & (t' & Hb) & L). destruct (Nat.eq_dec t' t) as [->|Hne]; [|right; exists t', b; auto].
      left. exists b. split; [|exact L]. rewrite T2, I1, E1 in Hb. destruct Hb as [Hb|[]]. apply filter_In in Hb as [_ Hb].
      destruct (in_dec Nat.eq_dec b (live g st)); [assumption|discriminate]. }
    split.
    - intros a u Hu. destruct (R a) as [(b & Hb & L)|D]; [inversion Hu; congruence| |right; exact D]. left.
      destruct (live_cases s2 g st _ b G2 V2 Hb) as [(w & (_ & c & Hc & Hw) & D)|(w & (_ & Hw) & D)].
      + exists w. split; [|tauto]. destruct (expr_leads _ _ _ _ _ Hc Hw L) as [->|K]; [inversion Hu; congruence|eapply inside_tree; eassumption].
      + exists w. split; [|tauto]. eapply inside_tree; [eapply tree_leads; eassumption|exact Hu].
    - intros a c u Ha Hu. destruct (R a) as [(b & Hb & L)|D]; [congruence| |right; exact D]. left.
      destruct (live_cases s2 g st _ b G2 V2 Hb) as [(w & (_ & d & Hd & Hw) & D)|(w & (_ & Hw) & _)].
      + destruct (expr_leads _ _ _ _ _ Hd Hw L) as [->|K]; [|destruct (inside_expr _ _ _ _ K Ha)].
        assert (d = c) by congruence. subst. replace u with w by (eapply tree_obj_fun; eassumption). exact D.
      + destruct (inside_expr _ _ _ _ (tree_leads _ _ _ _ Hw L) Ha).
  Qed.
End Props.

(** ** A case: x = Symbol("x"); f = Function("f"); v2 = f(x); v3 = v2.diff(x) fails; diff[v2, x] = x; v3 = v2.diff(x);
      v4 = x * v3 is stopped; del v2; del v9 fails; v3 = f(x), once more. *)
Definition pc_session : list command :=
  [CDo (SSymbol "x"); CDo (SFunction "f"); CDo (SCall 1 [OE 0]); CDo (SDiff 2 0 1); CDo (SRule 2 0 0); CDo (SDiff 2 0 1);
   CStop (SBinop OpMul 0 (OE 3)); CDel 2; CDel 9; CDo (SCall 1 [OE 0])].
Example C112_case :
  (exists s, ready true (fun _ => True) 0 s /\ at_ (threads s 1) = Made (KAtom (ty_id T_Symbol) (VStr "x")) 0) /\
  v_prompt pc_session =
    ([Symbol "x"; Function "f"; Symbol "x"; Node [Function "f"; Symbol "x"]],
     [Silent; Silent; Silent; Exception KeyError; Silent; Silent; Interrupted; Silent; Exception IndexError; Silent]).
Proof.
  split; [|vm_compute; reflexivity]. destruct PropsObjExpr.C72_case as (_ & H & _). exact H.
Qed.
Print Assumptions C112_prompt.
Print Assumptions C112_identity.
Print Assumptions C112_freed.
