(** * C116. Sessions at a prompt with matrices, evaluators, compiled functions and SymPy. *)
From Verif Require Import Py ModelTree SpecTree ModelIntern SpecIntern ModelEval ModelDiff ModelSym ModelCas ModelApi ProofBase ProofIntern ProofInternLive ModelObjects SpecObjects
  ModelObjEval SpecObjEval ModelMatrix ModelSympy ModelObjExpr SpecObjExpr SpecObjPrompt ModelObjMatrix SpecObjMatrix ModelLLVM ModelObjLLVM SpecObjLLVM
  ModelObjRules SpecObjRules ModelObjSympy SpecObjSympy SpecObjConsole ProofTopo ProofObjects ProofObjTree ProofObjEval ProofObjExpr ProofMatrix ProofObjMatrix ProofObjLLVM
  ProofObjSympy PropsObjPrompt.
From Verif Require ProofObjRules PropsIntern PropsObjExpr PropsObjRules PropsSympy PropsObjSympy.

Section Props.
  Context (names : nat -> string) (atomic : bool) (who : nat -> Prop) (t : nat).
  Context (Hsafe : safe atomic who) (Hwho : who t) (Hnames : rule_names names).
  Context {V : Type} (none : V -> bool) (o : sympy_ops).
  Notation has_expr := (has_expr names t).
  Notation has_tree := (has_tree names t).
  Notation is_tree_obj := (is_tree_obj names).
  Notation ready := (ready atomic who t).
  Notation W := (W atomic who t).
  Notation le := (le t).
  Notation module_ok := (module_ok names t).
  Notation rmat := (has_matrix names t).
  Notation yvars := (yvars names t).
  Notation between := (between atomic who t).
  Notation stopped := (stopped atomic who t).
  Notation at_console := (at_console names atomic who t none).
  Notation session := (console_session names atomic who t none o).
  Notation v_console := (v_console none o).
  Notation v_kstatement := (v_kstatement none o).
  Notation o_kstatement := (o_kstatement names none).
  Notation o_kstate := (o_kstate (V := V)).
  Notation v_kstate := (v_kstate V).
  Notation restrict := (restrict t).
  Implicit Types (s : state pyval).
  Let Hcas : cas_names names := proj1 Hnames.
  Notation rev_ := (ProofObjRules.rev_ names atomic who t (V := sexpr)).
  Notation uev := (ProofObjRules.rev_ names atomic who t (V := V)).
  Definition kvars fuel s (st : o_kstate) (vt : v_kstate) : Prop :=
    yvars s (fst st) (fst vt) /\ rlist (uev fuel) s (fst (snd st)) (fst (snd vt)) /\ snd (snd st) = snd (snd vt).
  Lemma mono_kvars fuel : mono t (kvars fuel).
  Proof.
    intros s s' st vt L (H1 & H2 & H3). split; [eapply mono_yvars; eassumption|]. split; [|exact H3].
    eapply (mono_list t); [apply (ProofObjRules.mono_ev names atomic who t)|exact L|exact H2].
  Qed.

  (** ** Statements *)
  Definition known_k (c : kstatement V) : Prop := match c with KY _ => True | KR c => ProofObjRules.known c end.
  Lemma kstatement_ref ev (Hev : eval_to_sympy_ev o = Ok ev) c vt : known_k c -> exists N, forall fuel, N <= fuel -> forall s g st,
    W s -> module_ok s (lib_module g) -> rev_ fuel s (lib_to_sympy g) ev -> has_tree s (lib_star g) Star -> kvars fuel s st vt ->
    refines atomic who t s (o_kstatement fuel g st c) (v_kstatement vt c) (kvars fuel).
  Proof.
    intros Hc. destruct vt as [y [evs vals]]. destruct c as [c|c].
    - destruct (ystatement_ref names atomic who t Hsafe Hwho Hnames o ev Hev c y) as (N & HN). exists N. intros fuel Hf s g [y' [oevs vals']] HW Hg He Hs (H1 & H2 & H3). cbn [fst snd] in *.
      cbn [SpecObjConsole.o_kstatement SpecObjConsole.v_kstatement fst snd]. eapply (ref_bind atomic who t Hwho _ _ _ _ _ yvars); [exact HW|apply HN; assumption|].
      intros s1 a b W1 L1 K. apply (ref_ret atomic who t); [exact W1|apply mono_kvars|]. split; [exact K|]. split; [|exact H3]. cbn [fst snd].
      eapply (mono_list t); [apply (ProofObjRules.mono_ev names atomic who t)|exact L1|exact H2].
    - destruct y as [[[[us q] vs] tx] ou].
      destruct (ProofObjRules.rstatement_ref names atomic who t Hsafe Hwho Hnames none c us q evs vals Hc) as (N & HN). exists N.
      intros fuel Hf s g [[[[[env p] ms] tx'] ou'] [oevs vals']] HW Hg He Hs (H1 & H2 & H3). cbn [fst snd] in *.
      destruct H1 as [[[Hv Hm] Ht] Ho]. cbn [fst snd] in *. cbn [SpecObjConsole.o_kstatement SpecObjConsole.v_kstatement fst snd].
      eapply (ref_bind atomic who t Hwho _ _ _ _ _ (ProofObjRules.rvars names atomic who t fuel)); [exact HW|apply HN; try assumption|].
      { split; [exact Hv|]. split; [exact H2|exact H3]. }
      intros s1 [[[env1 p1] evs1] vals1] [[[us1 q1] vevs1] vvals1] W1 L1 (K1 & K2 & K3). cbn [fst snd] in *.
      apply (ref_ret atomic who t); [exact W1|apply mono_kvars|]. split; [|split; [exact K2|exact K3]]. cbn [fst snd].
      split; [|exact Ho]. split; [|exact Ht]. split; [exact K1|]. cbn [fst snd]. eapply (mono_list t); [apply (mono_mat names t)|exact L1|exact Hm].
  Qed.

  (** ** Only what is live stays *)
  Lemma exprs_F2 (R : state pyval -> addr -> tree -> Prop) s ms vs : Forall2 (fun M U => R s (vm_graph M) (vm_graph U) /\ Forall2 (R s) (vm_elements M) (vm_elements U)) ms vs ->
    Forall2 (R s) (flat_map (fun M => vm_graph M :: vm_elements M) ms) (flat_map (fun M => vm_graph M :: vm_elements M) vs).
  Proof.
    intros H. induction H as [|M U ms vs [H1 H2] _ IH]; [constructor|]. cbn [flat_map app]. constructor; [exact H1|]. apply Forall2_app; assumption.
  Qed.
  Lemma all_F2 fuel s (st : o_kstate) (vt : v_kstate) : kvars fuel s st vt -> Forall2 (has_expr s) (all_exprs st) (all_exprs vt).
  Proof.
    destruct st as [[[[[env p] ms] tx] ou] ue], vt as [[[[[us q] vs] tx'] ou'] ve]. intros [[[[[H1 _] H2] _] _] _]. cbn [fst snd all_exprs] in *. apply Forall2_app; [exact H1|].
    apply exprs_F2. eapply Forall2_mono; [|exact H2]. intros M U H. apply H.
  Qed.
  Lemma live_parts l g (st : o_kstate) : incl (console_live g st) l ->
    In (lib_star g) l /\ incl (module_refs (lib_module g)) l /\ incl (props_refs (rules_of st)) l /\ incl (heads (lib_to_sympy g)) l /\
    incl (flat_map heads (fst (snd st))) l /\ incl (all_exprs st) l.
  Proof. unfold console_live. intros H. split; [apply H; left; reflexivity|]. repeat split; intros a Ha; apply H; right; rewrite !in_app_iff; auto 6. Qed.
  Lemma restrict_state fuel s l (st : o_kstate) (vt : v_kstate) : kvars fuel s st vt -> incl (props_refs (rules_of st)) l -> incl (flat_map heads (fst (snd st))) l ->
    incl (all_exprs st) l -> kvars fuel (restrict s l) st vt.
  Proof.
    destruct st as [[[[[env p] ms] tx] ou] [oevs vals]], vt as [[[[[us q] vs] tx'] ou'] [evs vals']]. intros ([[[[H1 Hq] H2] H3] H4] & He & Ho) I1 IE I2. unfold rules_of in I1. cbn [fst snd all_exprs] in *.
    split; [|split; [|exact Ho]]; cbn [fst snd].
    - split; [|exact H4]. split; [|exact H3]. cbn [fst snd]. split; cbn [fst snd]; [split; cbn [fst snd]|].
      + apply (restrict_list t has_expr); [apply restrict_expr|exact H1|]. intros a Ha. apply I2, in_or_app. left. exact Ha.
      + apply restrict_props; assumption.
      + assert (I3 : incl (flat_map (fun M => vm_graph M :: vm_elements M) ms) l) by (intros a Ha; apply I2, in_or_app; right; exact Ha). clear - H2 I3.
        induction H2 as [|M U ms vs (K1 & K2 & K3 & K4 & K5) _ IH]; [constructor|]. cbn [flat_map] in I3. constructor.
        * repeat (split; [assumption|]). split; [apply restrict_expr; [exact K4|apply I3; left; reflexivity]|].
          apply (restrict_list t has_expr); [apply restrict_expr|exact K5|]. intros a Ha. apply I3. right. apply in_or_app. left. exact Ha.
        * apply IH. intros a Ha. apply I3. right. apply in_or_app. right. exact Ha.
    - clear - He IE. induction He as [|oe e oevs evs H _ IH]; [constructor|]. cbn [flat_map] in IE. constructor.
      + eapply ProofObjRules.fixed_keys; [|exact H]. intros a u Ha Hu. apply restrict_tree; [exact Hu|]. apply IE, in_or_app. left. exact Ha.
      + apply IH. intros a Ha. apply IE, in_or_app. right. exact Ha.
  Qed.
  Lemma restrict_names s l g : module_ok s g -> incl (module_refs g) l -> module_ok (restrict s l) g.
  Proof. intros [] Hl. constructor; (apply restrict_expr; [assumption|]); apply Hl; cbn [module_refs In]; tauto. Qed.
  Lemma props_held s p q : same_props names t s p q -> incl (props_refs p) (held (threads s t)).
  Proof.
    intros [P1 P2 P3 P4 P5 P6] a Ha. unfold props_refs in Ha.
    destruct Ha as [<-|[<-|[<-|[<-|Ha]]]]; try (match goal with H : has_tree _ ?x _ |- In ?x _ => apply H end).
    apply in_app_or in Ha as [Ha|Ha]; [eapply trees_held; eassumption|]. apply in_flat_map in Ha as (r & Hr & Ha). clear - P6 Hr Ha.
    induction P6 as [|r0 r' m m' (K1 & K2 & K3 & K4 & K5) _ IH]; [destruct Hr|]. destruct Hr as [<-|Hr]; [|apply IH, Hr].
    destruct Ha as [<-|Ha]; [apply K1|]. eapply trees_held; eassumption.
  Qed.
  Record inv (fuel : nat) (ev : evaluator sexpr) s (g : library) (st : o_kstate) (vt : v_kstate) : Prop := {
    i_w : W s; i_module : module_ok s (lib_module g); i_ev : rev_ fuel s (lib_to_sympy g) ev; i_star : has_tree s (lib_star g) Star; i_vars : kvars fuel s st vt
  }.
  Lemma live_is_held fuel ev s g st vt : inv fuel ev s g st vt -> incl (console_live g st) (held (threads s t)).
  Proof.
    intros [HW Hg He Hs Hv] a Ha. unfold console_live in Ha. destruct Ha as [<-|Ha]; [apply Hs|]. rewrite !in_app_iff in Ha. destruct Ha as [Ha|[Ha|[Ha|[Ha|Ha]]]].
    - destruct Hg. cbn [module_refs In] in Ha. do 9 (destruct Ha as [<-|Ha]; [match goal with H : has_expr _ ?x _ |- In ?x _ => apply H end|]). destruct Ha.
    - destruct st as [[[[[env p] ms] tx] ou] ue]. cbn [fst snd] in Ha. eapply props_held; [|exact Ha]. apply Hv.
    - eapply ProofObjRules.fixed_held; eassumption.
    - destruct Hv as (_ & H & _). revert Ha. clear - H. induction H as [|oe e oevs evs H _ IH]; intros Ha; [destruct Ha|]. cbn [flat_map] in Ha.
      apply in_app_or in Ha as [Ha|Ha]; [eapply ProofObjRules.fixed_held; eassumption|apply IH, Ha].
    - eapply exprs_held; [eapply all_F2, Hv|exact Ha].
  Qed.
  Lemma inv_between fuel ev s g st vt s' : inv fuel ev s g st vt -> between (console_live g st) s s' -> inv fuel ev s' g st vt.
  Proof.
    intros H Hb. destruct (between_ok atomic who t (console_live g st) s s' (i_w _ _ _ _ _ _ H) (live_is_held _ _ _ _ _ _ H) Hb) as (W' & L & _).
    destruct H as [HW Hg He Hs Hv]. destruct (live_parts _ g st (incl_refl _)) as (I0 & I1 & I2 & I3 & I4 & I5). constructor.
    - exact W'.
    - eapply module_le; [exact L|apply restrict_names; assumption].
    - eapply ProofObjRules.mono_ev; [exact L|]. eapply ProofObjRules.fixed_keys; [|exact He]. intros a u Ha Hu. apply restrict_tree; [exact Hu|apply I3, Ha].
    - eapply has_tree_le; [exact L|]. apply restrict_tree; [exact Hs|exact I0].
    - eapply mono_kvars; [exact L|]. apply restrict_state; assumption.
  Qed.
  Lemma inv_le fuel ev s g st vt s' : inv fuel ev s g st vt -> W s' -> le s s' -> inv fuel ev s' g st vt.
  Proof.
    intros [HW Hg He Hs Hv] W' L. constructor; [exact W'|eapply module_le; eassumption|eapply ProofObjRules.mono_ev; eassumption|eapply has_tree_le; eassumption|eapply mono_kvars; eassumption].
  Qed.

  (** ** Deletions *)
  Lemma F2_length {A B} (R : A -> B -> Prop) l m : Forall2 R l m -> length l = length m.
  Proof. intros H. induction H; cbn [length]; congruence. Qed.
  Lemma delete_ref fuel s (st : o_kstate) (vt : v_kstate) v : kvars fuel s st vt ->
    match delete v st, delete v vt with Some st1, Some vt1 => kvars fuel s st1 vt1 | None, None => True | _, _ => False end.
  Proof.
    destruct st as [[[[[env p] ms] tx] ou] [oevs vals]], vt as [[[[[us q] vs] tx'] ou'] [evs vals']]. intros ([[[[H1 Hq] H2] H3] H4] & He & Ho). cbn [fst snd] in *. destruct v as [i|m|k]; cbn [delete].
    - rewrite (F2_length _ _ _ H1). destruct (i <? _); [|exact I]. split; [|split; [exact He|exact Ho]]. cbn [fst snd].
      split; [|exact H4]. split; [|exact H3]. split; [|exact H2]. split; [|exact Hq]. cbn [fst snd]. apply without_F2, H1.
    - rewrite (F2_length _ _ _ H2). destruct (m <? _); [|exact I]. split; [|split; [exact He|exact Ho]]. cbn [fst snd].
      split; [|exact H4]. split; [|exact H3]. split; [split; [exact H1|exact Hq]|]. cbn [fst snd]. apply without_F2, H2.
    - rewrite (F2_length _ _ _ He). destruct (k <? _); [|exact I]. split; [|split; [|exact Ho]]; cbn [fst snd].
      + split; [|exact H4]. split; [|exact H3]. split; [split; [exact H1|exact Hq]|exact H2].
      + apply without_F2, He.
  Qed.

  (** ** Sessions *)
  Lemma console_inv fuel g l st s s' st' xs : at_console fuel g l st s s' st' xs -> exists s0, between (console_live g st) s s0 /\
    match l with
    | [] => s' = s0 /\ st' = st /\ xs = []
    | KDo c :: l => exists s1 xs', (exists st1, xs = Silent :: xs' /\ runs atomic who t (o_kstatement fuel g st c) s0 s1 (Ok st1) /\ at_console fuel g l st1 s1 s' st' xs') \/
        (exists e, xs = Exception e :: xs' /\ runs atomic who t (o_kstatement fuel g st c) s0 s1 (Err e) /\ at_console fuel g l st s1 s' st' xs')
    | KStop c :: l => exists s1 xs', xs = Interrupted :: xs' /\ stopped (o_kstatement fuel g st c) s0 s1 /\ at_console fuel g l st s1 s' st' xs'
    | KDel v :: l => exists xs', match delete v st with
        | Some st1 => xs = Silent :: xs' /\ at_console fuel g l st1 s0 s' st' xs'
        | None => xs = Exception IndexError :: xs' /\ at_console fuel g l st s0 s' st' xs' end
    end.
  Proof.
    induction 1 as [st s|l st s s1 s' st' xs Hb _ IH|c l st s s1 st1 s' st' xs Hr Hp _|c l st s s1 e s' st' xs Hr Hp _|c l st s s1 s' st' xs Hr Hp _
      |v l st st1 s s' st' xs Hi Hp _|v l st s s' st' xs Hi Hp _].
    - exists s. split; [constructor|]. auto.
    - destruct IH as (s0 & H1 & H2). exists s0. split; [eapply between_trans; eassumption|exact H2].
    - exists s. split; [constructor|]. exists s1, xs. left. eauto.
    - exists s. split; [constructor|]. exists s1, xs. right. eauto.
    - exists s. split; [constructor|]. eauto.
    - exists s. split; [constructor|]. exists xs. rewrite Hi. auto.
    - exists s. split; [constructor|]. exists xs. rewrite Hi. auto.
  Qed.
  Definition known_c (c : console V) : Prop := match c with KDo c => known_k c | _ => True end.
  Lemma known_all l : known_rules l -> Forall known_c l.
  Proof.
    intros H. apply Forall_forall. intros c Hc. destruct c as [[c|c]|c|v]; try exact Logic.I. cbn [known_c known_k].
    destruct c as [c|name|i| |k pat op args|k i vals]; try exact Logic.I. destruct pat as [i|ty i|i|i j]; try exact Logic.I. exact (H _ k ty i op args Hc eq_refl).
  Qed.
  Lemma console_ref ev (Hev : eval_to_sympy_ev o = Ok ev) l : Forall known_c l -> forall vt, exists N, forall fuel, N <= fuel -> forall s g st, inv fuel ev s g st vt ->
    (exists s' st' xs, at_console fuel g l st s s' st' xs) /\
    forall s' st' xs, at_console fuel g l st s s' st' xs -> xs = snd (v_console l vt) /\ inv fuel ev s' g st' (fst (v_console l vt)).
  Proof.
    induction l as [|c l IH]; intros Kl vt; [|inversion Kl as [|? ? Kc Kl']; subst; specialize (IH Kl')].
    - exists 0. intros fuel _ s g st HI. split; [exists s, st, []; constructor|]. intros s' st' xs H.
      destruct (console_inv _ _ _ _ _ _ _ _ H) as (s0 & Hb & -> & -> & ->). split; [reflexivity|]. eapply inv_between; eassumption.
    - destruct c as [c|c|v]; cbn [v_console v_console_step].
      + destruct (kstatement_ref ev Hev c vt Kc) as (N & HN).
        set (vt1 := match v_kstatement vt c with Ok q => q | Err _ => vt end).
        destruct (IH vt1) as (M & HM). exists (N + M). intros fuel Hf s g st HI.
        assert (E : forall s0 s1 r, inv fuel ev s0 g st vt -> runs atomic who t (o_kstatement fuel g st c) s0 s1 r ->
          match r, v_kstatement vt c with Ok st1, Ok vt2 => inv fuel ev s1 g st1 vt2 | Err e, Err e' => e = e' /\ inv fuel ev s1 g st vt | _, _ => False end).
        { intros s0 s1 r I0 Hr. destruct (HN fuel ltac:(lia) s0 g st (i_w _ _ _ _ _ _ I0) (i_module _ _ _ _ _ _ I0) (i_ev _ _ _ _ _ _ I0) (i_star _ _ _ _ _ _ I0) (i_vars _ _ _ _ _ _ I0)) as [_ H].
          specialize (H s1 r Hr). destruct (runs_ok atomic who t Hwho _ _ _ _ Hr (i_w _ _ _ _ _ _ I0)) as [W1 L1]. pose proof (inv_le _ _ _ _ _ _ _ I0 W1 L1) as I1.
          destruct r as [st1|e], (v_kstatement vt c); try exact H; [|split; [exact H|exact I1]]. destruct I1. constructor; assumption. }
        split.
        * destruct (HN fuel ltac:(lia) s g st (i_w _ _ _ _ _ _ HI) (i_module _ _ _ _ _ _ HI) (i_ev _ _ _ _ _ _ HI) (i_star _ _ _ _ _ _ HI) (i_vars _ _ _ _ _ _ HI)) as [(s1 & r & Hr) _].
          pose proof (E s s1 r HI Hr) as K.
          destruct (HM fuel ltac:(lia) s1 g (match r with Ok st1 => st1 | Err _ => st end)) as [(s' & st' & xs & Hp) _].
          { unfold vt1. destruct r, (v_kstatement vt c); try contradiction; [exact K|apply K]. }
          destruct r as [st1|e]; [exists s', st', (Silent :: xs); eapply console_do; eassumption|exists s', st', (Exception e :: xs); eapply console_raise; eassumption].
        * intros s' st' xs H. destruct (console_inv _ _ _ _ _ _ _ _ H) as (s0 & Hb & s1 & xs' & D). pose proof (inv_between _ _ _ _ _ _ _ HI Hb) as I0.
          destruct D as [(st1 & -> & Hr & Hp)|(e & -> & Hr & Hp)]; pose proof (E s0 s1 _ I0 Hr) as K; unfold vt1 in HM.
          -- destruct (v_kstatement vt c) as [vt2|]; [|destruct K]. destruct (HM fuel ltac:(lia) s1 g st1 K) as [_ R]. specialize (R s' st' xs' Hp).
             destruct (v_console l vt2) as [vt3 xs3]. cbn [fst snd] in *. destruct R as [-> R]. auto.
          -- destruct (v_kstatement vt c) as [vt2|]; [destruct K|]. destruct K as [<- K]. destruct (HM fuel ltac:(lia) s1 g st K) as [_ R]. specialize (R s' st' xs' Hp).
             destruct (v_console l vt) as [vt3 xs3]. cbn [fst snd] in *. destruct R as [-> R]. auto.
      + destruct (IH vt) as (M & HM). exists M. intros fuel Hf s g st HI. split.
        * destruct (HM fuel Hf s g st HI) as [(s' & st' & xs & Hp) _]. exists s', st', (Interrupted :: xs). eapply console_stop; [constructor|exact Hp].
        * intros s' st' xs H. destruct (console_inv _ _ _ _ _ _ _ _ H) as (s0 & Hb & s1 & xs' & -> & Hr & Hp). pose proof (inv_between _ _ _ _ _ _ _ HI Hb) as I0.
          destruct (stopped_ok atomic who t Hwho _ _ _ Hr (i_w _ _ _ _ _ _ I0)) as [W1 L1].
          destruct (HM fuel Hf s1 g st (inv_le _ _ _ _ _ _ _ I0 W1 L1)) as [_ R]. specialize (R s' st' xs' Hp).
          destruct (v_console l vt) as [vt3 xs3]. cbn [fst snd] in *. destruct R as [-> R]. auto.
      + assert (D : forall fuel s g st, inv fuel ev s g st vt -> match delete v st, delete v vt with Some st1, Some vt1 => inv fuel ev s g st1 vt1 | None, None => True | _, _ => False end).
        { intros fuel s g st []. pose proof (delete_ref fuel s st vt v i_vars0) as K. destruct (delete v st), (delete v vt); try exact K. constructor; assumption. }
        destruct (IH (match delete v vt with Some q => q | None => vt end)) as (M & HM). exists M. intros fuel Hf s g st HI. split.
        * pose proof (D fuel s g st HI) as K. destruct (delete v st) as [st1|] eqn:Es, (delete v vt) as [vt1|]; try contradiction.
          -- destruct (HM fuel Hf s g st1 K) as [(s' & st' & xs & Hp) _]. exists s', st', (Silent :: xs). eapply console_del; eassumption.
          -- destruct (HM fuel Hf s g st HI) as [(s' & st' & xs & Hp) _]. exists s', st', (Exception IndexError :: xs). eapply console_del_no; eassumption.
        * intros s' st' xs H. destruct (console_inv _ _ _ _ _ _ _ _ H) as (s0 & Hb & xs' & D'). pose proof (inv_between _ _ _ _ _ _ _ HI Hb) as I0.
          pose proof (D fuel s0 g st I0) as K. destruct (delete v st) as [st1|], (delete v vt) as [vt1|]; try contradiction; destruct D' as [-> Hp].
          -- destruct (HM fuel Hf s0 g st1 K) as [_ R]. specialize (R s' st' xs' Hp). destruct (v_console l vt1) as [vt3 xs3]. cbn [fst snd] in *. destruct R as [-> R]. auto.
          -- destruct (HM fuel Hf s0 g st I0) as [_ R]. specialize (R s' st' xs' Hp). destruct (v_console l vt) as [vt3 xs3]. cbn [fst snd] in *. destruct R as [-> R]. auto.
  Qed.
  Notation imported_ fuel ev := (fun s (x : (addr * (o_module * o_diff_props)) * o_evaluator sexpr) (_ : unit) =>
    has_tree s (fst (fst x)) Star /\ module_ok s (fst (snd (fst x))) /\ same_props names t s (snd (snd (fst x))) cas_diff /\ rev_ fuel s (snd x) ev).
  Lemma console_import_ref ev : eval_to_sympy_ev o = Ok ev -> exists N, forall fuel, N <= fuel -> forall s, W s ->
    refines atomic who t s (o_console_import names o fuel) (Ok tt) (imported_ fuel ev).
  Proof.
    intros Hev. destruct (import_value o) as (ev' & Hev' & Him). rewrite Hev in Hev'. injection Hev' as <-.
    destruct (ProofObjRules.rprogram_ref names atomic who t Hsafe Hwho Hnames (fun _ : sexpr => false) (fn_sympy o) [] cas_diff [] [] (known_import o)) as (N1 & HN1).
    exists (import_fuel + N1). intros fuel Hf s HW. unfold o_console_import.
    eapply (ref_bind_ok atomic who t Hwho _ _ _ _ _ (has_atom names t)); [exact HW|apply (Atom_ref names atomic who t Hsafe Hwho); exact HW|]. intros s1 a W1 L1 Ha.
    eapply (ref_bind_ok atomic who t Hwho _ _ _ _ _ has_tree); [exact W1|apply (Tr_ref names atomic who t Hsafe Hwho); [exact W1|exact Ha]|]. intros s2 star_r W2 L2 Hs.
    rewrite (proj2 Hnames) in Hs. change (has_tree s2 star_r Star) in Hs.
    eapply (ref_bind_ok atomic who t Hwho _ _ _ _ _ (imported names t)); [exact W2|apply (import_ref names atomic who t Hsafe Hwho Hcas); [exact W2|lia]|].
    intros s3 [g p] W3 L3 [Hg Hp]. cbn [fst snd] in *.
    specialize (HN1 fuel ltac:(lia) s3 g star_r (([], p), [], []) W3 Hg (has_tree_le _ _ _ _ _ _ L3 Hs)). rewrite Him in HN1.
    eapply (ref_bind_ok atomic who t Hwho _ _ _ _ _ (ProofObjRules.rvars names atomic who t fuel)); [exact W3|apply HN1|].
    { split; [split; [constructor|exact Hp]|]. split; [constructor|reflexivity]. }
    intros s4 [[[env0 p0] evs] out0] W4 L4 (_ & He & _). cbn [fst snd] in He. inversion He as [|oe ev' evs' l' Hoe Hnil]; subst. change (getitem (oe :: evs') 0) with (Ok oe). cbn [lift pbind].
    apply (ref_ret atomic who t); [exact W4| |].
    - intros s5 s6 x y L (H0 & H1 & H2 & H3). split; [eapply has_tree_le; eassumption|]. split; [eapply module_le; eassumption|]. split; [eapply (mono_props names t); eassumption|eapply ProofObjRules.mono_ev; eassumption].
    - cbn [rel fst snd]. split; [exact (has_tree_le _ _ _ _ _ _ (le_trans t _ _ _ L3 L4) Hs)|]. split; [eapply module_le; eassumption|]. split; [eapply (mono_props names t); eassumption|exact Hoe].
  Qed.
  Lemma to_sympy_exists : exists ev, eval_to_sympy_ev o = Ok ev /\ incl (map fst (ev_operations ev)) module_trees.
  Proof.
    destruct (eval_to_sympy_ev o) as [ev|] eqn:E; [|vm_compute in E; discriminate E]. exists ev. split; [reflexivity|].
    vm_compute in E. injection E as <-. cbn [ev_operations map fst]. intros u Hu. cbn [In] in Hu. cbn [module_trees In]. vm_compute. vm_compute in Hu. tauto.
  Qed.
  Lemma session_all l ev : known_rules l -> eval_to_sympy_ev o = Ok ev -> exists N, forall fuel, N <= fuel -> forall s, ready s ->
    (exists s' g st xs, session fuel l s s' g st xs) /\
    forall s' g st xs, session fuel l s s' g st xs -> xs = snd (v_console l v_start) /\ inv fuel ev s' g st (fst (v_console l v_start)).
  Proof.
    intros Kl Hev. destruct (console_import_ref ev Hev) as (N1 & H1). destruct (console_ref ev Hev l (known_all l Kl) v_start) as (N2 & H2). exists (N1 + N2). intros fuel Hf s HW.
    destruct (H1 fuel ltac:(lia) s HW) as [(s1 & r & Hr) H].
    assert (G : forall s1 g p, runs atomic who t (o_console_import names o fuel) s s1 (Ok ((lib_star g, (lib_module g, p)), lib_to_sympy g)) ->
      inv fuel ev s1 g ((((([], p), []), []), ([], [])), ([], [])) v_start).
    { intros s2 g p Hr2. destruct (H s2 _ Hr2) as (S1 & G1 & P1 & E1). constructor; [apply (runs_ok atomic who t Hwho _ _ _ _ Hr2 HW)|exact G1|exact E1|exact S1|].
      split; [|split; [constructor|reflexivity]]. split; [|reflexivity]. split; [|reflexivity]. split; [|constructor]. split; [constructor|exact P1]. }
    split.
    - pose proof (H s1 r Hr) as K. destruct r as [[[a [g p]] oe]|]; [|destruct K]. pose proof (G s1 (mkLibrary a g oe) p Hr) as G1.
      destruct (H2 fuel ltac:(lia) s1 (mkLibrary a g oe) _ G1) as [(s' & st' & xs & Hp) _]. exists s', (mkLibrary a g oe), st', xs, s1, p. split; assumption.
    - intros s' g st xs (s2 & p & Hr2 & Hp). exact (proj2 (H2 fuel ltac:(lia) s2 g _ (G s2 g p Hr2)) s' st xs Hp).
  Qed.

  (** A session can always go on; whatever happens, the user sees the exceptions that the meaning on values says, and has its expressions, matrices, compiled functions,
      objects of SymPy and evaluated values. *)
  Theorem C116_prompt l s : ready s -> known_rules l -> exists n, forall fuel, n <= fuel ->
    (exists s' g st xs, session fuel l s s' g st xs) /\
    forall s' g vars p mats texts out evs vals xs, session fuel l s s' g (((((vars, p), mats), texts), out), (evs, vals)) xs ->
      let '((((((env, _), ms), texts'), out'), (_, vals')), ys) := v_console l v_start in
      xs = ys /\ Forall2 (has_expr s') vars env /\ Forall2 (rmat s') mats ms /\ texts = texts' /\ out = out' /\ vals = vals'.
  Proof.
    intros Hr Kl. destruct to_sympy_exists as (ev & Hev & _). destruct (session_all l ev Kl Hev) as (N & H). exists N. intros fuel Hf. destruct (H fuel Hf s Hr) as [H1 H2]. split; [exact H1|].
    intros s' g vars p mats texts out evs vals xs Hs. destruct (H2 _ _ _ _ Hs) as (E & [_ _ _ _ V0]). destruct (v_console l v_start) as [[[[[[env q] ms] tx] ou] [evs' vals']] ys].
    cbn [fst snd] in *. destruct V0 as ([[[[V1 _] V2] V3] V4] & _ & V5). auto 7.
  Qed.
  (** [is] is [==]: two expressions, of variables or in matrices, are the same object exactly if they are equal. Also after deletions and collections. *)
  Theorem C116_identity l s : ready s -> known_rules l -> exists n, forall fuel, n <= fuel -> forall s' g st xs, session fuel l s s' g st xs ->
    let env := all_exprs (fst (v_console l v_start)) in
    length (all_exprs st) = length env /\
    forall i j e f u v, nth_error (all_exprs st) i = Some e -> nth_error (all_exprs st) j = Some f -> nth_error env i = Some u -> nth_error env j = Some v -> (e = f <-> u = v).
  Proof.
    intros Hr Kl. destruct to_sympy_exists as (ev & Hev & _). destruct (session_all l ev Kl Hev) as (N & H). exists N. intros fuel Hf s' g st xs Hs.
    destruct (proj2 (H fuel Hf s Hr) _ _ _ _ Hs) as (_ & I). pose proof (all_F2 _ _ _ _ (i_vars _ _ _ _ _ _ I)) as F. cbv zeta. split; [exact (F2_length _ _ _ F)|].
    intros i j e f u v Ei Ej Ui Uj.
    assert (G : forall l m, Forall2 (has_expr s') l m -> forall i e u, nth_error l i = Some e -> nth_error m i = Some u -> has_expr s' e u).
    { clear. intros l m F. induction F as [|e u l m He _ IH]; intros [|i] e' u' E1 E2; cbn [nth_error] in *; try discriminate; [congruence|eapply IH; eassumption]. }
    apply (PropsObjExpr.C72_comparison names atomic who t Hsafe s' e u t f v); [apply (i_w _ _ _ _ _ _ I)|eapply G; eassumption|eapply G; eassumption].
  Qed.

  (** ** Memory *)
  Lemma live_is fuel ev s g st vt a : incl (map fst (ev_operations ev)) module_trees -> inv fuel ev s g st vt -> In a (console_live g st) ->
    (exists w, has_expr s a w /\ (In w (all_exprs vt) \/ In w module_trees)) \/ (exists w, has_tree s a w /\ In w (library_trees ++ rule_trees (rules_of vt) ++ heads_of vt)).
  Proof.
    intros Hk [HW Hg He Hs Hv] Ha. unfold console_live in Ha. destruct Ha as [<-|Ha]; [right; exists Star; split; [exact Hs|left; reflexivity]|].
    rewrite !in_app_iff in Ha. destruct Ha as [Ha|[Ha|[Ha|[Ha|Ha]]]].
    - left. destruct Hg. cbn [module_refs In] in Ha. do 9 (destruct Ha as [<-|Ha]; [eexists; split; [eassumption|]; right; cbn [module_trees In]; tauto|]). destruct Ha.
    - right. destruct st as [[[[[env p] ms] tx] ou] ue], vt as [[[[[us q] vs] tx'] ou'] ve]. destruct Hv as ([[[[_ Hq] _] _] _] & _). unfold rules_of. cbn [fst snd] in *.
      assert (G : exists w, has_tree s a w /\ In w (rule_trees q)); [|destruct G as (w & G1 & G2); exists w; split; [exact G1|apply in_or_app; right; apply in_or_app; left; exact G2]].
      destruct Hq as [P1 P2 P3 P4 P5 P6]. unfold props_refs in Ha. unfold rule_trees.
      destruct Ha as [<-|[<-|[<-|[<-|Ha]]]]; try (eexists; split; [eassumption|]; cbn [In]; tauto).
      apply in_app_or in Ha as [Ha|Ha].
      + destruct (F2_in _ _ _ a P5 Ha) as (w & Hw & Hx). exists w. split; [exact Hx|]. do 4 right. apply in_or_app. auto.
      + apply in_flat_map in Ha as (r & Hr & Ha). destruct (F2_in _ _ _ r P6 Hr) as (r' & Hr' & K1 & K2 & K3 & K4 & K5).
        destruct Ha as [<-|Ha].
        * eexists. split; [exact K1|]. do 4 right. apply in_or_app. right. apply in_flat_map. exists r'. split; [exact Hr'|left; reflexivity].
        * destruct (F2_in _ _ _ a K4 Ha) as (w & Hw & Hx). exists w. split; [exact Hx|]. do 4 right. apply in_or_app. right. apply in_flat_map.
          exists r'. split; [exact Hr'|right; exact Hw].
    - right. apply in_map_iff in Ha as (r & <- & Hr). destruct He as [_ He _ _]. destruct (F2_in _ _ _ r He Hr) as (q & Hq & [K _]).
      exists (fst q). split; [exact K|]. right. apply in_or_app. left. apply Hk. apply (in_map fst) in Hq. exact Hq.
    - right. destruct Hv as (_ & Hu & _). apply in_flat_map in Ha as (oe & Hoe & Ha). destruct (F2_in _ _ _ oe Hu Hoe) as (e & Hin & He'). destruct He' as [_ He' _ _].
      apply in_map_iff in Ha as (r & <- & Hr). destruct (F2_in _ _ _ r He' Hr) as (q & Hq & [K _]).
      exists (fst q). split; [exact K|]. apply in_or_app. right. apply in_or_app. right. unfold heads_of. apply in_flat_map. exists e. split; [exact Hin|]. exact (in_map fst _ _ Hq).
    - left. destruct (F2_in _ _ _ a (all_F2 _ _ _ _ Hv) Ha) as (w & Hw & Hx). exists w. auto.
  Qed.
  (** Nothing leaks: after any session the memory of all expressions that are not in use any more can be freed. What stays of Trees are parts of the expressions of the
      variables and matrices, the library and the rules, what stays of Exprs are those of the variables and matrices and the names of the library; or other threads have them. *)
  Theorem C116_freed l s : ready s -> known_rules l -> exists n, forall fuel, n <= fuel -> forall s' g st xs, session fuel l s s' g st xs ->
    let user := fst (v_console l v_start) in
    exists s2, session fuel l s s2 g st xs /\ between (console_live g st) s' s2 /\
      (forall a u, is_tree_obj (ModelIntern.heap s2) a u ->
        (exists w, part_of u w /\ (In w (all_exprs user) \/ In w library_trees \/ In w (rule_trees (rules_of user)) \/ In w (heads_of user))) \/
        (exists t' b, t' <> t /\ (In b (held (threads s2 t')) \/ In b (pc_refs (at_ (threads s2 t')))) /\ leads_to (ModelIntern.heap s2) b a)) /\
      (forall a b u, ModelIntern.heap s2 a = Some (OSym 0 b) -> is_tree_obj (ModelIntern.heap s2) b u ->
        (In u (all_exprs user) \/ In u module_trees) \/
        (exists t' b, t' <> t /\ (In b (held (threads s2 t')) \/ In b (pc_refs (at_ (threads s2 t')))) /\ leads_to (ModelIntern.heap s2) b a)).
  Proof.
    intros Hr Kl. destruct to_sympy_exists as (ev & Hev & Hk). destruct (session_all l ev Kl Hev) as (N & H). exists N. intros fuel Hf s' g st xs Hs. cbv zeta.
    destruct (proj2 (H fuel Hf s Hr) _ _ _ _ Hs) as (_ & HI).
    pose proof (live_is_held _ _ _ _ _ _ HI) as Hl.
    destruct (drop_all atomic who t (console_live g st) s' (proj2 (i_w _ _ _ _ _ _ HI)) Hl) as (s1 & B1 & E1 & I1).
    pose proof (inv_between _ _ _ _ _ _ _ HI B1) as HI1. pose proof (live_is_held _ _ _ _ _ _ HI1) as Hl1.
    destruct (PropsIntern.C55_no_leaks pyval_eqb atomic who s1 pyval_equivalence Hsafe (proj1 (i_w _ _ _ _ _ _ HI1))) as (s2 & C2 & T2 & K2 & _).
    assert (B2 : between (console_live g st) s1 s2) by (apply collects_between; assumption).
    assert (B : between (console_live g st) s' s2) by (eapply between_trans; eassumption).
    pose proof (inv_between _ _ _ _ _ _ _ HI B) as HI2.
    assert (S2 : forall c, session fuel l s c g st xs -> between (console_live g st) c s2 -> session fuel l s s2 g st xs).
    { intros c (s3 & p & Hr3 & Hp) Bc. exists s3, p. split; [exact Hr3|]. clear - Hp Bc. induction Hp.
      - eapply console_between; [exact Bc|constructor].
      - eapply console_between; [eassumption|]. auto.
      - eapply console_do; [eassumption|]. auto.
      - eapply console_raise; [eassumption|]. auto.
      - eapply console_stop; [eassumption|]. auto.
      - eapply console_del; [eassumption|]. auto.
      - eapply console_del_no; [eassumption|]. auto. }
    exists s2. split; [eapply S2; eassumption|]. split; [exact B|].
    assert (R : forall a, ModelIntern.heap s2 a <> None -> (exists b, In b (console_live g st) /\ leads_to (ModelIntern.heap s2) b a) \/
      (exists t' b, t' <> t /\ (In b (held (threads s2 t')) \/ In b (pc_refs (at_ (threads s2 t')))) /\ leads_to (ModelIntern.heap s2) b a)).
    { intros a Ha. destruct (K2 a Ha) as (b & (t' & Hb) & L). destruct (Nat.eq_dec t' t) as [->|Hne]; [|right; exists t', b; auto].
      left. exists b. split; [|exact L]. rewrite T2, I1, E1 in Hb. destruct Hb as [Hb|[]]. apply filter_In in Hb as [_ Hb].
      destruct (in_dec Nat.eq_dec b (console_live g st)); [assumption|discriminate]. }
    split.
    - intros a u Hu. destruct (R a) as [(b & Hb & L)|D]; [inversion Hu; congruence| |right; exact D]. left.
      destruct (live_is _ _ _ _ _ _ b Hk HI2 Hb) as [(w & (_ & c & Hc & Hw) & D)|(w & (_ & Hw) & D)].
      + exists w. split; [|destruct D as [D|D]; [left; exact D|right; left; right; exact D]]. destruct (expr_leads _ _ _ _ _ _ Hc Hw L) as [->|K]; [inversion Hu; congruence|eapply inside_tree; eassumption].
      + exists w. rewrite !in_app_iff in D. split; [|tauto]. eapply inside_tree; [eapply tree_leads; eassumption|exact Hu].
    - intros a c u Ha Hu. destruct (R a) as [(b & Hb & L)|D]; [congruence| |right; exact D]. left.
      destruct (live_is _ _ _ _ _ _ b Hk HI2 Hb) as [(w & (_ & d & Hd & Hw) & D)|(w & (_ & Hw) & _)].
      + destruct (expr_leads _ _ _ _ _ _ Hd Hw L) as [->|K]; [|destruct (inside_expr _ _ _ _ _ K Ha)].
        assert (d = c) by congruence. subst. replace u with w by (eapply tree_obj_fun; eassumption). exact D.
      + destruct (inside_expr _ _ _ _ _ (tree_leads _ _ _ _ _ Hw L) Ha).
  Qed.
End Props.

(** ** A case: x = Symbol("x"); e = from_sympy(f(sin(x), x**2) + sin(x)); e.diff(x) fails; y = x*x, stopped; y = x*x; M = Matrix.from_sympy(m); M.to_sympy(); e.to_sympy();
      lambdify([x], e) fails; lambdify([x], y); del e; del M; M.to_sympy() fails; e = from_sympy(the first object of SymPy), once more; a = Expr.new_wild("a"); a1 = star(a);
      p = Mul(a1); an evaluator of products of ints, at first for sums; y is evaluated at x = 3, which fails, then is given a rule, and is evaluated; del a; y at x = 3, again. *)
Local Open Scope string_scope.
Definition kc_expr {V} c : kstatement V := KY (YDo (CMatrix (MExpr c))).
Definition kc_prod : callable Z := fun args => match args with [ASeq l] => Ok (fold_left Z.mul l 1%Z) | _ => Err TypeError end.
Definition kc_session : list (console Z) :=
  [KDo (kc_expr (SSymbol "x")); KDo (KY (YFrom (SLit PropsSympy.s_sample))); KDo (kc_expr (SDiff 1 0 1)); KStop (kc_expr (SBinop OpMul 0 (OE 0))); KDo (kc_expr (SBinop OpMul 0 (OE 0)));
   KDo (KY (YFromMatrix PropsSympy.sm_sample)); KDo (KY (YToMatrix 0)); KDo (KY (YTo 1)); KDo (KY (YDo (CLambdify [0] 1))); KDo (KY (YDo (CLambdify [0] 2))); KDel (NVar 1); KDel (NMatrix 0);
   KDo (KY (YToMatrix 0)); KDo (KY (YFrom (SOut 0)));
   KDo (KR (RWild "a")); KDo (KR (RStar 3)); KDo (KR (RDo (SFunction "Mul"))); KDo (KR (RDo (SCall 5 [OE 4]))); KDo (KR REvaluator);
   KDo (KR (REval 0 1 (Some [(0, 3%Z)]))); KDo (KR (RSet 0 (RPSym 6) (PyOpN kc_prod) [4])); KDo (KR (RSet 0 (RPSym 6) (PyOpN kc_prod) [3]));
   KStop (KR (REval 0 1 (Some [(0, 4%Z)]))); KDo (KR (REval 0 1 (Some [(0, 3%Z)]))); KDel (NVar 3); KDo (KR (REval 0 1 (Some [(0, 3%Z)]))); KDel (NEvaluator 1)].
Example C116_case : rule_names PropsObjRules.rc_names /\
  (exists s, ready true (fun _ => True) 0 s /\ at_ (threads s 1) = Made (KAtom (ty_id T_Symbol) (VStr "x")) 0) /\
  known_rules kc_session /\
  exists env p texts ev, v_console (fun _ => false) PropsSympy.sympy_plain kc_session v_start =
    ((((((env, p), []), texts), ([PropsSympy.s_sample], [(2, 3, sm_dok PropsSympy.sm_sample)])), ([ev], [9; 9]%Z)),
     [Silent; Silent; Exception KeyError; Interrupted; Silent; Silent; Silent; Silent; Exception LLVMNotImplementedError; Silent; Silent; Silent; Exception IndexError; Silent;
      Silent; Silent; Silent; Silent; Silent; Exception NoEvaluationRuleError; Exception BadRuleError; Silent; Interrupted; Silent; Silent; Silent; Exception IndexError]) /\
    firstn 3 env = [Symbol "x"; Node [Mul; Symbol "x"; Symbol "x"]; PropsObjSympy.ys_tree] /\ length env = 6 /\ length texts = 1.
Proof.
  destruct PropsObjRules.C83_case as (Hn & Hs & _). split; [exact Hn|]. split; [exact Hs|]. split.
  - intros c k ty i op args Hc ->. cbn [kc_session In] in Hc. repeat (destruct Hc as [Hc|Hc]; [discriminate Hc|]). destruct Hc.
  - do 4 eexists. split; [vm_compute; reflexivity|]. repeat split; reflexivity.
Qed.
Print Assumptions C116_prompt.
Print Assumptions C116_identity.
Print Assumptions C116_freed.
