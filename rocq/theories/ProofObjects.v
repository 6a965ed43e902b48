(** * Programs on objects compute what the pure functions compute *)
From Verif Require Import Py ModelTree ModelIntern SpecIntern ProofBase ProofIntern ProofInternLive ModelObjects SpecObjects.
From Verif Require PropsIntern.

Lemma pyval_equivalence : equivalence pyval_eqb.
Proof.
  assert (G : forall v w, pyval_eqb v w = true <-> v = w).
  { intros [a|a] [b|b]; cbn [pyval_eqb]; try (split; congruence).
    - rewrite Z.eqb_eq. split; congruence.
    - rewrite String.eqb_eq. split; congruence. }
  split; [intros v; apply G; reflexivity|]. split.
  - intros v w H. apply G. symmetry. apply G, H.
  - intros u v w H H'. apply G. apply G in H, H'. congruence.
Qed.
Lemma pyval_eqb_eq v w : pyval_eqb v w = true -> v = w.
Proof. destruct v, w; cbn [pyval_eqb]; try discriminate; [rewrite Z.eqb_eq|rewrite String.eqb_eq]; congruence. Qed.

Lemma tree_ind_F (P : tree -> Prop) : (forall x, P (Atm x)) -> (forall us, Forall P us -> P (Node us)) -> forall u, P u.
Proof. intros HA HN u. induction u as [x|us IH] using tree_ind_all; [apply HA|apply HN, Forall_forall, IH]. Qed.

Lemma Forall2_mono {A B} (R R' : A -> B -> Prop) l m : (forall a b, R a b -> R' a b) -> Forall2 R l m -> Forall2 R' l m.
Proof. intros H F. induction F; constructor; auto. Qed.

Section Proof.
  Context (names : nat -> string) (atomic : bool) (who : nat -> Prop) (t : nat).
  Context (Hsafe : safe atomic who) (Hwho : who t).
  Notation is_tree_obj := (is_tree_obj names).
  Notation is_atom_obj := (is_atom_obj names).
  Notation has_tree := (has_tree names t).
  Notation has_atom := (has_atom names t).
  Notation runs := (runs atomic who t).
  Notation in_call := (in_call atomic who t).
  Notation keeps := (keeps t).
  Notation hold_all := (hold_all t).
  Implicit Types (s : state pyval).

  Definition W s : Prop := reachable pyval_eqb atomic who s /\ at_ (threads s t) = Idle.
  Definition le s s' : Prop := keeps s s' /\
    forall a b, In a (held (threads s t)) -> leads_to (heap s) a b -> leads_to (heap s') a b /\ forall o, heap s b = Some o -> heap s' b = Some o.
  Lemma le_refl s : le s s. Proof. split; [intros a H; exact H|auto]. Qed.
  Lemma le_trans s1 s2 s3 : le s1 s2 -> le s2 s3 -> le s1 s3.
  Proof.
    intros [K1 H1] [K2 H2]. split; [intros a Ha; apply K2, K1, Ha|]. intros a b Ha Hl.
    destruct (H1 a b Ha Hl) as [L1 O1]. destruct (H2 a b (K1 a Ha) L1) as [L2 O2]. split; [exact L2|]. intros o Ho. apply O2, O1, Ho.
  Qed.
  Lemma step_le s s' : step pyval_eqb atomic who s s' -> keeps s s' -> le s s'.
  Proof.
    intros St K. split; [exact K|]. intros a b Ha Hl.
    exact (PropsIntern.leads_trans_step pyval_eqb atomic who s s' a b St (ex_intro _ t (or_introl Ha)) Hl).
  Qed.
  Lemma keeps_goto s p : keeps s (goto s t p).
  Proof. intros a H. cbn [goto set_thread threads]. rewrite upd_same. exact H. Qed.
  Lemma keeps_hold s b : keeps s (hold s t b).
  Proof. intros a H. cbn [hold set_thread threads]. rewrite upd_same. right. exact H. Qed.
  Lemma hold_has s b : In b (held (threads (hold s t b) t)).
  Proof. cbn [hold set_thread threads]. rewrite upd_same. left. reflexivity. Qed.

  Lemma hold_all_ok l : forall s a o, W s -> In a (held (threads s t)) -> heap s a = Some o -> (forall b, In b l -> In b (obj_refs o)) ->
    W (hold_all s l) /\ le s (hold_all s l) /\ heap (hold_all s l) = heap s /\ forall b, In b l -> In b (held (threads (hold_all s l) t)).
  Proof.
    induction l as [|b l IH]; intros s a o HW Ha Ho Hl.
    - split; [exact HW|]. split; [apply le_refl|]. split; [reflexivity|]. intros b [].
    - cbn [SpecObjects.hold_all fold_left].
      assert (St : step pyval_eqb atomic who s (hold s t b)) by (eapply s_read; [exact Ha|exact Ho|apply Hl; left; reflexivity]).
      assert (HW1 : W (hold s t b)) by (split; [eapply steps_more; [exact (proj1 HW)|exact St]|rewrite hold_at; apply HW]).
      destruct (IH (hold s t b) a o HW1 (keeps_hold s b a Ha) Ho) as (H1 & H2 & H3 & H4).
      { intros c Hc. apply Hl. right. exact Hc. }
      split; [exact H1|]. split; [eapply le_trans; [apply (step_le _ _ St), keeps_hold|exact H2]|]. split; [exact H3|].
      intros c [<-|Hc]; [|apply H4, Hc]. apply (proj1 H2), hold_has.
  Qed.
  Lemma in_call_ok s s1 : reachable pyval_eqb atomic who s -> in_call s s1 -> reachable pyval_eqb atomic who s1 /\ le s s1.
  Proof.
    intros Hr H. induction H as [|s1 s2 _ [IH1 IH2] St K _]; [split; [exact Hr|apply le_refl]|].
    split; [eapply steps_more; eassumption|]. eapply le_trans; [exact IH2|apply step_le; assumption].
  Qed.
  (** The beginning of a call. *)
  Lemma call_step s k : W s -> (forall a, In a (key_refs k) -> In a (held (threads s t))) ->
    step pyval_eqb atomic who s (goto s t (Call k)).
  Proof. intros HW Hk. apply s_call; [apply HW|exact Hwho|exact Hk]. Qed.
  Lemma new_done s s1 k b : W s -> (forall a, In a (key_refs k) -> In a (held (threads s t))) ->
    in_call (goto s t (Call k)) s1 -> at_ (threads s1 t) = Done k b ->
    reachable pyval_eqb atomic who s1 /\ W (goto (hold s1 t b) t Idle) /\ le s (goto (hold s1 t b) t Idle) /\ heap (goto (hold s1 t b) t Idle) = heap s1 /\
    In b (held (threads (goto (hold s1 t b) t Idle) t)).
  Proof.
    intros HW Hk Hc Hd. pose proof (call_step s k HW Hk) as St.
    destruct (in_call_ok _ _ (steps_more _ _ _ _ _ _ (proj1 HW) St) Hc) as [R1 L1]. split; [exact R1|].
    assert (St2 : step pyval_eqb atomic who s1 (goto (hold s1 t b) t Idle)) by (apply (s_return pyval_eqb atomic who s1 t k b Hd)).
    split; [split; [eapply steps_more; eassumption|cbn [goto set_thread threads]; rewrite upd_same; reflexivity]|].
    split; [|split; [reflexivity|cbn [goto hold set_thread threads]; rewrite !upd_same; left; reflexivity]].
    eapply le_trans; [apply (step_le _ _ St), keeps_goto|]. eapply le_trans; [exact L1|]. apply (step_le _ _ St2).
    intros a Ha. apply keeps_goto, keeps_hold, Ha.
  Qed.
  Lemma new_raised s s1 k : W s -> (forall a, In a (key_refs k) -> In a (held (threads s t))) ->
    in_call (goto s t (Call k)) s1 -> at_ (threads s1 t) = Raised k ->
    reachable pyval_eqb atomic who s1 /\ le (goto s t (Call k)) s1 /\ W (goto s1 t Idle) /\ le s (goto s1 t Idle).
  Proof.
    intros HW Hk Hc Hd. pose proof (call_step s k HW Hk) as St.
    destruct (in_call_ok _ _ (steps_more _ _ _ _ _ _ (proj1 HW) St) Hc) as [R1 L1]. split; [exact R1|]. split; [exact L1|].
    assert (St2 : step pyval_eqb atomic who s1 (goto s1 t Idle)) by (apply (s_raised pyval_eqb atomic who s1 t k Hd)).
    split; [split; [eapply steps_more; eassumption|cbn [goto set_thread threads]; rewrite upd_same; reflexivity]|].
    eapply le_trans; [apply (step_le _ _ St), keeps_goto|]. eapply le_trans; [exact L1|]. apply (step_le _ _ St2), keeps_goto.
  Qed.
  Lemma runs_ok {A} (p : prog A) s s' r : runs p s s' r -> W s -> W s' /\ le s s'.
  Proof.
    induction 1 as [r s|p s s1 s' r St K Hi _ IH|a c s o s' r Ha Ho _ IH|k c s s1 b s' r Hk Hc Hd _ IH|k c s s1 Hk Hc Hd]; intros HW.
    - split; [exact HW|apply le_refl].
    - destruct IH as [W1 L1]; [split; [eapply steps_more; [apply HW|exact St]|exact Hi]|]. split; [exact W1|].
      eapply le_trans; [apply step_le; eassumption|exact L1].
    - destruct (hold_all_ok (obj_refs o) s a o HW Ha Ho) as (W1 & L1 & _); [auto|]. destruct (IH W1) as [W2 L2].
      split; [exact W2|eapply le_trans; eassumption].
    - destruct (new_done s s1 k b HW Hk Hc Hd) as (_ & W1 & L1 & _). destruct (IH W1) as [W2 L2]. split; [exact W2|eapply le_trans; eassumption].
    - destruct (new_raised s s1 k HW Hk Hc Hd) as (_ & _ & W1 & L1). auto.
  Qed.

  (** ** What objects represent stays *)
  Lemma tree_obj_le s s' : le s s' -> forall u a b, In a (held (threads s t)) -> leads_to (heap s) a b ->
    is_tree_obj (heap s) b u -> is_tree_obj (heap s') b u.
  Proof.
    intros [_ L]. induction u as [x|us IH] using tree_ind_F; intros a b Ha Hl Hb.
    - inversion Hb as [? c ? Ho Hx|]; subst. inversion Hx as [ty v Hc]; subst. econstructor; [apply (L a b Ha Hl), Ho|].
      constructor. apply (L a c Ha); [|exact Hc]. econstructor; [exact Hl|exact Ho|left; reflexivity].
    - inversion Hb as [|? l ? Ho Hc]; subst. econstructor; [apply (L a b Ha Hl), Ho|].
      assert (G : forall c, In c l -> leads_to (heap s) a c) by (intros c Hin; econstructor; [exact Hl|exact Ho|exact Hin]).
      clear Hb Ho. revert IH G. induction Hc as [|c u l us Hcu _ IHc]; intros IH G; [constructor|]. inversion IH as [|? ? IHu IHus]; subst.
      constructor; [apply (IHu a c Ha (G c (or_introl eq_refl)) Hcu)|apply IHc; [exact IHus|intros d Hd; apply G; right; exact Hd]].
  Qed.
  Lemma has_tree_le s s' a u : le s s' -> has_tree s a u -> has_tree s' a u.
  Proof. intros L [Ha Hu]. split; [apply L, Ha|]. eapply tree_obj_le; [exact L|exact Ha|constructor|exact Hu]. Qed.
  Lemma has_atom_le s s' a x : le s s' -> has_atom s a x -> has_atom s' a x.
  Proof.
    intros L [Ha Hu]. split; [apply L, Ha|]. inversion Hu as [ty v Ho]; subst. constructor.
    apply (proj2 L a a Ha (leads_self _ _)), Ho.
  Qed.
  Lemma has_trees_le s s' l us : le s s' -> Forall2 (has_tree s) l us -> Forall2 (has_tree s') l us.
  Proof. intros L H. eapply Forall2_mono; [|exact H]. intros a u. apply has_tree_le, L. Qed.

  (** ** Identity *)
  Fixpoint term_of (u : tree) : term pyval :=
    match u with Atm x => MLeaf (MAtom (ty_id (atom_type x)) (atom_value x)) | Node us => MNode (map term_of us) end.
  Lemma tree_obj_denotes h : forall u a, is_tree_obj h a u -> denotes h a (term_of u).
  Proof.
    induction u as [x|us IH] using tree_ind_F; intros a Ha.
    - inversion Ha as [? c ? Ho Hx|]; subst. inversion Hx as [ty v Hc]; subst. econstructor; [exact Ho|]. constructor. exact Hc.
    - inversion Ha as [|? l ? Ho Hc]; subst. cbn [term_of]. econstructor; [exact Ho|]. clear Ha Ho. revert IH.
      induction Hc as [|c u l us Hcu _ IHc]; intros IH; [constructor|]. inversion IH; subst. constructor; auto.
  Qed.
  Lemma tree_obj_fun h : forall u a v, is_tree_obj h a u -> is_tree_obj h a v -> u = v.
  Proof.
    induction u as [x|us IH] using tree_ind_F; intros a v Ha Hv.
    - inversion Ha as [? c ? Ho Hx|]; subst. inversion Hv as [? c' ? Ho' Hx'|]; subst; [|congruence].
      inversion Hx as [ty w Hc]; subst. inversion Hx' as [ty' w' Hc']; subst. congruence.
    - inversion Ha as [|? l ? Ho Hc]; subst. inversion Hv as [|? l' ? Ho' Hc']; subst; [congruence|]. assert (l' = l) by congruence. subst.
      f_equal. clear Ha Hv Ho Ho'. revert us0 Hc' IH. induction Hc as [|c u l us Hcu _ IHc]; intros vs Hvs IH; inversion Hvs; subst; [reflexivity|].
      inversion IH; subst. f_equal; eauto.
  Qed.
  Lemma identity s a u b v : W s -> has_tree s a u -> has_tree s b v -> Nat.eqb a b = tree_eqb u v.
  Proof.
    intros [Hr _] [Ha Hu] [Hb Hv]. pose proof (reachable_inv pyval_eqb pyval_equivalence atomic who s Hsafe Hr) as I.
    destruct (tree_eqb_spec u v) as [->|Hne].
    - apply Nat.eqb_eq. apply (same_unique pyval_eqb pyval_equivalence s (i_mem _ _ _ _ I) a (term_of v) (tree_obj_denotes _ _ _ Hu)
        (proj1 (i_threads _ _ _ _ I t) a Ha) b (term_of v) (tree_obj_denotes _ _ _ Hv) (proj1 (i_threads _ _ _ _ I t) b Hb)).
      apply same_refl, pyval_equivalence.
    - apply Nat.eqb_neq. intros ->. apply Hne. eapply tree_obj_fun; eassumption.
  Qed.

  (** ** Calls come to their end *)
  Definition pc_key (p : pc pyval) : option (key pyval) :=
    match p with
    | Idle => None
    | Call k | Got k _ | Make k | Made k _ | Look k _ _ | Put k _ | Done k _ | Raised k => Some k
    end.
  Lemma step_own s s' : step pyval_eqb atomic who s s' -> at_ (threads s t) <> Idle -> at_ (threads s' t) <> at_ (threads s t) ->
    keeps s s' /\ (at_ (threads s' t) <> Idle -> pc_key (at_ (threads s' t)) = pc_key (at_ (threads s t))).
  Proof.
    intros St Hi Hne.
    assert (G : forall s1 p k, at_ (threads s t) = p -> threads s1 = threads s -> pc_key k = pc_key p ->
      keeps s (goto s1 t k) /\ (at_ (threads (goto s1 t k) t) <> Idle -> pc_key (at_ (threads (goto s1 t k) t)) = pc_key p)).
    { intros s1 p k E E1 Ek. split; [intros a Ha; apply keeps_goto; rewrite E1; exact Ha|]. intros _.
      cbn [goto set_thread threads]. rewrite upd_same. exact Ek. }
    destruct St;
      try (match goal with |- context [goto ?s1 ?t0 ?p] => destruct (goto_at s1 t0 t p) as [E|[E0 E]];
        [rewrite E in Hne; try rewrite hold_at in Hne; destruct Hne; reflexivity|subst t0] end);
      try (rewrite hold_at in Hne; destruct Hne; reflexivity);
      try (destruct Hne; reflexivity);
      try (match goal with H : at_ (threads s t) = _ |- _ => rewrite H; apply G; [exact H|reflexivity|reflexivity] end).
    - congruence.
    - split; [intros b Hb; apply keeps_goto, keeps_hold, Hb|]. rewrite E. congruence.
    - split; [intros b Hb; apply keeps_goto, Hb|]. rewrite E. congruence.
    - split; [intros b Hb; apply keeps_goto, Hb|]. rewrite E. congruence.
    - destruct Hne. cbn [set_thread threads]. destruct (Nat.eq_dec t t0) as [->|Ht]; [rewrite upd_same|rewrite upd_other by exact Ht]; reflexivity.
  Qed.
  Lemma call_ends s k : reachable pyval_eqb atomic who s -> at_ (threads s t) <> Idle -> pc_key (at_ (threads s t)) = Some k ->
    exists s1, in_call s s1 /\ (at_ (threads s1 t) = Raised k \/ exists b, at_ (threads s1 t) = Done k b).
  Proof.
    remember (rank (at_ (threads s t))) as r eqn:E. revert s E. induction r as [r IH] using lt_wf_ind. intros s -> Hr Hi Hk.
    assert (D : (at_ (threads s t) = Raised k \/ exists b, at_ (threads s t) = Done k b) \/ 1 < rank (at_ (threads s t))).
    { destruct (at_ (threads s t)); cbn [rank pc_key] in *; try congruence; try (right; lia); left; [right; eexists|left]; injection Hk as ->; reflexivity. }
    destruct D as [D|D]; [exists s; split; [constructor|exact D]|].
    pose proof (reachable_inv pyval_eqb pyval_equivalence atomic who s Hsafe Hr) as I.
    destruct (reachable_bounded pyval_eqb atomic who s Hr) as (n & B).
    destruct (can_move pyval_eqb atomic who s n t I B Hi) as (s1 & St & Hne & _ & Hcall). specialize (Hcall D).
    destruct (step_rank _ _ _ _ _ t St Hi) as [E|E]; [contradiction|]. destruct (step_own s s1 St Hi Hne) as [K P].
    assert (Hi1 : at_ (threads s1 t) <> Idle).
    { intros E1. change (calling s t) with (pc_key (at_ (threads s t))) in Hcall. unfold calling in Hcall. rewrite E1, Hk in Hcall. discriminate. }
    rewrite Hk in P. destruct (IH _ E s1 eq_refl) as (s2 & H2 & H3); [eapply steps_more; eassumption|exact Hi1|apply P, Hi1|].
    exists s2. split; [|exact H3]. clear - H2 St K Hi1. induction H2 as [|s2 s3 _ IH2 St2 K2 Hi2].
    - eapply in_call_more; [constructor|exact St|exact K|exact Hi1].
    - eapply in_call_more; [exact IH2|exact St2|exact K2|exact Hi2].
  Qed.

  (** ** Refinement *)
  Definition refines {A B} s (p : prog A) (x : res B) (R : state pyval -> A -> B -> Prop) : Prop :=
    always atomic who t p s (fun s' r => match r, x with Ok a, Ok b => R s' a b | Err e, Err e' => e = e' | _, _ => False end).
  Definition mono {A B} (R : state pyval -> A -> B -> Prop) : Prop := forall s s' a b, le s s' -> R s a b -> R s' a b.
  Definition rel {A B} (R : A -> B -> Prop) (r : res A) (x : res B) : Prop :=
    match r, x with Ok a, Ok b => R a b | Err e, Err e' => e = e' | _, _ => False end.

  Lemma runs_ret_inv {A} (r : res A) s s' r' : runs (Ret r) s s' r' -> W s -> r' = r /\ le s s'.
  Proof.
    intros H. remember (Ret r) as p eqn:E. induction H as [r0 s|p s s1 s' r0 St K Hi _ IH| | |]; try discriminate; intros HW.
    - injection E as ->. split; [reflexivity|apply le_refl].
    - destruct (IH E) as [-> L]; [split; [eapply steps_more; [apply HW|exact St]|exact Hi]|]. split; [reflexivity|].
      eapply le_trans; [apply step_le; eassumption|exact L].
  Qed.
  Lemma runs_bind_inv {A B} (p : prog A) (f : A -> prog B) s s' r : runs (pbind p f) s s' r -> W s ->
    (exists s1 a, runs p s s1 (Ok a) /\ runs (f a) s1 s' r) \/ (exists e, runs p s s' (Err e) /\ r = Err e).
  Proof.
    intros H. remember (pbind p f) as q eqn:E. revert p E.
    induction H as [r0 s|q s s1 s' r0 St K Hi Hq IH|a c s o s' r Ha Ho Hq IH|k c s s1 b s' r Hk Hc Hd Hq IH|k c s s1 Hk Hc Hd]; intros p E HW.
    - destruct p as [[a|e]| |]; cbn [pbind] in E; try discriminate E.
      + left. exists s, a. split; [constructor|]. rewrite <- E. constructor.
      + injection E as ->. right. exists e. split; [constructor|reflexivity].
    - destruct (IH p E) as [(s2 & a & H1 & H2)|(e & H1 & ->)]; [split; [eapply steps_more; [apply HW|exact St]|exact Hi]|..].
      + left. exists s2, a. split; [eapply runs_others; eassumption|exact H2].
      + right. exists e. split; [eapply runs_others; eassumption|reflexivity].
    - destruct p as [[a0|e]|a0 c0|]; cbn [pbind] in E; try discriminate E.
      + left. exists s, a0. split; [constructor|]. rewrite <- E. eapply runs_read; eassumption.
      + injection E as -> ->. destruct (hold_all_ok (obj_refs o) s a0 o HW Ha Ho) as (W1 & _); [auto|].
        destruct (IH (c0 o) eq_refl W1) as [(s2 & b & H1 & H2)|(e & H1 & ->)].
        * left. exists s2, b. split; [eapply runs_read; eassumption|exact H2].
        * right. exists e. split; [eapply runs_read; eassumption|reflexivity].
    - destruct p as [[a0|e]|a0 c0|k0 c0]; cbn [pbind] in E; try discriminate E.
      + left. exists s, a0. split; [constructor|]. rewrite <- E. eapply runs_new; eassumption.
      + injection E as -> ->. destruct (new_done s s1 k0 b HW Hk Hc Hd) as (_ & W1 & _).
        destruct (IH (c0 b) eq_refl W1) as [(s2 & b' & H1 & H2)|(e & H1 & ->)].
        * left. exists s2, b'. split; [eapply runs_new; eassumption|exact H2].
        * right. exists e. split; [eapply runs_new; eassumption|reflexivity].
    - destruct p as [[a0|e]|a0 c0|k0 c0]; cbn [pbind] in E; try discriminate E.
      + left. exists s, a0. split; [constructor|]. rewrite <- E. eapply runs_raise; eassumption.
      + injection E as -> ->. right. exists TypeError. split; [eapply runs_raise; eassumption|reflexivity].
  Qed.
  Lemma runs_bind {A B} (p : prog A) (f : A -> prog B) s s1 s' r r' : runs p s s1 r ->
    match r with Ok a => runs (f a) s1 s' r' | Err e => s' = s1 /\ r' = Err e end -> runs (pbind p f) s s' r'.
  Proof.
    induction 1 as [r s|p s s1 s2 r St K Hi _ IH|a c s o s2 r Ha Ho _ IH|k c s s1 b s2 r Hk Hc Hd _ IH|k c s s1 Hk Hc Hd]; intros H.
    - destruct r as [a|e]; cbn [pbind]; [exact H|]. destruct H as [-> ->]. constructor.
    - eapply runs_others; [exact St|exact K|exact Hi|apply IH, H].
    - cbn [pbind]. eapply runs_read; [exact Ha|exact Ho|apply IH, H].
    - cbn [pbind]. eapply runs_new; [exact Hk|exact Hc|exact Hd|apply IH, H].
    - destruct H as [-> ->]. cbn [pbind]. eapply runs_raise; eassumption.
  Qed.

  Lemma ref_ret {A B} s (r : res A) (x : res B) R : W s -> mono R -> rel (R s) r x -> refines s (Ret r) x R.
  Proof.
    intros HW M H. split; [exists s, r; constructor|]. intros s' r' Hr. destruct (runs_ret_inv r s s' r' Hr HW) as [-> L].
    destruct r, x; cbn [rel] in H; try exact H. exact (M _ _ _ _ L H).
  Qed.
  Lemma ref_bind {A B A' B'} s (p : prog A) (x : res B) (f : A -> prog A') (g : B -> res B') R R' : W s -> refines s p x R ->
    (forall s1 a b, W s1 -> le s s1 -> R s1 a b -> refines s1 (f a) (g b) R') -> refines s (pbind p f) (bind x g) R'.
  Proof.
    intros HW [(s1 & r & Hr) H] K. split.
    - pose proof (runs_ok p s s1 r Hr HW) as [W1 L1]. specialize (H s1 r Hr). destruct r as [a|e].
      + destruct x as [b|]; [|destruct H]. destruct (K s1 a b W1 L1 H) as [(s2 & r2 & H2) _]. exists s2, r2. eapply runs_bind; [exact Hr|exact H2].
      + exists s1, (Err e). apply (runs_bind p f s s1 s1 (Err e) (Err e) Hr). split; reflexivity.
    - intros s' r' Hr'. destruct (runs_bind_inv p f s s' r' Hr' HW) as [(s2 & a & H1 & H2)|(e & H1 & ->)].
      + pose proof (runs_ok p s s2 _ H1 HW) as [W2 L2]. specialize (H s2 _ H1). cbv beta iota in H. destruct x as [b|]; [|destruct H].
        cbn [bind]. apply (proj2 (K s2 a b W2 L2 H)). exact H2.
      + specialize (H s' _ H1). cbv beta iota in H. destruct x as [b|e']; [destruct H|]. cbn [bind]. exact H.
  Qed.
  Lemma ref_bind_ok {A B A' B'} s (p : prog A) (b : B) (f : A -> prog A') (y : res B') R R' : W s -> refines s p (Ok b) R ->
    (forall s1 a, W s1 -> le s s1 -> R s1 a b -> refines s1 (f a) y R') -> refines s (pbind p f) y R'.
  Proof.
    intros HW H K. change y with (bind (Ok b) (fun _ => y)). apply (ref_bind s p (Ok b) f (fun _ => y) (fun s1 a b' => b' = b /\ R s1 a b')); [exact HW| |].
    - destruct H as [E H]. split; [exact E|]. intros s' r Hr. specialize (H s' r Hr). destruct r; [split; [reflexivity|exact H]|exact H].
    - intros s1 a b' W1 L1 [-> H1]. apply K; assumption.
  Qed.
  Lemma ref_weaken {A B} s (p : prog A) (x : res B) (R R' : state pyval -> A -> B -> Prop) : W s -> refines s p x R ->
    (forall s1 a b, W s1 -> le s s1 -> R s1 a b -> R' s1 a b) -> refines s p x R'.
  Proof.
    intros HW [E H] K. split; [exact E|]. intros s' r Hr. pose proof (runs_ok p s s' r Hr HW) as [W1 L1]. specialize (H s' r Hr).
    destruct r, x; try exact H. apply K; assumption.
  Qed.
  Lemma runs_read_inv {A} a (c : obj pyval -> prog A) s s' r : runs (Read a c) s s' r -> W s ->
    exists s1 o, W s1 /\ le s s1 /\ heap s1 a = Some o /\ In a (held (threads s1 t)) /\ runs (c o) (hold_all s1 (obj_refs o)) s' r.
  Proof.
    intros H. remember (Read a c) as p eqn:E. induction H as [r0 s|p s s1 s' r0 St K Hi _ IH|a0 c0 s o s' r Ha Ho Hq _| |]; try discriminate; intros HW.
    - destruct (IH E) as (s2 & o & W2 & L2 & H); [split; [eapply steps_more; [apply HW|exact St]|exact Hi]|].
      exists s2, o. split; [exact W2|]. split; [eapply le_trans; [apply step_le; eassumption|exact L2]|exact H].
    - injection E as -> ->. exists s, o. split; [exact HW|]. split; [apply le_refl|]. auto.
  Qed.
  Lemma runs_new_inv {A} k (c : addr -> prog A) s s' r : runs (New k c) s s' r -> W s -> exists s0, W s0 /\ le s s0 /\
    (forall a, In a (key_refs k) -> In a (held (threads s0 t))) /\
    ((exists s1 b, in_call (goto s0 t (Call k)) s1 /\ at_ (threads s1 t) = Done k b /\ runs (c b) (goto (hold s1 t b) t Idle) s' r) \/
     (exists s1, in_call (goto s0 t (Call k)) s1 /\ at_ (threads s1 t) = Raised k /\ s' = goto s1 t Idle /\ r = Err TypeError)).
  Proof.
    intros H. remember (New k c) as p eqn:E.
    induction H as [r0 s|p s s1 s' r0 St K Hi _ IH| |k0 c0 s s1 b s' r Hk Hc Hd Hq _|k0 c0 s s1 Hk Hc Hd]; try discriminate; intros HW.
    - destruct (IH E) as (s2 & W2 & L2 & H); [split; [eapply steps_more; [apply HW|exact St]|exact Hi]|].
      exists s2. split; [exact W2|]. split; [eapply le_trans; [apply step_le; eassumption|exact L2]|exact H].
    - injection E as -> ->. exists s. split; [exact HW|]. split; [apply le_refl|]. split; [exact Hk|]. left. eauto.
    - injection E as -> ->. exists s. split; [exact HW|]. split; [apply le_refl|]. split; [exact Hk|]. right. eauto.
  Qed.
  (** A read of an object that the thread has. *)
  Lemma ref_read {A B} s a o (c : obj pyval -> prog A) (x : res B) R : W s -> In a (held (threads s t)) -> heap s a = Some o ->
    (forall s1, W s1 -> le s s1 -> heap s1 a = Some o -> (forall b, In b (obj_refs o) -> In b (held (threads s1 t))) -> refines s1 (c o) x R) ->
    refines s (Read a c) x R.
  Proof.
    intros HW Ha Ho K. split.
    - destruct (hold_all_ok (obj_refs o) s a o HW Ha Ho) as (W1 & L1 & E1 & H1); [auto|].
      destruct (K (hold_all s (obj_refs o)) W1 L1) as [(s' & r & H) _]; [rewrite E1; exact Ho|exact H1|].
      exists s', r. eapply runs_read; eassumption.
    - intros s' r H. destruct (runs_read_inv a c s s' r H HW) as (s1 & o1 & W1 & L1 & H1 & Ha1 & H2).
      assert (o1 = o) as ->. { destruct (proj2 L1 a a Ha (leads_self _ _)) as [_ X]. rewrite (X o Ho) in H1. congruence. }
      destruct (hold_all_ok (obj_refs o) s1 a o W1 Ha1 H1) as (W2 & L2 & E2 & H3); [auto|].
      refine (proj2 (K (hold_all s1 (obj_refs o)) W2 (le_trans _ _ _ L1 L2) _ H3) s' r H2). rewrite E2. exact H1.
  Qed.
  (** A call of a constructor with good arguments. *)
  Lemma args_ok_le s s' k : le s s' -> (forall a, In a (key_refs k) -> In a (held (threads s t))) -> args_ok (heap s) k = true -> args_ok (heap s') k = true.
  Proof.
    intros L Hk. unfold args_ok.
    assert (T : forall a, In a (key_refs k) -> is_tree (heap s) a = true -> is_tree (heap s') a = true).
    { intros a Ha. unfold is_tree. destruct (heap s a) as [o|] eqn:E; [|discriminate]. rewrite (proj2 (proj2 L a a (Hk a Ha) (leads_self _ _)) o E). trivial. }
    assert (T' : forall a, In a (key_refs k) -> is_atom (heap s) a = true -> is_atom (heap s') a = true).
    { intros a Ha. unfold is_atom. destruct (heap s a) as [o|] eqn:E; [|discriminate]. rewrite (proj2 (proj2 L a a (Hk a Ha) (leads_self _ _)) o E). trivial. }
    destruct k as [ty v|b|l|c b]; cbn [check_first check_later key_refs andb] in *; rewrite ?andb_true_r.
    - trivial.
    - apply T'. left. reflexivity.
    - rewrite !forallb_forall. intros H a Ha. apply T, H; exact Ha.
    - apply T. left. reflexivity.
  Qed.
  Lemma ref_new {A B} s k (c : addr -> prog A) (x : res B) R : W s -> (forall a, In a (key_refs k) -> In a (held (threads s t))) ->
    args_ok (heap s) k = true ->
    (forall s1 b, W s1 -> le s s1 -> In b (held (threads s1 t)) -> heap s1 b = Some (obj_of k) -> refines s1 (c b) x R) ->
    refines s (New k c) x R.
  Proof.
    intros HW Hk Hok K.
    assert (D : forall s0 s1 b, W s0 -> le s s0 -> (forall a, In a (key_refs k) -> In a (held (threads s0 t))) -> in_call (goto s0 t (Call k)) s1 ->
      at_ (threads s1 t) = Done k b -> refines (goto (hold s1 t b) t Idle) (c b) x R).
    { intros s0 s1 b W0 L0 Hk0 Hc Hd. destruct (new_done s0 s1 k b W0 Hk0 Hc Hd) as (R1 & W1 & L1 & E1 & H1).
      apply K; [exact W1|eapply le_trans; eassumption|exact H1|]. rewrite E1.
      pose proof (PropsIntern.C05_calls_return_what_was_asked pyval_eqb atomic who s1 t k b pyval_equivalence Hsafe R1 Hd) as H.
      destruct k as [ty v|d|l|cl d]; cbn [obj_of]; try apply H. destruct H as (v' & Hv & E). rewrite Hv. apply pyval_eqb_eq in E as ->. reflexivity. }
    assert (N : forall s0 s1, W s0 -> le s s0 -> (forall a, In a (key_refs k) -> In a (held (threads s0 t))) -> in_call (goto s0 t (Call k)) s1 ->
      at_ (threads s1 t) = Raised k -> False).
    { intros s0 s1 W0 L0 Hk0 Hc Hd. destruct (new_raised s0 s1 k W0 Hk0 Hc Hd) as (R1 & L1 & _).
      pose proof (reachable_inv pyval_eqb pyval_equivalence atomic who s1 Hsafe R1) as I.
      pose proof (proj2 (i_threads _ _ _ _ I t)) as P. rewrite Hd in P. destruct P as [_ P].
      assert (L2 : le s0 s1) by (eapply le_trans; [apply (step_le _ _ (call_step s0 k W0 Hk0)), keeps_goto|exact L1]).
      rewrite (args_ok_le s s1 k (le_trans _ _ _ L0 L2) Hk Hok) in P. discriminate. }
    split.
    - destruct (call_ends (goto s t (Call k)) k) as (s1 & Hc & [Hd|(b & Hd)]).
      + eapply steps_more; [apply HW|]. apply call_step; assumption.
      + cbn [goto set_thread threads]. rewrite upd_same. discriminate.
      + cbn [goto set_thread threads]. rewrite upd_same. reflexivity.
      + destruct (N s s1 HW (le_refl s) Hk Hc Hd).
      + destruct (D s s1 b HW (le_refl s) Hk Hc Hd) as [(s' & r & H) _]. exists s', r. eapply runs_new; eassumption.
    - intros s' r H. destruct (runs_new_inv k c s s' r H HW) as (s0 & W0 & L0 & Hk0 & [(s1 & b & Hc & Hd & H2)|(s1 & Hc & Hd & _)]).
      + exact (proj2 (D s0 s1 b W0 L0 Hk0 Hc Hd) s' r H2).
      + destruct (N s0 s1 W0 L0 Hk0 Hc Hd).
  Qed.
End Proof.
