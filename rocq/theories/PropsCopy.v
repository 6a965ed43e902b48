(** * copy.copy: C82. *)
From Verif Require Import Py ModelIntern SpecIntern ModelCopy SpecCopy ProofIntern ProofInternLive PropsIntern.

Section Props.
  Context {V : Type} (veq : V -> V -> bool).
  Implicit Types (s : state V).
  Notation step := (step veq true).
  Notation steps_keeping := (steps_keeping veq).
  Notation copies := (copies veq).
  Notation find := (find veq).
  Notation empty := (KNode (V:=V) []).

  Lemma keeping_steps who l s s' : steps_keeping who l s s' -> steps veq true who s s'.
  Proof. induction 1; [constructor|eapply steps_more; eassumption]. Qed.
  Lemma keeping_heap who l s s' a : steps_keeping who l s s' -> In a l -> referenced s a -> heap s' a = heap s a \/ heap s a = None.
  Proof.
    intros H Ha Hr. destruct (heap s a) as [o|] eqn:E; [left|right; reflexivity].
    assert (G : heap s' a = Some o /\ referenced s' a); [|apply G].
    induction H as [|s1 s2 _ IH St K]; [auto|]. destruct IH as [IH1 IH2]. split; [eapply step_heap; eassumption|].
    rewrite Forall_forall in K. apply K, Ha.
  Qed.
  Lemma keeping_sub who l l' s s' : (forall a, In a l' -> In a l) -> steps_keeping who l s s' -> steps_keeping who l' s s'.
  Proof.
    intros H. induction 1 as [|s1 s2 _ IH St K]; [constructor|]. eapply keeping_more; [exact IH|exact St|].
    rewrite Forall_forall in *. auto.
  Qed.

  (** ** The object of Tree() *)
  Lemma empty_key k : key_eqb veq empty k = true -> k = empty.
  Proof. destruct k as [| |[|]|]; cbn; intros H; congruence. Qed.
  Lemma key_empty k : key_eqb veq k empty = true -> k = empty.
  Proof. destruct k as [| |[|]|]; cbn; intros H; congruence. Qed.
  (** The store has [y] for Tree(), and calls of Tree() in progress return [y]. *)
  Definition pc_agrees s y (p : pc V) : Prop :=
    match p with
    | Got (KNode []) w => w < next_w s /\ (wrefs s w = None \/ wrefs s w = Some y)
    | Done (KNode []) a => a = y
    | Look _ _ _ | Put _ _ => False
    | _ => True
    end.
  Record fixed s y : Prop := {
    f_entry : exists w, find (data s) empty = Some w /\ wrefs s w = Some y;
    f_wrefs : forall w a, wrefs s w = Some a -> w < next_w s;
    f_pcs : forall t, pc_agrees s y (at_ (threads s t))
  }.
  Lemma find_put_other d k w : key_eqb veq k empty = false -> find (put veq d k w) empty = find d empty.
  Proof.
    intros H. induction d as [|[k' w'] d IH].
    - cbn [put ModelIntern.find]. destruct (key_eqb veq empty k) eqn:E; [|reflexivity]. apply empty_key in E. subst k. cbn in H. discriminate.
    - cbn [put]. destruct (key_eqb veq k k') eqn:E; cbn [ModelIntern.find].
      + destruct (key_eqb veq empty k') eqn:E'; [|reflexivity]. exfalso. apply empty_key in E'. subst k'. congruence.
      + destruct (key_eqb veq empty k'); [reflexivity|exact IH].
  Qed.
  Lemma find_remove front k w back w0 : find (front ++ (k, w) :: back) empty = Some w0 -> w <> w0 -> find (front ++ back) empty = Some w0.
  Proof.
    intros H Hne. induction front as [|[k' w'] front IH]; cbn [app ModelIntern.find] in *.
    - destruct (key_eqb veq empty k); [congruence|exact H].
    - destruct (key_eqb veq empty k'); [exact H|apply IH, H].
  Qed.
  Lemma fixed_goto s y t p : fixed s y -> pc_agrees s y p -> fixed (goto s t p) y.
  Proof.
    intros [F1 F2 F3] Hp. constructor; [exact F1|exact F2|]. intros u. unfold goto, set_thread. cbn [threads]. unfold upd.
    destruct (Nat.eqb u t); cbn [at_]; [exact Hp|apply F3].
  Qed.
  Lemma fixed_thread s y t th : fixed s y -> at_ th = at_ (threads s t) -> fixed (set_thread s t th) y.
  Proof.
    intros [F1 F2 F3] Hp. constructor; [exact F1|exact F2|]. intros u. unfold set_thread. cbn [threads]. unfold upd.
    destruct (Nat.eqb_spec u t) as [->|_]; [rewrite Hp|]; apply F3.
  Qed.
  Lemma fixed_wrefs s s' y : fixed s y -> data s' = data s -> threads s' = threads s -> next_w s' = next_w s ->
    (forall w, wrefs s' w = wrefs s w \/ (wrefs s' w = None /\ wrefs s w <> Some y)) -> fixed s' y.
  Proof.
    intros [(w & F1 & F1') F2 F3] Hd Ht Hn Hw. constructor.
    - exists w. rewrite Hd. split; [exact F1|]. destruct (Hw w) as [E|[_ E]]; congruence.
    - intros w' a H. rewrite Hn. apply (F2 w' a). destruct (Hw w') as [E|[E _]]; congruence.
    - intros t. rewrite Ht. specialize (F3 t). destruct (at_ (threads s t)) as [|k|k w1|k|k a|k a w1|k a|k a|k]; cbn in *; try exact F3.
      destruct k as [| |[|? ?]|]; try exact I. rewrite Hn. split; [apply F3|]. destruct (Hw w1) as [E|[E _]]; [rewrite E; apply F3|left; exact E].
  Qed.
  Lemma fixed_store s y k a : fixed s y -> key_eqb veq k empty = false -> fixed (store_new veq s k a) y.
  Proof.
    intros [(w & F1 & F1') F2 F3] Hk. assert (Hlt := F2 _ _ F1'). constructor; cbn [store_new data wrefs next_w threads].
    - exists w. rewrite find_put_other by exact Hk. split; [exact F1|]. unfold upd. destruct (Nat.eqb_spec w (next_w s)); [lia|exact F1'].
    - intros w' b. unfold upd. destruct (Nat.eqb_spec w' (next_w s)); [lia|]. intros H. apply F2 in H. lia.
    - intros t. specialize (F3 t). destruct (at_ (threads s t)) as [|k'|k' w1|k'|k' b|k' b w1|k' b|k' b|k']; cbn in *; try exact F3.
      destruct k' as [| |[|? ?]|]; try exact I. destruct F3 as [F3 F4]. split; [lia|]. unfold upd. destruct (Nat.eqb_spec w1 (next_w s)); [lia|exact F4].
  Qed.
  Lemma agrees_other s y k a : key_eqb veq k empty = false -> pc_agrees s y (Done k a).
  Proof. intros H. destruct k as [| |[|? ?]|]; cbn in *; try exact I. discriminate. Qed.
  Lemma step_fixed who s s' y : step who s s' -> fixed s y -> referenced s y -> fixed s' y.
  Proof.
    intros St F (t0 & Hr). pose proof (f_entry _ _ F) as (w0 & E0 & E1). pose proof (f_pcs _ _ F) as P.
    destruct St; try (apply fixed_goto; [exact F|]); try exact I.
    - (* s_get_ref *) destruct k as [| |[|? ?]|]; try exact I. cbn. assert (w = w0) by congruence. subst w.
      split; [eapply f_wrefs; eassumption|right; exact E1].
    - (* s_deref_some *) specialize (P t). rewrite H in P. destruct k as [| |[|? ?]|]; try exact I. cbn in *. destruct P as [_ [P|P]]; congruence.
    - (* s_alloc *) apply (fixed_goto (alloc s a (obj_of k)) y t (Made k a)); [|exact I].
      apply (fixed_wrefs s); try reflexivity; [exact F|]. intros w. left. reflexivity.
    - (* s_setdefault_old *) destruct k as [| |[|? ?]|]; try exact I. cbn. congruence.
    - (* s_setdefault_new *) destruct (key_eqb veq k empty) eqn:Ek.
      + apply key_empty in Ek. subst k. exfalso. specialize (H1 _ E0). congruence.
      + apply fixed_goto; [apply fixed_store; assumption|apply agrees_other, Ek].
    - discriminate.
    - discriminate.
    - specialize (P t). rewrite H in P. destruct P.
    - specialize (P t). rewrite H in P. destruct P.
    - specialize (P t). rewrite H in P. destruct P.
    - (* s_return *) apply fixed_goto; [|exact I]. apply fixed_thread; [exact F|reflexivity].
    - (* s_read *) apply fixed_thread; [exact F|reflexivity].
    - apply fixed_thread; [exact F|reflexivity].
    - apply fixed_thread; [exact F|reflexivity].
    - (* s_collect *) apply (fixed_wrefs s); try reflexivity; [exact F|]. intros w. cbn [collect wrefs].
      destruct (wrefs s w) as [b|] eqn:Ew; [|left; reflexivity]. destruct (Nat.eqb_spec b a) as [->|_]; [|left; reflexivity].
      right. split; [reflexivity|]. intros [= ->]. destruct H0 as (U & _). destruct (U t0) as [U1 U2]. destruct Hr; contradiction.
    - (* s_callback *) destruct F as [_ F2 F3]. constructor; [|exact F2|exact F3]. exists w0. cbn [remove_entry data wrefs]. split; [|exact E1].
      rewrite H in E0. eapply find_remove; [exact E0|]. congruence.
  Qed.
  Lemma keeping_fixed who l s s' y : steps_keeping who l s s' -> In y l -> referenced s y -> fixed s y -> fixed s' y.
  Proof.
    intros H Hy Hr F. assert (G : fixed s' y /\ referenced s' y); [|apply G]. induction H as [|s1 s2 _ IH St K]; [auto|].
    destruct IH as [IH1 IH2]. split; [eapply step_fixed; eassumption|]. rewrite Forall_forall in K. apply K, Hy.
  Qed.
  Lemma inv_fixed who s y : equivalence veq -> inv veq true who s -> good s y -> heap s y = Some (ONode []) -> fixed s y.
  Proof.
    intros He I [_ (k & w & Hin & Ew)] Ho. pose proof (i_mem _ _ _ _ I) as M. destruct (m_entry _ _ M _ _ _ Hin Ew) as (o & Ho' & Hm').
    assert (o = ONode []) by congruence. subst o. unfold matches in Hm'. apply key_empty in Hm'. subst k.
    assert (Hf : find (data s) empty = Some w) by (eapply find_in; [exact He|apply (m_uniq _ _ M)|exact Hin|reflexivity]).
    constructor.
    - exists w. split; assumption.
    - intros w' a Hw'. apply (m_wref _ _ M) in Hw'. apply Hw'.
    - intros u. pose proof (proj2 (i_threads _ _ _ _ I u)) as Pu. pose proof (proj2 (i_mode _ _ _ _ I u) eq_refl) as Mu.
      destruct (at_ (threads s u)) as [|k'|k' w1|k'|k' b|k' b w1|k' b|k' b|k']; cbn; try exact I; try exact Mu.
      + destruct k' as [| |[|? ?]|]; try exact Logic.I. cbn in Pu. destruct Pu as (_ & _ & Hlt & Hw1). split; [exact Hlt|].
        destruct (wrefs s w1) as [b|] eqn:E1; [right|left; reflexivity]. destruct (Hw1 b eq_refl) as (k'' & Hin'' & Hk''). apply empty_key in Hk''. subst k''.
        destruct (uniq_in veq He _ _ _ _ _ (m_uniq _ _ M) Hin Hin'') as [-> _]; [reflexivity|congruence].
      + destruct k' as [| |[|? ?]|]; try exact Logic.I. cbn in Pu. destruct Pu as (_ & _ & Hp & o2 & Ho2 & Hm2). unfold matches in Hm2.
        eapply good_unique; [exact He|exact M|split; [congruence|exact Hp]| |exact Ho2|exact Ho|].
        * split; [congruence|]. exists empty, w. split; assumption.
        * apply empty_key in Hm2. rewrite Hm2. reflexivity.
  Qed.

  Lemma copies_parts who l s t x y s' : copies who l s t x y s' -> exists o s1,
    heap s x = Some o /\ In x (held (threads s t)) /\ at_ (threads s t) = Idle /\ who t /\ (forall a v, o <> OAtom a v) /\ (forall c a, o <> OSym c a) /\
    steps_keeping who (x :: l) (goto s t (Call empty)) s1 /\ returning s1 t empty y /\ s' = set_state (goto (hold s1 t y) t Idle) x y.
  Proof.
    intros (o & k & s1 & H1 & H2 & H3 & H4 & H5 & H6 & H7 & H8). exists o, s1. destruct o; try discriminate; injection H5 as <-; repeat (split; [first [assumption|intros; discriminate]|]); assumption.
  Qed.
  Lemma goto_held s t p u : held (threads (goto s t p) u) = held (threads s u).
  Proof. unfold goto, set_thread. cbn [threads]. unfold upd. destruct (Nat.eqb_spec u t) as [->|_]; reflexivity. Qed.
  Lemma goto_referenced s t p a : (exists u, In a (held (threads s u))) -> referenced (goto s t p) a.
  Proof. intros (u & H). exists u. left. rewrite goto_held. exact H. Qed.
  Lemma copies_fixed (who : nat -> Prop) (l : list addr) s t x y s' s1 : s' = set_state (goto (hold s1 t y) t Idle) x y -> fixed s1 y -> fixed s' y /\ In y (held (threads s' t)).
  Proof.
    intros -> F. split.
    - pose proof (fixed_goto (hold s1 t y) y t Idle (fixed_thread s1 y t (mkThread (y :: held (threads s1 t)) (at_ (threads s1 t))) F eq_refl) I) as [F1 F2 F3]. constructor; assumption.
    - cbn [set_state threads]. rewrite goto_held. unfold hold, set_thread. cbn [threads]. rewrite upd_same. left. reflexivity.
  Qed.

  (** C82. copy.copy of a Tree, in any state that normal use leads to: it returns the object of Tree() after giving it the
      children and value of the original. So the copy is another object than the original (except for Tree() itself), and
      whoever has Tree() now has something else. *)
  Theorem C82_copy_overwrites who l s t x y s' o : equivalence veq -> reachable veq true who s -> copies who l s t x y s' -> heap s x = Some o ->
    heap s' y = Some o /\ (o <> ONode [] -> y <> x) /\
    forall z, In z l -> has s z -> heap s z = Some (ONode []) -> y = z.
  Proof.
    intros He Hr Hc Ho. apply copies_parts in Hc as (o' & s1 & Ho' & Hx & Hi & Hw & Ht1 & Ht2 & St & Hret & ->). assert (o' = o) by congruence. subst o'.
    assert (I1 : inv veq true who s1).
    { apply (steps_inv veq He true who (goto s t (Call empty))); [left; reflexivity| |apply (keeping_steps _ _ _ _ St)].
      apply (reachable_inv veq He true who); [left; reflexivity|]. eapply steps_more; [exact Hr|]. apply s_call; [exact Hi|exact Hw|]. intros a []. }
    assert (Hx1 : heap s1 x = Some o).
    { destruct (keeping_heap _ _ _ _ x St) as [E|E]; [left; reflexivity|apply goto_referenced; eauto|rewrite E; exact Ho|]. cbn in E. congruence. }
    pose proof (proj2 (i_threads _ _ _ _ I1 t)) as P. unfold returning in Hret. rewrite Hret in P. destruct P as (_ & _ & Hp & oy & Hoy & Hm).
    unfold matches in Hm. apply empty_key in Hm. assert (oy = ONode []) by (destruct oy; cbn in Hm; congruence). subst oy.
    split; [|split].
    - unfold set_state. cbn [heap]. rewrite upd_same. exact Hx1.
    - intros Hne ->. congruence.
    - intros z Hz Hhas Hzo.
      assert (Hrz : referenced (goto s t (Call empty)) z).
      { destruct Hhas as [(u & Hu)|(u & k & Hu)].
        - apply goto_referenced. eauto.
        - exists u. right. unfold returning in Hu. unfold goto, set_thread. cbn [threads]. unfold upd. destruct (Nat.eqb_spec u t) as [->|_]; [congruence|].
          rewrite Hu. left. reflexivity. }
      assert (F : fixed (goto s t (Call empty)) z).
      { apply fixed_goto; [|exact I]. pose proof (reachable_inv veq He true who s (or_introl eq_refl) Hr) as I0.
        apply (inv_fixed who); [exact He|exact I0|apply (has_good veq true who); assumption|exact Hzo]. }
      pose proof (f_pcs _ _ (keeping_fixed _ _ _ _ z St (or_intror Hz) Hrz F) t) as A. rewrite Hret in A. exact A.
  Qed.
  (** Copying an Atom or a Sym raises TypeError, and copying a Tree never raises. *)
  Theorem C82_atoms_and_syms_raise (s : state V) x e : copy_raises s x e <->
    e = TypeError /\ ((exists ty v, heap s x = Some (OAtom ty v)) \/ (exists c t, heap s x = Some (OSym c t))).
  Proof.
    split.
    - intros (o & Ho & H). destruct o; cbn in H; try discriminate; injection H as <-; split; eauto.
    - intros [-> [(ty & v & H)|(c & t & H)]]; eexists; split; try exact H; reflexivity.
  Qed.
  (** All copies are the same object: while anyone has the first copy, every further copy.copy of a Tree, by any thread,
      returns the first copy, which then has the attributes of the tree copied last. *)
  Theorem C82_copies_are_one_object who l s t x y s1 s2 t' x' y' s3 : equivalence veq -> reachable veq true who s ->
    copies who l s t x y s1 -> steps_keeping who [y] s1 s2 -> (exists u, In y (held (threads s2 u))) ->
    copies who [y] s2 t' x' y' s3 -> y' = y /\ heap s3 y = heap s2 x'.
  Proof.
    intros He Hr Hc St Hy Hc'. apply copies_parts in Hc as (o & sa & Ho & Hx & Hi & Hw & Ht1 & Ht2 & Sta & Hret & E1).
    assert (Ia : inv veq true who sa).
    { apply (steps_inv veq He true who (goto s t (Call empty))); [left; reflexivity| |apply (keeping_steps _ _ _ _ Sta)].
      apply (reachable_inv veq He true who); [left; reflexivity|]. eapply steps_more; [exact Hr|]. apply s_call; [exact Hi|exact Hw|]. intros a []. }
    assert (Fa : fixed sa y).
    { pose proof (proj2 (i_threads _ _ _ _ Ia t)) as P. unfold returning in Hret. rewrite Hret in P. destruct P as (_ & _ & Hp & oy & Hoy & Hm).
      unfold matches in Hm. apply empty_key in Hm. assert (oy = ONode []) by (destruct oy; cbn in Hm; congruence). subst oy.
      apply (inv_fixed who); [exact He|exact Ia|split; [congruence|exact Hp]|exact Hoy]. }
    destruct (copies_fixed who l s t x y s1 sa E1 Fa) as [F1 Hy1].
    assert (F2 : fixed s2 y). { apply (keeping_fixed _ _ _ _ y St); [left; reflexivity| |exact F1]. exists t. left. exact Hy1. }
    apply copies_parts in Hc' as (o' & sb & Ho' & Hx' & Hi' & Hw' & _ & _ & Stb & Hretb & ->).
    assert (Fb : fixed sb y).
    { apply (keeping_fixed _ _ _ _ y Stb); [right; left; reflexivity|apply goto_referenced, Hy|]. apply fixed_goto; [exact F2|exact I]. }
    pose proof (f_pcs _ _ Fb t') as A. unfold returning in Hretb. rewrite Hretb in A. cbn in A. subst y'. split; [reflexivity|].
    unfold set_state. cbn [heap]. rewrite upd_same. cbn.
    destruct (keeping_heap _ _ _ _ x' Stb) as [E|E]; [left; reflexivity|apply goto_referenced; eauto|exact E|cbn in E; congruence].
  Qed.
End Props.

(** ** Concrete cases *)
Lemma run1_held {V} (veq : V -> V -> bool) (s : state V) x s' u a : run1 veq true s x = Some s' -> In a (held (threads s u)) -> In a (held (threads s' u)).
Proof.
  assert (G : forall (s0 : state V) t p, In a (held (threads s0 u)) -> In a (held (threads (goto s0 t p) u))) by (intros s0 t p; rewrite goto_held; auto).
  intros H Hin. destruct x as [t k|t n]; cbn [run1] in H.
  - destruct (at_ (threads s t)); try discriminate. destruct (forallb _ _); [|discriminate]. injection H as <-. apply G, Hin.
  - destruct (at_ (threads s t)) as [|k|k w|k|k b|k b w|k b|k b|k]; [discriminate|..].
    + injection H as <-. destruct (check_first _ _); [destruct (find _ _ _)|]; apply G, Hin.
    + injection H as <-. destruct (wrefs s w); apply G, Hin.
    + destruct (check_later _ _); [destruct (heap s n); [discriminate|]|]; injection H as <-; apply G, Hin.
    + injection H as <-. destruct (find _ _ _) as [w|]; [destruct (wrefs s w)|]; apply G, Hin.
    + injection H as <-. destruct (wrefs s w); apply G, Hin.
    + injection H as <-. apply G, Hin.
    + injection H as <-. apply G. unfold hold, set_thread. cbn [threads]. unfold upd. destruct (Nat.eqb_spec u t) as [->|_]; [right|]; exact Hin.
    + injection H as <-. apply G, Hin.
Qed.
Lemma run_keeping {V} (veq : V -> V -> bool) who l (s : state V) acts s' : run veq true s acts = Some s' -> calls_of acts who ->
  (forall a, In a l -> exists u, In a (held (threads s u))) -> steps_keeping veq who l s s'.
Proof.
  intros R W H. assert (G : forall s0, steps_keeping veq who l s0 s -> steps_keeping veq who l s0 s'); [|apply G; constructor].
  revert s R H. induction acts as [|x acts IH]; intros s R H s0 K; cbn [run] in R; [injection R as <-; exact K|].
  destruct (run1 veq true s x) as [s1|] eqn:E; [|discriminate]. inversion W; subst.
  assert (H' : forall a, In a l -> exists u, In a (held (threads s1 u))) by (intros a Ha; destruct (H a Ha) as (u & Hu); exists u; eapply run1_held; eassumption).
  apply (IH ltac:(assumption) s1 R H'). eapply keeping_more; [exact K| |].
  - apply (run1_step _ _ _ _ _ _ E). constructor; [assumption|constructor].
  - apply Forall_forall. intros a Ha. destruct (H' a Ha) as (u & Hu). exists u. left. exact Hu.
Qed.
(** one = Integer(1); a = Tr(one); two = Integer(2); b = Tr(two); e = Tree(a, b); n = Tree(): objects 0, 1, 2, 3, 4 and 5. *)
Definition before_copy : list (action pyval) :=
  whole 0 (KAtom 0 (VInt 1)) 0 4 ++ whole 0 (KLeaf 0) 1 4 ++ whole 0 (KAtom 0 (VInt 2)) 2 4 ++ whole 0 (KLeaf 2) 3 4 ++ whole 0 (KNode [1; 3]) 4 4.
Definition with_empty : list (action pyval) := before_copy ++ whole 0 (KNode []) 5 4.
Definition state_of (l : list (action pyval)) : state pyval := match run py_eq true start l with Some s => s | None => start end.
Lemma state_of_reachable l : run py_eq true start l <> None -> calls_of l (fun _ => True) -> reachable py_eq true (fun _ => True) (state_of l).
Proof. intros H W. unfold state_of. destruct (run py_eq true start l) as [s|] eqn:E; [|congruence]. exact (run_steps _ _ _ _ _ _ E W). Qed.
Definition anyone (_ : nat) : Prop := True.

(** copy.copy(e) changes a tree that somebody has: n was Tree() and is Tree(a, b) afterwards, equal to but not the same object as e. *)
Theorem C82_copy_keeps_trees_refuted : exists s x n s', reachable py_eq true anyone s /\ In n (held (threads s 0)) /\ In x (held (threads s 0)) /\
  copies py_eq anyone [n] s 0 x n s' /\ heap s n = Some (ONode []) /\ heap s x = Some (ONode [1; 3]) /\ heap s' n = Some (ONode [1; 3]) /\ n <> x.
Proof.
  set (s1 := match run py_eq true (goto (state_of with_empty) 0 (Call (KNode []))) [AMove 0 6; AMove 0 6] with Some s => s | None => start end).
  exists (state_of with_empty), 4, 5, (set_state (goto (hold s1 0 5) 0 Idle) 4 5).
  split; [apply state_of_reachable; [vm_compute; discriminate|all_may]|]. split; [vm_compute; auto|]. split; [vm_compute; auto|].
  split; [|split; [vm_compute; reflexivity|]; split; [vm_compute; reflexivity|]; split; [vm_compute; reflexivity|discriminate]].
  exists (ONode [1; 3]), (KNode []), s1. split; [vm_compute; reflexivity|]. split; [vm_compute; auto|]. split; [vm_compute; reflexivity|]. split; [exact I|]. split; [reflexivity|].
    split; [|split; [vm_compute; reflexivity|reflexivity]].
  apply (run_keeping py_eq _ _ _ [AMove 0 6; AMove 0 6]); [vm_compute; reflexivity|all_may|].
  intros a [<-|[<-|[]]]; exists 0; vm_compute; auto.
Qed.
(** c = copy.copy(a); d = copy.copy(e): c is d, and it is equal to e; c was equal to a. *)
Example C82_case : exists s s1 s2 y, reachable py_eq true anyone s /\ copies py_eq anyone [] s 0 1 y s1 /\ heap s1 y = Some (OLeaf 0) /\
  copies py_eq anyone [y] s1 0 4 y s2 /\ heap s2 y = Some (ONode [1; 3]) /\ (exists u, In y (held (threads s1 u))).
Proof.
  set (s := state_of before_copy).
  set (sa := match run py_eq true (goto s 0 (Call (KNode []))) [AMove 0 5; AMove 0 5; AMove 0 5] with Some s => s | None => start end).
  set (s1 := set_state (goto (hold sa 0 5) 0 Idle) 1 5).
  set (sb := match run py_eq true (goto s1 0 (Call (KNode []))) [AMove 0 6; AMove 0 6] with Some s => s | None => start end).
  exists s, s1, (set_state (goto (hold sb 0 5) 0 Idle) 4 5), 5.
  split; [apply state_of_reachable; [vm_compute; discriminate|all_may]|]. split; [|split; [vm_compute; reflexivity|split; [|split; [vm_compute; reflexivity|exists 0; vm_compute; auto]]]].
  - exists (OLeaf 0), (KNode []), sa. split; [vm_compute; reflexivity|]. split; [vm_compute; auto|]. split; [vm_compute; reflexivity|]. split; [exact I|]. split; [reflexivity|].
    split; [|split; [vm_compute; reflexivity|reflexivity]].
    apply (run_keeping py_eq _ _ _ [AMove 0 5; AMove 0 5; AMove 0 5]); [vm_compute; reflexivity|all_may|].
    intros a [<-|[]]; exists 0; vm_compute; auto.
  - exists (ONode [1; 3]), (KNode []), sb. split; [vm_compute; reflexivity|]. split; [vm_compute; auto|]. split; [vm_compute; reflexivity|]. split; [exact I|]. split; [reflexivity|].
    split; [|split; [vm_compute; reflexivity|reflexivity]].
    apply (run_keeping py_eq _ _ _ [AMove 0 6; AMove 0 6]); [vm_compute; reflexivity|all_may|].
    intros a [<-|[<-|[]]]; exists 0; vm_compute; auto.
Qed.
Print Assumptions C82_copy_overwrites.
Print Assumptions C82_copies_are_one_object.
Print Assumptions C82_copy_keeps_trees_refuted.
Print Assumptions C82_atoms_and_syms_raise.
