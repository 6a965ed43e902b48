(** * The stores of unique objects: invariants *)
From Verif Require Import Py ModelIntern SpecIntern.

Section Proof.
  Context {V : Type} (veq : V -> V -> bool) (Heq : equivalence veq).
  Notation key_eqb := (key_eqb veq).
  Notation find := (find veq).
  Notation put := (put veq).
  Implicit Types (s : state V) (k : key V).

  Lemma addrs_eqb_spec l l' : reflect (l = l') (addrs_eqb l l').
  Proof.
    revert l'. induction l as [|a l IH]; intros [|b l']; cbn [addrs_eqb]; try (constructor; congruence).
    destruct (Nat.eqb_spec a b) as [->|H]; cbn [andb]; [|constructor; congruence]. destruct (IH l') as [->|H]; constructor; congruence.
  Qed.
  Lemma key_refl k : key_eqb k k = true.
  Proof.
    destruct Heq as (R & _). destruct k as [ty v|a|l|c t]; cbn [ModelIntern.key_eqb]; rewrite ?Nat.eqb_refl; [apply R|reflexivity| |reflexivity].
    destruct (addrs_eqb_spec l l); congruence.
  Qed.
  Lemma key_sym k k' : key_eqb k k' = true -> key_eqb k' k = true.
  Proof.
    destruct Heq as (_ & S & _). destruct k as [ty v|a|l|c t], k' as [ty' v'|a'|l'|c' t']; cbn [ModelIntern.key_eqb]; try discriminate.
    - intros H. apply andb_prop in H as [H1 H2]. apply Nat.eqb_eq in H1 as ->. rewrite Nat.eqb_refl. apply S, H2.
    - rewrite Nat.eqb_sym. trivial.
    - destruct (addrs_eqb_spec l l'); [|discriminate]. subst. destruct (addrs_eqb_spec l' l'); congruence.
    - rewrite (Nat.eqb_sym c), (Nat.eqb_sym t). trivial.
  Qed.
  Lemma key_trans k1 k2 k3 : key_eqb k1 k2 = true -> key_eqb k2 k3 = true -> key_eqb k1 k3 = true.
  Proof.
    destruct Heq as (_ & _ & T). destruct k1 as [ty v|a|l|c t], k2 as [ty' v'|a'|l'|c' t'], k3 as [ty2 v2|a2|l2|c2 t2]; cbn [ModelIntern.key_eqb]; try discriminate.
    - intros H H'. apply andb_prop in H as [H1 H2]. apply andb_prop in H' as [H3 H4]. apply Nat.eqb_eq in H1 as ->. rewrite H3. exact (T _ _ _ H2 H4).
    - intros H H'. apply Nat.eqb_eq in H as ->. exact H'.
    - destruct (addrs_eqb_spec l l'); [|discriminate]. subst. trivial.
    - intros H H'. apply andb_prop in H as [H1 H2]. apply Nat.eqb_eq in H1 as ->. apply Nat.eqb_eq in H2 as ->. exact H'.
  Qed.
  Lemma key_false k1 k2 k : key_eqb k1 k2 = true -> key_eqb k k1 = false -> key_eqb k k2 = false.
  Proof. intros H H'. destruct (key_eqb k k2) eqn:E; [|reflexivity]. rewrite (key_trans _ _ _ E (key_sym _ _ H)) in H'. discriminate. Qed.
  (** Keys that are equal refer to the same objects. *)
  Lemma key_same_refs k k' : key_eqb k k' = true -> key_refs k = key_refs k'.
  Proof.
    destruct k, k'; cbn [ModelIntern.key_eqb key_refs]; try discriminate; intros H; try reflexivity.
    - apply Nat.eqb_eq in H. congruence.
    - destruct (addrs_eqb_spec cs cs0); congruence.
    - apply andb_prop in H as [_ H]. apply Nat.eqb_eq in H. congruence.
  Qed.
  Definition obj_key (o : obj V) : key V :=
    match o with OAtom ty v => KAtom ty v | OLeaf a => KLeaf a | ONode l => KNode l | OSym c t => KSym c t end.
  Lemma obj_key_of k : obj_key (obj_of k) = k. Proof. destruct k; reflexivity. Qed.
  Lemma obj_of_key o : obj_of (obj_key o) = o. Proof. destruct o; reflexivity. Qed.
  Lemma obj_key_refs o : key_refs (obj_key o) = obj_refs o. Proof. destruct o; reflexivity. Qed.
  Definition matches k (o : obj V) : Prop := key_eqb k (obj_key o) = true.

  (** ** Dicts *)
  Fixpoint uniq (d : store V) : Prop :=
    match d with [] => True | (k, _) :: r => (forall k' w', In (k', w') r -> key_eqb k k' = false) /\ uniq r end.
  Lemma find_some d k w : find d k = Some w -> exists k', In (k', w) d /\ key_eqb k k' = true.
  Proof.
    induction d as [|[k0 w0] d IH]; cbn [ModelIntern.find]; [discriminate|]. destruct (key_eqb k k0) eqn:E.
    - intros H. injection H as ->. exists k0. split; [left; reflexivity|exact E].
    - intros H. destruct (IH H) as (k' & Hin & Hk). exists k'. split; [right; exact Hin|exact Hk].
  Qed.
  Lemma find_none d k : find d k = None -> forall k' w, In (k', w) d -> key_eqb k k' = false.
  Proof.
    induction d as [|[k0 w0] d IH]; cbn [ModelIntern.find]; [intros _ k' w []|]. destruct (key_eqb k k0) eqn:E; [discriminate|].
    intros H k' w [Hin|Hin]; [injection Hin as <- <-; exact E|eapply IH; eauto].
  Qed.
  Lemma uniq_in d k w k' w' : uniq d -> In (k, w) d -> In (k', w') d -> key_eqb k k' = true -> w = w' /\ k = k'.
  Proof.
    induction d as [|[k0 w0] d IH]; intros U H H' E; [destruct H|]. destruct U as [U1 U2], H as [H|H], H' as [H'|H'].
    - split; congruence.
    - injection H as -> ->. rewrite (U1 _ _ H') in E. discriminate.
    - injection H' as -> ->. apply key_sym in E. rewrite (U1 _ _ H) in E. discriminate.
    - exact (IH U2 H H' E).
  Qed.
  Lemma find_in d k k' w : uniq d -> In (k', w) d -> key_eqb k k' = true -> find d k = Some w.
  Proof.
    intros U Hin E. destruct (find d k) as [w0|] eqn:F.
    - apply find_some in F as (k0 & Hin0 & E0). f_equal. apply (uniq_in d k0 w0 k' w U Hin0 Hin). exact (key_trans _ _ _ (key_sym _ _ E0) E).
    - rewrite (find_none d k F k' w Hin) in E. discriminate.
  Qed.
  Lemma put_in d k w : uniq d -> forall k' w', In (k', w') (put d k w) ->
    (w' = w /\ key_eqb k k' = true /\ (k' = k \/ exists w0, In (k', w0) d)) \/ (In (k', w') d /\ key_eqb k k' = false).
  Proof.
    induction d as [|[k0 w0] d IH]; intros U k' w' H; cbn [ModelIntern.put] in H.
    - destruct H as [H|[]]. injection H as <- <-. left. split; [reflexivity|]. split; [apply key_refl|auto].
    - destruct U as [U1 U2]. destruct (key_eqb k k0) eqn:E; destruct H as [H|H].
      + injection H as <- <-. left. split; [reflexivity|]. split; [exact E|]. right. exists w0. left. reflexivity.
      + right. split; [right; exact H|]. destruct (key_eqb k k') eqn:E'; [|reflexivity].
        rewrite <- (U1 _ _ H). symmetry. exact (key_trans _ _ _ (key_sym _ _ E) E').
      + injection H as <- <-. right. split; [left; reflexivity|exact E].
      + destruct (IH U2 k' w' H) as [(-> & E' & H')|(H' & E')]; [left|right; split; [right; exact H'|exact E']].
        split; [reflexivity|]. split; [exact E'|]. destruct H' as [->|(w1 & H')]; [auto|]. right. exists w1. right. exact H'.
  Qed.
  Lemma put_new d k w : exists k', In (k', w) (put d k w) /\ key_eqb k k' = true.
  Proof.
    induction d as [|[k0 w0] d IH]; cbn [ModelIntern.put].
    - exists k. split; [left; reflexivity|apply key_refl].
    - destruct (key_eqb k k0) eqn:E; [exists k0; split; [left; reflexivity|exact E]|].
      destruct IH as (k' & H & E'). exists k'. split; [right; exact H|exact E'].
  Qed.
  Lemma put_old d k w k' w' : In (k', w') d -> key_eqb k k' = false -> In (k', w') (put d k w).
  Proof.
    induction d as [|[k0 w0] d IH]; intros [] E; cbn [ModelIntern.put].
    - injection H as -> ->. rewrite E. left. reflexivity.
    - destruct (key_eqb k k0); right; [exact H|apply IH; assumption].
  Qed.
  Lemma put_uniq d k w : uniq d -> uniq (put d k w).
  Proof.
    induction d as [|[k0 w0] d IH]; intros U; cbn [ModelIntern.put]; [split; [intros k' w' []|exact I]|]. destruct U as [U1 U2].
    destruct (key_eqb k k0) eqn:E; cbn [uniq]; [split; assumption|]. split; [|apply IH, U2].
    intros k' w' H. destruct (put_in d k w U2 k' w' H) as [(_ & E' & _)|(H' & _)]; [|exact (U1 _ _ H')].
    destruct (key_eqb k0 k') eqn:E0; [|reflexivity]. rewrite (key_trans _ _ _ E' (key_sym _ _ E0)) in E. discriminate.
  Qed.
  Lemma uniq_remove front e back : uniq (front ++ e :: back) -> uniq (front ++ back).
  Proof.
    induction front as [|[k w] front IH]; cbn [app uniq]; [destruct e; tauto|]. intros [U1 U2]. split; [|apply IH, U2].
    intros k' w' H. apply (U1 k' w'). apply in_app_or in H as [H|H]; apply in_or_app; [left|right; right]; exact H.
  Qed.

  (** ** The invariant *)
  Definition pub s (a : addr) : Prop := exists k w, In (k, w) (data s) /\ wrefs s w = Some a.
  Definition good s (a : addr) : Prop := heap s a <> None /\ pub s a.
  Definition typed s k : Prop := args_ok (heap s) k = true.
  Definition refs s k : Prop := forall b, In b (key_refs k) -> good s b.
  Definition wr s k (w : nat) : Prop :=
    w < next_w s /\ forall a, wrefs s w = Some a -> exists k', In (k', w) (data s) /\ key_eqb k k' = true.
  Definition no_live s k : Prop := forall w, find (data s) k = Some w -> wrefs s w = None.
  Definition only_live s k (w : nat) : Prop := forall w', find (data s) k = Some w' -> wrefs s w' <> None -> w' = w.
  Definition own s k (a : addr) : Prop := heap s a = Some (obj_of k) /\ ~ pub s a /\ typed s k.
  Definition pc_ok s (p : pc V) : Prop :=
    match p with
    | Idle => True
    | Call k => refs s k
    | Got k w => refs s k /\ check_first (heap s) k = true /\ wr s k w
    | Make k => refs s k /\ check_first (heap s) k = true
    | Made k a => refs s k /\ own s k a
    | Look k a w => refs s k /\ own s k a /\ wr s k w /\ only_live s k w
    | Put k a => refs s k /\ own s k a /\ no_live s k
    | Done k a => refs s k /\ typed s k /\ pub s a /\ exists o, heap s a = Some o /\ matches k o
    | Raised k => refs s k /\ args_ok (heap s) k = false
    end.
  Definition thread_ok s (th : thread V) : Prop := (forall a, In a (held th) -> good s a) /\ pc_ok s (at_ th).
  Record mem_ok s : Prop := {
    m_obj : forall a o, heap s a = Some o -> refs s (obj_key o) /\ typed s (obj_key o) /\ exists m, denotes (heap s) a m;
    m_key : forall k w, In (k, w) (data s) -> refs s k /\ w < next_w s;
    m_entry : forall k w a, In (k, w) (data s) -> wrefs s w = Some a -> exists o, heap s a = Some o /\ matches k o;
    m_uniq : uniq (data s);
    m_wref : forall w a, wrefs s w = Some a -> heap s a <> None /\ w < next_w s
  }.
  Definition owns (p : pc V) (a : addr) : Prop :=
    match p with Made _ b | Look _ b _ | Put _ b => b = a | _ => False end.
  Definition mode_ok (atomic : bool) (who : nat -> Prop) (t : nat) (p : pc V) : Prop :=
    (p <> Idle -> who t) /\ (atomic = true -> match p with Look _ _ _ | Put _ _ => False | _ => True end).
  Record inv (atomic : bool) (who : nat -> Prop) s : Prop := {
    i_mem : mem_ok s;
    i_threads : forall t, thread_ok s (threads s t);
    i_own : forall t u a, owns (at_ (threads s t)) a -> owns (at_ (threads s u)) a -> t = u;
    i_mode : forall t, mode_ok atomic who t (at_ (threads s t))
  }.

  (** Objects at known addresses. *)
  Lemma checks_same s s' k : (forall b, In b (key_refs k) -> heap s' b = heap s b) ->
    check_first (heap s') k = check_first (heap s) k /\ check_later (heap s') k = check_later (heap s) k /\
    args_ok (heap s') k = args_ok (heap s) k.
  Proof.
    intros H. assert (G : check_first (heap s') k = check_first (heap s) k /\ check_later (heap s') k = check_later (heap s) k).
    { destruct k as [ty v|a|l|c t]; cbn [check_first check_later key_refs] in *; split; try reflexivity.
      - unfold is_atom. rewrite (H a); [reflexivity|left; reflexivity].
      - clear - H. induction l as [|b l IH]; [reflexivity|]. cbn [forallb]. unfold is_tree at 1 3. rewrite (H b (or_introl eq_refl)), IH; [reflexivity|].
        intros b' Hb. apply H. right. exact Hb.
      - unfold is_tree. rewrite (H t); [reflexivity|left; reflexivity]. }
    destruct G as [G1 G2]. split; [exact G1|]. split; [exact G2|]. unfold args_ok. rewrite G1, G2. reflexivity.
  Qed.
  Lemma refs_transfer s s' k : refs s k -> (forall b, In b (key_refs k) -> heap s' b = heap s b /\ (pub s b -> pub s' b)) -> refs s' k.
  Proof. intros H E b Hb. destruct (E b Hb) as [E1 E2], (H b Hb) as [H1 H2]. split; [rewrite E1; exact H1|apply E2, H2]. Qed.
  (** Live entries are old. *)
  Definition setting (p : pc V) : Prop := match p with Look _ _ _ | Put _ _ => True | _ => False end.
  Definition back s s' : Prop := forall k w, find (data s') k = Some w -> wrefs s' w <> None -> find (data s) k = Some w /\ wrefs s w <> None.
  Lemma back_no_live s s' k : back s s' -> no_live s k -> no_live s' k.
  Proof.
    intros B N w F. destruct (wrefs s' w) as [a|] eqn:E; [|reflexivity]. destruct (B k w F) as [F' E']; [congruence|]. rewrite (N w F') in E'. congruence.
  Qed.
  Lemma back_only_live s s' k w : back s s' -> only_live s k w -> only_live s' k w.
  Proof. intros B N w' F E. destruct (B k w' F E). auto. Qed.
  Lemma pc_transfer s s' p : pc_ok s p ->
    (forall b, In b (pc_refs p) -> heap s' b = heap s b /\ (pub s b <-> pub s' b)) ->
    (forall k w, wr s k w -> wr s' k w) ->
    (setting p -> back s s') -> pc_ok s' p.
  Proof.
    intros H E W N.
    assert (R : forall k, (forall b, In b (key_refs k) -> In b (pc_refs p)) -> refs s k -> refs s' k).
    { intros k Hk Hr. apply (refs_transfer s); [exact Hr|]. intros b Hb. destruct (E b (Hk b Hb)) as [E1 E2]. split; [exact E1|apply E2]. }
    assert (C : forall k, (forall b, In b (key_refs k) -> In b (pc_refs p)) ->
      check_first (heap s') k = check_first (heap s) k /\ args_ok (heap s') k = args_ok (heap s) k).
    { intros k Hk. destruct (checks_same s s' k) as (H1 & _ & H2); [intros b Hb; apply (E b (Hk b Hb))|]. auto. }
    assert (O : forall k a, (forall b, In b (a :: key_refs k) -> In b (pc_refs p)) -> own s k a -> own s' k a).
    { intros k a Hk (H1 & H2 & H3). destruct (E a (Hk a (or_introl eq_refl))) as [E1 E2]. unfold own, typed.
      rewrite E1, (proj2 (C k (fun b Hb => Hk b (or_intror Hb)))). tauto. }
    destruct p as [|k|k w|k|k a|k a w|k a|k a|k]; cbn [pc_ok pc_refs] in *.
    - exact I.
    - apply R; auto.
    - destruct H as (H1 & H2 & H3). split; [apply R; auto|]. split; [rewrite (proj1 (C k (fun b Hb => Hb))); exact H2|apply W, H3].
    - destruct H as (H1 & H2). split; [apply R; auto|]. rewrite (proj1 (C k (fun b Hb => Hb))). exact H2.
    - destruct H as (H1 & H2). split; [apply R; auto; intros b Hb; right; exact Hb|apply O; auto].
    - destruct H as (H1 & H2 & H3 & H4). split; [apply R; auto; intros b Hb; right; exact Hb|]. split; [apply O; auto|]. split; [apply W, H3|].
      exact (back_only_live _ _ _ _ (N Logic.I) H4).
    - destruct H as (H1 & H2 & H3). split; [apply R; auto; intros b Hb; right; exact Hb|]. split; [apply O; auto|]. exact (back_no_live _ _ _ (N Logic.I) H3).
    - destruct H as (H1 & H2 & H3 & o & H4 & H5). split; [apply R; auto; intros b Hb; right; exact Hb|].
      destruct (E a (or_introl eq_refl)) as [E1 E2]. unfold typed. rewrite (proj2 (C k (fun b Hb => or_intror Hb))), E1.
      split; [exact H2|]. split; [apply E2, H3|]. eauto.
    - destruct H as (H1 & H2). split; [apply R; auto|]. rewrite (proj2 (C k (fun b Hb => Hb))). exact H2.
  Qed.

  (** Only a thread changes. *)
  Lemma upd_same {A} (g : nat -> A) n x : upd g n x n = x. Proof. unfold upd. rewrite Nat.eqb_refl. reflexivity. Qed.
  Lemma upd_other {A} (g : nat -> A) n x m : m <> n -> upd g n x m = g m.
  Proof. intros H. unfold upd. destruct (Nat.eqb_spec m n); [contradiction|reflexivity]. Qed.
  Lemma inv_thread atomic who s t th : inv atomic who s -> thread_ok s th ->
    (forall a u, owns (at_ th) a -> owns (at_ (threads s u)) a -> u = t) -> mode_ok atomic who t (at_ th) ->
    inv atomic who (set_thread s t th).
  Proof.
    intros [M T O W] Ht Ho Hw. split.
    - destruct M as [M1 M2 M3 M4 M5]. split; assumption.
    - intros u. cbn [set_thread threads]. destruct (Nat.eq_dec u t) as [->|Hu]; [rewrite upd_same; exact Ht|].
      rewrite upd_other by exact Hu. exact (T u).
    - intros u v a. cbn [set_thread threads]. destruct (Nat.eq_dec u t) as [->|Hu], (Nat.eq_dec v t) as [->|Hv]; rewrite ?upd_same, ?upd_other by assumption; try reflexivity.
      + intros H1 H2. symmetry. exact (Ho _ _ H1 H2).
      + intros H1 H2. exact (Ho _ _ H2 H1).
      + apply O.
    - intros u. cbn [set_thread threads]. destruct (Nat.eq_dec u t) as [->|Hu]; [rewrite upd_same; exact Hw|]. rewrite upd_other by exact Hu. apply W.
  Qed.
  Lemma inv_goto atomic who s t p : inv atomic who s -> pc_ok s p ->
    (forall a u, owns p a -> owns (at_ (threads s u)) a -> u = t) -> mode_ok atomic who t p -> inv atomic who (goto s t p).
  Proof.
    intros I H H1 H2. apply (inv_thread atomic who s t (mkThread (held (threads s t)) p)); [exact I| |exact H1|exact H2].
    split; [apply (i_threads _ _ _ I t)|exact H].
  Qed.
  Lemma inv_hold atomic who s t a : inv atomic who s -> good s a -> inv atomic who (hold s t a).
  Proof.
    intros I H. apply inv_thread; [exact I| | |apply (i_mode _ _ _ I t)].
    - destruct (i_threads _ _ _ I t) as [H1 H2]. split; [|exact H2]. intros b [<-|Hb]; [exact H|apply H1, Hb].
    - cbn [at_]. intros b u H1 H2. exact (i_own _ _ _ I _ _ _ H2 H1).
  Qed.
  (** The memory changes, the threads do not. *)
  Lemma inv_mem atomic who s s' : inv atomic who s -> threads s' = threads s -> mem_ok s' ->
    (forall t a, In a (held (threads s t)) -> heap s' a = heap s a /\ (pub s a <-> pub s' a)) ->
    (forall t a, In a (pc_refs (at_ (threads s t))) -> heap s' a = heap s a /\ (pub s a <-> pub s' a)) ->
    (forall k w, wr s k w -> wr s' k w) ->
    back s s' -> inv atomic who s'.
  Proof.
    intros [M T O W] E HM H1 H2 H3 H4. split; [exact HM| | |]; rewrite ?E; auto.
    intros t. destruct (T t) as [T1 T2]. split.
    - intros a Ha. destruct (T1 a Ha) as [G1 G2], (H1 t a Ha) as [E1 E2]. split; [rewrite E1; exact G1|apply E2, G2].
    - apply (pc_transfer s); [exact T2|apply H2|exact H3|]. intros _. exact H4.
  Qed.

  (** ** Objects and what they denote *)
  Section DenotesInd.
    Variable h : addr -> option (obj V).
    Variable P : addr -> term V -> Prop.
    Hypothesis Ha : forall a ty v, h a = Some (OAtom ty v) -> P a (MAtom ty v).
    Hypothesis Hl : forall a b m, h a = Some (OLeaf b) -> denotes h b m -> P b m -> P a (MLeaf m).
    Hypothesis Hn : forall a l ms, h a = Some (ONode l) -> Forall2 (denotes h) l ms -> Forall2 P l ms -> P a (MNode ms).
    Hypothesis Hs : forall a c b m, h a = Some (OSym c b) -> denotes h b m -> P b m -> P a (MSym c m).
    Fixpoint denotes_all a m (d : denotes h a m) : P a m :=
      match d with
      | d_atom _ a ty v e => Ha a ty v e
      | d_leaf _ a b m e d => Hl a b m e d (denotes_all b m d)
      | d_node _ a l ms e ds => Hn a l ms e ds
          ((fix go l ms (ds : Forall2 (denotes h) l ms) : Forall2 P l ms :=
              match ds with Forall2_nil _ => Forall2_nil _ | Forall2_cons a m d ds => Forall2_cons a m (denotes_all a m d) (go _ _ ds) end) l ms ds)
      | d_sym _ a c b m e d => Hs a c b m e d (denotes_all b m d)
      end.
  End DenotesInd.
  Lemma denotes_ext (h h' : addr -> option (obj V)) a m : denotes h a m -> (forall b o, h b = Some o -> h' b = Some o) -> denotes h' a m.
  Proof.
    intros H E. pattern a, m. refine (denotes_all h _ _ _ _ _ a m H); clear a m H; [intros a ty v e|intros a b m e _ IH|intros a l ms e _ IH|intros a c b m e _ IH].
    - constructor. auto.
    - econstructor; eauto.
    - econstructor; eauto.
    - econstructor; eauto.
  Qed.
  (** Nothing below [a] is lost if [x] goes, to which no object refers. *)
  Lemma denotes_remove (h : addr -> option (obj V)) x a m : denotes h a m -> a <> x -> (forall b o, h b = Some o -> ~ In x (obj_refs o)) -> denotes (upd h x None) a m.
  Proof.
    intros H Hne Hx. revert Hne. pattern a, m. refine (denotes_all h _ _ _ _ _ a m H); clear a m H;
      [intros a ty v e Hne|intros a b m e _ IH Hne|intros a l ms e _ IH Hne|intros a c b m e _ IH Hne].
    - constructor. rewrite upd_other by exact Hne. exact e.
    - econstructor; [rewrite upd_other by exact Hne; exact e|]. apply IH. intros ->. apply (Hx _ _ e). left. reflexivity.
    - econstructor; [rewrite upd_other by exact Hne; exact e|]. specialize (Hx _ _ e). cbn [obj_refs] in Hx. clear e.
      induction IH as [|b m l ms Hb _ IHl]; constructor.
      + apply Hb. intros ->. apply Hx. left. reflexivity.
      + apply IHl. intros Hin. apply Hx. right. exact Hin.
    - econstructor; [rewrite upd_other by exact Hne; exact e|]. apply IH. intros ->. apply (Hx _ _ e). left. reflexivity.
  Qed.
  Lemma denotes_total s : (forall a o, heap s a = Some o -> exists m, denotes (heap s) a m) ->
    forall k, refs s k -> exists m, forall h' a, (forall b o, heap s b = Some o -> h' b = Some o) -> h' a = Some (obj_of k) -> denotes h' a m.
  Proof.
    intros D k R.
    assert (G : forall b, In b (key_refs k) -> exists m, denotes (heap s) b m).
    { intros b Hb. destruct (R b Hb) as [Hh _]. destruct (heap s b) as [o|] eqn:E; [|congruence]. exact (D b o E). }
    destruct k as [ty v|b|l|c b]; cbn [key_refs obj_of] in *.
    - exists (MAtom ty v). intros h' a _ E. constructor. exact E.
    - destruct (G b (or_introl eq_refl)) as (m & Hm). exists (MLeaf m). intros h' a Hx E. econstructor; [exact E|]. exact (denotes_ext _ _ _ _ Hm Hx).
    - assert (Gl : exists ms, Forall2 (denotes (heap s)) l ms).
      { clear R. induction l as [|b l IH]; [exists []; constructor|]. destruct (G b (or_introl eq_refl)) as (m & Hm).
        destruct IH as (ms & Hms); [intros b' Hb'; apply G; right; exact Hb'|]. exists (m :: ms). constructor; assumption. }
      destruct Gl as (ms & Hms). exists (MNode ms). intros h' a Hx E. econstructor; [exact E|].
      clear - Hms Hx. induction Hms as [|b m l ms Hb _ IH]; constructor; [exact (denotes_ext _ _ _ _ Hb Hx)|exact IH].
    - destruct (G b (or_introl eq_refl)) as (m & Hm). exists (MSym c m). intros h' a Hx E. econstructor; [exact E|]. exact (denotes_ext _ _ _ _ Hm Hx).
  Qed.

  (** ** Steps that change the memory *)
  Lemma alloc_inv atomic who s a k : inv atomic who s -> heap s a = None -> refs s k -> typed s k ->
    inv atomic who (alloc s a (obj_of k)) /\ ~ pub s a.
  Proof.
    intros I Ha R Ty. destruct I as [M T O W]. assert (Hnp : ~ pub s a).
    { intros (k' & w & _ & Hw). destruct (m_wref s M w a Hw). contradiction. }
    split; [|exact Hnp].
    assert (Hold : forall b, heap s b <> None -> heap (alloc s a (obj_of k)) b = heap s b).
    { intros b Hb. cbn [alloc heap]. apply upd_other. intros ->. contradiction. }
    assert (Hgood : forall b, good s b -> good (alloc s a (obj_of k)) b).
    { intros b [H1 H2]. split; [rewrite (Hold b H1); exact H1|exact H2]. }
    assert (Hext : forall b o, heap s b = Some o -> heap (alloc s a (obj_of k)) b = Some o).
    { intros b o E. rewrite Hold by congruence. exact E. }
    assert (Htyped : forall k0, refs s k0 -> typed s k0 -> typed (alloc s a (obj_of k)) k0).
    { intros k0 R0 Ht. unfold typed. destruct (checks_same s (alloc s a (obj_of k)) k0) as (_ & _ & ->); [|exact Ht].
      intros b Hb. apply Hold. apply (R0 b Hb). }
    apply (inv_mem atomic who s); [split; assumption|reflexivity| | | | |].
    - split.
      + intros b o Hb. cbn [alloc heap] in Hb. unfold upd in Hb. destruct (Nat.eqb_spec b a) as [->|Hne].
        * injection Hb as <-. rewrite obj_key_of. split; [intros c Hc; apply Hgood, (R c Hc)|]. split; [apply Htyped; assumption|].
          destruct (denotes_total s (fun a o E => proj2 (proj2 (m_obj s M a o E))) k R) as (m & Hm). exists m. apply Hm; [exact Hext|].
          cbn [alloc heap]. apply upd_same.
        * destruct (m_obj s M b o Hb) as (H1 & H2 & m & H3). split; [intros c Hc; apply Hgood, (H1 c Hc)|]. split; [apply Htyped; assumption|].
          exists m. exact (denotes_ext _ _ _ _ H3 Hext).
      + intros k0 w Hin. destruct (m_key s M k0 w Hin) as [H1 H2]. split; [|exact H2]. intros c Hc. apply Hgood, (H1 c Hc).
      + intros k0 w b Hin Hw. destruct (m_entry s M k0 w b Hin Hw) as (o & H1 & H2). exists o. split; [apply Hext, H1|exact H2].
      + apply (m_uniq s M).
      + intros w b Hw. destruct (m_wref s M w b Hw) as [H1 H2]. split; [rewrite (Hold b H1); exact H1|exact H2].
    - intros t b Hb. destruct (T t) as [T1 _]. destruct (T1 b Hb) as [H1 _]. split; [apply Hold, H1|reflexivity].
    - intros t b Hb. split; [|reflexivity]. apply Hold. destruct (T t) as [_ T2].
      destruct (at_ (threads s t)) as [|k0|k0 w|k0|k0 b0|k0 b0 w|k0 b0|k0 b0|k0]; cbn [pc_ok pc_refs] in *.
      + destruct Hb.
      + apply (T2 b Hb).
      + apply (proj1 T2 b Hb).
      + apply (proj1 T2 b Hb).
      + destruct Hb as [<-|Hb]; [destruct T2 as (_ & -> & _); discriminate|apply (proj1 T2 b Hb)].
      + destruct Hb as [<-|Hb]; [destruct T2 as (_ & (-> & _) & _); discriminate|apply (proj1 T2 b Hb)].
      + destruct Hb as [<-|Hb]; [destruct T2 as (_ & (-> & _) & _); discriminate|apply (proj1 T2 b Hb)].
      + destruct Hb as [<-|Hb]; [destruct T2 as (_ & _ & _ & o & -> & _); discriminate|apply (proj1 T2 b Hb)].
      + apply (proj1 T2 b Hb).
    - intros k0 w H. exact H.
    - intros k0 w H. auto.
  Qed.

  (** The addresses in variables of calls, and those that are not published. *)
  Lemma pc_refs_cases s p b : pc_ok s p -> In b (pc_refs p) -> good s b \/ (owns p b /\ heap s b <> None /\ ~ pub s b).
  Proof.
    intros H Hb. destruct p as [|k0|k0 w|k0|k0 b0|k0 b0 w|k0 b0|k0 b0|k0]; cbn [pc_ok pc_refs owns] in *.
    - destruct Hb.
    - left. apply (H b Hb).
    - left. apply (proj1 H b Hb).
    - left. apply (proj1 H b Hb).
    - destruct Hb as [<-|Hb]; [|left; apply (proj1 H b Hb)]. destruct H as (_ & H & Hp & _). right. split; [reflexivity|]. split; [congruence|exact Hp].
    - destruct Hb as [<-|Hb]; [|left; apply (proj1 H b Hb)]. destruct H as (_ & (H & Hp & _) & _). right. split; [reflexivity|]. split; [congruence|exact Hp].
    - destruct Hb as [<-|Hb]; [|left; apply (proj1 H b Hb)]. destruct H as (_ & (H & Hp & _) & _). right. split; [reflexivity|]. split; [congruence|exact Hp].
    - destruct Hb as [<-|Hb]; [|left; apply (proj1 H b Hb)]. destruct H as (_ & _ & Hp & o & E & _). left. split; [congruence|exact Hp].
    - left. apply (proj1 H b Hb).
  Qed.

  Lemma collect_inv atomic who s a : inv atomic who s -> unreferenced s a -> inv atomic who (collect s a).
  Proof.
    intros I (U1 & U2 & U3). assert (I' := I). destruct I' as [M T O W].
    assert (Hh : forall b, b <> a -> heap (collect s a) b = heap s b) by (intros b Hb; cbn [collect heap]; apply upd_other, Hb).
    assert (Hw : forall w b, wrefs (collect s a) w = Some b <-> wrefs s w = Some b /\ b <> a).
    { intros w b. cbn [collect wrefs]. destruct (wrefs s w) as [c|]; [|split; [discriminate|intros [? _]; discriminate]].
      destruct (Nat.eqb_spec c a) as [->|Hc]; [split; [discriminate|intros [E Hn]; congruence]|].
      split; [intros E; injection E as <-; auto|intros [E _]; exact E]. }
    assert (Hp : forall b, b <> a -> (pub s b <-> pub (collect s a) b)).
    { intros b Hb. split; intros (k & w & Hin & E); exists k, w; (split; [exact Hin|]); [apply Hw; auto|apply Hw in E as [E _]; exact E]. }
    assert (Hg : forall b, b <> a -> good s b -> good (collect s a) b).
    { intros b Hb [H1 H2]. split; [rewrite Hh by exact Hb; exact H1|apply Hp; assumption]. }
    apply (inv_mem atomic who s); [exact I|reflexivity| | | | |].
    - split.
      + intros b o Hb. cbn [collect heap] in Hb. unfold upd in Hb. destruct (Nat.eqb_spec b a) as [->|Hne]; [discriminate|].
        destruct (m_obj s M b o Hb) as (H1 & H2 & m & H3). pose proof (U2 b o Hb) as U. rewrite <- obj_key_refs in U.
        assert (Hna : forall c, In c (key_refs (obj_key o)) -> c <> a) by (intros c Hc ->; contradiction).
        split; [intros c Hc; apply Hg; [apply Hna, Hc|apply (H1 c Hc)]|]. split.
        * unfold typed. destruct (checks_same s (collect s a) (obj_key o)) as (_ & _ & ->); [|exact H2]. intros c Hc. apply Hh, Hna, Hc.
        * exists m. cbn [collect heap]. apply denotes_remove; assumption.
      + intros k w Hin. destruct (m_key s M k w Hin) as [H1 H2]. split; [|exact H2]. intros c Hc. apply Hg, (H1 c Hc).
        intros ->. exact (U3 k w Hin Hc).
      + intros k w b Hin E. apply Hw in E as [E Hb]. destruct (m_entry s M k w b Hin E) as (o & H1 & H2). exists o.
        split; [rewrite Hh by exact Hb; exact H1|exact H2].
      + apply (m_uniq s M).
      + intros w b E. apply Hw in E as [E Hb]. destruct (m_wref s M w b E) as [H1 H2]. split; [rewrite Hh by exact Hb; exact H1|exact H2].
    - intros t b Hb. assert (b <> a) by (intros ->; exact (proj1 (U1 t) Hb)). auto.
    - intros t b Hb. assert (b <> a) by (intros ->; exact (proj2 (U1 t) Hb)). auto.
    - intros k w [H1 H2]. split; [exact H1|]. intros b E. apply Hw in E as [E _]. exact (H2 b E).
    - intros k w F E. split; [exact F|]. destruct (wrefs (collect s a) w) as [b|] eqn:E'; [|congruence]. apply Hw in E' as [E' _]. congruence.
  Qed.
  Lemma remove_inv atomic who s front k w back : inv atomic who s -> data s = front ++ (k, w) :: back -> wrefs s w = None ->
    inv atomic who (remove_entry s front back).
  Proof.
    intros I E Hw. assert (I' := I). destruct I' as [M T O W].
    assert (Hin : forall e, In e (data (remove_entry s front back)) -> In e (data s)).
    { intros e He. rewrite E. cbn [remove_entry data] in He. apply in_app_or in He as [He|He]; apply in_or_app; [left|right; right]; exact He. }
    assert (Hkeep : forall k' w' b, In (k', w') (data s) -> wrefs s w' = Some b -> In (k', w') (data (remove_entry s front back))).
    { intros k' w' b He Hb. rewrite E in He. cbn [remove_entry data]. apply in_app_or in He as [He|[He|He]]; apply in_or_app; auto. congruence. }
    assert (Hp : forall b, pub s b <-> pub (remove_entry s front back) b).
    { intros b. split; intros (k' & w' & H1 & H2); exists k', w'; (split; [|exact H2]); [exact (Hkeep _ _ _ H1 H2)|apply Hin, H1]. }
    assert (Hg : forall b, good s b -> good (remove_entry s front back) b) by (intros b [H1 H2]; split; [exact H1|apply Hp, H2]).
    assert (Hu : uniq (data (remove_entry s front back))) by (cbn [remove_entry data]; apply (uniq_remove front (k, w)); rewrite <- E; apply (m_uniq s M)).
    apply (inv_mem atomic who s); [exact I|reflexivity| | | | |].
    - split.
      + intros b o Hb. destruct (m_obj s M b o Hb) as (H1 & H2 & H3). split; [intros c Hc; apply Hg, (H1 c Hc)|]. split; [exact H2|exact H3].
      + intros k' w' He. destruct (m_key s M k' w' (Hin _ He)) as [H1 H2]. split; [|exact H2]. intros c Hc. apply Hg, (H1 c Hc).
      + intros k' w' b He Hb. exact (m_entry s M k' w' b (Hin _ He) Hb).
      + exact Hu.
      + apply (m_wref s M).
    - intros t b _. split; [reflexivity|apply Hp].
    - intros t b _. split; [reflexivity|apply Hp].
    - intros k' w' [H1 H2]. split; [exact H1|]. intros b Hb. destruct (H2 b Hb) as (k2 & He & Hk). exists k2. split; [exact (Hkeep _ _ _ He Hb)|exact Hk].
    - intros k' w' Hf Hl. split; [|exact Hl]. apply find_some in Hf as (k2 & He & Hk). exact (find_in _ _ _ _ (m_uniq s M) (Hin _ He) Hk).
  Qed.
  Lemma store_inv atomic who s t k a : inv atomic who s -> refs s k -> own s k a -> no_live s k ->
    owns (at_ (threads s t)) a -> (forall u, setting (at_ (threads s u)) -> u = t) -> who t ->
    inv atomic who (goto (store_new veq s k a) t (Done k a)).
  Proof.
    intros I R (Ha & Hnp & Ty) Hnl Ho Hput Hwho. assert (I' := I). destruct I' as [M T O W].
    set (s1 := store_new veq s k a).
    assert (Hlt : forall w b, wrefs s w = Some b -> w <> next_w s) by (intros w b E; destruct (m_wref s M w b E); lia).
    assert (Hw : forall w b, wrefs s w = Some b -> wrefs s1 w = Some b).
    { intros w b E. unfold s1. cbn [store_new wrefs]. rewrite upd_other; [exact E|]. exact (Hlt w b E). }
    assert (Hw' : forall w b, wrefs s1 w = Some b -> (w = next_w s /\ b = a) \/ (w <> next_w s /\ wrefs s w = Some b)).
    { intros w b E. unfold s1 in E. cbn [store_new wrefs] in E. unfold upd in E. destruct (Nat.eqb_spec w (next_w s)) as [->|Hne]; [left|right]; split; congruence. }
    assert (Hput_in := put_in (data s) k (next_w s) (m_uniq s M)).
    assert (Hkeep : forall k' w b, In (k', w) (data s) -> wrefs s w = Some b -> In (k', w) (data s1)).
    { intros k' w b Hin E. unfold s1. cbn [store_new data]. apply put_old; [exact Hin|]. destruct (key_eqb k k') eqn:Ek; [|reflexivity].
      rewrite (Hnl w) in E; [discriminate|]. exact (find_in _ _ _ _ (m_uniq s M) Hin Ek). }
    assert (Hpa : pub s1 a).
    { destruct (put_new (data s) k (next_w s)) as (k' & Hin & _). exists k', (next_w s). split; [exact Hin|].
      unfold s1. cbn [store_new wrefs]. apply upd_same. }
    assert (Hp : forall b, pub s b -> pub s1 b).
    { intros b (k' & w & Hin & E). exists k', w. split; [exact (Hkeep _ _ _ Hin E)|exact (Hw _ _ E)]. }
    assert (Hp' : forall b, pub s1 b -> b <> a -> pub s b).
    { intros b (k' & w & Hin & E) Hb. destruct (Hw' w b E) as [[_ ->]|[Hne E']]; [contradiction|].
      destruct (Hput_in k' w Hin) as [(-> & _)|(Hin' & _)]; [contradiction|]. exists k', w. auto. }
    assert (Hg : forall b, good s b -> good s1 b) by (intros b [H1 H2]; split; [exact H1|apply Hp, H2]).
    assert (M1 : mem_ok s1).
    { split.
      - intros b o Hb. destruct (m_obj s M b o Hb) as (H1 & H2 & H3). split; [intros c Hc; apply Hg, (H1 c Hc)|]. split; [exact H2|exact H3].
      - intros k' w He. destruct (Hput_in k' w He) as [(-> & Ek & _)|(Hin & _)].
        + split; [|unfold s1; cbn [store_new next_w]; lia]. intros c Hc. rewrite <- (key_same_refs _ _ Ek) in Hc. apply Hg, (R c Hc).
        + destruct (m_key s M k' w Hin) as [H1 H2]. split; [intros c Hc; apply Hg, (H1 c Hc)|unfold s1; cbn [store_new next_w]; lia].
      - intros k' w b He E. destruct (Hw' w b E) as [[-> ->]|[Hne E']].
        + destruct (Hput_in k' _ He) as [(_ & Ek & _)|(Hin & _)].
          * exists (obj_of k). split; [exact Ha|]. unfold matches. rewrite obj_key_of. apply key_sym, Ek.
          * destruct (m_key s M k' _ Hin). lia.
        + destruct (Hput_in k' w He) as [(-> & _)|(Hin & _)]; [contradiction|]. exact (m_entry s M k' w b Hin E').
      - apply put_uniq, (m_uniq s M).
      - intros w b E. unfold s1. cbn [store_new heap next_w]. destruct (Hw' w b E) as [[-> ->]|[Hne E']]; [split; [congruence|lia]|].
        destruct (m_wref s M w b E'). split; [assumption|lia]. }
    assert (Hwr : forall k' w, wr s k' w -> wr s1 k' w).
    { intros k' w [H1 H2]. split; [unfold s1; cbn [store_new next_w]; lia|]. intros b E.
      destruct (Hw' w b E) as [[-> _]|[_ E']]; [lia|]. destruct (H2 b E') as (k2 & Hin & Ek). exists k2. split; [exact (Hkeep _ _ _ Hin E')|exact Ek]. }
    (* all threads but t, which is set to Idle first *)
    assert (Hne : forall u b, u <> t -> In b (pc_refs (at_ (threads s u))) -> b <> a).
    { intros u b Hu Hb ->. destruct (pc_refs_cases s _ a (proj2 (T u)) Hb) as [[_ Hpub]|(Ho' & _)]; [contradiction|].
      apply Hu. exact (O _ _ _ Ho' Ho). }
    split.
    - destruct M1 as [X1 X2 X3 X4 X5]. split; assumption.
    - intros u. cbn [goto set_thread threads]. destruct (Nat.eq_dec u t) as [->|Hu].
      + rewrite upd_same. split; cbn [held at_].
        * intros b Hb. apply Hg. apply (proj1 (T t) b Hb).
        * split; [intros c Hc; apply Hg, (R c Hc)|]. split; [exact Ty|]. split; [exact Hpa|]. exists (obj_of k).
          split; [exact Ha|]. unfold matches. rewrite obj_key_of. apply key_refl.
      + rewrite upd_other by exact Hu. destruct (T u) as [T1 T2]. split; [intros b Hb; apply Hg, (T1 b Hb)|].
        apply (pc_transfer s s1); [exact T2| |exact Hwr|].
        * intros b Hb. split; [reflexivity|]. split; [apply Hp|]. intros H. apply (Hp' b H). exact (Hne u b Hu Hb).
        * intros Hs. destruct Hu. exact (Hput u Hs).
    - intros u v b. cbn [goto set_thread threads]. destruct (Nat.eq_dec u t) as [->|Hu], (Nat.eq_dec v t) as [->|Hv]; rewrite ?upd_same, ?upd_other by assumption; cbn [at_ owns]; try tauto.
      apply O.
    - intros u. cbn [goto set_thread threads]. destruct (Nat.eq_dec u t) as [->|Hu]; [rewrite upd_same|rewrite upd_other by exact Hu; apply W].
      split; [intros _; exact Hwho|intros _; exact Logic.I].
  Qed.

  Lemma entry_done s k w a : mem_ok s -> wr s k w -> wrefs s w = Some a -> refs s k ->
    typed s k /\ pub s a /\ exists o, heap s a = Some o /\ matches k o.
  Proof.
    intros M [_ H] E R. destruct (H a E) as (k' & Hin & Hk). destruct (m_entry s M k' w a Hin E) as (o & Ho & Hm).
    unfold matches in Hm. assert (Hko := key_trans _ _ _ Hk Hm). split; [|split; [exists k', w; auto|exists o; auto]].
    destruct (m_obj s M a o Ho) as (_ & Ht & _). unfold typed in *. clear - Hko Ht.
    destruct k, o; cbn [ModelIntern.key_eqb obj_key] in Hko; try discriminate.
    - reflexivity.
    - apply Nat.eqb_eq in Hko as ->. exact Ht.
    - destruct (addrs_eqb_spec cs cs0); [subst; exact Ht|discriminate].
    - apply andb_prop in Hko as [_ Hko]. apply Nat.eqb_eq in Hko as ->. exact Ht.
  Qed.
  Lemma find_wr s k w : mem_ok s -> find (data s) k = Some w -> wr s k w.
  Proof.
    intros M H. apply find_some in H as (k' & Hin & Hk). split; [apply (m_key s M k' w Hin)|]. intros a _. eauto.
  Qed.
  Lemma step_inv atomic who s s' : safe atomic who -> inv atomic who s -> step veq atomic who s s' -> inv atomic who s'.
  Proof.
    intros Hsafe I Hs. assert (I' := I). destruct I' as [M T O W].
    assert (Hwho : forall t p, at_ (threads s t) = p -> p <> Idle -> who t) by (intros t p <-; apply (W t)).
    assert (Hnoown : forall p t, (forall a, ~ owns p a) -> forall a u, owns p a -> owns (at_ (threads s u)) a -> u = t) by (intros p t H a u Ha; destruct (H a Ha)).
    assert (Hmode : forall t p0 p, at_ (threads s t) = p0 -> p0 <> Idle -> (match p with Look _ _ _ | Put _ _ => False | _ => True end) -> mode_ok atomic who t p).
    { intros t p0 p E Hp0 Hp. split; [intros _; eapply Hwho; eauto|intros _; exact Hp]. }
    destruct Hs as [t k E Ht Hk|t k E C|t k E C F|t k w E C F|t k w a E F|t k w E F|t k E C|t k a E C Ha
      |t k a w b A E F Hb|t k a A E F|t k a A E F|t k a w A E F|t k a w b E F|t k a w E F|t k a E
      |t k a E|t k E|t Hi|t a o b Ha Ho Hb|t u a Ha|t front a back E|a o Ha U|front k w back E Hw];
    try (pose proof (proj2 (T t)) as P; rewrite E in P; cbn [pc_ok] in P).
    - apply inv_goto; [exact I| |apply Hnoown; intros a []|].
      + intros b Hb. apply (proj1 (T t)), Hk, Hb.
      + split; [intros _; exact Ht|intros _; exact Logic.I].
    - apply inv_goto; [exact I| |apply Hnoown; intros a []|eapply Hmode; [exact E|discriminate|exact Logic.I]].
      split; [exact P|]. unfold args_ok. rewrite C. reflexivity.
    - apply inv_goto; [exact I| |apply Hnoown; intros a []|eapply Hmode; [exact E|discriminate|exact Logic.I]]. split; assumption.
    - apply inv_goto; [exact I| |apply Hnoown; intros a []|eapply Hmode; [exact E|discriminate|exact Logic.I]].
      split; [exact P|]. split; [exact C|]. apply find_wr; assumption.
    - apply inv_goto; [exact I| |apply Hnoown; intros b []|eapply Hmode; [exact E|discriminate|exact Logic.I]].
      destruct P as (P1 & _ & P3). split; [exact P1|]. exact (entry_done s k w a M P3 F P1).
    - apply inv_goto; [exact I| |apply Hnoown; intros b []|eapply Hmode; [exact E|discriminate|exact Logic.I]]. destruct P as (P1 & P2 & _). split; assumption.
    - apply inv_goto; [exact I| |apply Hnoown; intros b []|eapply Hmode; [exact E|discriminate|exact Logic.I]]. destruct P as (P1 & P2). split; [exact P1|].
      unfold args_ok. rewrite C. apply andb_false_r.
    - destruct P as (P1 & P2). assert (Ty : typed s k) by (unfold typed, args_ok; rewrite P2, C; reflexivity).
      destruct (alloc_inv atomic who s a k I Ha P1 Ty) as [I1 Hnp].
      apply inv_goto; [exact I1| | |eapply Hmode; [exact E|discriminate|exact Logic.I]].
      + assert (Hold : forall b, In b (key_refs k) -> heap (alloc s a (obj_of k)) b = heap s b).
        { intros b Hb. cbn [alloc heap]. apply upd_other. intros ->. destruct (P1 a Hb). contradiction. }
        split; [|split; [|split]].
        * intros b Hb. destruct (P1 b Hb) as [H1 H2]. split; [rewrite Hold by exact Hb; exact H1|exact H2].
        * cbn [alloc heap]. apply upd_same.
        * exact Hnp.
        * unfold typed. destruct (checks_same s (alloc s a (obj_of k)) k Hold) as (_ & _ & ->). exact Ty.
      + cbn [owns]. intros b u <- Hu. exfalso. cbn [alloc threads] in Hu.
        destruct (pc_refs_cases s (at_ (threads s u)) a (proj2 (T u))) as [[H _]|(_ & H & _)]; [|contradiction..].
        destruct (at_ (threads s u)); try destruct Hu; left; reflexivity.
    - apply inv_goto; [exact I| |apply Hnoown; intros c []|eapply Hmode; [exact E|discriminate|exact Logic.I]].
      destruct P as (P1 & _). split; [exact P1|]. exact (entry_done s k w b M (find_wr s k w M F) Hb P1).
    - destruct P as (P1 & P2). apply (store_inv atomic who s t k a I P1 P2 F); [rewrite E; reflexivity| |eapply Hwho; [exact E|discriminate]].
      intros u Hu. exfalso. destruct (W u) as [_ Hm]. specialize (Hm A). destruct (at_ (threads s u)); contradiction.
    - destruct P as (P1 & P2). apply inv_goto; [exact I| | |].
      + split; [exact P1|]. split; [exact P2|]. intros w Hw. congruence.
      + cbn [owns]. intros b u <- Hu. apply (O u t a Hu). rewrite E. reflexivity.
      + split; [intros _; eapply Hwho; [exact E|discriminate]|congruence].
    - destruct P as (P1 & P2). apply inv_goto; [exact I| | |].
      + split; [exact P1|]. split; [exact P2|]. split; [apply find_wr; assumption|]. intros w' F' _. congruence.
      + cbn [owns]. intros b u <- Hu. apply (O u t a Hu). rewrite E. reflexivity.
      + split; [intros _; eapply Hwho; [exact E|discriminate]|congruence].
    - destruct P as (P1 & _ & P3 & _). apply inv_goto; [exact I| |apply Hnoown; intros c []|eapply Hmode; [exact E|discriminate|exact Logic.I]].
      split; [exact P1|]. exact (entry_done s k w b M P3 F P1).
    - destruct P as (P1 & P2 & _ & P3). apply inv_goto; [exact I| | |].
      + split; [exact P1|]. split; [exact P2|]. intros w' Hw'. destruct (wrefs s w') as [b|] eqn:Eb; [|reflexivity].
        rewrite (P3 w' Hw') in Eb; congruence.
      + cbn [owns]. intros b u <- Hu. apply (O u t a Hu). rewrite E. reflexivity.
      + split; [intros _; eapply Hwho; [exact E|discriminate]|]. intros A. destruct (W t) as [_ Hm]. rewrite E in Hm. exact (Hm A).
    - destruct P as (P1 & P2 & P3). apply (store_inv atomic who s t k a I P1 P2 P3); [rewrite E; reflexivity| |eapply Hwho; [exact E|discriminate]].
      intros u Hu. destruct Hsafe as [A|(t0 & H0)].
      + destruct (W t) as [_ Hm]. rewrite E in Hm. destruct (Hm A).
      + rewrite (H0 u), (H0 t); [reflexivity|eapply Hwho; [exact E|discriminate]|eapply Hwho; [reflexivity|]].
        intros Hi. rewrite Hi in Hu. exact Hu.
    - destruct P as (P1 & _ & P3 & o & P4 & _).
      assert (I1 : inv atomic who (hold s t a)) by (apply inv_hold; [exact I|split; [congruence|exact P3]]).
      apply inv_goto; [exact I1|exact Logic.I|intros b u []|]. split; [congruence|intros _; exact Logic.I].
    - apply inv_goto; [exact I|exact Logic.I|intros b u []|]. split; [congruence|intros _; exact Logic.I].
    - apply inv_goto; [exact I|exact Logic.I|intros b u []|]. split; [congruence|intros _; exact Logic.I].
    - apply inv_hold; [exact I|]. destruct (m_obj s M a o Ho) as (H & _). apply (H b). rewrite obj_key_refs. exact Hb.
    - apply inv_hold; [exact I|]. apply (proj1 (T t) a Ha).
    - apply inv_thread; [exact I| | |apply (W t)].
      + split; cbn [held at_]; [|apply (proj2 (T t))]. intros b Hb. apply (proj1 (T t)). rewrite E.
        apply in_app_or in Hb as [Hb|Hb]; apply in_or_app; [left|right; right]; exact Hb.
      + cbn [at_]. intros b u H1 H2. exact (O _ _ _ H2 H1).
    - apply collect_inv; assumption.
    - eapply remove_inv; eassumption.
  Qed.

  (** ** Reachable states *)
  Lemma start_inv atomic who : inv atomic who start.
  Proof.
    split.
    - split; cbn [start heap data wrefs next_w]; cbn [In uniq]; try discriminate; try tauto.
    - intros t. split; [intros a []|exact I].
    - intros t u a [].
    - intros t. split; [intros H; destruct (H eq_refl)|intros _; exact I].
  Qed.
  Lemma steps_inv atomic who s s' : safe atomic who -> inv atomic who s -> steps veq atomic who s s' -> inv atomic who s'.
  Proof. intros Hs I H. induction H as [|s1 s2 _ IH St]; [exact I|]. exact (step_inv _ _ _ _ Hs IH St). Qed.
  Lemma reachable_inv atomic who s : safe atomic who -> reachable veq atomic who s -> inv atomic who s.
  Proof. intros Hs. apply steps_inv; [exact Hs|apply start_inv]. Qed.
  Lemma has_good atomic who s a : inv atomic who s -> has s a -> good s a.
  Proof.
    intros I [(t & H)|(t & k & H)].
    - apply (i_threads _ _ _ I t), H.
    - pose proof (proj2 (i_threads _ _ _ I t)) as P. unfold returning in H. rewrite H in P. destruct P as (_ & _ & Hp & o & Ho & _). split; [congruence|exact Hp].
  Qed.
  Lemma good_unique s a b o o' : mem_ok s -> good s a -> good s b -> heap s a = Some o -> heap s b = Some o' ->
    key_eqb (obj_key o) (obj_key o') = true -> a = b.
  Proof.
    intros M [_ (k & w & Hin & E)] [_ (k' & w' & Hin' & E')] Ho Ho' H.
    destruct (m_entry s M _ _ _ Hin E) as (o1 & Ho1 & Hm). destruct (m_entry s M _ _ _ Hin' E') as (o2 & Ho2 & Hm').
    assert (o1 = o) by congruence. assert (o2 = o') by congruence. subst.
    destruct (uniq_in (data s) k w k' w' (m_uniq s M) Hin Hin') as [<- _]; [|congruence].
    apply (key_trans _ (obj_key o)); [exact Hm|]. apply (key_trans _ (obj_key o')); [exact H|]. apply key_sym, Hm'.
  Qed.
  Lemma good_parts s a o b : mem_ok s -> heap s a = Some o -> In b (obj_refs o) -> good s b.
  Proof. intros M Ha Hb. destruct (m_obj s M a o Ha) as (H & _). apply (H b). rewrite obj_key_refs. exact Hb. Qed.
  Lemma same_list (l l' : list (term V)) : same veq (MNode l) (MNode l') = true <-> Forall2 (fun m m' => same veq m m' = true) l l'.
  Proof.
    revert l'. induction l as [|m l IH]; intros [|m' l']; cbn [same].
    - split; [intros _; constructor|reflexivity].
    - split; [discriminate|intros H; inversion H].
    - split; [discriminate|intros H; inversion H].
    - split.
      + intros H. apply andb_prop in H as [H1 H2]. constructor; [exact H1|apply IH, H2].
      + intros H. inversion H; subst. apply andb_true_intro. split; [assumption|]. apply IH. assumption.
  Qed.
  Lemma same_unique s : mem_ok s -> forall a m, denotes (heap s) a m -> good s a ->
    forall b m', denotes (heap s) b m' -> good s b -> same veq m m' = true -> a = b.
  Proof.
    intros M a m H. pattern a, m. refine (denotes_all (heap s) _ _ _ _ _ a m H); clear a m H.
    - intros a ty v e Ga b m' Hb Gb Hs. destruct Hb as [b ty' v' e'|b c n e' Hn|b l ms e' Hl|b c d n e' Hn]; cbn [same] in Hs; try discriminate.
      apply (good_unique s a b _ _ M Ga Gb e e'). exact Hs.
    - intros a c m e Hc IH Ga b m' Hb Gb Hs. destruct Hb as [b ty' v' e'|b d n e' Hn|b l ms e' Hl|b k d n e' Hn]; cbn [same] in Hs; try discriminate.
      apply (good_unique s a b _ _ M Ga Gb e e'). cbn [obj_key ModelIntern.key_eqb]. apply Nat.eqb_eq. apply (IH) with (m' := n); [| exact Hn| |exact Hs].
      + apply (good_parts s a _ _ M e). left. reflexivity.
      + apply (good_parts s b _ _ M e'). left. reflexivity.
    - intros a l ms e _ IH Ga b m' Hb Gb Hs. destruct Hb as [b ty' v' e'|b d n e' Hn|b l' ms' e' Hl|b k d n e' Hn]; try discriminate.
      apply same_list in Hs. apply (good_unique s a b _ _ M Ga Gb e e'). cbn [obj_key ModelIntern.key_eqb].
      destruct (addrs_eqb_spec l l') as [|Hne]; [reflexivity|]. destruct Hne.
      assert (G : forall c, In c l -> good s c) by (intros c Hc; exact (good_parts s a _ c M e Hc)).
      assert (G' : forall c, In c l' -> good s c) by (intros c Hc; exact (good_parts s b _ c M e' Hc)).
      clear e e' Ga Gb. revert l' ms' Hl Hs G'.
      induction IH as [|c m l ms Hc _ IHl]; intros l' ms' Hl Hs G'; inversion Hs; subst; inversion Hl; subst; [reflexivity|].
      f_equal.
      + match goal with H1 : denotes _ ?d ?n, H2 : same veq m ?n = true |- c = ?d => apply (Hc (G c (or_introl eq_refl)) d n H1 (G' d (or_introl eq_refl)) H2) end.
      + eapply IHl; eauto; intros d Hd; [apply G|apply G']; right; exact Hd.
    - intros a c d m e Hc IH Ga b m' Hb Gb Hs. destruct Hb as [b ty' v' e'|b x n e' Hn|b l ms e' Hl|b k x n e' Hn]; cbn [same] in Hs; try discriminate.
      apply andb_prop in Hs as [Hk Hs].
      apply (good_unique s a b _ _ M Ga Gb e e'). cbn [obj_key ModelIntern.key_eqb]. rewrite Hk. cbn [andb]. apply Nat.eqb_eq. apply (IH) with (m' := n); [| exact Hn| |exact Hs].
      + apply (good_parts s a _ _ M e). left. reflexivity.
      + apply (good_parts s b _ _ M e'). left. reflexivity.
  Qed.
  Lemma denotes_fun (h : addr -> option (obj V)) a m : denotes h a m -> forall m', denotes h a m' -> m = m'.
  Proof.
    intros H. pattern a, m. refine (denotes_all h _ _ _ _ _ a m H); clear a m H.
    - intros a ty v e m' H. inversion H; subst; congruence.
    - intros a b m e _ IH m' H. inversion H; subst; try congruence. assert (b0 = b) by congruence. subst. f_equal. apply IH. assumption.
    - intros a l ms e _ IH m' H. inversion H as [| |? l' ms' e' Hl|]; subst; try congruence. assert (l' = l) by congruence. subst. f_equal.
      clear e e' H. revert ms' Hl. induction IH as [|c m l ms Hc _ IHl]; intros ms' Hl; inversion Hl; subst; f_equal; auto.
    - intros a c b m e _ IH m' H. inversion H; subst; try congruence. assert (b0 = b) by congruence. assert (c0 = c) by congruence. subst. f_equal. apply IH. assumption.
  Qed.
  Lemma same_refl (m : term V) : same veq m m = true.
  Proof.
    revert m. fix IH 1. intros [ty v|m|l|c m].
    - cbn [same]. rewrite Nat.eqb_refl. apply (proj1 Heq).
    - cbn [same]. apply IH.
    - cbn [same]. induction l as [|m l IHl]; [reflexivity|]. rewrite (IH m). exact IHl.
    - cbn [same]. rewrite Nat.eqb_refl. apply IH.
  Qed.

  (** ** Objects stay *)
  Lemma step_heap atomic who s s' a o : step veq atomic who s s' -> heap s a = Some o -> referenced s a -> heap s' a = Some o.
  Proof.
    intros St Ha (t0 & Hr). destruct St; cbn [goto hold set_thread heap store_new remove_entry]; try exact Ha.
    - cbn [alloc heap]. rewrite upd_other; [exact Ha|]. congruence.
    - cbn [collect heap]. rewrite upd_other; [exact Ha|]. intros ->. destruct H0 as (U & _). destruct (U t0) as [U1 U2]. destruct Hr; contradiction.
  Qed.
  Lemma step_denotes atomic who s s' a m : step veq atomic who s s' -> denotes (heap s) a m -> referenced s a -> denotes (heap s') a m.
  Proof.
    intros St Ha (t0 & Hr). destruct St; cbn [goto hold set_thread heap store_new remove_entry]; try exact Ha.
    - eapply denotes_ext; [exact Ha|]. intros b o Hb. cbn [alloc heap]. rewrite upd_other; [exact Hb|congruence].
    - cbn [collect heap]. destruct H0 as (U & U2 & _). apply denotes_remove; [exact Ha| |exact U2].
      intros ->. destruct (U t0) as [U1 U3]. destruct Hr; contradiction.
  Qed.
End Proof.
