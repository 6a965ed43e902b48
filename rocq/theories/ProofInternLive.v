(** * The stores of unique objects: nothing leaks, and calls finish *)
From Coq Require Import Classical.
From Verif Require Import Py ModelIntern SpecIntern ProofIntern.

Section Live.
  Context {V : Type} (veq : V -> V -> bool) (Heq : equivalence veq).
  Implicit Types (s : state V) (k : key V).

  (** ** Only finitely many objects *)
  Definition bounded s (n : nat) : Prop := forall a, n <= a -> heap s a = None.
  Lemma step_bounded atomic who s s' n : step veq atomic who s s' -> bounded s n -> exists n', bounded s' n'.
  Proof.
    intros St B. destruct St; try (exists n; exact B).
    - exists (max n (S a)). intros b Hb. cbn [goto set_thread alloc heap]. rewrite upd_other by lia. apply B. lia.
    - exists n. intros b Hb. cbn [collect heap]. unfold upd. destruct (Nat.eqb b a); [reflexivity|apply B, Hb].
  Qed.
  Lemma reachable_bounded atomic who s : reachable veq atomic who s -> exists n, bounded s n.
  Proof.
    intros H. induction H as [|s1 s2 _ (n & IH) St]; [exists 0; intros a _; reflexivity|]. exact (step_bounded _ _ _ _ _ St IH).
  Qed.

  (** ** Sizes *)
  Fixpoint tsize (m : term V) : nat :=
    match m with
    | MAtom _ _ => 0
    | MLeaf m => S (tsize m)
    | MNode l => S (list_sum (map tsize l))
    | MSym _ m => S (tsize m)
    end.
  Lemma sum_in x l : In x l -> x <= list_sum l.
  Proof. induction l as [|y l IH]; intros []; cbn [list_sum fold_right]; [subst; lia|]. specialize (IH H). unfold list_sum in IH. lia. Qed.
  Lemma part_smaller (h : addr -> option (obj V)) a o b m m' : h a = Some o -> In b (obj_refs o) -> denotes h a m -> denotes h b m' -> tsize m' < tsize m.
  Proof.
    intros Ha Hb Hm Hm'. destruct Hm as [a ty v e|a c n e Hn|a l ms e Hl|a k c n e Hn]; rewrite Ha in e; injection e as ->; cbn [obj_refs tsize] in *.
    - destruct Hb.
    - destruct Hb as [<-|[]]. rewrite (denotes_fun _ _ _ Hn _ Hm'). lia.
    - assert (In (tsize m') (map tsize ms)).
      { clear - Hb Hl Hm'. induction Hl as [|c n l ms Hc _ IH]; [destruct Hb|]. destruct Hb as [->|Hb]; [left|right; auto].
        f_equal. exact (denotes_fun _ _ _ Hc _ Hm'). }
      apply sum_in in H. lia.
    - destruct Hb as [<-|[]]. rewrite (denotes_fun _ _ _ Hn _ Hm'). lia.
  Qed.
  Lemma size_bound s n : mem_ok veq s -> exists B, forall a m, a < n -> denotes (heap s) a m -> tsize m <= B.
  Proof.
    intros M. induction n as [|n (B & IH)]; [exists 0; intros; lia|].
    destruct (heap s n) as [o|] eqn:E.
    - destruct (m_obj _ s M n o E) as (_ & _ & m0 & H0). exists (max B (tsize m0)). intros a m Ha Hm.
      destruct (Nat.eq_dec a n) as [->|Hne]; [rewrite (denotes_fun _ _ _ Hm _ H0); lia|]. assert (a < n) by lia. specialize (IH a m H Hm). lia.
    - exists B. intros a m Ha Hm. destruct (Nat.eq_dec a n) as [->|Hne]; [destruct Hm; congruence|]. apply (IH a m); [lia|exact Hm].
  Qed.

  (** ** The collector *)
  Lemma collects_steps atomic who s s' : collects s s' -> steps veq atomic who s s'.
  Proof.
    intros H. induction H as [|s1 a o _ IH Ho U|s1 front k w back _ IH E Hw]; [constructor| |]; econstructor; try exact IH; econstructor; eassumption.
  Qed.
  Lemma collects_trans s s1 s2 : collects s s1 -> collects s1 s2 -> collects s s2.
  Proof. intros H1 H2. induction H2; [exact H1|econstructor 2; eassumption|econstructor 3; eassumption]. Qed.
  Lemma collects_threads s s' : collects s s' -> threads s' = threads s.
  Proof. intros H. induction H; [reflexivity|assumption|assumption]. Qed.
  Definition clean s : Prop := forall k w, In (k, w) (data s) -> wrefs s w <> None.
  Lemma cleaning s : exists s', collects s s' /\ clean s' /\ heap s' = heap s /\ threads s' = threads s.
  Proof.
    remember (length (data s)) as n eqn:E. revert s E. induction n as [|n IH]; intros s E.
    - exists s. split; [constructor|]. split; [|auto]. intros k w H. destruct (data s); [destruct H|discriminate].
    - destruct (classic (clean s)) as [C|C]; [exists s; split; [constructor|auto]|].
      apply not_all_ex_not in C as (k & C). apply not_all_ex_not in C as (w & C). apply imply_to_and in C as [Hin C].
      apply NNPP in C. destruct (in_split _ _ Hin) as (front & back & Hd).
      destruct (IH (remove_entry s front back)) as (s' & H1 & H2 & H3 & H4).
      + cbn [remove_entry data]. rewrite Hd, app_length in E. cbn [length] in E. rewrite app_length. lia.
      + exists s'. split; [|split; [exact H2|split; [exact H3|exact H4]]].
        eapply collects_trans; [|exact H1]. econstructor 3; [constructor|exact Hd|exact C].
  Qed.

  (** ** What can be freed is freed *)
  Definition live s (a : addr) : Prop := exists r, referenced s r /\ leads_to (heap s) r a.
  Definition dead s (a : addr) : Prop := heap s a <> None /\ ~ live s a.
  (** A dead object to which no dead object refers. *)
  Lemma top_dead s n : mem_ok veq s -> bounded s n -> (exists a, dead s a) ->
    exists a, dead s a /\ forall b o, dead s b -> heap s b = Some o -> ~ In a (obj_refs o).
  Proof.
    intros M B (a0 & H0). destruct (size_bound s n M) as (Z & HZ).
    assert (G : forall d a m, dead s a -> denotes (heap s) a m -> Z - tsize m <= d ->
      exists a, dead s a /\ forall b o, dead s b -> heap s b = Some o -> ~ In a (obj_refs o)).
    { induction d as [|d IH]; intros a m Ha Hm Hd;
      (destruct (classic (exists b o, dead s b /\ heap s b = Some o /\ In a (obj_refs o))) as [(b & o & Hb & Hbo & Hin)|N];
        [|exists a; split; [exact Ha|]; intros b o Hb Hbo Hin; apply N; eauto]).
      all: destruct (m_obj _ s M b o Hbo) as (_ & _ & mb & Hmb); pose proof (part_smaller (heap s) b o a mb m Hbo Hin Hmb Hm);
        assert (b < n) by (destruct (le_lt_dec n b) as [Hle|]; [rewrite (B b Hle) in Hbo; discriminate|assumption]);
        pose proof (HZ b mb ltac:(assumption) Hmb).
      - lia.
      - apply (IH b mb Hb Hmb). lia. }
    destruct H0 as [Hh Hl]. destruct (heap s a0) as [o|] eqn:E; [|congruence].
    destruct (m_obj _ s M a0 o E) as (_ & _ & m & Hm). apply (G (Z - tsize m) a0 m); [split; [congruence|exact Hl]|exact Hm|lia].
  Qed.
  Lemma dead_unreferenced s a : mem_ok veq s -> clean s -> dead s a ->
    (forall b o, dead s b -> heap s b = Some o -> ~ In a (obj_refs o)) -> unreferenced s a.
  Proof.
    intros M C [Hh Hl] Hn.
    assert (G : forall b o, heap s b = Some o -> ~ In a (obj_refs o)).
    { intros b o Hb Hin. destruct (classic (live s b)) as [(r & H1 & H2)|N].
      - apply Hl. exists r. split; [exact H1|]. econstructor; eassumption.
      - apply (Hn b o); [split; [congruence|exact N]|exact Hb|exact Hin]. }
    split; [|split; [exact G|]].
    - intros t. split; intros Hin; apply Hl; exists a; (split; [exists t; auto|constructor]).
    - intros k w Hin Ha. destruct (wrefs s w) as [b|] eqn:E; [|exact (C k w Hin E)].
      destruct (m_entry _ s M k w b Hin E) as (o & Ho & Hm). apply (G b o Ho).
      rewrite <- obj_key_refs, <- (key_same_refs veq k _ Hm). exact Ha.
  Qed.
  Fixpoint count (h : addr -> option (obj V)) (n : nat) : nat :=
    match n with O => 0 | S n => (match h n with Some _ => 1 | None => 0 end) + count h n end.
  Lemma count_none h a n : n <= a -> count (upd h a None) n = count h n.
  Proof. induction n as [|n IH]; intros H; [reflexivity|]. cbn [count]. rewrite upd_other, IH by lia. reflexivity. Qed.
  Lemma count_less h a n o : a < n -> h a = Some o -> count (upd h a None) n < count h n.
  Proof.
    induction n as [|n IH]; intros Hn Ha; [lia|]. cbn [count]. destruct (Nat.eq_dec n a) as [->|Hne].
    - rewrite upd_same, Ha, count_none; lia.
    - rewrite upd_other by exact Hne. assert (a < n) by lia. specialize (IH H Ha). lia.
  Qed.
  Lemma collecting atomic who s n : safe atomic who -> inv veq atomic who s -> bounded s n ->
    exists s', collects s s' /\ (forall a, ~ dead s' a) /\ clean s'.
  Proof.
    intros Hs. remember (count (heap s) n) as c eqn:E. revert s E. induction c as [c IH] using lt_wf_ind; intros s -> I B.
    destruct (cleaning s) as (s1 & C1 & Cl & Hh & _).
    assert (I1 : inv veq atomic who s1) by (exact (steps_inv veq Heq _ _ _ _ Hs I (collects_steps atomic who _ _ C1))).
    assert (B1 : bounded s1 n) by (unfold bounded; rewrite Hh; exact B).
    destruct (classic (exists a, dead s1 a)) as [D|N].
    - destruct (top_dead s1 n (i_mem _ _ _ _ I1) B1 D) as (a & Ha & Hn).
      pose proof (dead_unreferenced s1 a (i_mem _ _ _ _ I1) Cl Ha Hn) as U.
      destruct (heap s1 a) as [o|] eqn:Ho; [|destruct Ha; congruence].
      assert (Hlt : a < n) by (destruct (le_lt_dec n a) as [Hle|]; [rewrite (B1 a Hle) in Ho; discriminate|assumption]).
      assert (C2 : collects s (collect s1 a)) by (econstructor 2; eassumption).
      destruct (IH (count (heap (collect s1 a)) n)) with (s := collect s1 a) as (s' & H1 & H2 & H3).
      + cbn [collect heap]. rewrite <- Hh. apply (count_less _ _ _ o); assumption.
      + reflexivity.
      + exact (steps_inv veq Heq _ _ _ _ Hs I (collects_steps atomic who _ _ C2)).
      + intros b Hb. cbn [collect heap]. unfold upd. destruct (Nat.eqb b a); [reflexivity|apply B1, Hb].
      + exists s'. split; [exact (collects_trans _ _ _ C2 H1)|auto].
    - exists s1. split; [exact C1|]. split; [|exact Cl]. intros a Ha. apply N. eauto.
  Qed.

  (** ** Calls finish *)
  Definition rank (p : pc V) : nat :=
    match p with Idle => 0 | Done _ _ | Raised _ => 1 | Put _ _ => 2 | Look _ _ _ => 3 | Made _ _ => 4 | Make _ => 5 | Got _ _ => 6 | Call _ => 7 end.
  Lemma goto_at s t u p : at_ (threads (goto s t p) u) = at_ (threads s u) \/ (u = t /\ at_ (threads (goto s t p) u) = p).
  Proof.
    cbn [goto set_thread threads]. destruct (Nat.eq_dec u t) as [->|Hu]; [right; rewrite upd_same; auto|left; rewrite upd_other by exact Hu; reflexivity].
  Qed.
  Lemma hold_at s t u a : at_ (threads (hold s t a) u) = at_ (threads s u).
  Proof.
    cbn [hold set_thread threads]. destruct (Nat.eq_dec u t) as [->|Hu]; [rewrite upd_same|rewrite upd_other by exact Hu]; reflexivity.
  Qed.
  Lemma step_rank atomic who s s' t : step veq atomic who s s' -> at_ (threads s t) <> Idle ->
    at_ (threads s' t) = at_ (threads s t) \/ rank (at_ (threads s' t)) < rank (at_ (threads s t)).
  Proof.
    intros St Hi. destruct St;
      try (match goal with |- context [goto ?s1 ?t0 ?p] => destruct (goto_at s1 t0 t p) as [E|[-> E]]; rewrite E end);
      try rewrite hold_at; try (left; reflexivity);
      try (match goal with H : at_ _ = _ |- _ => rewrite H in Hi |- * end; try congruence; right; cbn [rank]; lia).
    - right. destruct (at_ (threads s t0)); cbn [rank]; [congruence|lia..].
    - left. cbn [set_thread threads]. destruct (Nat.eq_dec t t0) as [->|Ht]; [rewrite upd_same|rewrite upd_other by exact Ht]; reflexivity.
  Qed.
  Lemma during_rank atomic who t s n s' : during_call veq atomic who t s n s' ->
    at_ (threads s' t) <> Idle /\ n + rank (at_ (threads s' t)) <= rank (at_ (threads s t)).
  Proof.
    intros H. induction H as [Hi|n s1 s2 _ [IH1 IH2] St Hne Hi|n s1 s2 _ [IH1 IH2] St E].
    - split; [exact Hi|lia].
    - split; [exact Hi|]. destruct (step_rank _ _ _ _ t St IH1) as [E|E]; [contradiction|lia].
    - rewrite E. auto.
  Qed.
  Lemma can_move atomic who s n t : inv veq atomic who s -> bounded s n -> at_ (threads s t) <> Idle ->
    exists s', step veq atomic who s s' /\ at_ (threads s' t) <> at_ (threads s t) /\ (forall u, u <> t -> threads s' u = threads s u) /\
      (1 < rank (at_ (threads s t)) -> calling s' t = calling s t).
  Proof.
    intros I B Hi. unfold calling.
    assert (G : forall s1 p, step veq atomic who s (goto s1 t p) -> p <> at_ (threads s t) -> threads s1 = threads s ->
      (1 < rank (at_ (threads s t)) -> calling (goto s1 t p) t = calling s t) ->
      exists s', step veq atomic who s s' /\ at_ (threads s' t) <> at_ (threads s t) /\ (forall u, u <> t -> threads s' u = threads s u) /\
      (1 < rank (at_ (threads s t)) -> calling s' t = calling s t)).
    { intros s1 p St Hp E Hc. exists (goto s1 t p). split; [exact St|]. split; [|split; [|exact Hc]]; cbn [goto set_thread threads]; [rewrite upd_same; exact Hp|].
      intros u Hu. rewrite upd_other by exact Hu. rewrite E. reflexivity. }
    unfold calling in G. cbn [goto set_thread threads] in G.
    assert (U : forall s1 p, at_ (upd (threads s1) t (mkThread (held (threads s1 t)) p) t) = p) by (intros; rewrite upd_same; reflexivity).
    destruct (at_ (threads s t)) as [|k|k w|k|k a|k a w|k a|k a|k] eqn:E; [congruence|..].
    - destruct (check_first (heap s) k) eqn:C.
      + destruct (find veq (data s) k) as [w|] eqn:F.
        * apply (G s (Got k w)); [eapply s_get_ref; eassumption|discriminate|reflexivity|rewrite U; reflexivity].
        * apply (G s (Make k)); [eapply s_get_none; eassumption|discriminate|reflexivity|rewrite U; reflexivity].
      + apply (G s (Raised k)); [eapply s_raise_first; eassumption|discriminate|reflexivity|rewrite U; reflexivity].
    - destruct (wrefs s w) as [a|] eqn:W.
      + apply (G s (Done k a)); [eapply s_deref_some; eassumption|discriminate|reflexivity|rewrite U; reflexivity].
      + apply (G s (Make k)); [eapply s_deref_none; eassumption|discriminate|reflexivity|rewrite U; reflexivity].
    - destruct (check_later (heap s) k) eqn:C.
      + apply (G (alloc s n (obj_of k)) (Made k n)); [apply s_alloc; [assumption|assumption|apply B; lia]|discriminate|reflexivity|rewrite U; reflexivity].
      + apply (G s (Raised k)); [eapply s_raise_later; eassumption|discriminate|reflexivity|rewrite U; reflexivity].
    - destruct atomic eqn:A.
      + destruct (find veq (data s) k) as [w|] eqn:F; [destruct (wrefs s w) as [b|] eqn:W|].
        * apply (G s (Done k b)); [eapply s_setdefault_old; eauto|discriminate|reflexivity|rewrite U; reflexivity].
        * apply (G (store_new veq s k a) (Done k a)); [eapply s_setdefault_new; eauto; congruence|discriminate|reflexivity|rewrite U; reflexivity].
        * apply (G (store_new veq s k a) (Done k a)); [eapply s_setdefault_new; eauto; congruence|discriminate|reflexivity|rewrite U; reflexivity].
      + destruct (find veq (data s) k) as [w|] eqn:F.
        * apply (G s (Look k a w)); [eapply s_set_ref; eauto|discriminate|reflexivity|rewrite U; reflexivity].
        * apply (G s (Put k a)); [eapply s_set_none; eauto|discriminate|reflexivity|rewrite U; reflexivity].
    - destruct (wrefs s w) as [b|] eqn:W.
      + apply (G s (Done k b)); [eapply s_look_some; eassumption|discriminate|reflexivity|rewrite U; reflexivity].
      + apply (G s (Put k a)); [eapply s_look_none; eassumption|discriminate|reflexivity|rewrite U; reflexivity].
    - apply (G (store_new veq s k a) (Done k a)); [eapply s_put; eassumption|discriminate|reflexivity|rewrite U; reflexivity].
    - exists (goto (hold s t a) t Idle). split; [eapply s_return; eassumption|]. cbn [goto hold set_thread threads].
      rewrite !upd_same. split; [discriminate|]. split; [|cbn [rank]; lia]. intros u Hu. rewrite !upd_other by exact Hu. reflexivity.
    - apply (G s Idle); [eapply s_raised; eassumption|discriminate|reflexivity|cbn [rank]; lia].
  Qed.
  Lemma finishes atomic who s n t k : safe atomic who -> inv veq atomic who s -> bounded s n -> calling s t = Some k ->
    exists c s', S c <= rank (at_ (threads s t)) /\ alone veq atomic who t s c s' /\ ((exists a, returning s' t k a) \/ raising s' t k).
  Proof.
    intros Hs. remember (rank (at_ (threads s t))) as r eqn:E. revert s n E. induction r as [r IH] using lt_wf_ind; intros s n -> I B Hk.
    assert (Hi : at_ (threads s t) <> Idle) by (intros Hi; unfold calling in Hk; rewrite Hi in Hk; discriminate).
    assert (D : ((exists a, returning s t k a) \/ raising s t k) \/ 1 < rank (at_ (threads s t))).
    { unfold calling in Hk. unfold returning, raising. destruct (at_ (threads s t)); cbn [rank] in *; try congruence; try (right; lia);
      injection Hk as ->; left; [left; eexists|right]; reflexivity. }
    assert (R1 : 1 <= rank (at_ (threads s t))) by (destruct (at_ (threads s t)); cbn [rank]; [congruence|lia..]).
    destruct D as [D|D]; [exists 0, s; split; [exact R1|split; [constructor|exact D]]|].
    destruct (can_move atomic who s n t I B Hi) as (s1 & St & Hne & Ho & Hc). specialize (Hc D).
    destruct (step_rank _ _ _ _ t St Hi) as [E|E]; [contradiction|].
    destruct (step_bounded _ _ _ _ _ St B) as (n1 & B1).
    destruct (IH _ E s1 n1 eq_refl (step_inv veq Heq _ _ _ _ Hs I St) B1) as (c & s' & Hlt & Ha & Hd); [congruence|].
    exists (S c), s'. split; [lia|]. split; [|exact Hd].
    assert (Hi1 : at_ (threads s1 t) <> Idle) by (intros Hi1; unfold calling in Hc, Hk; rewrite Hi1 in Hc; congruence).
    clear - St Hne Ho Ha Hi1. induction Ha as [|c s2 s3 _ IHa St2 Hne2 Hi2 Ho2];
      [eapply alone_more; [constructor|exact St|exact Hne|exact Hi1|exact Ho]|eapply alone_more; [exact IHa|exact St2|exact Hne2|exact Hi2|exact Ho2]].
  Qed.
End Live.
