(** * Calls that are interrupted: C86. *)
From Verif Require Import Py ModelIntern SpecIntern ProofIntern ProofInternLive PropsIntern SpecInterrupt.

Section Props.
  Context {V : Type} (veq : V -> V -> bool).
  Implicit Types (s : state V).

  Lemma interrupted_step atomic who s t s' : interrupted s t s' -> step veq atomic who s s'.
  Proof. intros [H ->]. apply s_interrupt. intros E. apply H. unfold calling. rewrite E. reflexivity. Qed.
  Lemma steps_app atomic who s s1 s2 : steps veq atomic who s s1 -> steps veq atomic who s1 s2 -> steps veq atomic who s s2.
  Proof. intros H1 H2. induction H2 as [|s3 s4 _ IH St]; [exact H1|]. exact (steps_more _ _ _ _ _ _ IH St). Qed.
  Lemma interrupted_reachable atomic who s t s' : reachable veq atomic who s -> interrupted s t s' -> reachable veq atomic who s'.
  Proof. intros H Hi. exact (steps_more _ _ _ _ _ _ H (interrupted_step _ _ _ _ _ Hi)). Qed.

  (** C86. The exception takes nothing from anybody: what the threads have stays and stays the same; and from then on
      objects still are the same exactly if they are structurally equal. *)
  Theorem C86_nothing_is_lost s t s' : interrupted s t s' ->
    forall u a, In a (held (threads s u)) -> In a (held (threads s' u)) /\ forall m, denotes (heap s) a m -> denotes (heap s') a m.
  Proof.
    intros [_ ->] u a Ha. cbn [threads heap]. split; [|auto]. destruct (Nat.eqb_spec u t) as [->|_]; exact Ha.
  Qed.
  Theorem C86_uniqueness_survives atomic who s t s' s2 a b m m' : equivalence veq -> safe atomic who ->
    reachable veq atomic who s -> interrupted s t s' -> steps veq atomic who s' s2 ->
    has s2 a -> has s2 b -> denotes (heap s2) a m -> denotes (heap s2) b m' -> (a = b <-> same veq m m' = true).
  Proof.
    intros He Hs Hr Hi H2. apply (unique veq atomic who s2 a b m m' He Hs).
    exact (steps_app _ _ _ _ _ (interrupted_reachable _ _ _ _ _ Hr Hi) H2).
  Qed.

  (** The call can be made again: it then returns an object if its arguments are right, and raises TypeError otherwise. *)
  Lemma alone_steps atomic who t s n s' : alone veq atomic who t s n s' -> steps veq atomic who s s'.
  Proof. intros H. induction H as [|n s1 s2 _ IH St _ _ _]; [constructor|]. exact (steps_more _ _ _ _ _ _ IH St). Qed.
  Lemma right_arguments_ok h k : @right_arguments V h k <-> args_ok h k = true.
  Proof.
    assert (T : forall b, is_tree h b = true <-> (exists c, h b = Some (OLeaf c)) \/ (exists cs, h b = Some (ONode cs))).
    { intros b. unfold is_tree. destruct (h b) as [[ty v|c|cs|c d]|]; split; try discriminate; try (intros [(? & ?)|(? & ?)]; discriminate).
      - left. eexists. reflexivity.
      - reflexivity.
      - right. eexists. reflexivity.
      - reflexivity. }
    unfold right_arguments, args_ok. destruct k as [ty v|b|l|c b]; cbn [check_first check_later andb].
    - tauto.
    - rewrite andb_true_r. unfold is_atom. destruct (h b) as [[ty v|c|cs|c d]|]; split; try discriminate; try (intros (? & ? & ?); discriminate).
      + reflexivity.
      + intros _. eexists _, _. reflexivity.
    - rewrite forallb_forall. split; intros H b Hb; apply T, H, Hb.
    - rewrite andb_true_r. symmetry. apply T.
  Qed.
  (** A call returns only if its arguments are right, and raises only if they are not. *)
  Lemma outcome atomic who s t k : equivalence veq -> safe atomic who -> reachable veq atomic who s ->
    ((exists a, returning s t k a) -> right_arguments (heap s) k) /\ (raising s t k -> ~ right_arguments (heap s) k).
  Proof.
    intros He Hs Hr. pose proof (proj2 (i_threads _ _ _ _ (reachable_inv veq He atomic who s Hs Hr) t)) as P.
    rewrite right_arguments_ok. unfold returning, raising. split.
    - intros (a & H). rewrite H in P. apply P.
    - intros H. rewrite H in P. destruct P as [_ P]. congruence.
  Qed.
  Theorem C86_call_again atomic (who : nat -> Prop) s t s' k : equivalence veq -> safe atomic who -> reachable veq atomic who s ->
    interrupted s t s' -> who t -> (forall a, In a (key_refs k) -> In a (held (threads s' t))) ->
    exists s1 n s2, step veq atomic who s' s1 /\ calling s1 t = Some k /\ n <= 6 /\ alone veq atomic who t s1 n s2 /\
      (right_arguments (heap s2) k -> exists a, returning s2 t k a) /\ (~ right_arguments (heap s2) k -> raising s2 t k).
  Proof.
    intros He Hs Hr Hi Hw Hk. pose proof (interrupted_reachable _ _ _ _ _ Hr Hi) as Hr'.
    assert (Ht : at_ (threads s' t) = Idle) by (destruct Hi as [_ ->]; cbn [threads]; rewrite Nat.eqb_refl; reflexivity).
    assert (St : step veq atomic who s' (goto s' t (Call k))) by (apply s_call; assumption).
    assert (Hc : calling (goto s' t (Call k)) t = Some k) by (unfold calling; cbn [goto set_thread threads]; rewrite upd_same; reflexivity).
    pose proof (steps_more _ _ _ _ _ _ Hr' St) as Hr1.
    destruct (C56_calls_never_block veq atomic who _ t k He Hs Hr1 Hc) as (n & s2 & Hn & Ha & Hd).
    exists (goto s' t (Call k)), n, s2. split; [exact St|]. split; [exact Hc|]. split; [exact Hn|]. split; [exact Ha|].
    destruct (outcome atomic who s2 t k He Hs (steps_app _ _ _ _ _ Hr1 (alone_steps _ _ _ _ _ _ Ha))) as [O1 O2].
    split; intros R; destruct Hd as [Hd|Hd]; auto; [destruct (O2 Hd R)|destruct (R (O1 Hd))].
  Qed.
  (** And it returns the object that there already is, if anyone kept it: also one that the interrupted call had made. *)
  Theorem C86_same_object_again atomic who s t s' s2 u k a b m m' : equivalence veq -> safe atomic who -> reachable veq atomic who s ->
    interrupted s t s' -> has s' b -> denotes (heap s') b m -> steps_holding veq atomic who b s' s2 -> has s2 b ->
    returning s2 u k a -> denotes (heap s2) a m' -> (a = b <-> same veq m m' = true).
  Proof.
    intros He Hs Hr Hi Hb Hm H Hb2 Ha Hm'. pose proof (interrupted_reachable _ _ _ _ _ Hr Hi) as Hr'.
    assert (G : reachable veq atomic who s2 /\ denotes (heap s2) b m).
    { assert (Hf : referenced s' b).
      { destruct Hb as [(v & Hv)|(v & k' & Hv)]; exists v; [left; exact Hv|right]. unfold returning in Hv. rewrite Hv. left. reflexivity. }
      clear - Hm H Hr' Hf. assert (G : reachable veq atomic who s2 /\ denotes (heap s2) b m /\ referenced s2 b); [|tauto].
      induction H as [|s3 s4 _ (I1 & I2 & I3) St R]; [auto|]. split; [exact (steps_more _ _ _ _ _ _ I1 St)|]. split; [|exact R].
      eapply step_denotes; eassumption. }
    destruct G as [G1 G2]. rewrite <- (unique veq atomic who s2 b a m m' He Hs G1 Hb2 (or_intror (ex_intro _ u (ex_intro _ k Ha))) G2 Hm').
    split; auto.
  Qed.

  (** What the interrupted call had made and not stored is garbage: no one ever gets it, and the collector can take it
      at once. *)
  Theorem C86_leftovers_are_collected atomic who s t s' a : equivalence veq -> safe atomic who -> reachable veq atomic who s ->
    has_made s t a -> interrupted s t s' ->
    exists s2, collects s' s2 /\ heap s2 a = None /\ (forall b, b <> a -> heap s2 b = heap s' b) /\ threads s2 = threads s' /\ data s2 = data s'.
  Proof.
    intros He Hs Hr Hm Hi. pose proof (reachable_inv veq He atomic who s Hs Hr) as I. pose proof (i_mem _ _ _ _ I) as M.
    change (owns (at_ (threads s t)) a) in Hm.
    assert (Hin : In a (pc_refs (at_ (threads s t)))) by (unfold owns in Hm; destruct (at_ (threads s t)); try contradiction; left; exact Hm).
    assert (P : heap s a <> None /\ ~ pub s a).
    { pose proof (proj2 (i_threads _ _ _ _ I t)) as P. unfold owns in Hm.
      destruct (at_ (threads s t)); try contradiction; subst; cbn [pc_ok] in P; unfold own in P.
      - destruct P as (_ & P1 & P2 & _). split; [congruence|exact P2].
      - destruct P as (_ & (P1 & P2 & _) & _). split; [congruence|exact P2].
      - destruct P as (_ & (P1 & P2 & _) & _). split; [congruence|exact P2]. }
    destruct P as [P1 P2]. destruct (heap s a) as [o|] eqn:Ho; [|congruence].
    assert (NG : ~ good s a) by (intros [_ G]; exact (P2 G)).
    exists (collect s' a). split; [|split; [|split; [|split]]].
    - destruct Hi as [_ ->]. eapply collects_obj; [apply collects_none|exact Ho|]. split; [|split].
      + intros u. cbn [threads]. destruct (Nat.eqb_spec u t) as [->|Hu]; cbn [held at_ pc_refs].
        * split; [intros H; apply NG, (proj1 (i_threads _ _ _ _ I t) a H)|intros []].
        * split; [intros H; apply NG, (proj1 (i_threads _ _ _ _ I u) a H)|]. intros H.
          destruct (pc_refs_cases veq s _ a (proj2 (i_threads _ _ _ _ I u)) H) as [G|(G & _)]; [exact (NG G)|].
          apply Hu. exact (i_own _ _ _ _ I u t a G Hm).
      + intros b o' Hb H. cbn [heap] in Hb. apply NG. destruct (m_obj _ s M b o' Hb) as (R & _). apply R. rewrite obj_key_refs. exact H.
      + intros k w Hd H. cbn [data] in Hd. apply NG. apply (proj1 (m_key _ s M k w Hd) a H).
    - cbn [collect heap]. unfold upd. rewrite Nat.eqb_refl. reflexivity.
    - intros b Hb. cbn [collect heap]. apply upd_other, Hb.
    - reflexivity.
    - reflexivity.
  Qed.
End Props.

(** Thread 0 holds Integer(1), at 0, and is interrupted in the call of Tr(Integer(1)), after it has made the Tree at 1 and
    before it is stored. Thread 1 holds Integer(1) too and has Tr(Integer(1)) made at 2. Thread 0 calls again and gets it. *)
Example C86_case : let k := KLeaf 0 in exists s s' s2,
  reachable py_eq true (fun _ => True) s /\ has_made s 0 1 /\ interrupted s 0 s' /\ heap s' 1 = Some (OLeaf 0) /\
  steps py_eq true (fun _ => True) s' s2 /\ returning s2 0 k 2 /\ In 2 (held (threads s2 1)) /\ right_arguments (heap s2) k.
Proof.
  cbv zeta. set (k := KLeaf 0 : key pyval). set (a := KAtom 0 (VInt 1)).
  set (l := whole 0 a 0 4 ++ whole 1 a 3 3 ++ [ACall 0 k; AMove 0 1; AMove 0 1]).
  set (l' := whole 1 k 2 4 ++ [ACall 0 k; AMove 0 3; AMove 0 3]).
  destruct (run py_eq true start l) as [s|] eqn:E; [|vm_compute in E; discriminate].
  set (s' := goto s 0 Idle). destruct (run py_eq true s' l') as [s2|] eqn:E2; [|subst s'; vm_compute in E; injection E as <-; vm_compute in E2; discriminate].
  exists s, s', s2. pose proof (run_steps py_eq true (fun _ => True) start l s E ltac:(all_may)) as R.
  pose proof (run_steps py_eq true (fun _ => True) s' l' s2 E2 ltac:(all_may)) as R2.
  split; [exact R|]. assert (Hm : has_made s 0 1) by (vm_compute in E; injection E as <-; reflexivity).
  split; [exact Hm|]. split; [split; [|reflexivity]|].
  { unfold calling. unfold has_made in Hm. destruct (at_ (threads s 0)); try contradiction; discriminate. }
  split; [vm_compute in E; injection E as <-; reflexivity|]. split; [exact R2|].
  clear R R2 Hm. vm_compute in E. injection E as <-. subst s'. vm_compute in E2. injection E2 as <-.
  split; [reflexivity|]. split; [left; reflexivity|]. eexists _, _. reflexivity.
Qed.
Print Assumptions C86_uniqueness_survives.
Print Assumptions C86_call_again.
Print Assumptions C86_same_object_again.
Print Assumptions C86_leftovers_are_collected.
