(** * Properties of the stores of unique objects: C01 - C06, C55, C56. *)
From Verif Require Import Py ModelIntern SpecIntern ProofIntern ProofInternLive.

(** ** Runs for the examples *)
(** Python's True, False and ints: True == 1. *)
Inductive pyval := VInt (z : Z) | VBool (b : bool).
Definition num (v : pyval) : Z := match v with VInt z => z | VBool true => 1 | VBool false => 0 end.
Definition py_eq (v w : pyval) : bool := Z.eqb (num v) (num w).
Lemma py_eq_equivalence : equivalence py_eq.
Proof.
  unfold equivalence, py_eq. split; [intros v; apply Z.eqb_refl|]. split.
  - intros v w H. rewrite Z.eqb_sym. exact H.
  - intros u v w H H'. apply Z.eqb_eq in H, H'. apply Z.eqb_eq. congruence.
Qed.
Section Run.
  Context {V : Type} (veq : V -> V -> bool).
  (** A call, or the next step of a thread (a new object is put at [n]). *)
  Inductive action := ACall (t : nat) (k : key V) | AMove (t n : nat).
  Definition run1 (atomic : bool) (s : state V) (x : action) : option (state V) :=
    match x with
    | ACall t k =>
        match at_ (threads s t) with
        | Idle => if forallb (fun a => existsb (Nat.eqb a) (held (threads s t))) (key_refs k) then Some (goto s t (Call k)) else None
        | _ => None
        end
    | AMove t n =>
        match at_ (threads s t) with
        | Idle => None
        | Call k => Some (if check_first (heap s) k
                          then match find veq (data s) k with None => goto s t (Make k) | Some w => goto s t (Got k w) end
                          else goto s t (Raised k))
        | Got k w => Some (match wrefs s w with Some a => goto s t (Done k a) | None => goto s t (Make k) end)
        | Make k => if check_later (heap s) k
                    then match heap s n with None => Some (goto (alloc s n (obj_of k)) t (Made k n)) | Some _ => None end
                    else Some (goto s t (Raised k))
        | Made k a =>
            Some (match find veq (data s) k with
                  | Some w => if atomic then match wrefs s w with Some b => goto s t (Done k b) | None => goto (store_new veq s k a) t (Done k a) end
                              else goto s t (Look k a w)
                  | None => if atomic then goto (store_new veq s k a) t (Done k a) else goto s t (Put k a)
                  end)
        | Look k a w => Some (match wrefs s w with Some b => goto s t (Done k b) | None => goto s t (Put k a) end)
        | Put k a => Some (goto (store_new veq s k a) t (Done k a))
        | Done k a => Some (goto (hold s t a) t Idle)
        | Raised k => Some (goto s t Idle)
        end
    end.
  Fixpoint run (atomic : bool) (s : state V) (l : list action) : option (state V) :=
    match l with [] => Some s | x :: r => match run1 atomic s x with Some s' => run atomic s' r | None => None end end.
  Definition calls_of (l : list action) (who : nat -> Prop) : Prop := Forall (fun x => match x with ACall t _ => who t | _ => True end) l.
  Lemma run1_step atomic who s x s' : run1 atomic s x = Some s' -> calls_of [x] who -> step veq atomic who s s'.
  Proof.
    intros H W. destruct x as [t k|t n]; cbn [run1] in H.
    - destruct (at_ (threads s t)) eqn:E; try discriminate.
      destruct (forallb (fun a => existsb (Nat.eqb a) (held (threads s t))) (key_refs k)) eqn:F; [|discriminate]. injection H as <-.
      apply s_call; [exact E|inversion W; assumption|]. intros a Ha. rewrite forallb_forall in F. apply F in Ha.
      apply existsb_exists in Ha as (b & Hb & Eb). apply Nat.eqb_eq in Eb as ->. exact Hb.
    - destruct (at_ (threads s t)) as [|k|k w|k|k a|k a w|k a|k a|k] eqn:E; [discriminate|..].
      + injection H as <-. destruct (check_first (heap s) k) eqn:C; [destruct (find veq (data s) k) eqn:F|].
        * eapply s_get_ref; eassumption.
        * eapply s_get_none; eassumption.
        * eapply s_raise_first; eassumption.
      + injection H as <-. destruct (wrefs s w) eqn:F; [eapply s_deref_some|eapply s_deref_none]; eassumption.
      + destruct (check_later (heap s) k) eqn:C; [destruct (heap s n) eqn:F; [discriminate|]|]; injection H as <-.
        * apply s_alloc; assumption.
        * eapply s_raise_later; eassumption.
      + injection H as <-. destruct (find veq (data s) k) as [w|] eqn:F, atomic eqn:A; [destruct (wrefs s w) eqn:W2|..].
        * eapply s_setdefault_old; eauto.
        * eapply s_setdefault_new; eauto. congruence.
        * eapply s_set_ref; eauto.
        * eapply s_setdefault_new; eauto. congruence.
        * eapply s_set_none; eauto.
      + injection H as <-. destruct (wrefs s w) eqn:F; [eapply s_look_some|eapply s_look_none]; eassumption.
      + injection H as <-. eapply s_put; eassumption.
      + injection H as <-. eapply s_return; eassumption.
      + injection H as <-. eapply s_raised; eassumption.
  Qed.
  Lemma run_steps atomic who s l s' : run atomic s l = Some s' -> calls_of l who -> steps veq atomic who s s'.
  Proof.
    assert (G : forall s0, steps veq atomic who s0 s -> run atomic s l = Some s' -> calls_of l who -> steps veq atomic who s0 s').
    { revert s. induction l as [|x l IH]; intros s s0 H R W; cbn [run] in R; [injection R as <-; exact H|].
      destruct (run1 atomic s x) as [s1|] eqn:E; [|discriminate]. inversion W; subst. apply (IH s1); [|exact R|assumption].
      eapply steps_more; [exact H|]. apply (run1_step _ _ _ _ _ E). constructor; [assumption|constructor]. }
    apply G. constructor.
  Qed.
  Lemma run_case atomic who l (P : state V -> Prop) : calls_of l who -> match run atomic start l with Some s => P s | None => False end ->
    exists s, reachable veq atomic who s /\ P s.
  Proof.
    intros W H. destruct (run atomic start l) as [s|] eqn:E; [|destruct H]. exists s. split; [exact (run_steps _ _ _ _ _ E W)|exact H].
  Qed.
End Run.
Ltac all_may := repeat (constructor; [exact I || reflexivity|]); constructor.
Arguments action : clear implicits.
(** The whole call of thread [t] for [k], making an object at [n] if there is none. *)
Definition whole {V} (t : nat) (k : key V) (n steps : nat) : list (action V) := ACall t k :: repeat (AMove t n) steps.

Section Props.
  Context {V : Type} (veq : V -> V -> bool).
  Implicit Types (s : state V).

  (** What the user has is described by exactly one term. *)
  Theorem C02_objects_have_terms who s a : equivalence veq -> reachable veq true who s -> has s a ->
    exists m, denotes (heap s) a m /\ forall m', denotes (heap s) a m' -> m' = m.
  Proof.
    intros He Hr Ha. pose proof (reachable_inv veq He true who s (or_introl eq_refl) Hr) as I.
    destruct (has_good veq _ _ _ _ I Ha) as [Hh _]. destruct (heap s a) as [o|] eqn:E; [|congruence].
    destruct (m_obj _ s (i_mem _ _ _ _ I) a o E) as (_ & _ & m & Hm). exists m. split; [exact Hm|]. intros m' Hm'. exact (denotes_fun _ _ _ Hm' _ Hm).
  Qed.
  Lemma unique atomic who s a b m m' : equivalence veq -> safe atomic who -> reachable veq atomic who s ->
    has s a -> has s b -> denotes (heap s) a m -> denotes (heap s) b m' -> (a = b <-> same veq m m' = true).
  Proof.
    intros He Hs Hr Ha Hb Hm Hm'. pose proof (reachable_inv veq He atomic who s Hs Hr) as I. split.
    - intros <-. rewrite (denotes_fun _ _ _ Hm' _ Hm). apply same_refl, He.
    - apply (same_unique veq He s (i_mem _ _ _ _ I) a m Hm (has_good veq _ _ _ _ I Ha) b m' Hm' (has_good veq _ _ _ _ I Hb)).
  Qed.

  (** C01. Atoms that anyone has are the same object exactly if their types are the same and their values are ==. *)
  Theorem C01_atoms_unique who s a b ty v ty' v' : equivalence veq -> reachable veq true who s -> has s a -> has s b ->
    heap s a = Some (OAtom ty v) -> heap s b = Some (OAtom ty' v') -> (a = b <-> ty = ty' /\ veq v v' = true).
  Proof.
    intros He Hr Ha Hb Hoa Hob. rewrite (unique true who s a b (MAtom ty v) (MAtom ty' v') He (or_introl eq_refl) Hr Ha Hb).
    - cbn [same]. rewrite andb_true_iff, Nat.eqb_eq. reflexivity.
    - constructor. exact Hoa.
    - constructor. exact Hob.
  Qed.

  (** C02. Trees are the same object exactly if they are structurally equal. *)
  Theorem C02_trees_unique who s a b m m' : equivalence veq -> reachable veq true who s -> has s a -> has s b ->
    is_tree (heap s) a = true -> is_tree (heap s) b = true -> denotes (heap s) a m -> denotes (heap s) b m' ->
    (a = b <-> same veq m m' = true).
  Proof. intros He Hr Ha Hb _ _. apply (unique true who s a b m m' He (or_introl eq_refl) Hr Ha Hb). Qed.

  (** C03. Sym objects are the same object exactly if their classes are the same and their Trees are structurally equal. *)
  Theorem C03_syms_unique who s a b c ta m c' tb m' : equivalence veq -> reachable veq true who s -> has s a -> has s b ->
    heap s a = Some (OSym c ta) -> heap s b = Some (OSym c' tb) -> denotes (heap s) ta m -> denotes (heap s) tb m' ->
    (a = b <-> c = c' /\ same veq m m' = true).
  Proof.
    intros He Hr Ha Hb Hoa Hob Hm Hm'. rewrite (unique true who s a b (MSym c m) (MSym c' m') He (or_introl eq_refl) Hr Ha Hb).
    - cbn [same]. rewrite andb_true_iff, Nat.eqb_eq. reflexivity.
    - econstructor; eassumption.
    - econstructor; eassumption.
  Qed.

  (** C04. If only one thread calls constructors, the same holds with the setdefault of weakref.py. *)
  Theorem C04_single_thread_unique (who : nat -> Prop) t s a b m m' : equivalence veq -> (forall u, who u -> u = t) -> reachable veq false who s ->
    has s a -> has s b -> denotes (heap s) a m -> denotes (heap s) b m' -> (a = b <-> same veq m m' = true).
  Proof. intros He Hw Hr. apply (unique false who); [exact He|right; exists t; exact Hw|exact Hr]. Qed.

  (** With two threads it does not: both hold an Atom of type 0 with value v, and the two are not the same object. *)
  Theorem C04_two_threads_refuted (v : V) : exists s a b,
    reachable veq false (fun _ => True) s /\ In a (held (threads s 0)) /\ In b (held (threads s 1)) /\
    heap s a = Some (OAtom 0 v) /\ heap s b = Some (OAtom 0 v) /\ a <> b.
  Proof.
    set (l := [ACall 0 (KAtom 0 v); AMove 0 0; AMove 0 0; AMove 0 0; ACall 1 (KAtom 0 v); AMove 1 1; AMove 1 1; AMove 1 1;
               AMove 0 0; AMove 0 0; AMove 1 1; AMove 1 1]).
    destruct (run_case veq false (fun _ => True) l
      (fun s => In 0 (held (threads s 0)) /\ In 1 (held (threads s 1)) /\ heap s 0 = Some (OAtom 0 v) /\ heap s 1 = Some (OAtom 0 v)))
      as (s & R & H1 & H2 & H3 & H4); [all_may|vm_compute; auto|].
    exists s, 0, 1. repeat (split; [assumption|]). discriminate.
  Qed.

  (** C05. A call returns an object of what it was called with: an Atom of the type with an equal value, a Tree of
      these very children or of this atom, a Sym of the class and this Tree. It raises TypeError exactly if an argument
      is not of the right class. *)
  Theorem C05_calls_return_what_was_asked atomic who s t k a : equivalence veq -> safe atomic who -> reachable veq atomic who s ->
    returning s t k a ->
    match k with
    | KAtom ty v => exists v', heap s a = Some (OAtom ty v') /\ veq v v' = true
    | KLeaf b => heap s a = Some (OLeaf b) /\ is_atom (heap s) b = true
    | KNode l => heap s a = Some (ONode l) /\ forall b, In b l -> is_tree (heap s) b = true
    | KSym c b => heap s a = Some (OSym c b) /\ is_tree (heap s) b = true
    end.
  Proof.
    intros He Hs Hr H. pose proof (reachable_inv veq He atomic who s Hs Hr) as I. unfold returning in H.
    pose proof (proj2 (i_threads _ _ _ _ I t)) as P. rewrite H in P. destruct P as (_ & Ty & _ & o & Ho & Hm).
    unfold typed, args_ok in Ty. unfold matches in Hm.
    destruct k as [ty v|b|l|c b], o as [ty' v'|b'|l'|c' b']; cbn [obj_key key_eqb check_first check_later andb] in *; try discriminate.
    - apply andb_prop in Hm as [H1 H2]. apply Nat.eqb_eq in H1 as ->. eauto.
    - apply Nat.eqb_eq in Hm as ->. rewrite andb_true_r in Ty. auto.
    - destruct (addrs_eqb_spec l l'); [subst|discriminate]. split; [exact Ho|]. apply forallb_forall. exact Ty.
    - apply andb_prop in Hm as [H1 H2]. apply Nat.eqb_eq in H1 as ->. apply Nat.eqb_eq in H2 as ->. rewrite andb_true_r in Ty. auto.
  Qed.
  Theorem C05_calls_raise_for_wrong_arguments atomic who s t k : equivalence veq -> safe atomic who -> reachable veq atomic who s ->
    raising s t k ->
    match k with
    | KAtom _ _ => False
    | KLeaf b => is_atom (heap s) b = false
    | KNode l => exists b, In b l /\ is_tree (heap s) b = false
    | KSym _ b => is_tree (heap s) b = false
    end.
  Proof.
    intros He Hs Hr H. pose proof (reachable_inv veq He atomic who s Hs Hr) as I.
    pose proof (proj2 (i_threads _ _ _ _ I t)) as P. rewrite H in P. destruct P as (_ & P). unfold args_ok in P.
    destruct k as [ty v|b|l|c b]; cbn [check_first check_later andb] in P; rewrite ?andb_true_r in P; try exact P; [discriminate|].
    clear - P. induction l as [|b l IH]; [discriminate|]. cbn [forallb] in P. apply andb_false_iff in P as [P|P].
    - exists b. split; [left; reflexivity|exact P].
    - destruct (IH P) as (c & Hc & Ec). exists c. split; [right; exact Hc|exact Ec].
  Qed.

  (** C06. While anyone has a reference to an object, the object and all that it refers to stay as they are. *)
  Lemma leads_trans_step atomic who s s' a b : step veq atomic who s s' -> referenced s a -> leads_to (heap s) a b ->
    leads_to (heap s') a b /\ forall o, heap s b = Some o -> heap s' b = Some o.
  Proof.
    intros St (t0 & Hr) H.
    assert (G : forall x, leads_to (heap s) a x -> (exists y o, heap s y = Some o /\ In x (obj_refs o)) \/ x = a).
    { intros x Hx. destruct Hx as [|y o x Hy Ho Hin]; [right; reflexivity|left; eauto]. }
    assert (K : forall x o, leads_to (heap s) a x -> heap s x = Some o -> heap s' x = Some o).
    { intros x o Hx Ho. destruct St; cbn [goto hold set_thread heap store_new remove_entry]; try exact Ho.
      - cbn [alloc heap]. rewrite upd_other; [exact Ho|congruence].
      - cbn [collect heap]. rewrite upd_other; [exact Ho|]. intros ->. destruct H1 as (U1 & U2 & _).
        destruct (G a0 Hx) as [(y & oy & Hy & Hin)| ->]; [exact (U2 y oy Hy Hin)|]. destruct (U1 t0) as [X Y]. destruct Hr; contradiction. }
    split; [|intros o; apply K, H].
    induction H as [|b o c Hb IH Ho Hin]; [constructor|]. econstructor; [exact IH|exact (K b o Hb Ho)|exact Hin].
  Qed.
  Theorem C06_held_objects_stay atomic who s s' a b o : referenced s a -> steps_holding veq atomic who a s s' ->
    leads_to (heap s) a b -> heap s b = Some o -> heap s' b = Some o /\ leads_to (heap s') a b.
  Proof.
    intros Hr H Hl Ho. assert (G : referenced s' a /\ heap s' b = Some o /\ leads_to (heap s') a b).
    { induction H as [|s1 s2 _ (I1 & I2 & I3) St Hr2]; [auto|]. destruct (leads_trans_step _ _ _ _ _ _ St I1 I3) as [L K]. auto. }
    tauto.
  Qed.
  Theorem C06_nothing_dangles atomic who s a b : equivalence veq -> safe atomic who -> reachable veq atomic who s ->
    referenced s a -> leads_to (heap s) a b -> heap s b <> None.
  Proof.
    intros He Hs Hr (t & Ha) Hl. pose proof (reachable_inv veq He atomic who s Hs Hr) as I.
    destruct Hl as [|b o c _ Ho Hin].
    - destruct Ha as [Ha|Ha]; [apply (proj1 (i_threads _ _ _ _ I t) a Ha)|].
      destruct (pc_refs_cases veq s _ a (proj2 (i_threads _ _ _ _ I t)) Ha) as [[H _]|(_ & H & _)]; exact H.
    - apply (good_parts veq s b o c (i_mem _ _ _ _ I) Ho Hin).
  Qed.

  (** C01, in terms of calls: an Atom that a call returned, and that someone has had ever since, is the one that a
      later call returns, exactly if that call is for the same type and an equal value. *)
  Theorem C01_calls_agree who s1 s2 t u ty v ty' v' a b : equivalence veq -> reachable veq true who s1 ->
    returning s1 t (KAtom ty v) a -> steps_holding veq true who a s1 s2 -> has s2 a ->
    returning s2 u (KAtom ty' v') b -> (a = b <-> ty = ty' /\ veq v v' = true).
  Proof.
    intros He Hr Ha H Hu Hb.
    assert (Hr2 : reachable veq true who s2).
    { clear - Hr H. induction H as [|s3 s4 _ IH St _]; [exact Hr|]. eapply steps_more; eassumption. }
    destruct (C05_calls_return_what_was_asked true who s1 t _ a He (or_introl eq_refl) Hr Ha) as (v1 & H1 & E1).
    destruct (C05_calls_return_what_was_asked true who s2 u _ b He (or_introl eq_refl) Hr2 Hb) as (v2 & H2 & E2).
    assert (Hf : referenced s1 a) by (exists t; right; unfold returning in Ha; rewrite Ha; left; reflexivity).
    destruct (C06_held_objects_stay true who s1 s2 a a _ Hf H (leads_self _ _) H1) as [H3 _].
    assert (Hb2 : has s2 b) by (right; exists u; eauto).
    rewrite (C01_atoms_unique who s2 a b ty v1 ty' v2 He Hr2 Hu Hb2 H3 H2).
    destruct He as (R & S & T). split; intros [-> E]; (split; [reflexivity|]).
    - exact (T _ _ _ E1 (T _ _ _ E (S _ _ E2))).
    - exact (T _ _ _ (S _ _ E1) (T _ _ _ E E2)).
  Qed.

  (** C55. The collector can free everything that no thread can get at, and all dead entries of the stores; if no thread
      has anything, then everything goes. *)
  Theorem C55_no_leaks atomic who s : equivalence veq -> safe atomic who -> reachable veq atomic who s ->
    exists s', collects s s' /\ threads s' = threads s /\
      (forall a, heap s' a <> None -> exists r, referenced s' r /\ leads_to (heap s') r a) /\
      (forall k w, In (k, w) (data s') -> exists a, wrefs s' w = Some a /\ heap s' a <> None).
  Proof.
    intros He Hs Hr. pose proof (reachable_inv veq He atomic who s Hs Hr) as I. destruct (reachable_bounded veq atomic who s Hr) as (n & B).
    destruct (collecting veq He atomic who s n Hs I B) as (s' & H1 & H2 & H3). exists s'. split; [exact H1|].
    split; [exact (collects_threads _ _ H1)|]. split.
    - intros a Ha. apply Classical_Prop.NNPP. intros N. apply (H2 a). split; [exact Ha|exact N].
    - intros k w Hin. destruct (wrefs s' w) as [a|] eqn:E; [|destruct (H3 k w Hin E)]. exists a. split; [reflexivity|].
      pose proof (steps_inv veq He _ _ _ _ Hs I (collects_steps veq atomic who _ _ H1)) as I'.
      apply (m_wref _ _ (i_mem _ _ _ _ I') w a E).
  Qed.
  Theorem C55_all_is_freed atomic who s : equivalence veq -> safe atomic who -> reachable veq atomic who s ->
    (forall t, threads s t = mkThread [] Idle) ->
    exists s', collects s s' /\ (forall a, heap s' a = None) /\ data s' = [].
  Proof.
    intros He Hs Hr Ht. destruct (C55_no_leaks atomic who s He Hs Hr) as (s' & H1 & H2 & H3 & H4). exists s'. split; [exact H1|].
    assert (G : forall a, heap s' a = None).
    { intros a. destruct (heap s' a) as [o|] eqn:E; [|reflexivity]. destruct (H3 a) as (r & (t & Hr') & _); [congruence|].
      rewrite H2, Ht in Hr'. destruct Hr' as [[]|[]]. }
    split; [exact G|]. destruct (data s') as [|[k w] d] eqn:E; [reflexivity|].
    destruct (H4 k w (or_introl eq_refl)) as (a & _ & Ha). destruct (Ha (G a)).
  Qed.

  (** C56. Calls are wait-free: in every execution, whatever the others do, a thread is done after 7 steps of its own,
      and it can always make them, also if all others stand still. *)
  Theorem C56_calls_are_short atomic who t s n s' : during_call veq atomic who t s n s' -> n <= 6.
  Proof.
    intros H. apply during_rank in H as [H1 H2].
    assert (R : rank (at_ (threads s t)) <= 7) by (destruct (at_ (threads s t)); cbn [rank]; lia).
    destruct (at_ (threads s' t)); cbn [rank] in H2; [congruence|lia..].
  Qed.
  Theorem C56_calls_never_block atomic who s t k : equivalence veq -> safe atomic who -> reachable veq atomic who s ->
    calling s t = Some k ->
    exists n s', n <= 6 /\ alone veq atomic who t s n s' /\ ((exists a, returning s' t k a) \/ raising s' t k).
  Proof.
    intros He Hs Hr Hk. pose proof (reachable_inv veq He atomic who s Hs Hr) as I. destruct (reachable_bounded veq atomic who s Hr) as (n & B).
    destruct (finishes veq He atomic who s n t k Hs I B Hk) as (c & s' & H1 & H2 & H3). exists c, s'. split; [|auto].
    destruct (at_ (threads s t)); cbn [rank] in H1; lia.
  Qed.
End Props.

(** ** Concrete cases *)
(** Two threads make Integer(1) at the same time, and the Trees Tr(1), Tree(Tr(1), Tr(1)), and a Sym. *)
Definition race : list (action pyval) :=
  let k := KAtom 0 (VInt 1) in
  [ACall 0 k; AMove 0 0; AMove 0 0; ACall 1 k; AMove 1 1; AMove 1 1; AMove 0 0; AMove 0 0; AMove 1 1; AMove 1 1]
  ++ whole 0 (KLeaf 0) 2 4 ++ whole 1 (KLeaf 0) 3 3 ++ whole 0 (KNode [2; 2]) 3 4 ++ whole 0 (KSym 5 3) 4 4 ++ whole 0 (KAtom 0 (VInt 2)) 5 4
  ++ [ACall 1 (KAtom 0 (VBool true)); AMove 1 7; AMove 1 7].
Example C01_C02_C03_case : exists s, reachable py_eq true (fun _ => True) s /\
  held (threads s 0) = [5; 4; 3; 2; 0] /\ held (threads s 1) = [2; 0] /\
  heap s 0 = Some (OAtom 0 (VInt 1)) /\ heap s 5 = Some (OAtom 0 (VInt 2)) /\
  heap s 2 = Some (OLeaf 0) /\ heap s 3 = Some (ONode [2; 2]) /\ heap s 4 = Some (OSym 5 3) /\
  denotes (heap s) 3 (MNode [MLeaf (MAtom 0 (VInt 1)); MLeaf (MAtom 0 (VInt 1))]) /\
  returning s 1 (KAtom 0 (VBool true)) 0.
Proof.
  apply (run_case py_eq true (fun _ => True) race); [all_may|]. vm_compute. do 7 (split; [reflexivity|]). split; [|reflexivity].
  match goal with |- denotes ?h _ _ => set (g := h) end.
  assert (H3 : g 3 = Some (ONode [2; 2])) by reflexivity. assert (H2 : g 2 = Some (OLeaf 0)) by reflexivity.
  assert (H0 : g 0 = Some (OAtom 0 (VInt 1))) by reflexivity. clearbody g.
  apply (d_node g 3 [2; 2]); [exact H3|]. repeat constructor; apply (d_leaf g 2 0); try exact H2; constructor; exact H0.
Qed.

(** C05: Integer(True), and then Integer(1): the value of the atom is True. *)
Theorem C05_same_value_refuted : exists s a,
  reachable py_eq true (fun _ => True) s /\ returning s 0 (KAtom 0 (VInt 1)) a /\ heap s a = Some (OAtom 0 (VBool true)).
Proof.
  set (l := whole 0 (KAtom 0 (VBool true)) 0 4 ++ [ACall 0 (KAtom 0 (VInt 1)); AMove 0 1; AMove 0 1]).
  destruct (run_case py_eq true (fun _ => True) l (fun s => returning s 0 (KAtom 0 (VInt 1)) 0 /\ heap s 0 = Some (OAtom 0 (VBool true))))
    as (s & R & H); [all_may|vm_compute; auto|]. exists s, 0. auto.
Qed.
(** Tree(Integer(1)), with an Atom where a Tree is wanted, raises. *)
Example C05_raise_case : exists s, reachable py_eq true (fun _ => True) s /\ at_ (threads s 0) = Raised (KNode [0]).
Proof.
  set (l := whole 0 (KAtom 0 (VInt 1)) 0 4 ++ [ACall 0 (KNode [0]); AMove 0 1; AMove 0 1]).
  apply (run_case py_eq true (fun _ => True) l); [all_may|vm_compute; reflexivity].
Qed.
(** C04: one thread, with the two-step setdefault. *)
Example C04_case : exists s, reachable py_eq false (fun t => t = 0) s /\ held (threads s 0) = [0; 2; 0] /\
  heap s 0 = Some (OAtom 0 (VInt 1)) /\ heap s 2 = Some (OAtom 0 (VInt 3)).
Proof.
  set (l := whole 0 (KAtom 0 (VInt 1)) 0 5 ++ whole 0 (KAtom 0 (VInt 3)) 2 5 ++ whole 0 (KAtom 0 (VBool true)) 1 3).
  apply (run_case py_eq false (fun t => t = 0) l); [all_may|vm_compute; auto].
Qed.

(** C06, C55: Integer(1) is made and dropped, collected, and its address is used for Integer(2), which is kept while a
    Tree of it is made and dropped. *)
Example C06_C55_case : exists s1 s2 s3 s4,
  reachable py_eq true (fun _ => True) s1 /\ heap s1 0 = Some (OAtom 0 (VInt 1)) /\ (forall t, threads s1 t = mkThread [] Idle \/ t = 0) /\
  threads s1 0 = mkThread [] Idle /\ collects s1 s2 /\ heap s2 0 = None /\ data s2 = [] /\
  steps py_eq true (fun _ => True) s2 s3 /\ heap s3 0 = Some (OAtom 0 (VInt 2)) /\
  steps_holding py_eq true (fun _ => True) 0 s3 s4 /\ referenced s3 0 /\ heap s4 0 = Some (OAtom 0 (VInt 2)) /\ heap s4 1 = Some (OLeaf 0).
Proof.
  destruct (run_case py_eq true (fun _ => True) (whole 0 (KAtom 0 (VInt 1)) 0 4) (fun s0 =>
    held (threads s0 0) = [] ++ 0 :: [] /\ at_ (threads s0 0) = Idle /\ heap s0 0 = Some (OAtom 0 (VInt 1)) /\
    (forall a, a <> 0 -> heap s0 a = None) /\ data s0 = [(KAtom 0 (VInt 1), 0)] /\ (forall t, t <> 0 -> threads s0 t = mkThread [] Idle) /\ wrefs s0 0 = Some 0))
    as (s0 & R0 & Hh & Hat & Ha & Hn & Hd & Ht & Hw); [all_may| |].
  { vm_compute. repeat split; [intros [|a] Ha; [destruct Ha; reflexivity|reflexivity]..]. }
  set (s1 := set_thread s0 0 (mkThread ([] ++ []) (at_ (threads s0 0)))).
  assert (R1 : reachable py_eq true (fun _ => True) s1) by (eapply steps_more; [exact R0|exact (s_drop py_eq true _ s0 0 [] 0 [] Hh)]).
  assert (T1 : forall t, threads s1 t = mkThread [] Idle).
  { intros t. unfold s1. cbn [set_thread threads app]. rewrite Hat. destruct (Nat.eq_dec t 0) as [->|Hne]; [apply upd_same|rewrite upd_other by exact Hne; apply Ht, Hne]. }
  assert (U : unreferenced s1 0).
  { split; [intros t; rewrite T1; auto|]. split.
    - intros b o Hb. unfold s1 in Hb. cbn [set_thread heap] in Hb. destruct (Nat.eq_dec b 0) as [->|Hne]; [rewrite Ha in Hb; injection Hb as <-; auto|].
      rewrite (Hn b Hne) in Hb. discriminate.
    - intros k w Hin. unfold s1 in Hin. cbn [set_thread data] in Hin. rewrite Hd in Hin. destruct Hin as [Hin|[]]. injection Hin as <- <-. auto. }
  set (s2 := remove_entry (collect s1 0) [] []).
  assert (C2 : collects s1 s2).
  { eapply collects_entry; [eapply collects_obj; [constructor|exact Ha|exact U]|exact Hd|]. cbn [collect wrefs s1 set_thread]. rewrite Hw. reflexivity. }
  assert (T2 : forall t, threads s2 t = mkThread [] Idle) by exact T1.
  assert (N2 : forall a, heap s2 a = None).
  { intros a. unfold s2. cbn [remove_entry collect heap]. destruct (Nat.eq_dec a 0) as [->|Hne]; [apply upd_same|]. rewrite upd_other by exact Hne. apply Hn, Hne. }
  set (k := KAtom 0 (VInt 2)).
  set (s3a := goto s2 0 (Call k)). set (s3b := goto s3a 0 (Make k)). set (s3c := goto (alloc s3b 0 (obj_of k)) 0 (Made k 0)).
  set (s3d := goto (store_new py_eq s3c k 0) 0 (Done k 0)). set (s3 := goto (hold s3d 0 0) 0 Idle).
  assert (R3 : steps py_eq true (fun _ => True) s2 s3).
  { apply (steps_more py_eq true _ s2 s3d s3); [apply (steps_more py_eq true _ s2 s3c s3d); [apply (steps_more py_eq true _ s2 s3b s3c);
      [apply (steps_more py_eq true _ s2 s3a s3b); [apply (steps_more py_eq true _ s2 s2 s3a); [constructor|]|]|]|]|].
    - apply s_call; [rewrite T2; reflexivity|exact I|intros a []].
    - apply s_get_none; reflexivity.
    - apply s_alloc; [reflexivity|reflexivity|apply N2].
    - apply s_setdefault_new; [reflexivity|reflexivity|discriminate].
    - apply (s_return py_eq true _ s3d 0 k 0). reflexivity. }
  set (k' := KLeaf 0 : key pyval).
  set (s4a := goto s3 0 (Call k')). set (s4b := goto s4a 0 (Make k')). set (s4 := goto (alloc s4b 1 (obj_of k')) 0 (Made k' 1)).
  exists s1, s2, s3, s4. split; [exact R1|]. split; [exact Ha|]. split; [intros t; left; apply T1|]. split; [apply T1|]. split; [exact C2|].
  split; [apply N2|]. split; [reflexivity|]. split; [exact R3|]. split; [reflexivity|].
  assert (F : referenced s3 0) by (exists 0; left; left; reflexivity). split; [|split; [exact F|split; reflexivity]].
  apply (holding_more py_eq true _ 0 s3 s4b s4); [apply (holding_more py_eq true _ 0 s3 s4a s4b); [apply (holding_more py_eq true _ 0 s3 s3 s4a); [constructor|..]|..]|..].
  - apply s_call; [reflexivity|exact I|]. intros a [<-|[]]. left. reflexivity.
  - exists 0. left. left. reflexivity.
  - apply s_get_none; reflexivity.
  - exists 0. left. left. reflexivity.
  - apply s_alloc; [reflexivity|reflexivity|apply N2].
  - exists 0. left. left. reflexivity.
Qed.
(** C56: a thread in the middle of a call, while another is in one too. *)
Example C56_case : exists s s', reachable py_eq true (fun _ => True) s /\ at_ (threads s 0) = Make (KAtom 0 (VInt 1)) /\
  at_ (threads s 1) = Made (KAtom 0 (VInt 1)) 0 /\ during_call py_eq true (fun _ => True) 1 s 1 s' /\ at_ (threads s' 1) = Done (KAtom 0 (VInt 1)) 0.
Proof.
  set (k := KAtom 0 (VInt 1)). set (l := [ACall 0 k; AMove 0 0; ACall 1 k; AMove 1 0; AMove 1 0]).
  destruct (run_case py_eq true (fun _ => True) l (fun s => at_ (threads s 0) = Make k /\ at_ (threads s 1) = Made k 0 /\ data s = []))
    as (s & R & H0 & H1 & Hd); [all_may|vm_compute; auto|].
  exists s, (goto (store_new py_eq s k 0) 1 (Done k 0)). split; [exact R|]. split; [exact H0|]. split; [exact H1|]. split; [|reflexivity].
  eapply during_own; [constructor; rewrite H1; discriminate|apply s_setdefault_new; [reflexivity|exact H1|rewrite Hd; discriminate]|rewrite H1; discriminate|discriminate].
Qed.
