(** * copy.deepcopy: C104 *)
From Verif Require Import Py ModelIntern SpecIntern ModelCopy ModelDeepcopy SpecCopy ProofIntern ProofInternLive PropsIntern.

(** ** Specification *)
Section Spec.
  Context {V : Type}.
  (** A Tree: an atom in it is an Atom, everything else a Tree. *)
  Fixpoint tree_term (m : @term V) : bool :=
    match m with
    | MLeaf (MAtom _ _) => true
    | MNode l => forallb tree_term l
    | _ => false
    end.
  (** No atom in it: built from Tree() alone. *)
  Fixpoint atomless (m : @term V) : bool := match m with MNode l => forallb atomless l | _ => false end.
  (** The first thing in it, following first children, is an atom, as in every expression f(...) with an atom f. *)
  Fixpoint starts_with_atom (m : @term V) : bool :=
    match m with MNode (h :: _) => starts_with_atom h | MNode [] => false | _ => true end.
  Fixpoint depth (m : @term V) : nat :=
    match m with
    | MAtom _ _ => 0
    | MLeaf m | MSym _ m => S (depth m)
    | MNode l => S (fold_right Nat.max 0 (map depth l))
    end.
  Definition width (m : @term V) : nat := match m with MNode l => length l | _ => 0 end.
  Inductive part : @term V -> @term V -> Prop :=
  | part_self m : part m m
  | part_child m c l : In c l -> part m c -> part m (MNode l).
  (** The memory differs at most in the contents of [E], a tree that now has itself as a child, [k] times. *)
  Definition only_self_loops (E : addr) (k : nat) (h h' : addr -> option (obj V)) : Prop :=
    h' E = Some (ONode (repeat E k)) /\ forall a, a <> E -> h' a = h a.
End Spec.

Section Term.
  Context {V : Type} (P : @term V -> Prop).
  Context (Ha : forall ty v, P (MAtom ty v)) (Hl : forall m, P m -> P (MLeaf m)) (Hn : forall l, (forall m, In m l -> P m) -> P (MNode l))
    (Hs : forall c m, P m -> P (MSym c m)).
  Fixpoint term_all (m : @term V) : P m :=
    match m with
    | MAtom ty v => Ha ty v
    | MLeaf m => Hl m (term_all m)
    | MNode l => Hn l ((fix go (l : list (@term V)) : forall m, In m l -> P m :=
        match l with
        | [] => fun m H => match H with end
        | m :: r => fun m' H => match H with or_introl E => eq_ind m P (term_all m) m' E | or_intror H => go r m' H end
        end) l)
    | MSym c m => Hs c m (term_all m)
    end.
End Term.

Section Proof.
  Context {V : Type} (E : addr) (h0 : addr -> option (obj V)).
  Context (HE : h0 E = Some (ONode [])).
  Notation dcopy := (@dcopy V E).
  Notation dcopies n := (@dcopies V (dcopy n)).

  Definition memo_ok (d : nat) (mm : memo_t) : Prop :=
    forall x y, memo_get mm x = Some y -> y = E /\ exists m, denotes h0 x m /\ (atomless m = true \/ d < depth m).
  Lemma memo_weaken d d' mm : d <= d' -> memo_ok d' mm -> memo_ok d mm.
  Proof. intros Hd H x y Hx. destruct (H x y Hx) as (-> & m & Hm & Hc). split; [reflexivity|]. exists m. split; [exact Hm|]. destruct Hc; [auto|right; lia]. Qed.
  Lemma memo_add d x m mm : denotes h0 x m -> atomless m = true \/ d < depth m -> memo_ok d mm -> memo_ok d ((x, E) :: mm).
  Proof.
    intros Hx Hm H z y Hz. cbn [memo_get] in Hz. destruct (Nat.eqb_spec z x) as [->|_]; [|exact (H z y Hz)].
    injection Hz as <-. split; [reflexivity|]. eauto.
  Qed.
  Lemma depth_child c l : In c l -> depth c < @depth V (MNode l).
  Proof.
    intros H. cbn [depth]. apply Nat.lt_succ_r. induction l as [|m l IH]; [destruct H|]. cbn [map fold_right].
    destruct H as [->|H]; [lia|]. specialize (IH H). lia.
  Qed.

  Definition state_ok (k : nat) (h : @heap_t V) : Prop := h E = Some (ONode (repeat E k)) /\ forall a, a <> E -> h a = h0 a.

  (** Copying E itself changes nothing. *)
  Lemma copies_of_E n k h mm : 0 < n -> memo_get mm E = Some E -> dcopies n h mm (repeat E k) = Some (Ok (repeat E k), h, mm).
  Proof.
    intros Hn Hm. destruct n as [|n]; [lia|].
    assert (Hone : dcopy (S n) h mm E = Some (Ok E, h, mm)) by (cbn [ModelDeepcopy.dcopy]; rewrite Hm; reflexivity).
    induction k as [|k IH]; [reflexivity|]. cbn [repeat ModelDeepcopy.dcopies]. rewrite Hone, IH. reflexivity.
  Qed.
  Lemma copy_E n k h mm : 1 < n -> state_ok k h -> memo_ok 0 mm -> exists h' mm', dcopy n h mm E = Some (Ok E, h', mm') /\ state_ok k h' /\
    (mm' = mm \/ mm' = (E, E) :: mm).
  Proof.
    intros Hn [H1 H2] Hm. destruct n as [|n]; [lia|]. cbn [ModelDeepcopy.dcopy]. destruct (memo_get mm E) as [y|] eqn:Em.
    - destruct (Hm E y Em) as [-> _]. exists h, mm. split; [reflexivity|]. split; [split; assumption|auto].
    - rewrite H1. rewrite copies_of_E; [|lia|cbn [memo_get]; rewrite Nat.eqb_refl; reflexivity]. do 2 eexists. split; [reflexivity|]. split; [|auto].
      split; [rewrite upd_same; reflexivity|]. intros a Ha. unfold upd. destruct (Nat.eqb_spec a E) as [->|_]; [contradiction|apply H2, Ha].
  Qed.

  Definition outcome (m : @term V) (d k : nat) (r : option (res addr * heap_t * memo_t)) (mm : memo_t) : Prop :=
    exists res h' mm' k', r = Some (res, h', mm') /\ state_ok k' h' /\
      (k' = k \/ exists p, part p m /\ atomless p = true /\ k' = width p) /\
      (if atomless m then res = Ok E /\ memo_ok d mm' else res = Err TypeError) /\
      (starts_with_atom m = true -> k' = k).

  Lemma copy_spec m : tree_term m = true -> forall x n h mm k, denotes h0 x m -> S (depth m) < n ->
    state_ok k h -> memo_ok (depth m) mm -> forall d, memo_ok d mm -> outcome m d k (dcopy n h mm x) mm.
  Proof.
    induction m as [ty v|m IH|l IH|c m IH] using term_all; intros Ht x n h mm k Hx Hn Hs Hm d Hmd; try discriminate.
    - (* a leaf *) destruct m as [ty v| | |]; try discriminate. inversion Hx as [|? b ? Hb Hbm| |]; subst. inversion Hbm as [? ? ? Hbv| | |]; subst.
      destruct n as [|[|n]]; [lia|lia|]. 
      assert (Hxe : x <> E) by (intros ->; congruence). assert (Hbe : b <> E) by (intros ->; congruence).
      exists (Err TypeError), h, ((x, E) :: mm), k. split; [|repeat split; auto; apply Hs].
      cbn [ModelDeepcopy.dcopy]. destruct (memo_get mm x) as [y|] eqn:Em.
      { exfalso. destruct (Hm x y Em) as (_ & m' & Hm' & Hc). rewrite <- (denotes_fun _ _ _ Hx _ Hm') in Hc. cbn in Hc. destruct Hc; [discriminate|lia]. }
      destruct Hs as [Hs1 Hs2]. rewrite (Hs2 x Hxe), Hb. cbn [memo_get].
      destruct (Nat.eqb_spec b x) as [->|_]; [congruence|].
      destruct (memo_get mm b) as [y|] eqn:Em'.
      { exfalso. destruct (Hmd b y Em') as (_ & m' & Hm' & _). destruct (Hm b y Em') as (_ & m2 & Hm2 & Hc).
        rewrite <- (denotes_fun _ _ _ Hbm _ Hm2) in Hc. cbn in Hc. destruct Hc; [discriminate|lia]. }
      rewrite (Hs2 b Hbe), Hbv. reflexivity.
    - (* a node *) inversion Hx as [| |? cs ? Hcs Hms|]; subst.
      destruct (Nat.eq_dec x E) as [->|Hxe].
      { assert (cs = []) by congruence. subst cs. inversion Hms; subst.
        destruct (copy_E n k h mm) as (h' & mm' & Hc & Hs' & Hmm); [cbn in Hn; lia|exact Hs|eapply memo_weaken; [|exact Hm]; lia|].
        exists (Ok E), h', mm', k. split; [exact Hc|]. split; [exact Hs'|]. split; [auto|]. split; [|auto]. split; [reflexivity|].
        destruct Hmm as [->| ->]; [exact Hmd|]. apply (memo_add d E (MNode [])); [exact Hx|left; reflexivity|exact Hmd]. }
      destruct n as [|n]; [lia|]. cbn [ModelDeepcopy.dcopy]. change (ModelDeepcopy.dcopy E n) with (dcopy n).
      destruct (memo_get mm x) as [y|] eqn:Em.
      { destruct (Hm x y Em) as (-> & m' & Hm' & Hc). rewrite <- (denotes_fun _ _ _ Hx _ Hm') in Hc. destruct Hc as [Hc|Hc]; [|lia].
        exists (Ok E), h, mm, k. rewrite Hc. split; [reflexivity|]. split; [exact Hs|]. split; [auto|]. split; [auto|]. intros _. reflexivity. }
      rewrite (proj2 Hs x Hxe), Hcs.
      assert (Hdep : forall c, In c l -> S (depth c) < n) by (intros c Hc; pose proof (depth_child c l Hc); lia).
      (* the children *)
      assert (Hch : forall d', (d' < depth (MNode l) \/ atomless (MNode l) = true) -> memo_ok d' mm ->
        exists r h' mm' k', dcopies n h ((x, E) :: mm) cs = Some (r, h', mm') /\ state_ok k' h' /\
          (k' = k \/ exists p c, In c l /\ part p c /\ atomless p = true /\ k' = width p) /\
          (if forallb atomless l then r = Ok (repeat E (length l)) /\ memo_ok d' mm' else r = Err TypeError) /\
          (starts_with_atom (MNode l) = true -> k' = k)).
      { intros d' Hd' Hmd'.
        assert (Hlow : forall c, In c l -> memo_ok (depth c) ((x, E) :: mm)).
        { intros c Hc. pose proof (depth_child c l Hc). apply (memo_add _ x (MNode l)); [exact Hx|right; assumption|]. eapply memo_weaken; [|exact Hm]. lia. }
        assert (Hmd2 : memo_ok d' ((x, E) :: mm)) by (apply (memo_add _ x (MNode l)); [exact Hx|tauto|exact Hmd']).
        assert (Hstart : starts_with_atom (MNode l) = match l with c :: _ => starts_with_atom c | [] => false end) by (destruct l; reflexivity).
        rewrite Hstart. cbn [tree_term] in Ht. clear Hstart Hd' Hmd' Hm Hmd Hcs Hx Hxe Em Hn. revert Hlow Hmd2. generalize ((x, E) :: mm) as mm1. intros mm1 Hlow Hmd2.
        revert h k mm1 Hs Hlow Hmd2. induction Hms as [|c m cs l Hc Hms IHms]; intros h k mm1 Hs Hlow Hmd2.
        - exists (Ok []), h, mm1, k. split; [reflexivity|]. split; [exact Hs|]. split; [auto|]. split; [split; [reflexivity|exact Hmd2]|]. intros _. reflexivity.
        - cbn [forallb] in Ht. apply andb_prop in Ht as [Ht1 Ht2]. cbn [ModelDeepcopy.dcopies].
          assert (Hboth : exists r h' mm' k', dcopy n h mm1 c = Some (r, h', mm') /\ state_ok k' h' /\
            (k' = k \/ exists p, part p m /\ atomless p = true /\ k' = width p) /\
            (if atomless m then r = Ok E /\ (forall d2, memo_ok d2 mm1 -> memo_ok d2 mm') else r = Err TypeError) /\
            (starts_with_atom m = true -> k' = k)).
          { pose proof (fun d2 H2 => IH m (or_introl eq_refl) Ht1 c n h mm1 k Hc (Hdep m (or_introl eq_refl)) Hs (Hlow m (or_introl eq_refl)) d2 H2) as G.
            destruct (G d' Hmd2) as (r & h' & mm' & k' & E1 & E2 & E3 & E4 & E5). exists r, h', mm', k'. repeat (split; [assumption|]). split; [|exact E5].
            destruct (atomless m) eqn:Ea; [|exact E4]. split; [apply E4|]. intros d2 H2. destruct (G d2 H2) as (r2 & h2 & mm2 & k2 & F1 & _ & _ & F4 & _).
            rewrite E1 in F1. injection F1 as <- <- <-. rewrite Ea in F4. apply F4. }
          destruct Hboth as (r & h1 & mm2 & k1 & -> & Hs1 & Hk1 & Hr1 & Hst1).
          cbn [forallb]. destruct (atomless m) eqn:Ea.
          + destruct Hr1 as [-> Hmm2].
            destruct (IHms (fun m' Hin => IH m' (or_intror Hin)) Ht2 (fun c' Hin => Hdep c' (or_intror Hin)) h1 k1 mm2 Hs1)
              as (r2 & h2 & mm3 & k2 & E2 & Hs2 & Hk2 & Hr2 & Hst2).
            { intros c' Hin. apply Hmm2, Hlow. right. exact Hin. }
            { apply Hmm2, Hmd2. }
            assert (Hnot : starts_with_atom m = false).
            { clear -Ea. induction m as [| |l IH|] using term_all; try discriminate. destruct l as [|c l]; [reflexivity|]. cbn in *.
              apply andb_prop in Ea as [Ea _]. apply IH; [left; reflexivity|exact Ea]. }
            assert (Hkk : k2 = k \/ exists p c0, In c0 (m :: l) /\ part p c0 /\ atomless p = true /\ k2 = width p).
            { destruct Hk2 as [->|(p & c0 & H1 & H2 & H3 & H4)]; [|right; exists p, c0; split; [right; exact H1|auto]].
              destruct Hk1 as [->|(p & H2 & H3 & H4)]; [auto|right; exists p, m; split; [left; reflexivity|auto]]. }
            rewrite E2. destruct r2 as [ys|e].
            * exists (Ok (E :: ys)), h2, mm3, k2. split; [reflexivity|]. split; [exact Hs2|]. split; [exact Hkk|]. split; [|congruence].
              cbn [andb]. destruct (forallb atomless l); [|discriminate]. destruct Hr2 as [Hr2 Hr3]. injection Hr2 as ->. auto.
            * exists (Err e), h2, mm3, k2. split; [reflexivity|]. split; [exact Hs2|]. split; [exact Hkk|]. split; [|congruence].
              cbn [andb]. destruct (forallb atomless l); [destruct Hr2; discriminate|exact Hr2].
          + subst r. exists (Err TypeError), h1, mm2, k1. split; [reflexivity|]. split; [exact Hs1|]. split; [|split; [reflexivity|exact Hst1]].
            destruct Hk1 as [->|(p & H1 & H2 & H3)]; [auto|]. right. exists p, m. split; [left; reflexivity|auto]. }
      cbn [atomless]. assert (Hd1 : exists d', (d' < depth (MNode l) \/ atomless (MNode l) = true) /\ memo_ok d' mm /\ (forallb atomless l = true -> d' = d)).
      { destruct (forallb atomless l) eqn:Ea; [exists d; split; [right; exact Ea|auto]|].
        exists 0. split; [left; cbn [depth]; lia|]. split; [eapply memo_weaken; [|exact Hm]; lia|discriminate]. }
      destruct Hd1 as (d' & Hd' & Hmd' & Hdd). destruct (Hch d' Hd' Hmd') as (r & h' & mm' & k' & E1 & Hs' & Hk' & Hr & Hst).
      assert (Hkk : k' = k \/ exists p, part p (MNode l) /\ atomless p = true /\ k' = width p).
      { destruct Hk' as [->|(p & c & H1 & H2 & H3 & H4)]; [auto|]. right. exists p. split; [eapply part_child; eassumption|auto]. }
      rewrite E1. unfold outcome. cbn [atomless]. destruct (forallb atomless l) eqn:Ea.
      + destruct Hr as [-> Hmm']. rewrite (Hdd eq_refl) in Hmm'.
        exists (Ok E), (upd h' E (Some (ONode (repeat E (length l))))), mm', (length l). split; [reflexivity|]. split.
        { split; [apply upd_same|]. intros a Ha. unfold upd. destruct (Nat.eqb_spec a E) as [->|_]; [contradiction|apply Hs', Ha]. }
        split; [right; exists (MNode l); split; [constructor|split; [exact Ea|reflexivity]]|]. split; [auto|].
        intros Hst'. exfalso. clear -Ea Hst'. assert (Hg : forall m : @term V, atomless m = true -> starts_with_atom m = false).
        { clear. intros m Ea. induction m as [| |l IH|] using term_all; try discriminate. destruct l as [|c l]; [reflexivity|]. cbn in *.
          apply andb_prop in Ea as [Ea _]. apply IH; [left; reflexivity|exact Ea]. }
        rewrite (Hg (MNode l) Ea) in Hst'. discriminate.
      + subst r. exists (Err TypeError), h', mm', k'. split; [reflexivity|]. split; [exact Hs'|]. split; [exact Hkk|]. split; [reflexivity|exact Hst].
  Qed.
End Proof.

Section Props.
  Context {V : Type} (E : addr) (h : addr -> option (obj V)).

  (** C104. copy.deepcopy of an Expr or Atom raises TypeError and changes nothing. *)
  Theorem C104_syms_and_atoms_raise n x : (exists c t, h x = Some (OSym c t)) \/ (exists ty v, h x = Some (OAtom ty v)) ->
    deepcopy E (S n) h x = Some (Err TypeError, h).
  Proof. unfold deepcopy. cbn [dcopy memo_get]. intros [(c & t & ->)|(ty & v & ->)]; reflexivity. Qed.

  (** Of a Tree whose first part is an atom, as that of every expression: the same, whatever its shape and sharing. *)
  Theorem C104_expressions_raise n x m : h E = Some (ONode []) -> denotes h x m -> tree_term m = true -> S (depth m) < n ->
    starts_with_atom m = true -> exists h', deepcopy E n h x = Some (Err TypeError, h') /\ forall a, h' a = h a.
  Proof.
    intros HE Hx Ht Hn Hst. destruct (copy_spec E h HE m Ht x n h [] 0 Hx Hn) with (d := 0) as (r & h' & mm & k & E1 & [Es1 Es2] & _ & E4 & E5).
    - split; [exact HE|reflexivity].
    - intros y z H. discriminate.
    - intros y z H. discriminate.
    - assert (Hg : atomless m = false).
      { clear -Hst. induction m as [| |l IH|] using term_all; try reflexivity. destruct l as [|c l]; [discriminate|]. cbn in *.
        rewrite (IH c (or_introl eq_refl) Hst). reflexivity. }
      rewrite Hg in E4. subst r. rewrite (E5 Hst) in Es1. exists h'. unfold deepcopy. rewrite E1. split; [reflexivity|].
      intros a. destruct (Nat.eq_dec a E) as [->|Ha]; [rewrite HE; exact Es1|apply Es2, Ha].
  Qed.

  (** Of any other Tree with an atom: TypeError too, but Tree() may have become a tree with itself as children. *)
  Theorem C104_trees_with_atoms_raise n x m : h E = Some (ONode []) -> denotes h x m -> tree_term m = true -> S (depth m) < n ->
    atomless m = false -> exists h' k, deepcopy E n h x = Some (Err TypeError, h') /\ only_self_loops E k h h' /\
      (k = 0 \/ exists p, part p m /\ atomless p = true /\ k = width p).
  Proof.
    intros HE Hx Ht Hn Hg. destruct (copy_spec E h HE m Ht x n h [] 0 Hx Hn) with (d := 0) as (r & h' & mm & k & E1 & Es & Ek & E4 & _).
    - split; [exact HE|reflexivity].
    - intros y z H. discriminate.
    - intros y z H. discriminate.
    - rewrite Hg in E4. subst r. exists h', k. unfold deepcopy. rewrite E1. auto.
  Qed.

  (** Of a Tree without atoms: the result is the object of Tree(), which now has itself as a child as often as the
      original has children. *)
  Theorem C104_atomless_trees n x m : h E = Some (ONode []) -> denotes h x m -> tree_term m = true -> S (depth m) < n ->
    atomless m = true -> exists h', deepcopy E n h x = Some (Ok E, h') /\ only_self_loops E (width m) h h' .
  Proof.
    intros HE Hx Ht Hn Hg. destruct (Nat.eq_dec x E) as [->|Hxe].
    - assert (m = MNode []) as -> by (apply (denotes_fun _ _ _ Hx); econstructor; [exact HE|constructor]).
      destruct (copy_E E h n 0 h []) as (h' & mm & E1 & Es & _); [cbn in Hn; lia|split; [exact HE|reflexivity]|intros y z H; discriminate|].
      exists h'. unfold deepcopy. rewrite E1. auto.
    - destruct (copy_spec E h HE m Ht x n h [] 0 Hx Hn) with (d := 0) as (r & h' & mm & k & E1 & Es & Ek & E4 & _).
      + split; [exact HE|reflexivity].
      + intros y z H. discriminate.
      + intros y z H. discriminate.
      + rewrite Hg in E4. destruct E4 as [-> _]. exists h'. unfold deepcopy. rewrite E1. split; [reflexivity|].
        (* the last assignment is that of the children of [x] *)
        assert (Hk : k = width m); [|subst k; exact Es]. clear Ek.
        inversion Hx as [| |? cs ms Hcs Hms|]; subst; try discriminate.
        destruct n as [|n]; [lia|]. cbn [dcopy memo_get] in E1. rewrite Hcs in E1.
        destruct (dcopies (dcopy E n) h [(x, E)] cs) as [[[[ys|e] h1] m1]|] eqn:Ed; try discriminate. injection E1 as <- <-.
        destruct Es as [Es _]. rewrite upd_same in Es. injection Es as Es. cbn [width].
        assert (Hl : forall cs (h : addr -> option (obj V)) mm ys h1 m1, dcopies (dcopy E n) h mm cs = Some (Ok ys, h1, m1) -> length ys = length cs).
        { clear. induction cs as [|c cs IH]; intros h mm ys h1 m1 H; cbn [dcopies] in H; [injection H as <- _ _; reflexivity|].
          destruct (dcopy E n h mm c) as [[[[y|e] h2] m2]|]; try discriminate.
          destruct (dcopies (dcopy E n) h2 m2 cs) as [[[[zs|e] h3] m3]|] eqn:Ed; try discriminate. injection H as <- _ _. cbn [length].
          f_equal. exact (IH _ _ _ _ _ Ed). }
        apply Hl in Ed. rewrite Es, repeat_length in Ed. rewrite Ed. clear -Hms. induction Hms; cbn [length]; congruence.
  Qed.
End Props.

(** A deep copy is not a copy: for every Tree other than Tree(), deepcopy raises or returns an object that stands for no tree. *)
Theorem C104_deepcopy_copies_refuted {V} (E : addr) (h : addr -> option (obj V)) n x m :
  h E = Some (ONode []) -> denotes h x m -> tree_term m = true -> S (depth m) < n -> m <> MNode [] ->
  ~ exists y h', deepcopy E n h x = Some (Ok y, h') /\ exists m', denotes h' y m'.
Proof.
  intros HE Hx Ht Hn Hne (y & h' & Hd & m' & Hm'). destruct (atomless m) eqn:Ea.
  - destruct (C104_atomless_trees E h n x m HE Hx Ht Hn Ea) as (h2 & Hd2 & Hs & _). rewrite Hd in Hd2. injection Hd2 as -> ->.
    assert (Hw : width m <> 0) by (destruct m as [| |[|c l]|]; try discriminate; cbn; congruence).
    revert Hm'. assert (G : forall m', ~ denotes h2 E m'); [|apply G].
    intros q. induction q as [ty v|q IH|l IH|c q IH] using term_all; intros H; inversion H as [? ? ? H1| ? ? ? H1|? cs ? H1 H2|? ? ? ? H1]; subst; try (rewrite Hs in H1; discriminate).
    rewrite Hs in H1. injection H1 as <-. destruct (width m) as [|k]; [contradiction|]. cbn [repeat] in H2. inversion H2 as [|? q ? l' Hq _]; subst.
    apply (IH q (or_introl eq_refl) Hq).
  - destruct (C104_trees_with_atoms_raise E h n x m HE Hx Ht Hn Ea) as (h2 & k & Hd2 & _). congruence.
Qed.

(** Objects: 0 is Tree(), 1 is Tree(Tree()), 2 an Atom, 3 its Tree, 4 is f(Tree()) for that Tree f, 5 is Tree(1, f),
    6 is Tree(1, 0), 7 the Expr of 4. *)
Definition dc_heap (a : addr) : option (obj nat) :=
  match a with
  | 0 => Some (ONode []) | 1 => Some (ONode [0]) | 2 => Some (OAtom 0 7) | 3 => Some (OLeaf 2)
  | 4 => Some (ONode [3; 0]) | 5 => Some (ONode [1; 3]) | 6 => Some (ONode [1; 0]) | 7 => Some (OSym 0 4) | _ => None
  end.
Definition dc_atom : @term nat := MLeaf (MAtom 0 7).
Example C104_case :
  denotes dc_heap 4 (MNode [dc_atom; MNode []]) /\ starts_with_atom (MNode [dc_atom; MNode []]) = true /\
  denotes dc_heap 5 (MNode [MNode [MNode []]; dc_atom]) /\ atomless (MNode [MNode [MNode []]; dc_atom]) = false /\
  denotes dc_heap 6 (MNode [MNode [MNode []]; MNode []]) /\ atomless (V := nat) (MNode [MNode [MNode []]; MNode []]) = true /\
  (exists h', deepcopy 0 9 dc_heap 4 = Some (Err TypeError, h') /\ h' 0 = Some (ONode [])) /\
  (exists h', deepcopy 0 9 dc_heap 5 = Some (Err TypeError, h') /\ h' 0 = Some (ONode [0])) /\
  (exists h', deepcopy 0 9 dc_heap 6 = Some (Ok 0, h') /\ h' 0 = Some (ONode [0; 0])) /\
  deepcopy 0 9 dc_heap 7 = Some (Err TypeError, dc_heap).
Proof.
  assert (H0 : denotes dc_heap 0 (MNode [])) by (econstructor; [reflexivity|constructor]).
  assert (H3 : denotes dc_heap 3 dc_atom) by (econstructor; [reflexivity|constructor; reflexivity]).
  assert (H1 : denotes dc_heap 1 (MNode [MNode []])) by (econstructor; [reflexivity|repeat constructor; exact H0]).
  split; [econstructor; [reflexivity|repeat constructor; assumption]|]. split; [reflexivity|].
  split; [econstructor; [reflexivity|repeat constructor; assumption]|]. split; [reflexivity|].
  split; [econstructor; [reflexivity|repeat constructor; assumption]|]. split; [reflexivity|].
  split; [eexists; split; vm_compute; reflexivity|]. split; [eexists; split; vm_compute; reflexivity|].
  split; [eexists; split; vm_compute; reflexivity|]. reflexivity.
Qed.
Print Assumptions C104_deepcopy_copies_refuted.
