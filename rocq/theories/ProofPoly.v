(** * Repeated derivatives share their subexpressions: proofs for C96 *)
From Verif Require Import Py ModelTree SpecTree ProofBase ModelDiff ModelCas SpecDiff SpecCas ProofCasDiff.
From Verif Require ProofBin.

Section Poly.
  Variable s : string.
  (** The derivative, zero where there is none. *)
  Definition dv (t : tree) : tree := match deriv cas_diff (Symbol s) t with Ok d => d | Err _ => zero end.
  Fixpoint it (m : nat) (t : tree) : tree := match m with O => t | S m' => it m' (dv t) end.

  Lemma it_S m t : it m (dv t) = it (S m) t. Proof. reflexivity. Qed.
  Lemma dv_it m t : dv (it m t) = it (S m) t.
  Proof. revert t. induction m as [|m IH]; intros t; [reflexivity|]. cbn [it]. rewrite IH. reflexivity. Qed.
  Lemma dv_int n : dv (Integer n) = zero. Proof. reflexivity. Qed.
  Lemma it_zero m : it m zero = zero.
  Proof. induction m as [|m IH]; [reflexivity|]. exact IH. Qed.

  Notation R := (reach false []).
  Lemma R_zero u : R zero u -> u = zero. Proof. apply ProofBin.reach_leaf. reflexivity. Qed.
  Lemma R2 h a b u : R (Node [h; a; b]) u -> u = Node [h; a; b] \/ R a u \/ R b u.
  Proof. intros H. apply ProofBin.reach_node_inv in H as [->|(c & [<-|[<-|[]]] & H)]; auto. Qed.
  Lemma R1 h a u : R (Node [h; a]) u -> u = Node [h; a] \/ R a u.
  Proof. intros H. apply ProofBin.reach_node_inv in H as [->|(c & [<-|[]] & H)]; auto. Qed.

  (** ** The derivative of an operation, in cases *)
  Lemma dv_add p q : dv (Node [Add; p; q]) = zero \/ dv (Node [Add; p; q]) = dv p \/ dv (Node [Add; p; q]) = dv q \/
    dv (Node [Add; p; q]) = Node [Add; dv p; dv q].
  Proof.
    unfold dv. rewrite D_add. cbn [mapM]. destruct (deriv cas_diff (Symbol s) p) as [dp|]; [|auto]. destruct (deriv cas_diff (Symbol s) q) as [dq|]; [|auto].
    cbn [bind]. unfold dependent. cbn [length seq combine filter snd]. destruct (tree_eqb dp zero), (tree_eqb dq zero); cbn; auto.
  Qed.
  Lemma dv_mul p q : dv (Node [Mul; p; q]) = zero \/ dv (Node [Mul; p; q]) = Node [Mul; dv p; q] \/ dv (Node [Mul; p; q]) = Node [Mul; p; dv q] \/
    dv (Node [Mul; p; q]) = Node [Add; Node [Mul; dv p; q]; Node [Mul; p; dv q]].
  Proof.
    unfold dv. rewrite D_mul. cbn [mapM]. destruct (deriv cas_diff (Symbol s) p) as [dp|]; [|auto]. destruct (deriv cas_diff (Symbol s) q) as [dq|]; [|auto].
    cbn [bind]. unfold dependent. cbn [length seq combine filter snd]. destruct (tree_eqb dp zero), (tree_eqb dq zero); cbn; auto.
  Qed.
  Lemma dv_cmul c q : dv c = zero -> dv (Node [Mul; c; q]) = zero \/ dv (Node [Mul; c; q]) = Node [Mul; c; dv q].
  Proof.
    unfold dv. rewrite D_mul. cbn [mapM]. destruct (deriv cas_diff (Symbol s) c) as [dp|]; [intros ->|auto]. destruct (deriv cas_diff (Symbol s) q) as [dq|]; [|auto].
    cbn [bind]. unfold dependent. cbn [length seq combine filter snd]. rewrite tree_eqb_refl. destruct (tree_eqb dq zero); cbn; auto.
  Qed.
  Lemma dv_cadd c c' : dv c = zero -> dv c' = zero -> dv (Node [Add; c; c']) = zero.
  Proof. intros H1 H2. unfold dv in *. rewrite D_add. cbn [mapM]. destruct (deriv cas_diff (Symbol s) c); [|reflexivity]. subst. destruct (deriv cas_diff (Symbol s) c'); [|reflexivity]. subst. reflexivity. Qed.
  Lemma times_cases r d : times r d = zero \/ times r d = r \/ times r d = Node [Mul; r; d].
  Proof. unfold times. destruct (tree_eqb d zero); [auto|]. destruct (tree_eqb d one); auto. Qed.
  Lemma dv_sin a : dv (Node [sin; a]) = zero \/ dv (Node [sin; a]) = Node [cos; a] \/ dv (Node [sin; a]) = Node [Mul; Node [cos; a]; dv a].
  Proof. unfold dv. rewrite D_sin. destruct (deriv cas_diff (Symbol s) a) as [d|]; [|auto]. cbn [bind]. apply times_cases. Qed.
  Lemma dv_cos a : dv (Node [cos; a]) = zero \/ dv (Node [cos; a]) = Node [Mul; negone; Node [sin; a]] \/
    dv (Node [cos; a]) = Node [Mul; Node [Mul; negone; Node [sin; a]]; dv a].
  Proof. unfold dv. rewrite D_cos. destruct (deriv cas_diff (Symbol s) a) as [d|]; [|auto]. cbn [bind]. apply times_cases. Qed.
  Lemma dv_pow a b : dv (Node [Pow; a; b]) = zero \/ dv b = zero /\
    (dv (Node [Pow; a; b]) = Node [Mul; b; Node [Pow; a; Node [Add; b; negone]]] \/
     dv (Node [Pow; a; b]) = Node [Mul; Node [Mul; b; Node [Pow; a; Node [Add; b; negone]]]; dv a]).
  Proof.
    unfold dv. rewrite D_pow. destruct (deriv cas_diff (Symbol s) a) as [d|]; [|auto]. destruct (deriv cas_diff (Symbol s) b) as [d'|]; [|auto]. cbn [bind].
    destruct (tree_eqb_spec d' zero) as [->|]; [|auto]. destruct (times_cases (Node [Mul; b; Node [Pow; a; Node [Add; b; negone]]]) d) as [->|[->| ->]]; auto.
  Qed.

  (** ** What a repeated derivative is made of *)
  Lemma it_add m p q u : R (it m (Node [Add; p; q])) u -> u = it m (Node [Add; p; q]) \/ R (it m p) u \/ R (it m q) u \/ u = zero.
  Proof.
    revert p q. induction m as [|m IH]; intros p q H; cbn [it] in *.
    - apply R2 in H. tauto.
    - destruct (dv_add p q) as [E|[E|[E|E]]]; rewrite E in *; auto. rewrite it_zero in H. apply R_zero in H. auto.
  Qed.
  Lemma it_cmul c m X u : dv c = zero -> R (it m (Node [Mul; c; X])) u -> u = it m (Node [Mul; c; X]) \/ R c u \/ R (it m X) u \/ u = zero.
  Proof.
    intros Hc. revert X. induction m as [|m IH]; intros X H; cbn [it] in *.
    - apply R2 in H. tauto.
    - destruct (dv_cmul c X Hc) as [E|E]; rewrite E in *; auto. rewrite it_zero in H. apply R_zero in H. auto.
  Qed.
  (** Products of derivatives of [a] and derivatives of [b]. *)
  Lemma it_family a b m : forall i j u, R (it m (Node [Mul; it i a; it j b])) u ->
    u = zero \/ (exists i' j' m', i <= i' /\ j <= j' /\ i' + j' + m' <= i + j + m /\ u = it m' (Node [Mul; it i' a; it j' b])) \/
    (exists i', i' <= i + m /\ R (it i' a) u) \/ (exists j', j' <= j + m /\ R (it j' b) u).
  Proof.
    induction m as [|m IH]; intros i j u H.
    - cbn [it] in H. apply R2 in H as [->|[H|H]].
      + right. left. exists i, j, 0. cbn [it]. repeat split; lia.
      + right. right. left. exists i. split; [lia|exact H].
      + right. right. right. exists j. split; [lia|exact H].
    - cbn [it] in H.
      assert (W1 : R (it m (Node [Mul; it (S i) a; it j b])) u -> u = zero \/
        (exists i' j' m', i <= i' /\ j <= j' /\ i' + j' + m' <= i + j + S m /\ u = it m' (Node [Mul; it i' a; it j' b])) \/
        (exists i', i' <= i + S m /\ R (it i' a) u) \/ (exists j', j' <= j + S m /\ R (it j' b) u)).
      { intros W. apply IH in W as [->|[(i' & j' & m' & W1 & W2 & W3 & W4)|[(i' & W1 & W2)|(j' & W1 & W2)]]]; [auto| | |].
        - right. left. exists i', j', m'. repeat split; try lia. exact W4.
        - right. right. left. exists i'. split; [lia|exact W2].
        - right. right. right. exists j'. split; [lia|exact W2]. }
      assert (W2 : R (it m (Node [Mul; it i a; it (S j) b])) u -> u = zero \/
        (exists i' j' m', i <= i' /\ j <= j' /\ i' + j' + m' <= i + j + S m /\ u = it m' (Node [Mul; it i' a; it j' b])) \/
        (exists i', i' <= i + S m /\ R (it i' a) u) \/ (exists j', j' <= j + S m /\ R (it j' b) u)).
      { intros W. apply IH in W as [->|[(i' & j' & m' & W2 & W3 & W4 & W5)|[(i' & W2 & W3)|(j' & W2 & W3)]]]; [auto| | |].
        - right. left. exists i', j', m'. repeat split; try lia. exact W5.
        - right. right. left. exists i'. split; [lia|exact W3].
        - right. right. right. exists j'. split; [lia|exact W3]. }
      pose proof (dv_mul (it i a) (it j b)) as Hm. rewrite !dv_it in Hm. destruct Hm as [E|[E|[E|E]]]; rewrite E in H.
      + rewrite it_zero in H. apply R_zero in H. auto.
      + exact (W1 H).
      + exact (W2 H).
      + apply it_add in H as [H|[H|[H|H]]]; [|exact (W1 H)|exact (W2 H)|auto].
        right. left. exists i, j, (S m). repeat split; try lia. cbn [it]. rewrite E. exact H.
  Qed.

  (** The exponents b, b - 1, b - 2, ... and what the power rule makes of them. *)
  Fixpoint expo (b : tree) (n : nat) : tree := match n with O => b | S n' => Node [Add; expo b n'; negone] end.
  Definition pw (a b : tree) (n : nat) : tree := Node [Pow; a; expo b n].
  Definition pz (a b : tree) (n : nat) : tree := Node [Mul; expo b n; pw a b (S n)].
  Lemma dv_expo b n : dv b = zero -> dv (expo b n) = zero.
  Proof. intros H. induction n as [|n IH]; [exact H|]. apply dv_cadd; [exact IH|reflexivity]. Qed.
  Lemma R_expo b n u : R (expo b n) u -> R b u \/ u = negone \/ exists n', n' <= n /\ u = expo b n'.
  Proof.
    induction n as [|n IH]; cbn [expo]; intros H; [auto|]. apply R2 in H as [->|[H|H]].
    - right. right. exists (S n). auto.
    - destruct (IH H) as [|[|(n' & ? & ?)]]; auto. right. right. exists n'. split; [lia|assumption].
    - apply ProofBin.reach_leaf in H; [auto|reflexivity].
  Qed.

  (** What a node contributes to the derivatives of order up to [L] of an expression it is part of. *)
  Inductive gen (L : nat) : tree -> tree -> Prop :=
  | g_self t m : m <= L -> gen L t (it m t)
  | g_mul a b i j m : i <= L -> j <= L -> m <= L -> gen L (Node [Mul; a; b]) (it m (Node [Mul; it i a; it j b]))
  | g_sin a m : m <= L -> gen L (Node [sin; a]) (it m (Node [cos; a]))
  | g_sin_neg a m : m <= L -> gen L (Node [sin; a]) (it m (Node [Mul; negone; Node [sin; a]]))
  | g_sin1 a i j m : i <= L -> j <= L -> m <= L -> gen L (Node [sin; a]) (it m (Node [Mul; it i (Node [cos; a]); it j a]))
  | g_sin2 a i j m : i <= L -> j <= L -> m <= L -> gen L (Node [sin; a]) (it m (Node [Mul; it i (Node [Mul; negone; Node [sin; a]]); it j a]))
  | g_cos a m : m <= L -> gen L (Node [cos; a]) (it m (Node [sin; a]))
  | g_cos_neg a m : m <= L -> gen L (Node [cos; a]) (it m (Node [Mul; negone; Node [sin; a]]))
  | g_cos1 a i j m : i <= L -> j <= L -> m <= L -> gen L (Node [cos; a]) (it m (Node [Mul; it i (Node [cos; a]); it j a]))
  | g_cos2 a i j m : i <= L -> j <= L -> m <= L -> gen L (Node [cos; a]) (it m (Node [Mul; it i (Node [Mul; negone; Node [sin; a]]); it j a]))
  | g_expo a b n : n <= L -> gen L (Node [Pow; a; b]) (expo b n)
  | g_pw a b n m : n <= L -> m <= L -> gen L (Node [Pow; a; b]) (it m (pw a b n))
  | g_pz a b n m : n <= L -> m <= L -> gen L (Node [Pow; a; b]) (it m (pz a b n))
  | g_pz1 a b n i j m : n <= L -> i <= L -> j <= L -> m <= L -> gen L (Node [Pow; a; b]) (it m (Node [Mul; it i (pz a b n); it j a])).

  Lemma gen_le L L' t u : L <= L' -> gen L t u -> gen L' t u.
  Proof. intros Hl H. destruct H; constructor; lia. Qed.

  Definition made (L : nat) (e u : tree) : Prop := u = zero \/ u = one \/ u = negone \/ exists t, R e t /\ gen L t u.
  Lemma made_le L L' e u : L <= L' -> made L e u -> made L' e u.
  Proof. intros Hl [|[|[|(t & H1 & H2)]]]; unfold made; auto. right. right. right. exists t. split; [exact H1|]. eapply gen_le; eauto. Qed.
  Lemma made_arg L h args a u : In a args -> made L a u -> made L (Node (h :: args)) u.
  Proof. intros Ha [|[|[|(t & H1 & H2)]]]; unfold made; auto. right. right. right. exists t. split; [eapply ProofBin.reach_arg; eauto|exact H2]. Qed.
  Lemma made_here L e u : gen L e u -> made L e u.
  Proof. intros H. right. right. right. exists e. split; [apply ProofBin.reach_refl|exact H]. Qed.

  (** sin and cos: [e0] is either, the same for both. *)
  Definition trig_gen (L : nat) (a e0 : tree) : Prop :=
    (forall m, m <= L -> gen L e0 (it m (Node [sin; a]))) /\ (forall m, m <= L -> gen L e0 (it m (Node [cos; a]))) /\
    (forall m, m <= L -> gen L e0 (it m (Node [Mul; negone; Node [sin; a]]))) /\
    (forall i j m, i <= L -> j <= L -> m <= L -> gen L e0 (it m (Node [Mul; it i (Node [cos; a]); it j a]))) /\
    (forall i j m, i <= L -> j <= L -> m <= L -> gen L e0 (it m (Node [Mul; it i (Node [Mul; negone; Node [sin; a]]); it j a]))).
  Lemma trig_sin L a : trig_gen L a (Node [sin; a]).
  Proof. repeat split; intros; try (constructor; assumption); apply (g_self L (Node [sin; a])); assumption. Qed.
  Lemma trig_cos L a : trig_gen L a (Node [cos; a]).
  Proof. repeat split; intros; try (constructor; assumption); apply (g_self L (Node [cos; a])); assumption. Qed.

  Lemma trig_made L a e0 (H0 : trig_gen L a e0) (Ha : forall m u, m <= L -> R (it m a) u -> made L e0 u) :
    forall m, m <= L -> (forall u, R (it m (Node [sin; a])) u -> made L e0 u) /\ (forall u, R (it m (Node [cos; a])) u -> made L e0 u).
  Proof.
    destruct H0 as (G1 & G2 & G3 & G4 & G5).
    induction m as [m IH] using lt_wf_ind. intros Hm.
    assert (Hz : made L e0 zero) by (left; reflexivity).
    assert (Neg : forall i u, i < m -> R (it i (Node [Mul; negone; Node [sin; a]])) u -> made L e0 u).
    { intros i u Hi Hu. apply it_cmul in Hu; [|reflexivity]. destruct Hu as [->|[Hu|[Hu| ->]]].
      - apply made_here, G3. lia.
      - apply ProofBin.reach_leaf in Hu; [|reflexivity]. subst u. right. right. left. reflexivity.
      - exact (proj1 (IH i Hi ltac:(lia)) u Hu).
      - exact Hz. }
    destruct m as [|m].
    - cbn [it]. split; intros u Hu; apply R1 in Hu as [->|Hu]; try (apply (Ha 0); [lia|exact Hu]); apply made_here; [apply (G1 0)|apply (G2 0)]; lia.
    - cbn [it]. split; intros u Hu.
      + destruct (dv_sin a) as [E|[E|E]]; rewrite E in Hu.
        * rewrite it_zero in Hu. apply R_zero in Hu. subst u. exact Hz.
        * exact (proj2 (IH m ltac:(lia) ltac:(lia)) u Hu).
        * apply (it_family (Node [cos; a]) a m 0 1) in Hu as [->|[(i' & j' & m' & W1 & W2 & W3 & ->)|[(i' & W1 & Hu)|(j' & W1 & Hu)]]].
          -- exact Hz.
          -- apply made_here, G4; lia.
          -- exact (proj2 (IH i' ltac:(lia) ltac:(lia)) u Hu).
          -- apply (Ha j'); [lia|exact Hu].
      + destruct (dv_cos a) as [E|[E|E]]; rewrite E in Hu.
        * rewrite it_zero in Hu. apply R_zero in Hu. subst u. exact Hz.
        * apply (Neg m); [lia|exact Hu].
        * apply (it_family (Node [Mul; negone; Node [sin; a]]) a m 0 1) in Hu as [->|[(i' & j' & m' & W1 & W2 & W3 & ->)|[(i' & W1 & Hu)|(j' & W1 & Hu)]]].
          -- exact Hz.
          -- apply made_here, G5; lia.
          -- apply (Neg i'); [lia|exact Hu].
          -- apply (Ha j'); [lia|exact Hu].
  Qed.

  Lemma pow_made L a b (Ha : forall m u, m <= L -> R (it m a) u -> made L (Node [Pow; a; b]) u)
    (Hb : forall u, R b u -> made L (Node [Pow; a; b]) u) :
    forall m n, n + m <= L -> n = 0 \/ dv b = zero -> forall u, R (it m (pw a b n)) u -> made L (Node [Pow; a; b]) u.
  Proof.
    assert (Hz : made L (Node [Pow; a; b]) zero) by (left; reflexivity).
    assert (He : forall n u, n <= L -> R (expo b n) u -> made L (Node [Pow; a; b]) u).
    { intros n u Hn Hu. apply R_expo in Hu as [Hu|[->|(n' & Hn' & ->)]].
      - exact (Hb u Hu).
      - right. right. left. reflexivity.
      - apply made_here. apply (g_expo L a b). lia. }
    induction m as [m IH] using lt_wf_ind. intros n Hnm Hn u Hu.
    destruct m as [|m].
    - cbn [it] in Hu. unfold pw in Hu. apply R2 in Hu as [->|[Hu|Hu]].
      + apply made_here, (g_pw L a b n 0); lia.
      + apply (Ha 0); [lia|exact Hu].
      + apply (He n); [lia|exact Hu].
    - cbn [it] in Hu. unfold pw in Hu at 1. destruct (dv_pow a (expo b n)) as [E|[E0 E]].
      { rewrite E, it_zero in Hu. apply R_zero in Hu. subst u. exact Hz. }
      assert (Hb0 : dv b = zero) by (destruct Hn as [->|Hn]; assumption).
      assert (Zn : forall i u, i <= m -> R (it i (pz a b n)) u -> made L (Node [Pow; a; b]) u).
      { intros i v Hi Hv. unfold pz in Hv. apply it_cmul in Hv; [|exact E0]. destruct Hv as [->|[Hv|[Hv| ->]]].
        - apply made_here, (g_pz L a b n i); lia.
        - apply (He n); [lia|exact Hv].
        - apply (IH i) with (n := S n); [lia|lia|right; exact Hb0|exact Hv].
        - exact Hz. }
      destruct E as [E|E]; rewrite E in Hu.
      + apply (Zn m); [lia|exact Hu].
      + apply (it_family (pz a b n) a m 0 1) in Hu as [->|[(i' & j' & m' & W1 & W2 & W3 & ->)|[(i' & W1 & Hu)|(j' & W1 & Hu)]]].
        -- exact Hz.
        -- apply made_here, g_pz1; lia.
        -- apply (Zn i'); [lia|exact Hu].
        -- apply (Ha j'); [lia|exact Hu].
  Qed.
End Poly.
