(** * Checking facts about an expression too large to write out as a tree, on its graph: proofs for the documented example of C96 *)
From Coq Require Import FMapPositive.
From Verif Require Import Py ModelTree SpecTree ProofBase ModelDiff ModelCas SpecDiff SpecCas SpecPrint ProofCasDiff.
From Verif Require ProofBin.



(** A node of a graph over the symbol x: arguments are given by number. [dU true] is sin, [dU false] cos; [dB true] is Add, [dB false] Mul. *)
Inductive dnode := dX | dI (z : Z) | dU (c : bool) (a : positive) | dB (c : bool) (a b : positive).
Definition dnode_eqb (m n : dnode) : bool :=
  match m, n with
  | dX, dX => true
  | dI y, dI z => Z.eqb y z
  | dU c a, dU c' a' => Bool.eqb c c' && Pos.eqb a a'
  | dB c a b, dB c' a' b' => Bool.eqb c c' && Pos.eqb a a' && Pos.eqb b b'
  | _, _ => false
  end.
Lemma dnode_eqb_spec m n : reflect (m = n) (dnode_eqb m n).
Proof.
  destruct m, n; cbn; try (constructor; congruence).
  - destruct (Z.eqb_spec z z0); constructor; congruence.
  - destruct (Bool.eqb_spec c c0), (Pos.eqb_spec a a0); constructor; congruence.
  - destruct (Bool.eqb_spec c c0), (Pos.eqb_spec a a0), (Pos.eqb_spec b b0); constructor; congruence.
Qed.
Definition args_of (n : dnode) : list positive := match n with dX | dI _ => [] | dU _ a => [a] | dB _ a b => [a; b] end.
Definition is_node (o : option dnode) (n : dnode) : bool := match o with Some m => dnode_eqb m n | None => false end.
Lemma is_node_spec o n : is_node o n = true -> o = Some n.
Proof. destruct o as [m|]; cbn; [|discriminate]. destruct (dnode_eqb_spec m n); [congruence|discriminate]. Qed.

Section Dag.
  Context (s : string) (g : PositiveMap.t dnode).
  Definition uhead (c : bool) : tree := if c then sin else cos.
  Definition bhead (c : bool) : tree := if c then Add else Mul.
  (** Node [i] of the graph stands for the expression [t]. *)
  Inductive rep : positive -> tree -> Prop :=
  | rep_x i : PositiveMap.find i g = Some dX -> rep i (Symbol s)
  | rep_int i z : PositiveMap.find i g = Some (dI z) -> rep i (Integer z)
  | rep_un i c a t : PositiveMap.find i g = Some (dU c a) -> rep a t -> rep i (Node [uhead c; t])
  | rep_bin i c a b t u : PositiveMap.find i g = Some (dB c a b) -> rep a t -> rep b u -> rep i (Node [bhead c; t; u]).
  Lemma rep_inv i n t : PositiveMap.find i g = Some n -> rep i t ->
    match n with
    | dX => t = Symbol s
    | dI z => t = Integer z
    | dU c a => exists ta, rep a ta /\ t = Node [uhead c; ta]
    | dB c a b => exists ta tb, rep a ta /\ rep b tb /\ t = Node [bhead c; ta; tb]
    end.
  Proof.
    intros Hi Ht. destruct Ht as [i E|i z E|i c a t E H|i c a b t u E H1 H2]; rewrite Hi in E; injection E as ->; eauto 10.
  Qed.
  Lemma rep_fun i t : rep i t -> forall u, rep i u -> u = t.
  Proof.
    induction 1 as [i E|i z E|i c a t E H IH|i c a b t u E H1 IH1 H2 IH2]; intros w Hw; apply (rep_inv _ _ _ E) in Hw.
    - exact Hw.
    - exact Hw.
    - destruct Hw as (ta & Ha & ->). rewrite (IH _ Ha). reflexivity.
    - destruct Hw as (ta & tb & Ha & Hb & ->). rewrite (IH1 _ Ha), (IH2 _ Hb). reflexivity.
  Qed.

  (** Every node is listed once, after its arguments. *)
  Definition lookup (n : dnode) : option positive :=
    match filter (fun p => dnode_eqb (snd p) n) (PositiveMap.elements g) with [(i, _)] => Some i | _ => None end.
  Definition listed_once : bool :=
    forallb (fun p => match lookup (snd p) with Some i => Pos.eqb i (fst p) | None => false end) (PositiveMap.elements g).
  Definition ordered : bool :=
    forallb (fun p => forallb (fun a => Pos.ltb a (fst p) && match PositiveMap.find a g with Some _ => true | None => false end) (args_of (snd p))) (PositiveMap.elements g).
  Lemma once i j n : listed_once = true -> PositiveMap.find i g = Some n -> PositiveMap.find j g = Some n -> i = j.
  Proof.
    unfold listed_once. rewrite forallb_forall. intros H Hi Hj.
    pose proof (H _ (PositiveMap.elements_correct g i Hi)) as H1. pose proof (H _ (PositiveMap.elements_correct g j Hj)) as H2. cbn [fst snd] in H1, H2.
    destruct (lookup n); [|discriminate]. apply Pos.eqb_eq in H1, H2. congruence.
  Qed.
  Lemma head_inj c c' : uhead c = uhead c' -> c = c'. Proof. destruct c, c'; intros H; try reflexivity; discriminate H. Qed.
  Lemma head_inj2 c c' : bhead c = bhead c' -> c = c'. Proof. destruct c, c'; intros H; try reflexivity; discriminate H. Qed.
  Lemma rep_inj i t : listed_once = true -> rep i t -> forall j, rep j t -> i = j.
  Proof.
    intros Ho Hi. assert (G : forall j u, rep j u -> u = t -> i = j); [|intros j Hj; exact (G j t Hj eq_refl)].
    induction Hi as [i E|i z E|i c a t E H IH|i c a b t u E H1 IH1 H2 IH2]; intros j w Hj Et; destruct Hj as [j E'|j z' E'|j c' a' t' E' H'|j c' a' b' t' u' E' H1' H2'];
      try discriminate Et; try (destruct c; discriminate Et); try (destruct c'; discriminate Et).
    - exact (once i j _ Ho E E').
    - assert (z' = z) by (injection Et; auto). subst z'. exact (once i j _ Ho E E').
    - assert (uhead c' = uhead c /\ t' = t) as [Eh ->] by (split; congruence). apply head_inj in Eh. subst c'. rewrite <- (IH a' t H' eq_refl) in E'. exact (once i j _ Ho E E').
    - assert (bhead c' = bhead c /\ t' = t /\ u' = u) as [Eh [-> ->]] by (repeat split; congruence). apply head_inj2 in Eh. subst c'.
      rewrite <- (IH1 a' t H1' eq_refl), <- (IH2 b' u H2' eq_refl) in E'. exact (once i j _ Ho E E').
  Qed.
  Lemma ordered_args i n a : ordered = true -> PositiveMap.find i g = Some n -> In a (args_of n) -> (a < i)%positive /\ exists m, PositiveMap.find a g = Some m.
  Proof.
    unfold ordered. rewrite forallb_forall. intros H Hi Ha. pose proof (H _ (PositiveMap.elements_correct g i Hi)) as H1. cbn [fst snd] in H1. rewrite forallb_forall in H1.
    specialize (H1 a Ha). apply andb_true_iff in H1 as [H1 H2]. split; [apply Pos.ltb_lt, H1|]. destruct (PositiveMap.find a g) as [m|]; [eauto|discriminate].
  Qed.
  Lemma rep_total : ordered = true -> forall i n, PositiveMap.find i g = Some n -> exists t, rep i t.
  Proof.
    intros Ho i. induction i as [i IH] using (well_founded_induction (Wf_nat.well_founded_ltof positive Pos.to_nat)). intros n Hi.
    assert (Ha : forall a, In a (args_of n) -> exists t, rep a t).
    { intros a Ha. destruct (ordered_args i n a Ho Hi Ha) as [Hl [m Hm]]. exact (IH a (proj1 (Pos2Nat.inj_lt a i) Hl) m Hm). }
    destruct n as [|z|c a|c a b]; cbn [args_of] in Ha.
    - eexists. apply rep_x, Hi.
    - eexists. eapply rep_int, Hi.
    - destruct (Ha a (or_introl eq_refl)) as [t Ht]. eexists. eapply rep_un; eauto.
    - destruct (Ha a (or_introl eq_refl)) as [t Ht]. destruct (Ha b (or_intror (or_introl eq_refl))) as [u Hu]. eexists. eapply rep_bin; eauto.
  Qed.

  (** ** Derivatives *)
  Section Derivatives.
    Context (dt : PositiveMap.t positive).
    Let zero_at (i : positive) : bool := is_node (PositiveMap.find i g) (dI 0).
    Let one_at (i : positive) : bool := is_node (PositiveMap.find i g) (dI 1).
    (** Node [j] is node [r] times the derivative [d]. *)
    Definition times_ok (r_ok : positive -> bool) (d j : positive) : bool :=
      if zero_at d then zero_at j else if one_at d then r_ok j
      else match PositiveMap.find j g with Some (dB false r d') => r_ok r && Pos.eqb d d' | _ => false end.
    Definition neg_sin (a i : positive) : bool :=
      match PositiveMap.find i g with Some (dB false m r) => is_node (PositiveMap.find m g) (dI (-1)) && is_node (PositiveMap.find r g) (dU true a) | _ => false end.
    Definition mul_at (a b i : positive) : bool := is_node (PositiveMap.find i g) (dB false a b).
    Definition step_ok (n : dnode) (j : positive) : bool :=
      match n with
      | dX => one_at j
      | dI _ => zero_at j
      | dU c a => match PositiveMap.find a dt with
                  | Some da => times_ok (if c then fun i => is_node (PositiveMap.find i g) (dU false a) else neg_sin a) da j
                  | None => false
                  end
      | dB c a b =>
          match PositiveMap.find a dt, PositiveMap.find b dt with
          | Some da, Some db =>
              if zero_at da then if zero_at db then zero_at j else if c then Pos.eqb j db else mul_at a db j
              else if zero_at db then if c then Pos.eqb j da else mul_at da b j
              else if c then is_node (PositiveMap.find j g) (dB true da db)
              else match PositiveMap.find j g with Some (dB true u v) => mul_at da b u && mul_at a db v | _ => false end
          | _, _ => false
          end
      end.
    Definition derivatives_ok : bool :=
      forallb (fun p => match PositiveMap.find (fst p) g with Some n => step_ok n (snd p) | None => false end) (PositiveMap.elements dt).

    Lemma zero_rep i t : zero_at i = true -> rep i t -> t = zero.
    Proof. intros H Hr. apply is_node_spec in H. exact (rep_inv _ _ _ H Hr). Qed.
    Lemma one_rep i t : one_at i = true -> rep i t -> t = one.
    Proof. intros H Hr. apply is_node_spec in H. exact (rep_inv _ _ _ H Hr). Qed.
    Lemma rep_integer i z : rep i (Integer z) -> PositiveMap.find i g = Some (dI z).
    Proof.
      assert (G : forall u, rep i u -> u = Integer z -> PositiveMap.find i g = Some (dI z)); [|intros H; exact (G _ H eq_refl)].
      intros u Hu Eu. destruct Hu; try discriminate Eu. assert (z0 = z) by (injection Eu; auto). subst. assumption.
    Qed.
    Lemma not_zero i t : zero_at i = false -> rep i t -> tree_eqb t zero = false.
    Proof. intros H Hr. destruct (tree_eqb_spec t zero) as [->|]; [|reflexivity]. apply rep_integer in Hr. unfold zero_at in H. rewrite Hr in H. discriminate H. Qed.
    Lemma not_one i t : one_at i = false -> rep i t -> tree_eqb t one = false.
    Proof. intros H Hr. destruct (tree_eqb_spec t one) as [->|]; [|reflexivity]. apply rep_integer in Hr. unfold one_at in H. rewrite Hr in H. discriminate H. Qed.
    Lemma times_rep r_ok r d j td tj : (forall i t, r_ok i = true -> rep i t -> t = r) -> times_ok r_ok d j = true -> rep d td -> rep j tj -> times r td = tj.
    Proof.
      intros Hr H Hd Hj. unfold times_ok in H. unfold times. destruct (zero_at d) eqn:Ez.
      - rewrite (zero_rep d td Ez Hd), tree_eqb_refl. symmetry. exact (zero_rep j tj H Hj).
      - rewrite (not_zero d td Ez Hd). destruct (one_at d) eqn:E1.
        + rewrite (one_rep d td E1 Hd), tree_eqb_refl. symmetry. exact (Hr j tj H Hj).
        + rewrite (not_one d td E1 Hd). destruct (PositiveMap.find j g) as [[| | |[|] r' d']|] eqn:E; try discriminate H. apply andb_true_iff in H as [H1 H2]. apply Pos.eqb_eq in H2. subst d'.
          apply (rep_inv _ _ _ E) in Hj as (tr & td' & Hr' & Hd' & ->). rewrite (Hr r' tr H1 Hr'), (rep_fun d td Hd td' Hd'). reflexivity.
    Qed.
    Lemma mul_rep a b i ta tb t : mul_at a b i = true -> rep a ta -> rep b tb -> rep i t -> t = Node [Mul; ta; tb].
    Proof.
      intros H Ha Hb Hi. apply is_node_spec in H. apply (rep_inv _ _ _ H) in Hi as (ta' & tb' & Ha' & Hb' & ->). rewrite (rep_fun a ta Ha _ Ha'), (rep_fun b tb Hb _ Hb'). reflexivity.
    Qed.
    Lemma deriv_rep : derivatives_ok = true -> forall i t, rep i t -> forall j tj, PositiveMap.find i dt = Some j -> rep j tj -> deriv cas_diff (Symbol s) t = Ok tj.
    Proof.
      intros Hok i t Hi. assert (Hs : forall i j n, PositiveMap.find i g = Some n -> PositiveMap.find i dt = Some j -> step_ok n j = true).
      { unfold derivatives_ok in Hok. rewrite forallb_forall in Hok. intros i' j n Hn Hj. pose proof (Hok _ (PositiveMap.elements_correct dt i' Hj)) as H. cbn [fst snd] in H. rewrite Hn in H. exact H. }
      clear Hok.
      induction Hi as [i E|i z E|i c a t E H IH|i c a b t u E H1 IH1 H2 IH2]; intros j tj Hj Htj; pose proof (Hs i j _ E Hj) as Hstep; cbn [step_ok] in Hstep.
      - rewrite sym_D, String.eqb_refl, (one_rep j tj Hstep Htj). reflexivity.
      - rewrite atom_D, (zero_rep j tj Hstep Htj). reflexivity.
      - destruct (PositiveMap.find a dt) as [da|] eqn:Ea; [|discriminate].
        (* the derivative of the argument is a node, too *)
        assert (Hda : exists td, rep da td).
        { unfold times_ok in Hstep. destruct (zero_at da) eqn:Ez; [apply is_node_spec in Ez; eexists; eapply rep_int, Ez|]. destruct (one_at da) eqn:E1; [apply is_node_spec in E1; eexists; eapply rep_int, E1|].
          destruct (PositiveMap.find j g) as [[| | |[|] r' d']|] eqn:Ej; try discriminate Hstep. apply andb_true_iff in Hstep as [_ Hd]. apply Pos.eqb_eq in Hd. subst d'.
          apply (rep_inv _ _ _ Ej) in Htj as (tr & td' & Hr' & Hd' & ->). eauto. }
        destruct Hda as [td Htd]. specialize (IH da td eq_refl Htd). destruct c; cbn [uhead].
        + rewrite D_sin, IH. cbn [bind]. f_equal. refine (times_rep _ (Node [cos; t]) da j td tj _ Hstep Htd Htj).
          intros i' t' Hr Ht'. apply is_node_spec in Hr. apply (rep_inv _ _ _ Hr) in Ht' as (ta & Hta & ->). rewrite (rep_fun a t H _ Hta). reflexivity.
        + rewrite D_cos, IH. cbn [bind]. f_equal. refine (times_rep _ (Node [Mul; negone; Node [sin; t]]) da j td tj _ Hstep Htd Htj).
          intros i' t' Hr Ht'. unfold neg_sin in Hr. destruct (PositiveMap.find i' g) as [[| | |[|] m r]|] eqn:Ei; try discriminate Hr. apply andb_true_iff in Hr as [Hm Hr]. apply is_node_spec in Hm, Hr.
          apply (rep_inv _ _ _ Ei) in Ht' as (tm & tr & Htm & Htr & ->). apply (rep_inv _ _ _ Hm) in Htm. apply (rep_inv _ _ _ Hr) in Htr as (ta & Hta & ->). rewrite Htm, (rep_fun a t H _ Hta). reflexivity.
      - destruct (PositiveMap.find a dt) as [da|] eqn:Ea; [|discriminate]. destruct (PositiveMap.find b dt) as [db|] eqn:Eb; [|discriminate].
        assert (Hda : exists td, rep da td).
        { destruct (zero_at da) eqn:Ez; [apply is_node_spec in Ez; eexists; eapply rep_int, Ez|]. destruct (zero_at db); [destruct c|destruct c].
          - apply Pos.eqb_eq in Hstep. subst. eauto.
          - apply is_node_spec in Hstep. apply (rep_inv _ _ _ Hstep) in Htj as (t1 & t2 & Ht1 & Ht2 & _). eauto.
          - apply is_node_spec in Hstep. apply (rep_inv _ _ _ Hstep) in Htj as (t1 & t2 & Ht1 & Ht2 & _). eauto.
          - destruct (PositiveMap.find j g) as [[| | |[|] v w]|] eqn:Ej; try discriminate Hstep. apply andb_true_iff in Hstep as [Hv Hw]. apply is_node_spec in Hv, Hw.
            apply (rep_inv _ _ _ Ej) in Htj as (t1 & t2 & Ht1 & Ht2 & _). apply (rep_inv _ _ _ Hv) in Ht1 as (t3 & t4 & Ht3 & Ht4 & _). eauto. }
        assert (Hdb : exists td, rep db td).
        { destruct (zero_at db) eqn:Ez; [apply is_node_spec in Ez; eexists; eapply rep_int, Ez|]. destruct (zero_at da); [destruct c|destruct c].
          - apply Pos.eqb_eq in Hstep. subst. eauto.
          - apply is_node_spec in Hstep. apply (rep_inv _ _ _ Hstep) in Htj as (t1 & t2 & Ht1 & Ht2 & _). eauto.
          - apply is_node_spec in Hstep. apply (rep_inv _ _ _ Hstep) in Htj as (t1 & t2 & Ht1 & Ht2 & _). eauto.
          - destruct (PositiveMap.find j g) as [[| | |[|] v w]|] eqn:Ej; try discriminate Hstep. apply andb_true_iff in Hstep as [Hv Hw]. apply is_node_spec in Hv, Hw.
            apply (rep_inv _ _ _ Ej) in Htj as (t1 & t2 & Ht1 & Ht2 & _). apply (rep_inv _ _ _ Hw) in Ht2 as (t3 & t4 & Ht3 & Ht4 & _). eauto. }
        destruct Hda as [ta' Hta]. destruct Hdb as [tb' Htb]. specialize (IH1 da ta' eq_refl Hta). specialize (IH2 db tb' eq_refl Htb).
        destruct c; cbn [bhead]; [rewrite D_add|rewrite D_mul]; cbn [mapM]; rewrite IH1, IH2; cbn [bind]; unfold dependent; cbn [length seq combine filter snd]; f_equal;
          (destruct (zero_at da) eqn:Ez; [rewrite (zero_rep da ta' Ez Hta), tree_eqb_refl|rewrite (not_zero da ta' Ez Hta)]);
          (destruct (zero_at db) eqn:Ez2; [rewrite (zero_rep db tb' Ez2 Htb), tree_eqb_refl|rewrite (not_zero db tb' Ez2 Htb)]); cbn [negb map snd fst total set_nth].
        + symmetry. exact (zero_rep j tj Hstep Htj).
        + apply Pos.eqb_eq in Hstep. subst. symmetry. exact (rep_fun _ _ Htb _ Htj).
        + apply Pos.eqb_eq in Hstep. subst. symmetry. exact (rep_fun _ _ Hta _ Htj).
        + apply is_node_spec in Hstep. apply (rep_inv _ _ _ Hstep) in Htj as (t1 & t2 & Ht1 & Ht2 & ->). rewrite (rep_fun _ _ Hta _ Ht1), (rep_fun _ _ Htb _ Ht2). reflexivity.
        + symmetry. exact (zero_rep j tj Hstep Htj).
        + symmetry. exact (mul_rep a db j t tb' tj Hstep H1 Htb Htj).
        + symmetry. exact (mul_rep da b j ta' u tj Hstep Hta H2 Htj).
        + destruct (PositiveMap.find j g) as [[| | |[|] v w]|] eqn:Ej; try discriminate Hstep. apply andb_true_iff in Hstep as [Hv Hw].
          apply (rep_inv _ _ _ Ej) in Htj as (t1 & t2 & Ht1 & Ht2 & ->). rewrite (mul_rep da b v ta' u _ Hv Hta H2 Ht1), (mul_rep a db w t tb' _ Hw H1 Htb Ht2). reflexivity.
    Qed.
  End Derivatives.

  (** ** Sizes *)
  Section Sizes.
    Context (sz : PositiveMap.t N).
    Definition size_at (i : positive) : N := match PositiveMap.find i sz with Some n => n | None => 0%N end.
    Definition sizes_ok : bool :=
      forallb (fun p => N.eqb (size_at (fst p)) (1 + fold_right N.add 0 (map size_at (args_of (snd p))))%N) (PositiveMap.elements g).
    Lemma size_rep : sizes_ok = true -> forall i t, rep i t -> size_at i = N.of_nat (tree_size t).
    Proof.
      intros Hok i t Hi. assert (Hs : forall i n, PositiveMap.find i g = Some n -> size_at i = (1 + fold_right N.add 0 (map size_at (args_of n)))%N).
      { unfold sizes_ok in Hok. rewrite forallb_forall in Hok. intros i' n Hn. apply N.eqb_eq. exact (Hok _ (PositiveMap.elements_correct g i' Hn)). }
      induction Hi as [i E|i z E|i c a t E H IH|i c a b t u E H1 IH1 H2 IH2]; rewrite (Hs i _ E); cbn [args_of map fold_right tree_size list_sum].
      - reflexivity.
      - reflexivity.
      - rewrite IH. lia.
      - rewrite IH1, IH2. lia.
    Qed.
  End Sizes.

  (** ** Distinct subexpressions *)
  Section Reached.
    Context (rs : PositiveMap.t positive) (root : positive).
    (** [rs] maps the nodes below [root] to a parent (the root to itself). *)
    Definition reached_ok : bool :=
      match PositiveMap.find root rs with Some _ => true | None => false end &&
      forallb (fun p => (Pos.eqb (fst p) root || (Pos.ltb (fst p) (snd p) && match PositiveMap.find (snd p) rs, PositiveMap.find (snd p) g with Some _, Some n => existsb (Pos.eqb (fst p)) (args_of n) | _, _ => false end)) &&
        match PositiveMap.find (fst p) g with Some n => forallb (fun a => match PositiveMap.find a rs with Some _ => true | None => false end) (args_of n) | None => false end) (PositiveMap.elements rs).
    Lemma reach_trans a b c : reach false [] a b -> reach false [] b c -> reach false [] a c.
    Proof. intros H. induction H as [t _|t c' u Hn Hc Hr IH]; intros Hc'; [exact Hc'|]. eapply reach_child; [exact Hn|exact Hc|apply IH, Hc']. Qed.
    Lemma args_rep i n t a : PositiveMap.find i g = Some n -> rep i t -> In a (args_of n) -> exists ta, rep a ta /\ reach false [] t ta.
    Proof.
      intros Hi Ht Ha. destruct Ht as [i E|i z E|i c b t E H|i c b b' t u E H1 H2]; rewrite Hi in E; injection E as ->; cbn in Ha.
      - destruct Ha. - destruct Ha.
      - destruct Ha as [<-|[]]. exists t. split; [exact H|]. eapply ProofBin.reach_arg; [left; reflexivity|apply ProofBin.reach_refl].
      - destruct Ha as [<-|[<-|[]]]; [exists t|exists u]; (split; [assumption|]); eapply ProofBin.reach_arg; try apply ProofBin.reach_refl; cbn; auto.
    Qed.
    Lemma reached_sound troot : ordered = true -> reached_ok = true -> rep root troot -> forall i t, PositiveMap.find i rs <> None -> rep i t -> reach false [] troot t.
    Proof.
      intros Hord Hok Hroot. unfold reached_ok in Hok. apply andb_true_iff in Hok as [_ Hok]. rewrite forallb_forall in Hok.
      assert (Hmax : exists B, forall i, PositiveMap.find i rs <> None -> (i < B)%positive).
      { exists (Pos.succ (fold_right Pos.max 1%positive (map fst (PositiveMap.elements rs)))). intros i Hi. destruct (PositiveMap.find i rs) as [p|] eqn:E; [|elim Hi; reflexivity].
        apply PositiveMap.elements_correct in E. apply (in_map fst) in E. cbn [fst] in E. apply Pos.lt_succ_r. clear -E. induction (map fst (PositiveMap.elements rs)) as [|b l IH]; [destruct E|]. cbn [fold_right]. destruct E as [->|E]; [lia|]. specialize (IH E). lia. }
      destruct Hmax as [B HB].
      assert (G : forall n i t, PositiveMap.find i rs <> None -> rep i t -> (Pos.to_nat B - Pos.to_nat i <= n)%nat -> reach false [] troot t).
      { induction n as [|n IH]; intros i t Hi Ht Hn; [specialize (HB i Hi); lia|]. destruct (PositiveMap.find i rs) as [p|] eqn:E; [|elim Hi; reflexivity].
        pose proof (Hok _ (PositiveMap.elements_correct rs i E)) as H. cbn [fst snd] in H. apply andb_true_iff in H as [H _]. apply orb_true_iff in H as [H|H].
        - apply Pos.eqb_eq in H. subst i. rewrite (rep_fun root troot Hroot t Ht). apply ProofBin.reach_refl.
        - apply andb_true_iff in H as [Hlt H]. apply Pos.ltb_lt in Hlt. destruct (PositiveMap.find p rs) as [q|] eqn:Ep; [|discriminate]. destruct (PositiveMap.find p g) as [m|] eqn:Em; [|discriminate].
          apply existsb_exists in H as (a & Ha & Hia). apply Pos.eqb_eq in Hia. subst a.
          destruct (rep_total Hord p m Em) as [tp Htp]. destruct (args_rep p m tp i Em Htp Ha) as (t' & Ht' & Hr). rewrite (rep_fun i t Ht t' Ht') in Hr.
          apply (reach_trans troot tp t); [|exact Hr]. apply (IH p tp); [congruence|exact Htp|lia]. }
      intros i t Hi Ht. exact (G _ i t Hi Ht (le_n _)).
    Qed.
    Lemma reached_complete troot : reached_ok = true -> rep root troot -> forall u, reach false [] troot u -> exists i, PositiveMap.find i rs <> None /\ rep i u.
    Proof.
      intros Hok Hroot. unfold reached_ok in Hok. apply andb_true_iff in Hok as [H0 Hok]. rewrite forallb_forall in Hok.
      assert (Hin : PositiveMap.find root rs <> None) by (destruct (PositiveMap.find root rs); [discriminate|discriminate H0]).
      assert (G : forall t u, reach false [] t u -> forall i, PositiveMap.find i rs <> None -> rep i t -> exists i, PositiveMap.find i rs <> None /\ rep i u).
      { intros t u H. induction H as [t _|t c u _ Hc _ IH]; intros i Hi Ht; [eauto|].
        destruct (PositiveMap.find i rs) as [p|] eqn:E; [|elim Hi; reflexivity]. pose proof (Hok _ (PositiveMap.elements_correct rs i E)) as H. cbn [fst snd] in H. apply andb_true_iff in H as [_ H].
        destruct (PositiveMap.find i g) as [n|] eqn:En; [|discriminate]. rewrite forallb_forall in H.
        assert (Ha : exists a, In a (args_of n) /\ rep a c).
        { pose proof (rep_inv i n t En Ht) as Hv. destruct n as [|z|b a|b a1 a2].
          - subst t. destruct Hc. - subst t. destruct Hc.
          - destruct Hv as (ta & Hta & ->). destruct Hc as [<-|[]]. exists a. cbn. auto.
          - destruct Hv as (ta & tb & Hta & Htb & ->). destruct Hc as [<-|[<-|[]]]; [exists a1|exists a2]; cbn; auto. }
        destruct Ha as (a & Ha & Hr). specialize (H a Ha). apply (IH a); [|exact Hr]. destruct (PositiveMap.find a rs); [discriminate|discriminate H]. }
      intros u Hu. exact (G troot u Hu root Hin Hroot).
    Qed.
    Lemma reached_count troot l : listed_once = true -> ordered = true -> reached_ok = true -> rep root troot ->
      NoDup l -> (forall u, In u l <-> reach false [] troot u) -> length l = length (PositiveMap.elements rs).
    Proof.
      intros Honce Hord Hok Hroot Hnd Hl.
      assert (Hkeys : exists lt, Forall2 rep (map fst (PositiveMap.elements rs)) lt).
      { assert (Hk : forall i, In i (map fst (PositiveMap.elements rs)) -> exists t, rep i t).
        { intros i Hi. apply in_map_iff in Hi as ((i', p) & <- & Hi). unfold reached_ok in Hok. apply andb_true_iff in Hok as [_ Hok]. rewrite forallb_forall in Hok.
          specialize (Hok _ Hi). cbn [fst snd] in *. apply andb_true_iff in Hok as [_ H]. destruct (PositiveMap.find i' g) as [n|] eqn:En; [|discriminate]. exact (rep_total Hord i' n En). }
        induction (map fst (PositiveMap.elements rs)) as [|i ks IH]; [exists []; constructor|]. destruct (Hk i (or_introl eq_refl)) as [t Ht]. destruct IH as [lt Hlt]; [intros; apply Hk; right; assumption|]. exists (t :: lt). constructor; assumption. }
      destruct Hkeys as [lt Hlt].
      assert (Hfind : forall i, In i (map fst (PositiveMap.elements rs)) <-> PositiveMap.find i rs <> None).
      { intros i. split.
        - intros Hi. apply in_map_iff in Hi as ((i', p) & <- & Hi). apply PositiveMap.elements_complete in Hi. cbn. congruence.
        - intros Hi. destruct (PositiveMap.find i rs) as [p|] eqn:E; [|elim Hi; reflexivity]. apply PositiveMap.elements_correct in E. exact (in_map fst _ _ E). }
      assert (Hnk : NoDup (map fst (PositiveMap.elements rs))).
      { pose proof (PositiveMap.elements_3w rs) as H. clear -H. induction H as [|[i p] r Hi _ IH]; [constructor|]. cbn [map fst]. constructor; [|exact IH].
        intros Hin. apply Hi. apply in_map_iff in Hin as ((i', p') & E & Hin). cbn in E. subst i'. apply SetoidList.InA_alt. exists (i, p'). split; [reflexivity|exact Hin]. }
      assert (Hndt : NoDup lt).
      { clear -Hlt Hnk Honce. induction Hlt as [|i t ks lt Hi Hlt IH]; [constructor|]. inversion Hnk as [|? ? Hni Hnk']; subst. constructor; [|apply IH, Hnk'].
        intros Hin. apply Hni. clear -Hlt Hin Hi Honce. induction Hlt as [|j u ks lt Hj _ IH]; [destruct Hin|]. destruct Hin as [->|Hin]; [left; symmetry; exact (rep_inj i t Honce Hi j Hj)|right; apply IH, Hin]. }
      assert (Hlen : length lt = length (PositiveMap.elements rs)) by (rewrite <- (map_length fst); clear -Hlt; induction Hlt; cbn; congruence).
      rewrite <- Hlen. apply Nat.le_antisymm; apply NoDup_incl_length; try assumption.
      - intros u Hu. apply Hl in Hu. destruct (reached_complete troot Hok Hroot u Hu) as (i & Hi & Hr). apply Hfind in Hi.
        clear -Hlt Hi Hr. induction Hlt as [|j v ks lt Hj _ IH]; [destruct Hi|]. destruct Hi as [->|Hi]; [left; exact (rep_fun i u Hr v Hj)|right; apply IH, Hi].
      - intros u Hu. apply Hl. assert (Hi : exists i, In i (map fst (PositiveMap.elements rs)) /\ rep i u).
        { clear -Hlt Hu. induction Hlt as [|j v ks lt Hj _ IH]; [destruct Hu|]. destruct Hu as [->|Hu]; [exists j; cbn; auto|]. destruct (IH Hu) as (i & ? & ?). exists i. cbn. auto. }
        destruct Hi as (i & Hi & Hr). apply (reached_sound troot Hord Hok Hroot i u); [apply Hfind, Hi|exact Hr].
    Qed.
  End Reached.
End Dag.
