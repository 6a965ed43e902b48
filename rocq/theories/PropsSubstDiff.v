(** * Differentiation with rules added by the user commutes with substitution: C84. *)
From Verif Require Import Py ModelTree SpecTree ProofBase ModelDiff ModelSym ModelCas SpecAlg ProofAlg SpecRules SpecSubstDiff ProofSubstDiff PropsRules Samples.

(** C84. Whatever the functions and the rules: replacing the atom [y] by [r], which does not involve the variable [s],
    and differentiating [n] times by [s] commute. For [n] beyond 1 no rule may have a wild in the place of a function. *)
Theorem C84_diff_commutes_with_xreplace rules dist p (y : atom) (r s e d : tree) (n : Z) :
  registered rules dist p -> unmentioned rules y -> not_applied y e -> s <> Atm y ->
  ~ reach false [] r s -> no_distributive dist r ->
  ((r <> zero /\ r <> one) \/ forall q, In q rules -> ~ projects q) ->
  ((n <= 1)%Z \/ forall q, In q rules -> plain (r_wilds q) (r_rhs q)) ->
  (do e1 <- xreplace e (items [(Atm y, r)]); sym_diff_call p e1 s n) = Ok d <->
  (do d0 <- sym_diff_call p e s n; xreplace d0 (items [(Atm y, r)])) = Ok d.
Proof.
  intros Hreg Hun Hna Hs Hr Hnd H01 Hn. rewrite xreplace_one. cbn [bind]. unfold sym_diff_call.
  rewrite (xreplace_diff_n rules dist p y r s (Z.to_nat n) Hreg Hun H01) by (first [assumption|tauto|destruct Hn; [left; lia|right; assumption]]).
  split.
  - intros (d0 & E & ->). rewrite E. cbn [bind]. apply xreplace_one.
  - intros H. destruct (repeatM _ (Z.to_nat n) e) as [d0|]; [|discriminate]. cbn [bind] in H. rewrite xreplace_one in H.
    injection H as <-. eauto.
Qed.
(** The name of the variable does not matter. *)
Theorem C84_diff_commutes_with_renaming rules dist p (x z : atom) (e d : tree) (n : Z) :
  registered rules dist p -> unmentioned rules x -> unmentioned rules z -> not_applied x e -> ~ reach false [] e (Atm z) ->
  ((n <= 1)%Z \/ forall q, In q rules -> plain (r_wilds q) (r_rhs q)) ->
  (do e1 <- xreplace e (items [(Atm x, Atm z)]); sym_diff_call p e1 (Atm z) n) = Ok d <->
  (do d0 <- sym_diff_call p e (Atm x) n; xreplace d0 (items [(Atm x, Atm z)])) = Ok d.
Proof.
  intros Hreg Hun Huz Hna Hz Hn. rewrite xreplace_one. cbn [bind]. unfold sym_diff_call.
  rewrite (rename_diff_n rules dist p x z (Z.to_nat n) Hreg Hun Huz) by (first [assumption|destruct Hn; [left; lia|right; assumption]]).
  split.
  - intros (d0 & E & ->). rewrite E. cbn [bind]. apply xreplace_one.
  - intros H. destruct (repeatM _ (Z.to_nat n) e) as [d0|]; [|discriminate]. cbn [bind] in H. rewrite xreplace_one in H.
    injection H as <-. eauto.
Qed.

(** The rules of simplecas and that of tan; the variable x, and y replaced by 0. *)
Definition a_x : atom := mkAtom T_Symbol (VStr "x").
Definition a_y : atom := mkAtom T_Symbol (VStr "y").
Definition a_z : atom := mkAtom T_Symbol (VStr "z").
Definition e_c84 : tree := m_mul (call1 tan_ (m_mul x y)) (tree_call List_ [m_pow x (int 3); y]).
Lemma occurs_inv a cs : occurs (Atm a) (Node cs) -> exists c, In c cs /\ occurs (Atm a) c.
Proof. intros H. inversion H; subst. eauto. Qed.
Fixpoint has_atom (a : atom) (t : tree) : bool :=
  match t with Atm b => atom_eqb a b | Node cs => existsb (has_atom a) cs end.
Lemma has_atom_spec a t : occurs (Atm a) t -> has_atom a t = true.
Proof.
  induction t as [b|cs IH] using tree_ind_all; intros H.
  - inversion H; subst. cbn. destruct (atom_eqb_spec b b); congruence.
  - apply occurs_inv in H as (c & Hc & H). cbn [has_atom]. apply existsb_exists. exists c. split; [exact Hc|]. apply IH; assumption.
Qed.
Lemma tan_unmentioned a : atom_type a = T_Symbol -> unmentioned rules_tan a.
Proof.
  intros Ha. split.
  - cbn [In]. intros H. repeat destruct H as [H|H]; try (apply (f_equal (fun t => match t with Atm b => atom_type b | _ => T_Wild end)) in H; rewrite Ha in H; discriminate); exact H.
  - intros q Hq Ho. apply has_atom_spec in Ho. exfalso. destruct a as [ty v]. cbn [atom_type] in Ha. subst ty.
    cbn [rules_tan In] in Hq. repeat destruct Hq as [<-|Hq]; try (vm_compute in Ho; discriminate); destruct Hq.
Qed.
Example C84_case :
  registered rules_tan [List_] diff_tan /\ unmentioned rules_tan a_y /\ unmentioned rules_tan a_x /\ unmentioned rules_tan a_z /\
  not_applied a_y e_c84 /\ not_applied a_x e_c84 /\ ~ reach false [] (int 0) x /\ ~ reach false [] e_c84 z /\ no_distributive [List_] (int 0) /\
  (forall q, In q rules_tan -> ~ projects q) /\ (forall q, In q rules_tan -> plain (r_wilds q) (r_rhs q)) /\
  (do e1 <- xreplace e_c84 (items [(y, int 0)]); sym_diff_call diff_tan e1 x 2) =
  (do d0 <- sym_diff_call diff_tan e_c84 x 2; xreplace d0 (items [(y, int 0)])) /\
  (exists d, sym_diff_call diff_tan e_c84 x 2 = Ok d /\ occurs y d /\ sym_diff_call diff_tan e_c84 x 1 <> Ok d).
Proof.
  split; [exact tan_registered|]. split; [apply tan_unmentioned; reflexivity|]. split; [apply tan_unmentioned; reflexivity|].
  split; [apply tan_unmentioned; reflexivity|].
  assert (Hna : forall a, atom_type a = T_Symbol -> not_applied a e_c84).
  { intros a Ha. assert (Hh : forall h, (exists n, h = Function n) -> ~ occurs (Atm a) h).
    { intros h (n & ->) H. inversion H as [Ht|]. destruct a. injection Ht as -> _. discriminate Ha. }
    unfold e_c84. repeat (first [apply not_applied_atom|apply Forall_nil|apply Forall_cons|apply not_applied_node; split; [apply Hh; eexists; reflexivity|]]). }
  split; [apply Hna; reflexivity|]. split; [apply Hna; reflexivity|].
  split; [apply not_reach_atom; discriminate|].
  split; [repeat (first [apply not_reach_atom; discriminate|apply Forall_nil|apply Forall_cons|apply not_reach_node; split; [exact Logic.I|]])|].
  split; [intros h args H; inversion H as [|? c ? _ Hc]; subst; destruct Hc|].
  split; [intros q Hq (w & Hw & E); cbn [rules_tan In] in Hq; repeat destruct Hq as [<-|Hq]; try discriminate E; destruct Hq|].
  split.
  { intros q Hq. pose proof tan_well_formed as H. rewrite Forall_forall in H. apply H, Hq. }
  split; [vm_compute; reflexivity|].
  eexists. split; [vm_compute; reflexivity|]. split; [|vm_compute; discriminate].
  assert (H : forall a t, has_atom a t = true -> occurs (Atm a) t).
  { intros a t. induction t as [b|cs IH] using tree_ind_all; cbn [has_atom]; intros H.
    - destruct (atom_eqb_spec a b) as [->|]; [constructor|discriminate].
    - apply existsb_exists in H as (c & Hc & H). econstructor; [exact Hc|]. apply IH; assumption. }
  apply H. vm_compute. reflexivity.
Qed.

(** With a rule that projects, as [diff[f(a, b), a] = b], 0 and 1 are special: the derivative y of f(x, y), in the
    place of an argument, is not taken for a zero, but once y is replaced by 0 it is. *)
Definition diff_proj : diff_props :=
  fst (diff_setitem (fst (diff_setitem (sym_diff_new Add Mul zero one) (STuple [call2 f wa wb; wa]) wb)) (STuple [call1 g wa; wa]) (call1 g wa)).
Theorem C84_projecting_rules_refuted :
  exists rules, registered rules [] diff_proj /\ unmentioned rules a_y /\ not_applied a_y (call1 g (call2 f x y)) /\
  (do e1 <- xreplace (call1 g (call2 f x y)) (items [(y, zero)]); sym_diff_call diff_proj e1 x 1) = Ok zero /\
  (do d0 <- sym_diff_call diff_proj (call1 g (call2 f x y)) x 1; xreplace d0 (items [(y, zero)])) =
    Ok (call2 Mul (call1 g (call2 f x zero)) zero).
Proof.
  exists [mkRule g [mkAtom T_Wild (VStr "a")] 0 (call1 g wa); mkRule f [mkAtom T_Wild (VStr "a"); mkAtom T_Wild (VStr "b")] 0 wb].
  split.
  { eapply reg_rule with (w := mkAtom T_Wild (VStr "a")); [|reflexivity|reflexivity].
    eapply reg_rule with (w := mkAtom T_Wild (VStr "a")); [|reflexivity|reflexivity]. apply reg_none. }
  split.
  { split; [cbn; intuition discriminate|]. intros q Hq Ho. apply has_atom_spec in Ho. exfalso.
    cbn [In] in Hq. repeat destruct Hq as [<-|Hq]; try (vm_compute in Ho; discriminate); destruct Hq. }
  split.
  { assert (Hh : forall h, (exists n, h = Function n) -> ~ occurs y h) by (intros h (n & ->) H; inversion H).
    unfold call1, call2, tree_call. repeat (first [apply not_applied_atom|apply Forall_nil|apply Forall_cons|apply not_applied_node; split; [apply Hh; eexists; reflexivity|]]). }
  split; vm_compute; reflexivity.
Qed.
(** A distributive function of constants has a derivative that is not 0: what replaces y must not involve one. *)
Theorem C84_distributive_refuted :
  (do e1 <- xreplace y (items [(y, call1 List_ one)]); sym_diff_call diff_tan e1 x 1) = Ok (call1 List_ zero) /\
  (do d0 <- sym_diff_call diff_tan y x 1; xreplace d0 (items [(y, call1 List_ one)])) = Ok zero.
Proof. split; vm_compute; reflexivity. Qed.
Print Assumptions C84_diff_commutes_with_xreplace.
Print Assumptions C84_diff_commutes_with_renaming.
Print Assumptions C84_projecting_rules_refuted.
Print Assumptions C84_distributive_refuted.
