(** * Differentiation with rules added by the user: C62. *)
From Coq Require Import Reals Lra.
From Verif Require Import Py ModelTree SpecTree ProofBase ModelDiff SpecDiff ProofDiff ModelSym ModelCas SpecReal ProofReal SpecRules ProofRules Samples.
Local Open Scope R_scope.

(** C62. Whatever functions there are, and whatever rules have been registered for them: if the rules are right then
    the result of differentiation is the derivative, wherever both have a value. See SpecRules.v. *)
Theorem C62_user_rules_give_the_derivative I rules dist p a e d env v v' :
  registered rules dist p -> Forall well_formed rules ->
  (forall f, rules_right I rules f) -> (forall h, In h dist -> linear I h) ->
  integer_atom a = None -> env a <> None ->
  sym_diff_call p e (Atm a) 1 = Ok d -> value I env e = Some v -> value I env d = Some v' ->
  derivative_is I env e a v'.
Proof.
  intros Hreg Hwf Hr Hl Hint Ha Hd Hv Hv'. rewrite sym_diff_call_one in Hd. apply diff_forward_deriv in Hd.
  destruct (env a) as [x0|] eqn:E; [|contradiction]. exact (all_correct I rules dist p a Hreg Hwf Hr Hl Hint e env x0 d v v' E Hd Hv Hv').
Qed.

(** For a function of one argument this asks just that the right hand side is its derivative. *)
Theorem C62_one_argument I rules f : (forall vs v, I f vs = Some v -> exists u, vs = [u]) ->
  (rules_right I rules f <->
   forall env t0 v l, I f [t0] = Some v -> partial I env rules f 0 [t0] = Some l ->
     exists G delta, 0 < delta /\ (forall u, Rabs (u - t0) < delta -> I f [u] = Some (G u)) /\ derivable_pt_lim G t0 l).
Proof.
  intros H1. split.
  - intros H env t0 v l Hv Hl. destruct (H env t0 [Moving (fun u => u) 1 l] v Hv) as (G & delta & Hd & HG & HG').
    + intros [|k] g d l' E; [|destruct k; discriminate]. injection E as <- <- <-. split; [apply derivable_pt_lim_id|exact Hl].
    + exists G, delta. split; [exact Hd|]. split; [exact HG|]. cbn [map contribution fold_right] in HG'.
      replace (l * 1 + 0) with l in HG' by ring. exact HG'.
  - intros H env t0 legs v Hv Hlegs. destruct (H1 _ _ Hv) as (u0 & E). destruct legs as [|m [|]]; try discriminate.
    destruct m as [c|g d l]; cbn [map place] in *.
    + exists (fun _ => v), 1. split; [lra|]. split; [intros u _; exact Hv|]. cbn [contribution fold_right]. rewrite Rplus_0_l.
      apply (derivable_pt_lim_const v).
    + destruct (Hlegs 0%nat g d l eq_refl) as [Hg Hp]. destruct (H env (g t0) v l Hv Hp) as (G & delta & Hd & HG & HG').
      destruct (derivable_near g t0 d delta Hg Hd) as (d2 & Hd2 & Hn).
      exists (fun u => G (g u)), d2. split; [exact Hd2|]. split; [intros u Hu; apply HG, Hn, Hu|].
      cbn [contribution fold_right]. rewrite Rplus_0_r. apply (derivable_pt_lim_comp g G t0 d l Hg HG').
Qed.

(** The rules of simplecas, and the one for tan of the documentation of Expr.diff. *)
Definition tan_ : tree := Function "tan".
Definition r_sin := mkRule sin [mkAtom T_Wild (VStr "a")] 0 (call1 cos wa).
Definition r_cos := mkRule cos [mkAtom T_Wild (VStr "a")] 0 (expr_neg (call1 sin wa)).
Definition r_pow := mkRule Pow [mkAtom T_Wild (VStr "a"); mkAtom T_Wild (VStr "b")] 0 (m_mul wb (m_pow wa (m_add wb (Integer (-1))))).
Definition r_tan := mkRule tan_ [mkAtom T_Wild (VStr "a")] 0 (m_add one (m_pow (call1 tan_ wa) (Integer 2))).
Definition rules_tan := [r_tan; r_pow; r_cos; r_sin].
Definition diff_tan : diff_props := fst (diff_setitem cas_diff (STuple [call1 tan_ wa; wa]) (m_add one (m_pow (call1 tan_ wa) (Integer 2)))).
Definition trig : interpretation := fun h vs =>
  if tree_eqb h tan_ then match vs with [u] => if Req_EM_T (Rtrigo_def.cos u) 0 then None else Some (Rtrigo1.tan u) | _ => None end
  else if tree_eqb h Pow then match vs with [u; w] => rpow u w | _ => None end
  else if tree_eqb h sin then match vs with [u] => Some (Rtrigo_def.sin u) | _ => None end
  else if tree_eqb h cos then match vs with [u] => Some (Rtrigo_def.cos u) | _ => None end
  else None.
Lemma trig_right f : rules_right trig rules_tan f.
Proof.
  destruct (tree_eqb_spec f tan_) as [->|Ht]; [|destruct (tree_eqb_spec f Pow) as [->|Hp]; [|
    destruct (tree_eqb_spec f sin) as [->|Hs]; [|destruct (tree_eqb_spec f cos) as [->|Hc]]]].
  - apply C62_one_argument.
    + intros vs v H. change (match vs with [u] => if Req_EM_T (Rtrigo_def.cos u) 0 then None else Some (Rtrigo1.tan u) | _ => None end = Some v) in H.
      destruct vs as [|u [|]]; try discriminate. eauto.
    + intros env t0 v l Hv Hl.
      change (trig tan_ [t0]) with (if Req_EM_T (Rtrigo_def.cos t0) 0 then None else Some (Rtrigo1.tan t0)) in Hv.
      destruct (Req_EM_T (Rtrigo_def.cos t0) 0) as [|Hne] eqn:Ed; [discriminate|].
      change (partial trig env rules_tan tan_ 0 [t0]) with
        (value trig (bind_wilds env (r_wilds r_tan) [t0]) (m_add one (m_pow (call1 tan_ wa) (Integer 2)))) in Hl.
      assert (Hval : value trig (bind_wilds env (r_wilds r_tan) [t0]) (m_add one (m_pow (call1 tan_ wa) (Integer 2))) = Some (1 + (powerRZ (Rtrigo1.tan t0) 2 + 0))).
      { apply value_node. exists [1; powerRZ (Rtrigo1.tan t0) 2]. split; [|reflexivity]. constructor; [reflexivity|]. constructor; [|constructor].
        apply value_node. exists [Rtrigo1.tan t0; 2]. split; [|apply rpow_int; right; lia]. constructor; [|constructor; [reflexivity|constructor]].
        apply value_node. exists [t0]. split; [constructor; [reflexivity|constructor]|].
        change (op_value trig tan_ [t0]) with (if Req_EM_T (Rtrigo_def.cos t0) 0 then None else Some (Rtrigo1.tan t0)). rewrite Ed. reflexivity. }
      rewrite Hval in Hl. injection Hl as <-.
      assert (Hcont : continuity_pt Rtrigo_def.cos t0) by apply continuity_cos.
      destruct (derivable_near Rtrigo_def.cos t0 _ (Rabs (Rtrigo_def.cos t0)) (derivable_pt_lim_cos t0) (Rabs_pos_lt _ Hne)) as (delta & Hd & Hnear).
      exists Rtrigo1.tan, delta. split; [exact Hd|]. split.
      * intros u Hu. change (trig tan_ [u]) with (if Req_EM_T (Rtrigo_def.cos u) 0 then None else Some (Rtrigo1.tan u)).
        destruct (Req_EM_T (Rtrigo_def.cos u) 0) as [E|_]; [|reflexivity]. exfalso. specialize (Hnear u Hu). rewrite E in Hnear.
        replace (0 - Rtrigo_def.cos t0) with (- Rtrigo_def.cos t0) in Hnear by ring. rewrite Rabs_Ropp in Hnear. lra.
      * assert (Hdt : derivable_pt_lim (Rtrigo_def.sin / Rtrigo_def.cos)%F t0
          ((Rtrigo_def.cos t0 * Rtrigo_def.cos t0 - - Rtrigo_def.sin t0 * Rtrigo_def.sin t0) / Rsqr (Rtrigo_def.cos t0))).
        { apply derivable_pt_lim_div; [apply derivable_pt_lim_sin|apply derivable_pt_lim_cos|exact Hne]. }
        assert (El : (Rtrigo_def.cos t0 * Rtrigo_def.cos t0 - - Rtrigo_def.sin t0 * Rtrigo_def.sin t0) / Rsqr (Rtrigo_def.cos t0)
          = 1 + (powerRZ (Rtrigo1.tan t0) 2 + 0)).
        { unfold Rtrigo1.tan, Rsqr. simpl powerRZ. field. exact Hne. }
        rewrite El in Hdt. exact Hdt.
  - intros env t0 legs v Hv Hlegs.
    change (trig Pow (map (place t0) legs)) with (match map (place t0) legs with [u; w] => rpow u w | _ => None end) in Hv.
    destruct legs as [|m0 [|m1 [|]]]; try discriminate. cbn [map] in Hv.
    destruct m1 as [b|g d l]; [|destruct (Hlegs 1%nat g d l eq_refl) as [_ H]; discriminate].
    destruct m0 as [c|g d l]; cbn [place] in Hv.
    { exists (fun _ => v), 1. split; [lra|]. split; [intros u _; exact Hv|]. cbn [map contribution fold_right].
      replace (0 + (0 + 0)) with 0 by ring. apply (derivable_pt_lim_const v). }
    destruct (Hlegs 0%nat g d l eq_refl) as [Hg Hl].
    change (partial trig env rules_tan Pow 0 (map (place t0) [Moving g d l; Still b])) with
      (value trig (bind_wilds env (r_wilds r_pow) [g t0; b]) (m_mul wb (m_pow wa (m_add wb (Integer (-1)))))) in Hl.
    apply value_node in Hl as (vs & Hvs & Hop). inversion Hvs as [|? b' ? vs1 Hb' Hvs1]; subst. injection Hb' as <-.
    inversion Hvs1 as [|? p1 ? vs2 Hp1 Hvs2]; subst. inversion Hvs2; subst. clear Hvs Hvs1 Hvs2.
    apply value_node in Hp1 as (ws & Hws & Hop1). inversion Hws as [|? a' ? ws1 Ha' Hws1]; subst. injection Ha' as <-.
    inversion Hws1 as [|? e' ? ws2 He' Hws2]; subst. inversion Hws2; subst. clear Hws Hws1 Hws2.
    assert (e' = b - 1) as ->.
    { apply value_node in He' as (us & Hus & Hop2). inversion Hus as [|? u1 ? us1 Hu1 Hus1]; subst. injection Hu1 as <-.
      inversion Hus1 as [|? u2 ? us2 Hu2 Hus2]; subst. injection Hu2 as <-. inversion Hus2; subst. injection Hop2 as <-. ring. }
    change (rpow (g t0) (b - 1) = Some p1) in Hop1. rename Hop1 into Ep.
    change (Some (b * (p1 * 1)) = Some l) in Hop. injection Hop as <-.
    destruct (rpow_deriv _ _ _ _ Hv Ep) as (G & delta & Hd & HG & HG').
    destruct (derivable_near g t0 d delta Hg Hd) as (d2 & Hd2 & Hn).
    exists (fun u => G (g u)), d2. split; [exact Hd2|]. split; [intros u Hu; apply HG, Hn, Hu|].
    cbn [map contribution fold_right]. replace (b * (p1 * 1) * d + (0 + 0)) with (b * p1 * d) by ring.
    apply (derivable_pt_lim_comp g G t0 d (b * p1) Hg HG').
  - apply C62_one_argument.
    + intros vs v H. change (match vs with [u] => Some (Rtrigo_def.sin u) | _ => None end = Some v) in H.
      destruct vs as [|u [|]]; try discriminate. eauto.
    + intros env t0 v l _ Hl. change (Some (Rtrigo_def.cos t0) = Some l) in Hl. injection Hl as <-.
      exists Rtrigo_def.sin, 1. split; [lra|]. split; [intros u _; reflexivity|apply derivable_pt_lim_sin].
  - apply C62_one_argument.
    + intros vs v H. change (match vs with [u] => Some (Rtrigo_def.cos u) | _ => None end = Some v) in H.
      destruct vs as [|u [|]]; try discriminate. eauto.
    + intros env t0 v l _ Hl. change (Some (IZR (-1) * (Rtrigo_def.sin t0 * 1)) = Some l) in Hl. injection Hl as <-.
      exists Rtrigo_def.cos, 1. split; [lra|]. split; [intros u _; reflexivity|].
      replace (IZR (-1) * (Rtrigo_def.sin t0 * 1)) with (- Rtrigo_def.sin t0) by (simpl; ring). apply derivable_pt_lim_cos.
  - intros env t0 legs v Hv. exfalso. unfold trig in Hv. destruct (tree_eqb_spec f tan_); [contradiction|].
    destruct (tree_eqb_spec f Pow); [contradiction|]. destruct (tree_eqb_spec f sin); [contradiction|]. destruct (tree_eqb_spec f cos); [contradiction|discriminate].
Qed.
Lemma tan_registered : registered rules_tan [List_] diff_tan.
Proof.
  eapply reg_rule with (w := mkAtom T_Wild (VStr "a")); [|reflexivity|reflexivity]. apply reg_dist.
  eapply reg_rule with (w := mkAtom T_Wild (VStr "a")); [|reflexivity|reflexivity].
  eapply reg_rule with (w := mkAtom T_Wild (VStr "a")); [|reflexivity|reflexivity].
  eapply reg_rule with (w := mkAtom T_Wild (VStr "a")); [|reflexivity|reflexivity]. apply reg_none.
Qed.
Lemma tan_well_formed : Forall well_formed rules_tan.
Proof.
  assert (H : forall P : Prop, P -> True /\ P) by tauto.
  repeat constructor; try (intros; cbn in *; intuition discriminate).
  all: try (intros w Hw; cbn in Hw; intuition (subst; reflexivity)).
  all: try (cbn; intuition discriminate).
  all: try (intros i w _ E; discriminate).
Qed.
(** tan(tan(x)) at x = 0 *)
Example C62_case :
  registered rules_tan [List_] diff_tan /\ Forall well_formed rules_tan /\ (forall f, rules_right trig rules_tan f) /\
  (forall h, In h [List_] -> linear trig h) /\
  let a := mkAtom T_Symbol (VStr "x") in let env : valuation := fun _ => Some 0 in
  let e := call1 tan_ (call1 tan_ x) in
  sym_diff_call diff_tan e x 1 = Ok (m_mul (m_add one (m_pow (call1 tan_ (call1 tan_ x)) (Integer 2))) (m_add one (m_pow (call1 tan_ x) (Integer 2)))) /\
  value trig env e = Some 0 /\ derivative_is trig env e a 1.
Proof.
  split; [exact tan_registered|]. split; [exact tan_well_formed|]. split; [exact trig_right|].
  assert (Hlin : forall h, In h [List_] -> linear trig h).
  { intros h [<-|[]]. intros t0 gs ds v l _ H. cbv in H. discriminate. }
  split; [exact Hlin|]. intros a env e.
  assert (Hd : sym_diff_call diff_tan e x 1 = Ok (m_mul (m_add one (m_pow (call1 tan_ (call1 tan_ x)) (Integer 2))) (m_add one (m_pow (call1 tan_ x) (Integer 2))))).
  { vm_compute. reflexivity. }
  assert (H0 : forall w, value trig env w = Some 0 -> value trig env (call1 tan_ w) = Some 0).
  { intros w Hw. apply value_node. exists [0]. split; [constructor; [exact Hw|constructor]|].
    change (op_value trig tan_ [0]) with (if Req_EM_T (Rtrigo_def.cos 0) 0 then None else Some (Rtrigo1.tan 0)).
    rewrite cos_0, tan_0. destruct (Req_EM_T 1 0); [lra|reflexivity]. }
  assert (Hx : value trig env x = Some 0) by reflexivity.
  assert (H1 : forall w, value trig env w = Some 0 -> value trig env (m_add one (m_pow w (Integer 2))) = Some 1).
  { intros w Hw. apply value_node. exists [1; 0]. split.
    - constructor; [reflexivity|]. constructor; [|constructor]. apply value_node. exists [0; 2].
      split; [constructor; [exact Hw|constructor; [reflexivity|constructor]]|].
      change (rpow 0 (IZR 2) = Some 0). rewrite rpow_int by (right; lia). f_equal. simpl. ring.
    - change (Some (1 + (0 + 0)) = Some 1). f_equal. ring. }
  assert (Hv : value trig env e = Some 0) by (apply H0, H0, Hx).
  split; [exact Hd|]. split; [exact Hv|].
  apply (C62_user_rules_give_the_derivative trig rules_tan [List_] diff_tan a e _ env 0 1 tan_registered tan_well_formed trig_right Hlin eq_refl ltac:(discriminate) Hd Hv).
  apply value_node. exists [1; 1]. split; [|change (Some (1 * (1 * 1)) = Some 1); f_equal; ring].
  constructor; [apply H1, H0, H0, Hx|constructor; [apply H1, H0, Hx|constructor]].
Qed.
Print Assumptions C62_user_rules_give_the_derivative.
Print Assumptions C62_one_argument.
