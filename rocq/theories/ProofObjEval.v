(** * Evaluation and differentiation on objects compute what the pure functions compute *)
From Verif Require Import Py ModelTree ModelIntern SpecIntern ModelEval ModelDiff ProofBase ProofIntern SpecTree ModelObjects SpecObjects ModelObjEval SpecObjEval
  ProofTopo ProofGraph ProofTree ProofObjects ProofObjTree.

Section Proof.
  Context (names : nat -> string) (atomic : bool) (who : nat -> Prop) (t : nat).
  Context (Hsafe : safe atomic who) (Hwho : who t).
  Notation has_tree := (has_tree names t).
  Notation has_atom := (has_atom names t).
  Notation W := (W atomic who t).
  Notation le := (le t).
  Notation mono := (mono t).
  Notation refines := (refines atomic who t).
  Notation later := (later names t).
  Notation stable := (stable names t).
  Notation trees := (rlist has_tree).
  Implicit Types (s : state pyval).
  Ltac mono_tac := repeat first [apply mono_tree | apply mono_eq | apply mono_prod | apply mono_list].

  Lemma le_later s s' : le s s' -> later s s'.
  Proof. intros L a u. apply has_tree_le, L. Qed.
  Lemma stable_mono {A B} (R : state pyval -> A -> B -> Prop) : stable R -> mono R.
  Proof. intros M s s' a b L. apply M, le_later, L. Qed.
  Lemma later_trans s1 s2 s3 : later s1 s2 -> later s2 s3 -> later s1 s3.
  Proof. intros H H' a u Ha. apply H', H, Ha. Qed.
  Lemma trees_later s s' l us : later s s' -> trees s l us -> trees s' l us.
  Proof. intros L H. eapply Forall2_mono; [|exact H]. exact L. Qed.

  (** ** Atoms *)
  Lemma value_ref s a x : W s -> has_tree s a (Atm x) -> refines s (o_value a) (Ok x) has_atom.
  Proof.
    intros HW [Ha Hu]. inversion Hu as [? b ? Ho Hx|]; subst. eapply ref_read; [exact HW|exact Ha|exact Ho|].
    intros s1 W1 L1 Ho1 Hh. apply ref_ret; [exact W1|intros s2 s3 c y; apply has_atom_le|]. cbn [rel]. split; [apply Hh; left; reflexivity|].
    inversion Hx as [ty v Hb]; subst. constructor.
    apply (proj2 L1 a b Ha); [|exact Hb]. eapply leads_more; [constructor|exact Ho|left; reflexivity].
  Qed.
  Lemma parts_ref s b x : W s -> has_atom s b x ->
    refines s (o_atom_parts b) (Ok x) (fun _ p x => x = mkAtom (mkType (fst p) (names (fst p))) (snd p)).
  Proof.
    intros HW [Hb Hx]. inversion Hx as [ty v Ho]; subst. eapply ref_read; [exact HW|exact Hb|exact Ho|].
    intros s1 W1 L1 Ho1 Hh. apply ref_ret; [exact W1|intros s2 s3 c y _ H; exact H|reflexivity].
  Qed.
  Lemma no_value_ref {A B} s a (R : state pyval -> A -> B -> Prop) (f : addr -> prog A) : W s -> has_tree s a (Node []) ->
    refines s (pbind (o_value a) f) (Err AttributeError) R.
  Proof.
    intros HW [Ha Hu]. inversion Hu as [|? l ? Ho Hl]; subst. cbn [o_value pbind]. eapply ref_read; [exact HW|exact Ha|exact Ho|].
    intros s1 W1 L1 Ho1 Hh. cbn [pbind]. split; [exists s1, (Err AttributeError); constructor|].
    intros s' r Hr. destruct (runs_ret_inv atomic who t _ _ _ _ Hr W1) as [-> _]. reflexivity.
  Qed.

  (** ** Evaluation *)
  Section Eval.
    Context {A B : Type} (R : state pyval -> A -> B -> Prop) (none : A -> bool) (none' : B -> bool).
    Context (HR : stable R) (Hnone : forall s a b, R s a b -> none a = none' b).
    Notation same_rules := (same_rules names atomic who t R).
    Notation same_values := (same_values names t R).
    Lemma types_same s l m ty : Forall2 (same_atom_rule names atomic who t R s) l m ->
      match dict_get Nat.eqb l ty, dict_get atype_eqb m (mkType ty (names ty)) with
      | Some f, Some g => same_atom_rule names atomic who t R s (ty, f) (mkType ty (names ty), g)
      | None, None => True
      | _, _ => False
      end.
    Proof.
      induction 1 as [|[ty' f] [q g] l m [Hq Hf] _ IH]; [exact I|]. cbn [dict_get fst snd] in *. subst q.
      unfold atype_eqb. cbn [ty_id ty_name]. destruct (Nat.eqb_spec ty ty') as [->|Hne]; cbn [andb]; [|exact IH].
      rewrite String.eqb_refl. split; [reflexivity|exact Hf].
    Qed.
    Lemma ops_same s l m h u : W s -> has_tree s h u -> Forall2 (same_operation_rule names atomic who t R s) l m ->
      match dict_get Nat.eqb l h, dict_get tree_eqb m u with
      | Some f, Some g => same_operation_rule names atomic who t R s (h, f) (u, g)
      | None, None => True
      | _, _ => False
      end.
    Proof.
      intros HW Hh. induction 1 as [|[h' f] [u' g] l m (Hu & H1 & H2) _ IH]; [exact I|]. cbn [dict_get fst snd] in *.
      rewrite (identity names atomic who t Hsafe s h u h' u' HW Hh Hu). destruct (tree_eqb_spec u u') as [->|Hne]; [|exact IH].
      split; [exact Hh|]. split; assumption.
    Qed.
    Lemma vals_same s d e a u : W s -> same_values s d e -> has_tree s a u ->
      match dict_get Nat.eqb d a, dict_get tree_eqb e u with Some v, Some w => R s v w | None, None => True | _, _ => False end.
    Proof.
      intros HW H Ha. induction H as [|[b v] [w x] d e [Hb Hv] _ IH]; [exact I|]. cbn [dict_get fst snd] in *.
      rewrite (identity names atomic who t Hsafe s a u b w HW Ha Hb). destruct (tree_eqb u w); [exact Hv|exact IH].
    Qed.
    Lemma rules_later s s' oe ev : later s s' -> same_rules s oe ev -> same_rules s' oe ev.
    Proof.
      intros L [H1 H2 H3 H4]. constructor.
      - eapply Forall2_mono; [|exact H1]. intros r q [E H]. split; [exact E|]. intros s1 v R1 L1. apply H; [exact R1|eapply later_trans; eassumption].
      - eapply Forall2_mono; [|exact H2]. intros r q (E & E2 & H). split; [apply L, E|]. split; [exact E2|].
        intros s1 l m R1 L1 Hl. apply H; [exact R1|eapply later_trans; eassumption|exact Hl].
      - intros s1 h u l m R1 L1. apply H3; [exact R1|eapply later_trans; eassumption].
      - intros s1 a u R1 L1. apply H4; [exact R1|eapply later_trans; eassumption].
    Qed.
    Lemma values_later s s' d e : later s s' -> same_values s d e -> same_values s' d e.
    Proof. intros L H. eapply Forall2_mono; [|exact H]. intros r q [H1 H2]. split; [apply L, H1|eapply HR; eassumption]. Qed.

    Lemma eval_atom_ref s oe ev a u : W s -> same_rules s oe ev -> has_tree s a u -> children u = [] ->
      refines s (o_eval_atom oe a) (eval_atom ev u) R.
    Proof.
      intros HW Hr Ha Hc. unfold o_eval_atom. destruct u as [x|us]; [|cbn [children] in Hc; subst us; apply no_value_ref; assumption].
      unfold eval_atom, tree_value. cbn [bind].
      eapply (ref_bind_ok atomic who t Hwho _ _ _ _ _ has_atom); [exact HW|apply value_ref; [exact HW|exact Ha]|]. intros s1 b W1 L1 Hb.
      eapply (ref_bind_ok atomic who t Hwho); [exact W1|apply (parts_ref s1 b x W1 Hb)|]. intros s2 [ty v] W2 L2 ->. cbn [fst snd atom_type ModelTree.atom_value].
      assert (L02 : later s s2) by (eapply later_trans; apply le_later; eassumption).
      pose proof (types_same s _ _ ty (sr_atoms _ _ _ _ _ _ _ _ Hr)) as T.
      destruct (dict_get Nat.eqb (oe_atoms oe) ty), (dict_get atype_eqb (ev_atoms ev) (mkType ty (names ty))); try contradiction.
      - apply (proj2 T); [exact W2|exact L02].
      - apply (sr_generic_atom _ _ _ _ _ _ _ _ Hr); [exact W2|exact L02|apply L02, Ha].
    Qed.
    Lemma eval_operation_ref s oe ev h u args args' : W s -> same_rules s oe ev -> has_tree s h u -> Forall2 (R s) args args' ->
      refines s (o_eval_operation oe h args) (eval_operation ev u args') R.
    Proof.
      intros HW Hr Hh Hargs. unfold o_eval_operation, eval_operation.
      pose proof (ops_same s _ _ h u HW Hh (sr_operations _ _ _ _ _ _ _ _ Hr)) as T.
      destruct (dict_get Nat.eqb (oe_operations oe) h) as [[f st]|], (dict_get tree_eqb (ev_operations ev) u) as [[g st']|]; try contradiction.
      - destruct T as (_ & E & T). cbn [fst snd] in *. subst st'. destruct st.
        + apply T; [exact HW|apply le_later, le_refl|]. clear - Hargs. induction Hargs as [|v w l m Hv _ IH]; [constructor|]. cbn [map]. constructor; [exact Hv|exact IH].
        + apply T; [exact HW|apply le_later, le_refl|]. constructor; [exact Hargs|constructor].
      - apply (sr_generic_operation _ _ _ _ _ _ _ _ Hr); [exact HW|apply le_later, le_refl|exact Hh|exact Hargs].
    Qed.
    Lemma mapM_fold {X Y} (f : X -> res Y) l : forall st, foldM (fun st x => do v <- f x; Ok (st ++ [v])) l st = (do vs <- mapM f l; Ok (st ++ vs)).
    Proof.
      induction l as [|x l IH]; intros st; cbn [foldM mapM bind]; [rewrite app_nil_r; reflexivity|].
      destruct (f x) as [y|]; cbn [bind]; [|reflexivity]. rewrite IH. destruct (mapM f l); cbn [bind]; [|reflexivity]. rewrite <- app_assoc. reflexivity.
    Qed.
    Lemma evaluate_ref s fuel oe ev a u d e : W s -> same_rules s oe ev -> has_tree s a u -> same_values s d e -> enough fuel u ->
      (forall g, forward_graph u = Ok g -> Forall (fun v => children v = []) (g_atoms g)) ->
      refines s (o_evaluate none fuel oe a d) (evaluate none' ev u (Some e)) R.
    Proof.
      intros HW Hr Ha Hv He Hat. unfold o_evaluate, evaluate, eval_forward.
      assert (G : refines s (o_forward_graph fuel a) (forward_graph u) (fun s1 x g => rgraph names t s1 x g /\ forward_graph u = Ok g)).
      { pose proof (graph_ref names atomic who t Hsafe Hwho s fuel a u HW Ha He) as [H1 H2]. split; [exact H1|]. intros s' r H. specialize (H2 s' r H).
        destruct r, (forward_graph u); try exact H2. split; [exact H2|reflexivity]. }
      eapply ref_bind; [exact Hwho|exact HW|exact G|]. intros s1 [[atoms heads] os] g W1 L1 [(H1 & H2 & H3) Eg]. cbn [fst snd] in *. specialize (Hat g Eg).
      assert (MR : mono (rlist R)) by (apply mono_list, stable_mono, HR).
      eapply (ref_bind atomic who t Hwho _ _ _ _ _ (rlist R)); [exact W1| |].
      - assert (E : mapM (eval_leaf none' ev e) (g_atoms g) = foldM (fun st x => do v <- eval_leaf none' ev e x; Ok (st ++ [v])) (g_atoms g) []).
        { rewrite mapM_fold. destruct (mapM (eval_leaf none' ev e) (g_atoms g)); reflexivity. }
        rewrite E. clear E G H2 H3.
        apply (ref_pfold atomic who t Hwho (fun s a u => has_tree s a u /\ children u = []) (rlist R)); [|exact MR|exact W1| |constructor|].
        + intros s2 s3 b v L [Hb Hc]. split; [exact (has_tree_le names t _ _ _ _ L Hb)|exact Hc].
        + clear - H1 Hat. induction H1 as [|b v l us Hb _ IH]; [constructor|]. inversion Hat; subst. constructor; [split; assumption|apply IH; assumption].
        + intros s2 b v st st' W2 L2 [Hb Hc] Hst. unfold o_eval_leaf, eval_leaf.
          assert (L02 : later s s2) by (eapply later_trans; apply le_later; eassumption).
          pose proof (vals_same s2 d e b v W2 (values_later _ _ _ _ L02 Hv) Hb) as T.
          assert (EA : refines s2 (o_eval_atom oe b) (eval_atom ev v) R) by (apply eval_atom_ref; [exact W2|eapply rules_later; eassumption|exact Hb|exact Hc]).
          eapply (ref_bind atomic who t Hwho _ _ _ _ _ R); [exact W2| |].
          * destruct (dict_get Nat.eqb d b) as [w|], (dict_get tree_eqb e v) as [w'|]; try contradiction; [|exact EA].
            rewrite (Hnone s2 w w' T). destruct (none' w'); [exact EA|]. apply ref_ret; [exact W2|apply stable_mono, HR|exact T].
          * intros s3 w w' W3 L3 Hw. apply ref_ret; [exact W3|exact MR|]. apply rl_snoc; [|exact Hw]. eapply MR; eassumption.
      - intros s2 st st' W2 L2 Hst. eapply (ref_bind atomic who t Hwho _ _ _ _ _ (rlist R)); [exact W2| |].
        + apply (ref_pfold atomic who t Hwho (rprod has_tree (@req (list nat))) (rlist R)); [mono_tac|exact MR|exact W2| |exact Hst|].
          * revert H3. apply (mono_list t (rprod has_tree (@req (list nat)))); [mono_tac|exact L2].
          * intros s3 [h ns] [v ns'] st3 st3' W3 L3 [Hh Hns] Hst3. cbn [fst snd] in *. red in Hns. subst ns'. unfold o_eval_op, run_op. cbn [fst snd].
            eapply (ref_bind atomic who t Hwho _ _ _ _ _ (rlist R)); [exact W3|apply ref_ret; [exact W3|exact MR|]|].
            { apply (rel_mapM eq (R s3)); [apply list_eq|]. intros i j <-. apply (rl_getitem R), Hst3. }
            intros s4 args args' W4 L4 Hargs. eapply (ref_bind atomic who t Hwho _ _ _ _ _ R); [exact W4| |].
            { apply eval_operation_ref; [exact W4| |exact (has_tree_le names t _ _ _ _ L4 Hh)|exact Hargs].
              eapply rules_later; [|exact Hr]. apply le_later. eapply le_trans; [exact L1|]. eapply le_trans; [exact L2|]. eapply le_trans; eassumption. }
            intros s5 w w' W5 L5 Hw. apply ref_ret; [exact W5|exact MR|]. apply rl_snoc; [|exact Hw]. eapply (MR s3); [eapply le_trans; [exact L4|exact L5]|exact Hst3].
        + intros s3 st3 st3' W3 L3 Hst3. apply ref_ret; [exact W3|apply stable_mono, HR|]. apply (rl_last R), Hst3.
    Qed.
  End Eval.

  (** ** Differentiation *)
  Lemma props_later s s' p q : later s s' -> same_props names t s p q -> same_props names t s' p q.
  Proof.
    intros L [H1 H2 H3 H4 H5 H6]. constructor; try (apply L; assumption).
    - eapply trees_later; [exact L|exact H5].
    - eapply Forall2_mono; [|exact H6]. intros r r' (K1 & K2 & K3 & K4 & K5). split; [apply L, K1|]. split; [exact K2|].
      split; [exact K3|]. split; [eapply trees_later; [exact L|exact K4]|exact K5].
  Qed.
  Lemma call_ref s f u l us : W s -> has_tree s f u -> trees s l us -> refines s (o_call f l) (Ok (tree_call u us)) has_tree.
  Proof. intros HW Hf Hl. unfold o_call, tree_call. apply (Tree_ref names atomic who t Hsafe Hwho); [exact HW|]. constructor; assumption. Qed.
  Lemma firstn_trees s n : forall l us, trees s l us -> trees s (firstn n l) (firstn n us).
  Proof. induction n as [|n IH]; intros l us H; [constructor|]. inversion H; subst; [constructor|]. cbn [firstn]. constructor; [assumption|]. apply IH. assumption. Qed.
  Lemma skipn_trees s n : forall l us, trees s l us -> trees s (skipn n l) (skipn n us).
  Proof. induction n as [|n IH]; intros l us H; [exact H|]. inversion H; subst; [constructor|]. cbn [skipn]. apply IH. assumption. Qed.
  Lemma eqb_same s a u b v : W s -> has_tree s a u -> has_tree s b v -> Nat.eqb a b = tree_eqb u v.
  Proof. apply (identity names atomic who t Hsafe). Qed.
  Lemma rules_get s f u n l m : W s -> has_tree s f u ->
    Forall2 (fun r r' => has_tree s (fst (fst r)) (fst (fst r')) /\ snd (fst r) = snd (fst r') /\ same_subs names t s (snd r) (snd r')) l m ->
    rel (same_subs names t s) (dict_getitem o_rule_key_eqb l (f, n)) (dict_getitem rule_key_eqb m (u, n)).
  Proof.
    intros HW Hf. unfold dict_getitem. induction 1 as [|[[h k] r] [[v k'] r'] l m (H1 & H2 & H3) _ IH]; [reflexivity|]. cbn [dict_get fst snd] in *. subst k'.
    unfold o_rule_key_eqb at 1, rule_key_eqb at 1. cbn [fst snd]. rewrite (eqb_same s f u h v HW Hf H1).
    destruct (tree_eqb u v && Nat.eqb n k); [exact H3|exact IH].
  Qed.
  Lemma product_rule_ref s args us ds vs zero z mul m : W s -> trees s args us -> trees s ds vs -> has_tree s zero z -> has_tree s mul m ->
    refines s (o_product_rule args ds zero mul) (Ok (product_rule_forward us vs z m)) trees.
  Proof.
    intros HW Ha Hd Hz Hm. unfold o_product_rule, product_rule_forward. rewrite <- fold_left_foldM.
    apply (ref_pfold atomic who t Hwho (rprod (@req nat) has_tree) trees); [mono_tac|mono_tac|exact HW|apply enum_same, Hd|constructor|].
    intros s1 [n d] [n' v] st st' W1 L1 [Hn Hdv] Hst. cbn [fst snd] in *. red in Hn. subst n'. unfold o_product_step, product_step.
    rewrite (eqb_same s1 d v zero z W1 Hdv (has_tree_le names t _ _ _ _ L1 Hz)). destruct (negb (tree_eqb v z)).
    - eapply (ref_bind_ok atomic who t Hwho _ _ _ _ _ has_tree); [exact W1| |].
      + apply call_ref; [exact W1|exact (has_tree_le names t _ _ _ _ L1 Hm)|]. pose proof (trees_later _ _ _ _ (le_later _ _ L1) Ha) as Ha1.
        apply rl_app; [apply firstn_trees, Ha1|]. constructor; [exact Hdv|apply skipn_trees, Ha1].
      + intros s2 b W2 L2 Hb. apply ref_ret; [exact W2|mono_tac|]. apply rl_snoc; [|exact Hb]. exact (trees_later _ _ _ _ (le_later _ _ L2) Hst).
    - apply ref_ret; [exact W1|mono_tac|exact Hst].
  Qed.
  Lemma chain_rule_ref s f u args us ds vs p q : W s -> has_tree s f u -> trees s args us -> trees s ds vs -> same_props names t s p q ->
    refines s (o_chain_rule f args ds (od_zero p) (od_one p) (od_mul p) (od_rules p))
      (chain_rule_forward u us vs (dp_zero q) (dp_one q) (dp_mul q) (dp_rules q)) trees.
  Proof.
    intros HW Hf Ha Hd Hp. unfold o_chain_rule, chain_rule_forward.
    apply (ref_pfold atomic who t Hwho (rprod (@req nat) has_tree) trees); [mono_tac|mono_tac|exact HW|apply enum_same, Hd|constructor|].
    intros s1 [n d] [n' v] st st' W1 L1 [Hn Hdv] Hst. cbn [fst snd] in *. red in Hn. subst n'. unfold o_chain_step, chain_step.
    pose proof (props_later _ _ _ _ (le_later _ _ L1) Hp) as Hp1. pose proof (has_tree_le names t _ _ _ _ L1 Hf) as Hf1.
    pose proof (trees_later _ _ _ _ (le_later _ _ L1) Ha) as Ha1.
    rewrite (eqb_same s1 d v _ _ W1 Hdv (sp_zero _ _ _ _ _ Hp1)). destruct (negb (tree_eqb v (dp_zero q))); [|apply ref_ret; [exact W1|mono_tac|exact Hst]].
    assert (MS : mono (same_subs names t)) by (exact (mono_subs names t)).
    eapply (ref_bind atomic who t Hwho _ _ _ _ _ (same_subs names t)); [exact W1|apply ref_ret; [exact W1|exact MS|apply rules_get; [exact W1|exact Hf1|exact (sp_rules _ _ _ _ _ Hp1)]]|].
    intros s2 r r' W2 L2 Hr.
    eapply (ref_bind atomic who t Hwho _ _ _ _ _ has_tree); [exact W2|apply (subs_call_ref names atomic who t Hsafe Hwho); [exact W2|exact Hr|exact (trees_later _ _ _ _ (le_later _ _ L2) Ha1)]|].
    intros s3 b w W3 L3 Hb.
    assert (L13 : later s1 s3) by (eapply later_trans; apply le_later; eassumption). pose proof (props_later _ _ _ _ L13 Hp1) as Hp3.
    pose proof (L13 d v Hdv) as Hdv3. pose proof (trees_later _ _ _ _ L13 Hst) as Hst3.
    eapply (ref_bind_ok atomic who t Hwho _ _ (if negb (tree_eqb v (dp_one q)) then tree_call (dp_mul q) [w; v] else w) _ _ has_tree); [exact W3| |].
    - rewrite (eqb_same s3 d v _ _ W3 Hdv3 (sp_one _ _ _ _ _ Hp3)). destruct (negb (tree_eqb v (dp_one q))).
      + apply call_ref; [exact W3|exact (sp_mul _ _ _ _ _ Hp3)|]. constructor; [exact Hb|]. constructor; [exact Hdv3|constructor].
      + apply ref_ret; [exact W3|mono_tac|exact Hb].
    - intros s4 c W4 L4 Hc. apply ref_ret; [exact W4|mono_tac|]. apply rl_snoc; [|exact Hc]. exact (trees_later _ _ _ _ (le_later _ _ L4) Hst3).
  Qed.
  Lemma all_zero_same s ds vs zero z : W s -> trees s ds vs -> has_tree s zero z -> o_all_zero ds zero = all_zero vs z.
  Proof.
    intros HW H Hz. unfold o_all_zero, all_zero. inversion H as [|d v l m Hd Hl]; subst; [reflexivity|]. clear Hd Hl.
    induction H as [|a u l' m' Ha _ IH]; [reflexivity|]. cbn [forallb]. rewrite (eqb_same s a u zero z HW Ha Hz), IH. reflexivity.
  Qed.
  Lemma diff_terms_ref s f u args us ds vs p q : W s -> has_tree s f u -> trees s args us -> trees s ds vs -> same_props names t s p q ->
    refines s (o_diff_terms p f args ds) (diff_terms_of q u us vs) trees.
  Proof.
    intros HW Hf Ha Hd Hp. pose proof Hp as [H1 H2 H3 H4 H5 H6]. unfold o_diff_terms, diff_terms_of.
    rewrite (mem_same names atomic who t Hsafe s f u _ _ HW Hf H5). destruct (mem u (dp_distributive q)).
    { eapply (ref_bind_ok atomic who t Hwho _ _ _ _ _ has_tree); [exact HW|apply call_ref; eassumption|].
      intros s1 b W1 L1 Hb. apply ref_ret; [exact W1|mono_tac|]. constructor; [exact Hb|constructor]. }
    rewrite (all_zero_same s ds vs _ _ HW Hd H1). destruct (all_zero vs (dp_zero q)); [apply ref_ret; [exact HW|mono_tac|constructor]|].
    rewrite (eqb_same s f u _ _ HW Hf H3). destruct (tree_eqb u (dp_add q)).
    { apply ref_ret; [exact HW|mono_tac|]. cbn [rel]. clear - HW Hd H1 Hsafe. induction Hd as [|d v l m Hdv _ IH]; [constructor|]. cbn [filter].
      rewrite (eqb_same s d v _ _ HW Hdv H1). destruct (negb (tree_eqb v (dp_zero q))); [constructor; assumption|exact IH]. }
    rewrite (eqb_same s f u _ _ HW Hf H4). destruct (tree_eqb u (dp_mul q)); [apply product_rule_ref|apply chain_rule_ref]; assumption.
  Qed.
  Lemma sum_terms_ref s l us p q : W s -> trees s l us -> same_props names t s p q -> refines s (o_sum_terms p l) (Ok (sum_terms q us)) has_tree.
  Proof.
    intros HW Hl [H1 H2 H3 H4 H5 H6]. unfold o_sum_terms, sum_terms. inversion Hl as [|a u l1 m1 Ha Hl1]; subst; [apply ref_ret; [exact HW|mono_tac|exact H1]|].
    inversion Hl1; subst; [apply ref_ret; [exact HW|mono_tac|exact Ha]|]. apply call_ref; assumption.
  Qed.
  Lemma diff_forward_ref s fuel a u x v p q : W s -> has_tree s a u -> has_tree s x v -> same_props names t s p q -> enough fuel u ->
    refines s (o_diff_forward fuel a x p) (diff_forward u v q) has_tree.
  Proof.
    intros HW Ha Hx Hp He. unfold o_diff_forward, diff_forward.
    eapply ref_bind; [exact Hwho|exact HW|apply (graph_ref names atomic who t Hsafe Hwho); eassumption|].
    intros s1 [[atoms heads] os] g W1 L1 (H1 & _ & H3). cbn [fst snd] in *.
    pose proof (props_later _ _ _ _ (le_later _ _ L1) Hp) as Hp1. pose proof (has_tree_le names t _ _ _ _ L1 Hx) as Hx1.
    eapply (ref_bind atomic who t Hwho _ _ _ _ _ (rprod trees trees)); [exact W1| |].
    - apply (ref_pfold atomic who t Hwho (rprod has_tree (@req (list nat))) (rprod trees trees)); [mono_tac|mono_tac|exact W1|exact H3| |].
      + split; [exact H1|]. cbn [snd]. clear - H1 W1 Hx1 Hp1 Hsafe. induction H1 as [|b w l us Hb _ IH]; [constructor|]. cbn [map]. constructor; [|exact IH].
        rewrite (eqb_same s1 b w x v W1 Hb Hx1). destruct (tree_eqb w v); [exact (sp_one _ _ _ _ _ Hp1)|exact (sp_zero _ _ _ _ _ Hp1)].
      + intros s2 [f ns] [w ns'] [st ds] [st' ds'] W2 L2 [Hf Hns] [Hst Hds]. cbn [fst snd] in *. red in Hns. subst ns'. unfold o_diff_step, diff_step.
        eapply (ref_bind atomic who t Hwho _ _ _ _ _ trees); [exact W2|apply ref_ret; [exact W2|mono_tac|apply items_same, Hst]|].
        intros s3 args us W3 L3 Hargs. pose proof (trees_later _ _ _ _ (le_later _ _ L3) Hds) as Hds3.
        eapply (ref_bind atomic who t Hwho _ _ _ _ _ trees); [exact W3|apply ref_ret; [exact W3|mono_tac|apply items_same, Hds3]|].
        intros s4 dargs vs W4 L4 Hdargs.
        assert (L24 : later s2 s4) by (eapply later_trans; apply le_later; eassumption).
        pose proof (L24 _ _ Hf) as Hf4. pose proof (trees_later _ _ _ _ (le_later _ _ L4) Hargs) as Hargs4.
        eapply (ref_bind_ok atomic who t Hwho _ _ _ _ _ has_tree); [exact W4|apply call_ref; eassumption|].
        intros s5 e W5 L5 Hexp.
        assert (L25 : later s2 s5) by (eapply later_trans; [exact L24|apply le_later, L5]).
        assert (L15 : later s1 s5) by (eapply later_trans; [apply le_later, L2|exact L25]).
        eapply (ref_bind atomic who t Hwho _ _ _ _ _ trees); [exact W5|apply diff_terms_ref|].
        * exact W5.
        * exact (L25 _ _ Hf).
        * exact (trees_later _ _ _ _ (le_later _ _ L5) Hargs4).
        * exact (trees_later _ _ _ _ (le_later _ _ L5) Hdargs).
        * exact (props_later _ _ _ _ L15 Hp1).
        * intros s6 tl tl' W6 L6 Htl.
          assert (L16 : later s1 s6) by (eapply later_trans; [exact L15|apply le_later, L6]).
          eapply (ref_bind_ok atomic who t Hwho _ _ _ _ _ has_tree); [exact W6|apply sum_terms_ref; [exact W6|exact Htl|exact (props_later _ _ _ _ L16 Hp1)]|].
          intros s7 d W7 L7 Hd. apply ref_ret; [exact W7|mono_tac|].
          assert (L57 : later s5 s7) by (eapply later_trans; apply le_later; eassumption).
          assert (L27 : later s2 s7) by (eapply later_trans; eassumption).
          split; cbn [fst snd]; apply rl_snoc; [exact (trees_later _ _ _ _ L27 Hst)|exact (L57 _ _ Hexp)|exact (trees_later _ _ _ _ L27 Hds)|exact Hd].
    - intros s2 [st ds] [st' ds'] W2 L2 [Hst Hds]. cbn [fst snd] in *. apply ref_ret; [exact W2|mono_tac|apply (rl_last has_tree), Hds].
  Qed.
End Proof.
