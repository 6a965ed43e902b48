(** * Matrices on objects: the programs of ModelObjMatrix.v and their meanings *)
From Verif Require Import Py ModelTree ModelIntern SpecIntern ModelEval ModelDiff ModelSym ModelCas ModelApi ProofBase ProofIntern SpecTree ModelObjects SpecObjects
  ModelObjEval SpecObjEval ModelMatrix ModelObjExpr SpecObjExpr ModelObjMatrix SpecObjMatrix ProofTopo ProofGraph ProofObjects ProofObjTree ProofObjEval PropsObjEval ProofObjExpr.

Section Proof.
  Context (names : nat -> string) (atomic : bool) (who : nat -> Prop) (t : nat).
  Context (Hsafe : safe atomic who) (Hwho : who t) (Hnames : cas_names names).
  Notation has_expr := (has_expr names t).
  Notation W := (W atomic who t).
  Notation le := (le t).
  Notation mono := (mono t).
  Notation refines := (refines atomic who t).
  Notation same_props := (same_props names t).
  Notation module_ok := (module_ok names t).
  Notation exprs := (rlist has_expr).
  Notation rop := (rop names t).
  Notation rmat := (has_matrix names t).
  Implicit Types (s : state pyval).

  Lemma mono_mat : mono rmat.
  Proof.
    intros s s' M U L (H1 & H2 & H3 & H4 & H5). split; [exact H1|]. split; [exact H2|]. split; [exact H3|].
    split; [eapply has_expr_le; eassumption|eapply mono_exprs; eassumption].
  Qed.
  Notation mono_expr := (mono_expr names t).
  Lemma ref_lift {A B A' B'} s (r : res A) (x : res B) (f : A -> prog A') (g : B -> res B') R R' : W s -> mono R -> rel (R s) r x ->
    (forall s1 a b, W s1 -> le s s1 -> R s1 a b -> refines s1 (f a) (g b) R') -> refines s (run a <- lift r; f a) (do b <- x; g b) R'.
  Proof. intros HW HM H K. eapply (ref_bind atomic who t Hwho); [exact HW|apply (ref_ret atomic who t); eassumption|exact K]. Qed.

  (** ** The lists *)
  Notation entry s := (fun (a : pos * addr) (b : pos * tree) => fst a = fst b /\ has_expr s (snd a) (snd b)).
  Notation acc s := (fun (a : list addr * entries_dict) (b : list tree * entries_dict) => exprs s (fst a) (fst b) /\ snd a = snd b).
  Definition racc s (a : list addr * entries_dict) (b : list tree * entries_dict) : Prop := exprs s (fst a) (fst b) /\ snd a = snd b.
  Lemma mono_acc : mono racc. Proof. intros s s' a b L [H1 H2]. split; [eapply mono_exprs; eassumption|exact H2]. Qed.
  Lemma row_same s i : forall l m n, exprs s l m ->
    Forall2 (entry s) (map (fun je : nat * addr => ((i, fst je), snd je)) (enumerate_from n l)) (map (fun je : nat * tree => ((i, fst je), snd je)) (enumerate_from n m)).
  Proof.
    intros l m n H. revert n. induction H as [|x u l m Hx _ IH]; intros n; [constructor|]. cbn [enumerate_from map fst snd].
    constructor; [split; [reflexivity|exact Hx]|apply IH].
  Qed.
  Lemma indexed_same s rows us : rlist exprs s rows us -> Forall2 (entry s) (indexed rows) (indexed us).
  Proof.
    intros H. unfold indexed.
    assert (G : forall n, Forall2 (entry s) (flat_map (fun irow => map (fun je : nat * addr => ((fst irow, fst je), snd je)) (enumerate_from 0 (snd irow))) (enumerate_from n rows))
      (flat_map (fun irow => map (fun je : nat * tree => ((fst irow, fst je), snd je)) (enumerate_from 0 (snd irow))) (enumerate_from n us))); [|apply G].
    induction H as [|l m rows us Hl _ IH]; intros n; [constructor|].
    cbn [enumerate_from flat_map fst snd]. apply Forall2_app; [apply row_same, Hl|apply IH].
  Qed.
  Lemma store_same s z : W s -> has_expr s z zero -> forall es us a b, Forall2 (entry s) es us -> racc s a b ->
    racc s (fold_left (vm_store (fun e => Nat.eqb e z)) es a) (fold_left (vm_store (fun u => tree_eqb u zero)) us b).
  Proof.
    intros HW Hz es us a b H. revert a b. induction H as [|[p e] [q u] es us [Hp He] _ IH]; intros a b Hab; [exact Hab|]. cbn [fold_left]. apply IH.
    cbn [fst snd] in *. subst q. unfold vm_store. cbn [fst snd]. rewrite (expr_identity names atomic who t Hsafe s e u z zero HW He Hz).
    destruct a as [l d], b as [l' d'], Hab as [H1 H2]. cbn [fst snd] in *. subst d'. destruct (tree_eqb u zero); [split; [exact H1|reflexivity]|]. split; cbn [fst snd].
    - apply rl_snoc; assumption.
    - f_equal. exact (rl_length has_expr s _ _ H1).
  Qed.
  Lemma ncols_same {A B} (R : state pyval -> A -> B -> Prop) s rows us : rlist (rlist R) s rows us -> vm_ncols_of rows = vm_ncols_of us.
  Proof.
    intros H. unfold vm_ncols_of. destruct H as [|l m rows us Hl H]; [reflexivity|]. cbn [getitem nth_error of_option bind].
    rewrite (rl_length R s _ _ Hl). assert (H' : rlist (rlist R) s (l :: rows) (m :: us)) by (constructor; assumption). revert H'. generalize (l :: rows) (m :: us). clear.
    intros rows us H. replace (forallb (fun r => Nat.eqb (length r) (length m)) rows) with (forallb (fun r => Nat.eqb (length r) (length m)) us); [reflexivity|].
    induction H as [|l k rows us Hl _ IH]; [reflexivity|]. cbn [forallb]. rewrite (rl_length R s _ _ Hl), IH. reflexivity.
  Qed.
  Lemma getitem_same s z M U i j : has_expr s z zero -> rmat s M U -> rel (has_expr s) (vm_getitem z M i j) (vm_getitem zero U i j).
  Proof.
    intros Hz (H1 & H2 & H3 & H4 & H5). unfold vm_getitem. rewrite H1, H2, H3. destruct (negb _); [reflexivity|].
    destruct (dict_get _ _ _); [apply (rl_getitem has_expr), H5|exact Hz].
  Qed.
  Lemma rl_set {A B} (R : state pyval -> A -> B -> Prop) s l m n a b : rlist R s l m -> R s a b -> rlist R s (set_nth_any l n a) (set_nth_any m n b).
  Proof.
    intros H Hab. unfold set_nth_any. revert n. induction H as [|x y l m Hx H IH]; intros [|n]; cbn [firstn skipn app]; try (constructor; fail).
    - constructor; assumption.
    - constructor; [exact Hx|apply IH].
  Qed.
  Lemma tolist_same s z M U : W s -> has_expr s z zero -> rmat s M U -> rel (rlist exprs s) (vm_tolist z M) (vm_tolist zero U).
  Proof.
    intros HW Hz (H1 & H2 & H3 & H4 & H5). unfold vm_tolist. rewrite H1, H2, H3.
    assert (G : rlist exprs s (repeat (repeat z (vm_ncols U)) (vm_nrows U)) (repeat (repeat zero (vm_ncols U)) (vm_nrows U))).
    { assert (G : forall {A B} (R : A -> B -> Prop) a b n, R a b -> Forall2 R (repeat a n) (repeat b n)) by (intros A B R a b n K; induction n; constructor; assumption).
      apply G, G, Hz. }
    clear H1 H2 H3. revert G. generalize (repeat (repeat z (vm_ncols U)) (vm_nrows U)) (repeat (repeat zero (vm_ncols U)) (vm_nrows U)).
    induction (vm_entrymap U) as [|[p n] d IH]; intros rows us G; [exact G|]. cbn [foldM fst snd].
    pose proof (rl_getitem has_expr s _ _ n H5) as K. destruct (getitem (vm_elements M) n) as [e|], (getitem (vm_elements U) n) as [u|]; cbn [rel bind] in *; try contradiction; [|exact K].
    unfold vm_set_entry at 1 3. pose proof (rl_getitem exprs s _ _ (fst p) G) as K2.
    destruct (getitem rows (fst p)) as [row|], (getitem us (fst p)) as [us0|]; cbn [rel bind] in *; try contradiction; [|exact K2].
    rewrite (rl_length has_expr s _ _ K2). destruct (Nat.ltb (snd p) (length us0)); cbn [bind]; [|reflexivity].
    apply IH. apply (rl_set exprs); [exact G|]. apply (rl_set has_expr); assumption.
  Qed.

  (** ** The operations *)
  Lemma operands_of s l us : exprs s l us -> rlist rop s (map OE l) (map PExpr us).
  Proof. intros H. induction H as [|x y l m Hx _ IH]; constructor; [exact Hx|exact IH]. Qed.
  Lemma call_values h us : expr_call h (map PExpr us) = Ok (tree_call h us).
  Proof.
    unfold expr_call. replace (mapM expressify (map PExpr us)) with (Ok us); [reflexivity|].
    induction us as [|x us IH]; [reflexivity|]. cbn [map mapM expressify bind]. rewrite <- IH. reflexivity.
  Qed.
  Lemma matrix__new_ref s g nr nc l us d : W s -> module_ok s g -> exprs s l us -> refines s (o_matrix__new g nr nc l d) (Ok (v_matrix__new nr nc us d)) rmat.
  Proof.
    intros HW Hg Hl. unfold o_matrix__new. eapply (ref_bind_ok atomic who t Hwho _ _ (tree_call List_ us) _ _ has_expr); [exact HW| |].
    - rewrite <- call_values. apply expr_call_ref; try assumption; [apply Hg|apply operands_of, Hl].
    - intros s1 gr W1 L1 Hgr. apply (ref_ret atomic who t); [exact W1|apply mono_mat|].
      repeat (split; [reflexivity|]). split; [exact Hgr|]. eapply mono_exprs; eassumption.
  Qed.
  Lemma matrix_new_ref s g rows us : W s -> module_ok s g -> rlist (rlist rop) s rows us -> refines s (o_matrix_new g rows) (v_matrix_new us) rmat.
  Proof.
    intros HW Hg H. unfold o_matrix_new, v_matrix_new. rewrite (ncols_same rop s rows us H). pose proof (rl_length _ _ _ _ H) as El.
    apply (ref_lift s _ _ _ _ (@req nat)); [exact HW|apply mono_eq|destruct (vm_ncols_of us); reflexivity|]. intros s1 nc nc' W1 L1 E. red in E. subst nc'.
    eapply (ref_bind atomic who t Hwho _ _ _ _ _ (rlist exprs)); [exact W1| |].
    - apply (pmap_ref atomic who t Hwho (rlist rop) exprs); [apply mono_list, mono_op|apply mono_exprs|exact W1|eapply mono_list; [apply mono_list, mono_op|exact L1|exact H]|].
      intros s2 x y W2 L2 Hx. apply (pmap_ref atomic who t Hwho rop has_expr); [apply mono_op|apply mono_expr|exact W2|exact Hx|].
      intros s3 a b W3 L3 Ha. apply expressify_ref; assumption.
    - intros s2 es vs W2 L2 He. assert (Hg2 : module_ok s2 g) by (eapply module_le; [exact L2|]; eapply module_le; eassumption).
      pose proof (store_same s2 (om_zero g) W2 (mo_zero _ _ _ _ Hg2) _ _ ([], []) ([], []) (indexed_same s2 _ _ He) (conj (Forall2_nil _) eq_refl)) as [K1 K2].
      destruct (fold_left _ (indexed es) _) as [l d], (fold_left _ (indexed vs) _) as [l' d']. cbn [fst snd] in *. subst d'.
      rewrite El. apply matrix__new_ref; assumption.
  Qed.
  Lemma binop_entry_ref s lo us f h a b e : W s -> exprs s lo us -> has_expr s f h -> racc s a b ->
    refines s (o_binop_entry lo f a e) (v_binop_entry us h b e) racc.
  Proof.
    intros HW Hlo Hf [H1 H2]. destruct a as [l d], b as [l' d'], e as [p n']. cbn [fst snd] in *. subst d'. unfold o_binop_entry, v_binop_entry. cbn [fst snd].
    set (R := fun s (x : addr) (u : tree) => has_expr s x u /\ exprs s lo us /\ has_expr s f h /\ exprs s l l').
    assert (MR : mono R).
    { intros s1 s2 x u L (K1 & K2 & K3 & K4). split; [eapply has_expr_le; eassumption|]. split; [eapply mono_exprs; eassumption|]. split; [eapply has_expr_le; eassumption|eapply mono_exprs; eassumption]. }
    assert (GR : forall s k ks i, exprs s k ks -> exprs s lo us -> has_expr s f h -> exprs s l l' -> rel (R s) (getitem k i) (getitem ks i)).
    { intros s1 k ks i K K2 K3 K4. pose proof (rl_getitem has_expr s1 k ks i K) as G. destruct (getitem k i), (getitem ks i); cbn [rel] in *; try contradiction; [|exact G]. exact (conj G (conj K2 (conj K3 K4))). }
    destruct (dict_get pos_eqb d p) as [n|].
    - apply (ref_lift s _ _ _ _ R); [exact HW|exact MR|apply GR; assumption|]. intros s1 a1 u1 W1 L1 (A1 & B1 & C1 & D1).
      apply (ref_lift s1 _ _ _ _ (fun s x u => R s x u /\ has_expr s a1 u1)); [exact W1| | |].
      + intros s2 s3 x u L [K K']. split; [eapply MR; eassumption|eapply has_expr_le; eassumption].
      + pose proof (GR s1 lo us n' B1 B1 C1 D1) as G. destruct (getitem lo n'), (getitem us n'); cbn [rel] in *; try contradiction; [split; assumption|exact G].
      + intros s2 a2 u2 W2 L2 [(A2 & B2 & C2 & D2) A1'].
        eapply (ref_bind_ok atomic who t Hwho _ _ (call2 h u1 u2) _ _ has_expr); [exact W2|apply call2_ref; assumption|]. intros s3 r W3 L3 Hr.
        rewrite (rl_length has_expr _ _ _ D2). pose proof (mono_exprs names t _ _ _ _ L3 D2) as D3.
        destruct (Nat.ltb n (length l')); (apply (ref_ret atomic who t); [exact W3|apply mono_acc|]); [|reflexivity].
        split; cbn [fst snd]; [apply (rl_set has_expr); assumption|reflexivity].
    - apply (ref_lift s _ _ _ _ R); [exact HW|exact MR|apply GR; assumption|]. intros s1 a1 u1 W1 L1 (A1 & B1 & C1 & D1).
      apply (ref_ret atomic who t); [exact W1|apply mono_acc|]. split; cbn [fst snd]; [apply rl_snoc; assumption|]. rewrite (rl_length has_expr _ _ _ D1). reflexivity.
  Qed.
  Lemma binop_ref s g M N U V f h : W s -> module_ok s g -> rmat s M U -> rmat s N V -> has_expr s f h ->
    refines s (o_matrix_binop g M N f) (v_matrix_binop U V h) rmat.
  Proof.
    intros HW Hg (A1 & A2 & A3 & A4 & A5) (B1 & B2 & B3 & B4 & B5) Hf. unfold o_matrix_binop, v_matrix_binop. rewrite A1, A2, A3, B1, B2, B3.
    destruct (negb _); [apply (ref_ret atomic who t); [exact HW|apply mono_mat|reflexivity]|].
    set (R := fun s a b => racc s a b /\ exprs s (vm_elements N) (vm_elements V) /\ has_expr s f h /\ module_ok s g).
    assert (MR : mono R).
    { intros s1 s2 x u L (K1 & K2 & K3 & K4). split; [eapply mono_acc; eassumption|]. split; [eapply mono_exprs; eassumption|]. split; [eapply has_expr_le; eassumption|eapply module_le; eassumption]. }
    eapply (ref_bind atomic who t Hwho _ _ _ _ _ R); [exact HW| |].
    - apply (ref_pfold atomic who t Hwho (@req (pos * nat)) R); [apply mono_eq|exact MR|exact HW|unfold rlist, req; apply list_eq|split; [split; [exact A5|reflexivity]|auto]|].
      intros s1 x y a b W1 L1 E (K1 & K2 & K3 & K4). red in E. subst y.
      eapply (ref_weaken atomic who t Hwho); [exact W1|apply binop_entry_ref; eassumption|]. intros s2 a2 b2 W2 L2 K. split; [exact K|].
      split; [eapply mono_exprs; eassumption|]. split; [eapply has_expr_le; eassumption|eapply module_le; eassumption].
    - intros s1 [l d] [l' d'] W1 L1 ([K1 E] & K2 & K3 & K4). cbn [fst snd] in *. subst d'. apply matrix__new_ref; assumption.
  Qed.
  Lemma matrix_diff_ref s fuel g p q M U x v : W s -> module_ok s g -> same_props s p q -> rmat s M U -> has_expr s x v -> enough fuel (vm_graph U) ->
    refines s (o_matrix_diff g fuel p M x) (v_matrix_diff q U v) rmat.
  Proof.
    intros HW Hg Hp (A1 & A2 & A3 & A4 & A5) Hx Hf. unfold o_matrix_diff, v_matrix_diff. rewrite A1, A2, A3.
    replace (sym_diff_call q (vm_graph U) v 1) with (diff_forward (vm_graph U) v q)
      by (unfold sym_diff_call; change (Z.to_nat 1) with 1; cbn [repeatM]; destruct (diff_forward (vm_graph U) v q); reflexivity).
    eapply (ref_bind atomic who t Hwho _ _ _ _ _ has_expr); [exact HW|apply sym_diff_ref; assumption|]. intros s1 e u W1 L1 He.
    eapply (ref_bind_ok atomic who t Hwho _ _ _ _ _ exprs); [exact W1|apply args_ref; eassumption|]. intros s2 l W2 L2 Hl.
    apply matrix__new_ref; [exact W2|eapply module_le; [exact L2|]; eapply module_le; eassumption|exact Hl].
  Qed.

  (** ** Programs *)
  Definition mvars : state pyval -> o_mstate -> v_mstate -> Prop := rprod (vars names t) (rlist rmat).
  Lemma mono_mvars : mono mvars. Proof. apply mono_prod; [apply mono_vars|apply mono_list, mono_mat]. Qed.
  Lemma push_expr s q r env p ms us pv vs : W s -> mvars s ((env, p), ms) ((us, pv), vs) -> refines s q r has_expr ->
    refines s (run e <- q; ret ((env ++ [e], p), ms)) (do u <- r; Ok ((us ++ [u], pv), vs)) mvars.
  Proof.
    intros HW Hv Hq. eapply (ref_bind atomic who t Hwho _ _ _ _ _ has_expr); [exact HW|exact Hq|]. intros s1 e u W1 L1 He.
    apply (ref_ret atomic who t); [exact W1|apply mono_mvars|]. pose proof (mono_mvars _ _ _ _ L1 Hv) as [[H1 H2] H3]. cbn [fst snd] in *.
    split; [split|exact H3]; cbn [fst snd]; [apply rl_snoc; assumption|exact H2].
  Qed.
  Lemma push_matrix s q r env p ms us pv vs : W s -> mvars s ((env, p), ms) ((us, pv), vs) -> refines s q r rmat ->
    refines s (run M <- q; ret ((env, p), ms ++ [M])) (do U <- r; Ok ((us, pv), vs ++ [U])) mvars.
  Proof.
    intros HW Hv Hq. eapply (ref_bind atomic who t Hwho _ _ _ _ _ rmat); [exact HW|exact Hq|]. intros s1 M U W1 L1 HM.
    apply (ref_ret atomic who t); [exact W1|apply mono_mvars|]. pose proof (mono_mvars _ _ _ _ L1 Hv) as [H1 H3]. cbn [fst snd] in *.
    split; [exact H1|]. apply (rl_snoc rmat); assumption.
  Qed.
  (** What is known while a statement is evaluated. *)
  Record known s g (st : o_mstate) (vt : v_mstate) : Prop := { k_module : module_ok s g; k_vars : mvars s st vt }.
  Lemma known_le s s' g st vt : le s s' -> known s g st vt -> known s' g st vt.
  Proof. intros L [H1 H2]. constructor; [eapply module_le; eassumption|eapply mono_mvars; eassumption]. Qed.
  Lemma get_matrix {A' B'} s g env p ms us pv vs m (f : vmatrix addr -> prog A') (k : vmatrix tree -> res B') R' : W s -> known s g ((env, p), ms) ((us, pv), vs) ->
    (forall s1 M U, W s1 -> le s s1 -> known s1 g ((env, p), ms) ((us, pv), vs) -> rmat s1 M U -> getitem vs m = Ok U -> refines s1 (f M) (k U) R') ->
    refines s (run M <- lift (getitem ms m); f M) (do U <- getitem vs m; k U) R'.
  Proof.
    intros HW HK K. eapply (ref_lift s _ _ _ _ (fun s M U => rmat s M U /\ getitem vs m = Ok U)); [exact HW| | |].
    - intros s1 s2 M U L [H1 H2]. split; [eapply mono_mat; eassumption|exact H2].
    - pose proof (rl_getitem rmat s _ _ m (proj2 (k_vars _ _ _ _ HK))) as G. cbn [snd] in G.
      destruct (getitem ms m), (getitem vs m); cbn [rel] in *; try contradiction; [|exact G]. split; [exact G|reflexivity].
    - intros s1 M U W1 L1 [H1 H2]. apply K; try assumption. eapply known_le; eassumption.
  Qed.
  Lemma get_expr {A' B'} s g env p ms us pv vs i (f : addr -> prog A') (k : tree -> res B') R' : W s -> known s g ((env, p), ms) ((us, pv), vs) ->
    (forall s1 e u, W s1 -> le s s1 -> known s1 g ((env, p), ms) ((us, pv), vs) -> has_expr s1 e u -> refines s1 (f e) (k u) R') ->
    refines s (run e <- lift (getitem env i); f e) (do u <- getitem us i; k u) R'.
  Proof.
    intros HW HK K. eapply (ref_lift s _ _ _ _ has_expr); [exact HW|apply mono_expr| |].
    - apply (rl_getitem has_expr). exact (proj1 (proj1 (k_vars _ _ _ _ HK))).
    - intros s1 e u W1 L1 H1. apply K; try assumption. eapply known_le; eassumption.
  Qed.
  Lemma mstatement_ref c vt : exists N, forall fuel, N <= fuel -> forall s g st, W s -> module_ok s g -> mvars s st vt ->
    refines s (o_mstatement fuel g st c) (v_mstatement vt c) mvars.
  Proof.
    destruct vt as [[us pv] vs].
    assert (HN : exists N, forall fuel, N <= fuel -> forall m U, getitem vs m = Ok U -> enough fuel (vm_graph U)).
    { clear. induction vs as [|V vs (N & IH)].
      - exists 0. intros fuel _ i u H. destruct i; discriminate H.
      - exists (S (topo_weight (vm_graph V)) + N). intros fuel Hf [|i] u H; [injection H as <-; unfold enough; lia|]. eapply IH; [lia|exact H]. }
    destruct HN as (N & HN).
    assert (HS : exists N', forall fuel, N' <= fuel -> forall s g st c', c = MExpr c' -> W s -> module_ok s g -> vars names t s st (us, pv) ->
      refines s (o_statement fuel g st c') (v_statement (us, pv) c') (vars names t)).
    { destruct c as [c'| | | | | | | |]; try (exists 0; intros; discriminate).
      destruct (statement_ref names atomic who t Hsafe Hwho Hnames c' us pv) as (N' & H). exists N'. intros fuel Hf s g st c2 E. injection E as <-. apply H. exact Hf. }
    destruct HS as (N' & HS). exists (N + N'). intros fuel Hf s g [[env p] ms] HW Hg Hv.
    specialize (HN fuel ltac:(lia)). specialize (HS fuel ltac:(lia)). assert (HK : known s g ((env, p), ms) ((us, pv), vs)) by (constructor; assumption).
    unfold o_mstatement, v_mstatement. cbv beta iota zeta.
    destruct c as [c|rows|m i j|m i j|m n|m|m n|m n f|m x]; try (apply push_expr; [exact HW|exact Hv|]); try (apply push_matrix; [exact HW|exact Hv|]).
    - eapply (ref_bind atomic who t Hwho _ _ _ _ _ (vars names t)); [exact HW|apply (HS s g (env, p) c eq_refl); [exact HW|exact Hg|exact (proj1 Hv)]|].
      intros s1 st' vt' W1 L1 H1. apply (ref_ret atomic who t); [exact W1|apply mono_mvars|]. split; [exact H1|]. exact (mono_list t rmat mono_mat _ _ _ _ L1 (proj2 Hv)).
    - eapply (ref_bind atomic who t Hwho _ _ _ _ _ (rlist (rlist rop))); [exact HW| |].
      + apply (pmap_ref atomic who t Hwho (@req (list (operand nat))) (rlist rop)); [apply mono_eq|apply mono_list, mono_op|exact HW|unfold rlist, req; apply list_eq|].
        intros s1 x y W1 L1 E. red in E. subst y. apply operands_ref; try assumption. eapply mono_exprs; [exact L1|]. exact (proj1 (proj1 Hv)).
      + intros s1 a b W1 L1 Hab. apply matrix_new_ref; [exact W1|eapply module_le; eassumption|exact Hab].
    - apply (get_matrix s g env p ms us pv vs); [exact HW|exact HK|]. intros s1 M U W1 L1 [K1 K2] HM _.
      apply (ref_ret atomic who t); [exact W1|apply mono_expr|]. apply getitem_same; [apply K1|exact HM].
    - apply (get_matrix s g env p ms us pv vs); [exact HW|exact HK|]. intros s1 M U W1 L1 [K1 K2] HM _.
      apply (ref_lift s1 _ _ _ _ (rlist exprs)); [exact W1|apply mono_list, mono_exprs|apply tolist_same; [exact W1|apply K1|exact HM]|]. intros s2 rows vr W2 L2 Hr.
      apply (ref_lift s2 _ _ _ _ exprs); [exact W2|apply mono_exprs|apply (rl_getitem exprs), Hr|]. intros s3 row vw W3 L3 Hw.
      apply (ref_ret atomic who t); [exact W3|apply mono_expr|apply (rl_getitem has_expr), Hw].
    - apply (get_matrix s g env p ms us pv vs); [exact HW|exact HK|]. intros s1 M U W1 L1 [K1 K2] HM _.
      apply (ref_ret atomic who t); [exact W1|apply mono_expr|]. apply (rl_getitem has_expr). apply HM.
    - apply (get_matrix s g env p ms us pv vs); [exact HW|exact HK|]. intros s1 M U W1 L1 [K1 K2] HM _.
      apply (ref_ret atomic who t); [exact W1|apply mono_expr|]. apply HM.
    - apply (get_matrix s g env p ms us pv vs); [exact HW|exact HK|]. intros s1 M U W1 L1 HK1 HM _.
      apply (get_matrix s1 g env p ms us pv vs); [exact W1|exact HK1|]. intros s2 N0 V W2 L2 [K1 K2] HN0 _.
      apply binop_ref; try assumption; [eapply mono_mat; eassumption|apply K1].
    - apply (get_matrix s g env p ms us pv vs); [exact HW|exact HK|]. intros s1 M U W1 L1 HK1 HM _.
      apply (get_matrix s1 g env p ms us pv vs); [exact W1|exact HK1|]. intros s2 N0 V W2 L2 HK2 HN0 _.
      apply (get_expr s2 g env p ms us pv vs); [exact W2|exact HK2|]. intros s3 h u W3 L3 [K1 K2] Hh.
      apply binop_ref; try assumption; [|eapply mono_mat; eassumption]. eapply mono_mat; [exact L3|]. eapply mono_mat; eassumption.
    - apply (get_matrix s g env p ms us pv vs); [exact HW|exact HK|]. intros s1 M U W1 L1 HK1 HM EM.
      apply (get_expr s1 g env p ms us pv vs); [exact W1|exact HK1|]. intros s2 h u W2 L2 [K1 K2] Hh.
      apply matrix_diff_ref; try assumption; [exact (proj2 (proj1 K2))|eapply mono_mat; eassumption|eapply HN; eassumption].
  Qed.
  Lemma mprogram_ref l : forall vt, exists N, forall fuel, N <= fuel -> forall s g st, W s -> module_ok s g -> mvars s st vt ->
    refines s (pfold (o_mstatement fuel g) l st) (foldM v_mstatement l vt) mvars.
  Proof.
    induction l as [|c l IH]; intros vt.
    - exists 0. intros fuel _ s g st HW _ Hv. apply (ref_ret atomic who t); [exact HW|apply mono_mvars|exact Hv].
    - destruct (mstatement_ref c vt) as (N & HN). destruct (v_mstatement vt c) as [vt'|err] eqn:E.
      + destruct (IH vt') as (M & HM). exists (N + M). intros fuel Hf s g st HW Hg Hv. cbn [pfold foldM]. rewrite E. cbn [bind].
        eapply (ref_bind_ok atomic who t Hwho _ _ _ _ _ mvars); [exact HW|apply HN; [lia|exact HW|exact Hg|exact Hv]|].
        intros s1 st1 W1 L1 Hv1. apply HM; [lia|exact W1|eapply module_le; eassumption|exact Hv1].
      + exists N. intros fuel Hf s g st HW Hg Hv. cbn [pfold foldM]. rewrite E. cbn [bind]. eapply ref_err; [exact Hwho|exact HW|apply HN; assumption].
  Qed.
  Lemma msession_ref l : exists N, forall fuel, N <= fuel -> forall s, W s -> refines s (o_msession fuel l) (v_msession l) (rprod exprs (rlist rmat)).
  Proof.
    destruct (mprogram_ref l (([], cas_diff), [])) as (N & HN). exists (import_fuel + N). intros fuel Hf s HW. unfold o_msession, v_msession.
    eapply (ref_bind_ok atomic who t Hwho _ _ _ _ _ (imported names t)); [exact HW|apply import_ref; try assumption; lia|]. intros s1 [g p] W1 L1 [Hg Hp]. cbn [fst snd] in *.
    eapply (ref_bind atomic who t Hwho _ _ _ _ _ mvars); [exact W1|apply HN; [lia|exact W1|exact Hg|split; [split; [constructor|exact Hp]|constructor]]|].
    intros s2 [[oenv p'] ms] [[env q'] vs] W2 L2 [[He _] Hm]. cbn [fst snd] in *. apply (ref_ret atomic who t); [exact W2|apply mono_prod; [apply mono_exprs|apply mono_list, mono_mat]|]. split; assumption.
  Qed.
End Proof.
