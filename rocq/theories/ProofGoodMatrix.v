(** * Every matrix of a program of ModelObjLLVM.v is well-formed, as those of ModelMatrix.v are *)
From Verif Require Import Py ModelTree SpecTree ModelIntern SpecIntern ModelEval ModelDiff ModelSym ModelCas ModelApi ProofBase ProofDiff ModelObjects SpecObjects
  ModelMatrix SpecMatrix ModelObjExpr SpecObjExpr ModelObjMatrix SpecObjMatrix ProofMatrix ProofSympy PropsMatrix ProofObjMatrix ModelLLVM SpecLLVM SpecLambdify ModelObjLLVM SpecObjLLVM.
From Verif Require PropsObjMatrix.

Definition good_matrix (U : vmatrix tree) : Prop :=
  vm_graph U = tree_call List_ (vm_elements U) /\ good (vm_nrows U) (vm_ncols U) (vm_elements U) (vm_entrymap U).
Definition good_props (p : diff_props) : Prop := In List_ (dp_distributive p).
Definition good_state (st : v_mstate) : Prop := good_props (snd (fst st)) /\ Forall good_matrix (snd st).
Lemma good_new rows U : v_matrix_new rows = Ok U -> good_matrix U.
Proof.
  intros E. pose proof (PropsObjMatrix.new_gives empty_heap rows) as H. unfold PropsObjMatrix.gives in H.
  destruct (matrix_new (PRows (map PRow rows)) empty_heap) as [[m|] h'] eqn:Em; rewrite E in H; [|destruct H]. subst U.
  assert (Hh : history h' (hold (Ok m) [])).
  { eapply steps_more; [apply steps_none|]. eapply step_new. exact Em. }
  destruct (history_wf _ _ Hh m (or_introl eq_refl)) as (_ & _ & Hg & Hd). split; assumption.
Qed.
Lemma good_binop A B f U : good_matrix A -> good_matrix B -> v_matrix_binop A B f = Ok U -> good_matrix U.
Proof.
  intros (A1 & A2) (B1 & B2) E. unfold v_matrix_binop in E.
  destruct (Nat.eqb_spec (vm_nrows A) (vm_nrows B)) as [Er|]; [|discriminate]. destruct (Nat.eqb_spec (vm_ncols A) (vm_ncols B)) as [Ec|]; [|discriminate]. cbn [andb negb] in E.
  pose proof B2 as (Bn & Bs & Br). rewrite <- Er, <- Ec in Br.
  assert (Blt : forall e, In e (vm_entrymap B) -> snd e < length (vm_elements B)).
  { intros e He. apply (in_map snd) in He. rewrite Bs in He. apply in_seq in He. lia. }
  rewrite (PropsObjMatrix.binop_fold_v (vm_nrows A) (vm_ncols A)) in E by assumption. cbn [bind] in E.
  destruct (binop_fold (vm_nrows A) (vm_ncols A) (vm_elements B) f (vm_entrymap B) Bn Br (vm_elements A) (vm_entrymap A) A2) as (G & _).
  destruct (fold_left _ _ _) as [l d]. injection E as <-. split; [reflexivity|exact G].
Qed.
Lemma good_diff p A x U : good_props p -> good_matrix A -> v_matrix_diff p A x = Ok U -> good_matrix U.
Proof.
  intros Hp (A1 & A2 & A3 & A4) E. unfold v_matrix_diff in E. rewrite A1 in E. unfold sym_diff_call in E. change (Z.to_nat 1) with 1 in E. cbn [repeatM] in E.
  destruct (diff_forward (tree_call List_ (vm_elements A)) x p) as [d|] eqn:Ed; cbn [bind] in E; [|discriminate]. injection E as <-.
  apply diff_distributive in Ed as (ds & Hds & ->); [|exact Hp].
  split; [reflexivity|]. cbn [vm_nrows vm_ncols vm_elements vm_entrymap v_matrix__new sym_args children tree_call tl].
  split; [exact A2|]. split; [|exact A4]. rewrite A3, (mapM_length _ _ _ Hds). reflexivity.
Qed.
Lemma good_rule p i d : good_props p -> good_props (fst (diff_setitem p i d)).
Proof.
  intros H. unfold diff_setitem. destruct i as [[|u [|v [|]]]|]; try exact H. destruct (bind _ _) as [[[h n] f]|]; [|exact H]. exact H.
Qed.
Lemma good_statement env p c env' p' : good_props p -> v_statement (env, p) c = Ok (env', p') -> good_props p'.
Proof.
  intros H E. assert (Pe : forall r : res tree, (do u <- r; Ok ((env ++ [u]), p)) = Ok (env', p') -> good_props p') by (intros [u|]; cbn [bind]; [intros X; injection X as _ <-; exact H|discriminate]).
  unfold v_statement in E. cbv beta iota zeta in E. destruct c; try (apply Pe in E; exact E).
  - destruct (getitem env i); cbn [bind] in E; [|discriminate]. destruct (getitem env j); cbn [bind] in E; [|discriminate]. destruct (getitem env k) as [d|]; cbn [bind] in E; [|discriminate].
    pose proof (good_rule p (STuple [a; a0]) d H) as G. destruct (diff_setitem p (STuple [a; a0]) d) as [q [r|]]; cbn [bind] in E; [|discriminate]. injection E as _ <-. exact G.
  - destruct (getitem env i); cbn [bind] in E; [|discriminate]. injection E as _ <-. unfold good_props, add_distributive in *. cbn [dp_distributive]. unfold set_add. destruct (mem a (dp_distributive p)); [exact H|]. apply in_or_app. left. exact H.
Qed.
Lemma good_mstatement st c st' : good_state st -> v_mstatement st c = Ok st' -> good_state st'.
Proof.
  destruct st as [[env p] ms]. intros [Hp Hm] E. cbn [fst snd] in *.
  assert (Pe : forall r : res tree, (do u <- r; Ok ((env ++ [u], p), ms)) = Ok st' -> good_state st').
  { intros [u|]; cbn [bind]; intros X; [|discriminate]. injection X as <-. split; assumption. }
  assert (Pm : forall r : res (vmatrix tree), (forall U, r = Ok U -> good_matrix U) -> (do U <- r; Ok ((env, p), ms ++ [U])) = Ok st' -> good_state st').
  { intros [U|] K; cbn [bind]; intros X; [|discriminate]. injection X as <-. split; [exact Hp|]. cbn [snd]. apply Forall_app. split; [exact Hm|]. constructor; [apply K; reflexivity|constructor]. }
  assert (Gt : forall m U, getitem ms m = Ok U -> good_matrix U).
  { intros m U X. rewrite Forall_forall in Hm. apply Hm. unfold getitem in X. destruct (nth_error ms m) eqn:En; [|discriminate]. injection X as ->. eapply nth_error_In; eassumption. }
  unfold v_mstatement in E. cbv beta iota zeta in E. destruct c as [c|rows|m i j|m i j|m n|m|m n|m n f|m x]; try (apply Pe in E; exact E).
  - destruct (v_statement (env, p) c) as [[env' p']|] eqn:Es; [|discriminate]. cbn [bind] in E. injection E as <-. split; [eapply good_statement; eassumption|exact Hm].
  - apply Pm in E; [exact E|]. intros U. destruct (mapM _ rows) as [r|]; cbn [bind]; [|discriminate]. apply good_new.
  - apply Pm in E; [exact E|]. intros U X. destruct (getitem ms m) as [A|] eqn:EA; cbn [bind] in X; [|discriminate]. destruct (getitem ms n) as [B|] eqn:EB; cbn [bind] in X; [|discriminate]. eapply good_binop; [..|exact X]; eauto.
  - apply Pm in E; [exact E|]. intros U X. destruct (getitem ms m) as [A|] eqn:EA; cbn [bind] in X; [|discriminate]. destruct (getitem ms n) as [B|] eqn:EB; cbn [bind] in X; [|discriminate].
    destruct (getitem env f) as [h|]; cbn [bind] in X; [|discriminate]. eapply good_binop; [..|exact X]; eauto.
  - apply Pm in E; [exact E|]. intros U X. destruct (getitem ms m) as [A|] eqn:EA; cbn [bind] in X; [|discriminate]. destruct (getitem env x) as [v|]; cbn [bind] in X; [|discriminate]. eapply good_diff; [..|exact X]; eauto.
Qed.
Lemma good_cstatements l : forall st st', good_state (fst st) -> foldM v_cstatement l st = Ok st' -> good_state (fst st').
Proof.
  induction l as [|c l IH]; intros st st' H E; [injection E as <-; exact H|]. cbn [foldM] in E.
  destruct (v_cstatement st c) as [st1|] eqn:Ec; [|discriminate]. cbn [bind] in E. apply (IH st1 st'); [|exact E]. clear IH E.
  destruct st as [[[env p] ms] out]. cbn [fst] in *. unfold v_cstatement in Ec. destruct c as [c|args i|args m].
  - destruct (v_mstatement (env, p, ms) c) as [st2|] eqn:Es; [|discriminate]. cbn [bind] in Ec. injection Ec as <-. eapply good_mstatement; eassumption.
  - destruct (mapM _ args); cbn [bind] in Ec; [|discriminate]. destruct (getitem env i); cbn [bind] in Ec; [|discriminate]. destruct (to_llvm_f64 _ _); cbn [bind] in Ec; [|discriminate]. injection Ec as <-. exact H.
  - destruct (mapM _ args); cbn [bind] in Ec; [|discriminate]. destruct (getitem ms m); cbn [bind] in Ec; [|discriminate]. destruct (v_to_llvm_f64_matrix _ _); cbn [bind] in Ec; [|discriminate]. injection Ec as <-. exact H.
Qed.
