(** * Conversions to and from SymPy on objects: the programs of ModelObjSympy.v and their meanings *)
From Verif Require Import Py ModelTree ModelIntern SpecIntern ModelEval ModelDiff ModelSym ModelCas ModelApi ProofBase ProofIntern SpecTree ModelObjects SpecObjects
  ModelObjEval SpecObjEval ModelMatrix ModelSympy ModelObjExpr SpecObjExpr ModelObjMatrix SpecObjMatrix ModelLLVM ModelObjLLVM SpecObjLLVM ModelObjRules SpecObjRules
  ModelObjSympy SpecObjSympy ProofTopo ProofGraph ProofObjects ProofObjTree ProofObjEval PropsObjEval ProofObjExpr ProofObjMatrix ProofObjLLVM.
From Verif Require ProofObjRules ProofSympy.

Definition fn_sympy_env : list tree := (fn_env ++ [List_; call1 List_ (star wa)])%list.
Lemma import_value o : exists ev, eval_to_sympy_ev o = Ok ev /\
  foldM (v_rstatement (fun _ => false)) (fn_sympy o) ([], cas_diff, [], []) = Ok (fn_sympy_env, cas_diff, [ev], []).
Proof.
  destruct (eval_to_sympy_ev o) as [ev|] eqn:E; [|vm_compute in E; discriminate E]. exists ev. split; [reflexivity|].
  vm_compute in E. injection E as <-. vm_compute. reflexivity.
Qed.
Lemma known_import o : Forall (ProofObjRules.known (V := sexpr)) (fn_sympy o).
Proof. repeat constructor; cbn [In]; tauto. Qed.

Section Proof.
  Context (names : nat -> string) (atomic : bool) (who : nat -> Prop) (t : nat).
  Context (Hsafe : safe atomic who) (Hwho : who t) (Hnames : rule_names names).
  Notation has_expr := (has_expr names t).
  Notation W := (W atomic who t).
  Notation le := (le t).
  Notation mono := (mono t).
  Notation refines := (refines atomic who t).
  Notation module_ok := (module_ok names t).
  Notation exprs := (rlist has_expr).
  Notation rmat := (has_matrix names t).
  Notation mono_expr := (mono_expr names t).
  Notation mono_exprs := (mono_exprs names t).
  Notation mono_mat := (mono_mat names t).
  Notation ref_bind := (ref_bind atomic who t Hwho).
  Notation ref_bind_ok := (ref_bind_ok atomic who t Hwho).
  Notation ref_ret := (ref_ret atomic who t).
  Notation ref_lift := (ref_lift atomic who t Hwho).
  Notation module_le := (module_le names t).
  Implicit Types (s : state pyval).
  Let Hcas : cas_names names := proj1 Hnames.

  (** ** From SymPy *)
  Lemma call_values_ref s h u l us : W s -> has_expr s h u -> exprs s l us -> refines s (o_expr_call h (map OE l)) (Ok (tree_call u us)) has_expr.
  Proof. intros HW Hh Hl. rewrite <- call_values. apply (expr_call_ref names atomic who t Hsafe Hwho Hcas); [exact HW|exact Hh|apply operands_of, Hl]. Qed.
  Lemma from_call_ref s g h l us : W s -> module_ok s g -> exprs s l us -> refines s (o_from_sympy_call g h l) (from_sympy_call h us) has_expr.
  Proof.
    intros HW Hg Hl. destruct h as [| | | | | |name n|n]; cbn [o_from_sympy_call from_sympy_call]; try (apply call_values_ref; [exact HW|apply Hg|exact Hl]).
    - eapply (ref_bind_ok _ _ (Function name) _ _ has_expr); [exact HW|apply (new_ref names atomic who t Hsafe Hwho Hcas); [exact HW|cbn [In]; tauto]|].
      intros s1 f W1 L1 Hf. apply call_values_ref; [exact W1|exact Hf|eapply mono_exprs; eassumption].
    - apply ref_ret; [exact HW|apply mono_expr|reflexivity].
  Qed.
  Lemma from_leaf_ref s x : W s -> refines s (o_from_sympy_leaf x) (from_sympy_leaf x) has_expr.
  Proof.
    intros HW. destruct x as [p|name n|name|n|h args]; cbn [o_from_sympy_leaf from_sympy_leaf]; try (apply ref_ret; [exact HW|apply mono_expr|reflexivity]).
    - apply (new_ref names atomic who t Hsafe Hwho Hcas s T_Integer (VInt p)); [exact HW|cbn [In]; tauto].
    - apply (new_ref names atomic who t Hsafe Hwho Hcas s T_Symbol (VStr name)); [exact HW|cbn [In]; tauto].
  Qed.
  Notation rcache := (rlist (rprod (@req sexpr) has_expr)).
  Lemma mono_cache : mono rcache. Proof. apply mono_list, mono_prod; [apply mono_eq|apply mono_expr]. Qed.
  Lemma cache_get s c d x : rcache s c d ->
    match dict_get sexpr_eqb c x, dict_get sexpr_eqb d x with Some a, Some u => has_expr s a u | None, None => True | _, _ => False end.
  Proof.
    induction 1 as [|[k a] [k' u] c d [Hk Ha] _ IH]; [exact Logic.I|]. cbn [fst snd] in Hk, Ha. red in Hk. subst k'. cbn [dict_get].
    destruct (sexpr_eqb x k); [exact Ha|exact IH].
  Qed.
  Lemma cache_put s c d x a u : rcache s c d -> has_expr s a u -> rcache s (dict_set sexpr_eqb c x a) (dict_set sexpr_eqb d x u).
  Proof.
    intros H Hau. induction H as [|[k b] [k' v] c d [Hk Hb] H IH]; [constructor; [split; [reflexivity|exact Hau]|constructor]|].
    cbn [fst snd] in Hk, Hb. red in Hk. subst k'. cbn [dict_set]. destruct (sexpr_eqb x k); constructor; try assumption; (split; [reflexivity|assumption]).
  Qed.
  Definition rfrom : state pyval -> addr * dict sexpr addr -> tree * cache -> Prop := rprod has_expr rcache.
  Lemma mono_from : mono rfrom. Proof. apply mono_prod; [apply mono_expr|apply mono_cache]. Qed.
  Lemma from_cache_ref x : forall s g c d, W s -> module_ok s g -> rcache s c d -> refines s (o_from_sympy_cache g x c) (from_sympy_cache x d) rfrom.
  Proof.
    assert (G : forall x s c d (p : prog (addr * dict sexpr addr)) (r : res (tree * cache)), W s -> rcache s c d -> refines s p r rfrom ->
      refines s (match dict_get sexpr_eqb c x with Some r => ret (r, c) | None => run (r, c') <- p; ret (r, dict_set sexpr_eqb c' x r) end)
        (match dict_get sexpr_eqb d x with Some r => Ok (r, d) | None => do (y, d') <- r; Ok (y, dict_set sexpr_eqb d' x y) end) rfrom).
    { clear x. intros x s c d p r HW Hc Hp. pose proof (cache_get s c d x Hc) as K. destruct (dict_get sexpr_eqb c x) as [a|], (dict_get sexpr_eqb d x) as [u|]; try contradiction.
      - apply ref_ret; [exact HW|apply mono_from|split; assumption].
      - eapply (ref_bind _ _ _ _ _ rfrom); [exact HW|exact Hp|]. intros s1 [a c'] [u d'] W1 L1 [H1 H2]. cbn [fst snd] in *.
        apply ref_ret; [exact W1|apply mono_from|]. split; [exact H1|]. apply cache_put; assumption. }
    assert (GL : forall x s c d, W s -> rcache s c d -> refines s (run r <- o_from_sympy_leaf x; ret (r, c)) (do r <- from_sympy_leaf x; Ok (r, d)) rfrom).
    { clear x. intros x s c d HW Hc. eapply (ref_bind _ _ _ _ _ has_expr); [exact HW|apply from_leaf_ref, HW|]. intros s1 a u W1 L1 H1.
      apply ref_ret; [exact W1|apply mono_from|]. split; [exact H1|eapply mono_cache; eassumption]. }
    induction x as [p|name n|name|n|h args IH] using ProofSympy.sexpr_ind_all; intros s g c d HW Hg Hc; cbn [o_from_sympy_cache from_sympy_cache];
      (apply (G _ s); [exact HW|exact Hc|]); try (apply GL; assumption).
    assert (GA : forall args s g c d, (forall a, In a args -> forall s g c d, W s -> module_ok s g -> rcache s c d -> refines s (o_from_sympy_cache g a c) (from_sympy_cache a d) rfrom) ->
      W s -> module_ok s g -> rcache s c d ->
      refines s ((fix go (args : list sexpr) (c : dict sexpr addr) : prog (list addr * dict sexpr addr) :=
                    match args with [] => ret ([], c) | a :: r => run (t, c1) <- o_from_sympy_cache g a c; run (ts, c2) <- go r c1; ret (t :: ts, c2) end) args c)
        ((fix go (args : list sexpr) (c : cache) : res (list tree * cache) :=
                    match args with [] => Ok ([], c) | a :: r => do (t, c1) <- from_sympy_cache a c; do (ts, c2) <- go r c1; Ok (t :: ts, c2) end) args d)
        (rprod exprs rcache)).
    { clear - Hsafe Hwho Hnames Hcas. induction args as [|a args IHa]; intros s g c d IH HW Hg Hc.
      + apply ref_ret; [exact HW|apply mono_prod; [apply mono_exprs|apply mono_cache]|split; [constructor|exact Hc]].
      + eapply (ref_bind _ _ _ _ _ rfrom); [exact HW|apply IH; [left; reflexivity|exact HW|exact Hg|exact Hc]|]. intros s1 [e c1] [u d1] W1 L1 [H1 H2]. cbn [fst snd] in *.
        eapply (ref_bind _ _ _ _ _ (rprod exprs rcache)); [exact W1|apply IHa; [intros b Hb; apply IH; right; exact Hb|exact W1|eapply module_le; eassumption|exact H2]|].
        intros s2 [l c2] [us d2] W2 L2 [H3 H4]. cbn [fst snd] in *.
        apply ref_ret; [exact W2|apply mono_prod; [apply mono_exprs|apply mono_cache]|]. split; [constructor; [eapply mono_expr; eassumption|exact H3]|exact H4]. }
    destruct args as [|a0 args0]; [apply GL; assumption|].
    eapply (ref_bind _ _ _ _ _ (rprod exprs rcache)); [exact HW|apply (GA (a0 :: args0)); assumption|].
    - intros s1 [l c1] [us d1] W1 L1 [H1 H2]. cbn [fst snd] in *.
      eapply (ref_bind _ _ _ _ _ has_expr); [exact W1|apply from_call_ref; [exact W1|eapply module_le; eassumption|exact H1]|]. intros s2 e u W2 L2 He.
      apply ref_ret; [exact W2|apply mono_from|]. split; [exact He|eapply mono_cache; eassumption].
  Qed.
  Lemma from_ref s g x : W s -> module_ok s g -> refines s (o_from_sympy g x) (from_sympy x) has_expr.
  Proof.
    intros HW Hg. unfold o_from_sympy, from_sympy. eapply (ref_bind _ _ _ _ _ rfrom); [exact HW|apply from_cache_ref; [exact HW|exact Hg|constructor]|].
    intros s1 [e c] [u d] W1 L1 [H1 _]. cbn [fst snd] in *. apply ref_ret; [exact W1|apply mono_expr|exact H1].
  Qed.
  Lemma from_matrix_ref s g m : W s -> module_ok s g -> refines s (o_from_sympy_matrix g m) (v_from_sympy_matrix m) rmat.
  Proof.
    intros HW Hg. unfold o_from_sympy_matrix, v_from_sympy_matrix. eapply (ref_bind _ _ _ _ _ has_expr); [exact HW|apply from_ref; assumption|]. intros s1 e u W1 L1 He.
    eapply (ref_bind_ok _ _ _ _ _ exprs); [exact W1|apply (args_ref names atomic who t Hsafe Hwho); eassumption|]. intros s2 l W2 L2 Hl.
    apply (matrix__new_ref names atomic who t Hsafe Hwho Hcas); [exact W2|eapply module_le; [exact L2|]; eapply module_le; eassumption|exact Hl].
  Qed.

  (** ** To SymPy *)
  Context (o : sympy_ops) (ev : evaluator sexpr) (Hev : eval_to_sympy_ev o = Ok ev).
  Notation rev_ := (ProofObjRules.rev_ names atomic who t (V := sexpr)).
  Notation mono_ev := (ProofObjRules.mono_ev names atomic who t).
  Lemma to_ref u : exists N, forall fuel, N <= fuel -> forall s oe e, W s -> has_expr s e u -> rev_ fuel s oe ev ->
    refines s (o_to_sympy fuel oe e) (to_sympy o u) (@req sexpr).
  Proof.
    destruct (ProofObjRules.evaluate_ref names atomic who t Hsafe Hwho (fun _ : sexpr => false) u ev) as (N & HN). exists N. intros fuel Hf s oe e HW He Ho.
    unfold o_to_sympy, to_sympy. rewrite Hev. cbn [bind]. apply HN; try assumption. exact Logic.I.
  Qed.
  Lemma to_matrix_ref U : exists N, forall fuel, N <= fuel -> forall s oe M, W s -> rmat s M U -> rev_ fuel s oe ev ->
    refines s (o_to_sympy_matrix fuel oe M) (v_to_sympy_matrix o U) (@req (nat * nat * list (pos * sexpr))).
  Proof.
    destruct (to_ref (vm_graph U)) as (N & HN). exists N. intros fuel Hf s oe M HW (H1 & H2 & H3 & H4 & H5) Ho. unfold o_to_sympy_matrix, v_to_sympy_matrix. rewrite H1, H2, H3.
    eapply (ref_bind _ _ _ _ _ (@req sexpr)); [exact HW|apply HN; assumption|]. intros s1 x y W1 L1 E. red in E. subst y.
    eapply (ref_lift s1 _ _ _ _ (@req (list (pos * sexpr)))); [exact W1|apply mono_eq|destruct (mapM _ _); reflexivity|]. intros s2 l m W2 L2 E. red in E. subst m.
    apply ref_ret; [exact W2|apply mono_eq|reflexivity].
  Qed.

  (** ** Programs *)
  Notation cvars := (cvars names t).
  Definition yvars : state pyval -> o_ystate -> v_ystate -> Prop := rprod cvars (@req sympy_out).
  Lemma mono_yvars : mono yvars. Proof. apply mono_prod; [apply mono_cvars|apply mono_eq]. Qed.
  Lemma ystatement_ref c vt : exists N, forall fuel, N <= fuel -> forall s g oe st, W s -> module_ok s g -> rev_ fuel s oe ev -> yvars s st vt ->
    refines s (o_ystatement fuel g oe st c) (v_ystatement o vt c) yvars.
  Proof.
    destruct vt as [[[[us q] vs] texts] out]. destruct c as [c|x|i|m|m].
    - destruct (cstatement_ref names atomic who t Hsafe Hwho Hcas c (((us, q), vs), texts)) as (N & HN). exists N.
      intros fuel Hf s g oe [[[[env p] ms] tx] out'] HW Hg He [Hv Ho]. cbn [fst snd] in *. red in Ho. subst out'. cbn [o_ystatement v_ystatement].
      eapply (ref_bind _ _ _ _ _ cvars); [exact HW|apply HN; assumption|]. intros s1 st' vt' W1 L1 H1. apply ref_ret; [exact W1|apply mono_yvars|]. split; [exact H1|reflexivity].
    - exists 0. intros fuel Hf s g oe [[[[env p] ms] tx] out'] HW Hg He [Hv Ho]. cbn [fst snd] in *. red in Ho. subst out'. cbn [o_ystatement v_ystatement].
      eapply (ref_lift s _ _ _ _ (@req sexpr)); [exact HW|apply mono_eq|destruct (sympy_arg out x); reflexivity|]. intros s1 y y' W1 L1 E. red in E. subst y'.
      eapply (ref_bind _ _ _ _ _ has_expr); [exact W1|apply from_ref; [exact W1|eapply module_le; eassumption]|]. intros s2 e u W2 L2 Hu.
      apply ref_ret; [exact W2|apply mono_yvars|]. pose proof (mono_cvars names t _ _ _ _ (le_trans t _ _ _ L1 L2) Hv) as [[[H1 H2] H3] H4]. cbn [fst snd] in *.
      split; [|reflexivity]. split; [|exact H4]. split; [|exact H3]. split; [|exact H2]. apply rl_snoc; assumption.
    - assert (HN : exists N, forall fuel, N <= fuel -> forall u, getitem us i = Ok u -> forall s oe e, W s -> has_expr s e u -> rev_ fuel s oe ev ->
        refines s (o_to_sympy fuel oe e) (to_sympy o u) (@req sexpr)).
      { destruct (getitem us i) as [u|]; [|exists 0; intros fuel _ u E; discriminate E]. destruct (to_ref u) as (N & HN). exists N. intros fuel Hf u' [= <-]. apply HN, Hf. }
      destruct HN as (N & HN). exists N. intros fuel Hf s g oe [[[[env p] ms] tx] out'] HW Hg He [Hv Ho]. cbn [fst snd] in *. red in Ho. subst out'. cbn [o_ystatement v_ystatement].
      eapply (ref_bind _ _ _ _ _ (item names t us env i)); [exact HW|apply (item_ref names); [exact HW|exact (proj1 (proj1 (proj1 Hv)))]|]. intros s1 e u W1 L1 (Hu & Eu & _).
      eapply (ref_bind _ _ _ _ _ (@req sexpr)); [exact W1|apply (HN fuel Hf u Eu); [exact W1|exact Hu|eapply mono_ev; eassumption]|]. intros s2 x y W2 L2 E. red in E. subst y.
      apply ref_ret; [exact W2|apply mono_yvars|]. split; [exact (mono_cvars names t _ _ _ _ (le_trans t _ _ _ L1 L2) Hv)|reflexivity].
    - exists 0. intros fuel Hf s g oe [[[[env p] ms] tx] out'] HW Hg He [Hv Ho]. cbn [fst snd] in *. red in Ho. subst out'. cbn [o_ystatement v_ystatement].
      eapply (ref_bind _ _ _ _ _ rmat); [exact HW|apply from_matrix_ref; assumption|]. intros s1 M U W1 L1 HM.
      apply ref_ret; [exact W1|apply mono_yvars|]. pose proof (mono_cvars names t _ _ _ _ L1 Hv) as [[H1 H3] H4]. cbn [fst snd] in *.
      split; [|reflexivity]. split; [|exact H4]. split; [exact H1|]. apply (rl_snoc rmat); assumption.
    - assert (HN : exists N, forall fuel, N <= fuel -> forall U, getitem vs m = Ok U -> forall s oe M, W s -> rmat s M U -> rev_ fuel s oe ev ->
        refines s (o_to_sympy_matrix fuel oe M) (v_to_sympy_matrix o U) (@req (nat * nat * list (pos * sexpr)))).
      { destruct (getitem vs m) as [U|]; [|exists 0; intros fuel _ U E; discriminate E]. destruct (to_matrix_ref U) as (N & HN). exists N. intros fuel Hf U' [= <-]. apply HN, Hf. }
      destruct HN as (N & HN). exists N. intros fuel Hf s g oe [[[[env p] ms] tx] out'] HW Hg He [Hv Ho]. cbn [fst snd] in *. red in Ho. subst out'. cbn [o_ystatement v_ystatement].
      eapply (ref_lift s _ _ _ _ (fun s M U => rmat s M U /\ getitem vs m = Ok U)); [exact HW| | |].
      + intros s2 s3 e u L [K1 K2]. split; [eapply mono_mat; eassumption|exact K2].
      + pose proof (rl_getitem rmat s _ _ m (proj2 (proj1 Hv))) as K. cbn [snd fst] in K. destruct (getitem ms m), (getitem vs m); cbn [rel] in *; try contradiction; [split; [exact K|reflexivity]|exact K].
      + intros s1 M U W1 L1 [HM EU].
        eapply (ref_bind _ _ _ _ _ (@req _)); [exact W1|apply (HN fuel Hf U EU); [exact W1|exact HM|eapply mono_ev; eassumption]|]. intros s2 x y W2 L2 E. red in E. subst y.
        apply ref_ret; [exact W2|apply mono_yvars|]. split; [exact (mono_cvars names t _ _ _ _ (le_trans t _ _ _ L1 L2) Hv)|reflexivity].
  Qed.
  Lemma yprogram_ref l : forall vt, exists N, forall fuel, N <= fuel -> forall s g oe st, W s -> module_ok s g -> rev_ fuel s oe ev -> yvars s st vt ->
    refines s (pfold (o_ystatement fuel g oe) l st) (foldM (v_ystatement o) l vt) yvars.
  Proof.
    induction l as [|c l IH]; intros vt.
    - exists 0. intros fuel _ s g oe st HW _ _ Hv. apply ref_ret; [exact HW|apply mono_yvars|exact Hv].
    - destruct (ystatement_ref c vt) as (N & HN). destruct (v_ystatement o vt c) as [vt'|err] eqn:E.
      + destruct (IH vt') as (M & HM). exists (N + M). intros fuel Hf s g oe st HW Hg He Hv. cbn [pfold foldM]. rewrite E. cbn [bind].
        eapply (ref_bind_ok _ _ _ _ _ yvars); [exact HW|apply HN; [lia|exact HW|exact Hg|exact He|exact Hv]|].
        intros s1 st1 W1 L1 Hv1. apply HM; [lia|exact W1|eapply module_le; eassumption|eapply mono_ev; eassumption|exact Hv1].
      + exists N. intros fuel Hf s g oe st HW Hg He Hv. cbn [pfold foldM]. rewrite E. cbn [bind]. eapply (ref_err atomic who t Hwho); [exact HW|apply HN; assumption].
  Qed.
End Proof.

Section Session.
  Context (names : nat -> string) (atomic : bool) (who : nat -> Prop) (t : nat).
  Context (Hsafe : safe atomic who) (Hwho : who t) (Hnames : rule_names names).
  Notation exprs := (rlist (has_expr names t)).
  Notation rmat := (has_matrix names t).
  Lemma ysession_ref o l : exists N, forall fuel, N <= fuel -> forall s, W atomic who t s -> refines atomic who t s (o_ysession names o fuel l) (v_ysession o l)
    (rprod (rprod (rprod exprs (rlist rmat)) (@req (list string))) (@req sympy_out)).
  Proof.
    destruct (import_value o) as (ev & Hev & Him).
    destruct (ProofObjRules.rprogram_ref names atomic who t Hsafe Hwho Hnames (fun _ : sexpr => false) (fn_sympy o) [] cas_diff [] [] (known_import o)) as (N1 & HN1).
    destruct (yprogram_ref names atomic who t Hsafe Hwho Hnames o ev Hev l (((([], cas_diff), []), []), ([], []))) as (N2 & HN2).
    exists (import_fuel + N1 + N2). intros fuel Hf s HW. unfold o_ysession, v_ysession.
    eapply (ref_bind_ok atomic who t Hwho _ _ _ _ _ (has_atom names t)); [exact HW|apply (Atom_ref names atomic who t Hsafe Hwho); exact HW|]. intros s1 a W1 L1 Ha.
    eapply (ref_bind_ok atomic who t Hwho _ _ _ _ _ (has_tree names t)); [exact W1|apply (Tr_ref names atomic who t Hsafe Hwho); [exact W1|exact Ha]|]. intros s2 star_r W2 L2 Hs.
    rewrite (proj2 Hnames) in Hs. change (has_tree names t s2 star_r Star) in Hs.
    eapply (ref_bind_ok atomic who t Hwho _ _ _ _ _ (imported names t)); [exact W2|apply (import_ref names atomic who t Hsafe Hwho (proj1 Hnames)); [exact W2|lia]|].
    intros s3 [g p] W3 L3 [Hg Hp]. cbn [fst snd] in *.
    specialize (HN1 fuel ltac:(lia) s3 g star_r (([], p), [], []) W3 Hg (has_tree_le _ _ _ _ _ _ L3 Hs)). rewrite Him in HN1.
    eapply (ref_bind_ok atomic who t Hwho _ _ _ _ _ (ProofObjRules.rvars names atomic who t fuel)); [exact W3|apply HN1|].
    { split; [split; [constructor|exact Hp]|]. split; [constructor|reflexivity]. }
    intros s4 [[[env0 p0] evs] out0] W4 L4 (_ & He & _). cbn [fst snd] in He. inversion He as [|oe ev' evs' l' Hoe Hnil]; subst. change (getitem (oe :: evs') 0) with (Ok oe). cbn [lift pbind].
    eapply (ref_bind atomic who t Hwho _ _ _ _ _ (yvars names t)); [exact W4|apply HN2; [lia|exact W4|eapply module_le; eassumption|exact Hoe|]|].
    { split; [split; [split; [split; [constructor|eapply (mono_props names t); eassumption]|constructor]|reflexivity]|reflexivity]. }
    intros s5 [[[[oenv p'] ms] tx] out] [[[[env q'] vs] tx'] out'] W5 L5 [[[[Hv _] Hm] Ht] Ho]. cbn [fst snd] in *. red in Ht, Ho. subst.
    apply (ref_ret atomic who t); [exact W5| |].
    - apply mono_prod; [apply mono_prod; [apply mono_prod; [apply mono_exprs|apply mono_list, mono_mat]|apply mono_eq]|apply mono_eq].
    - repeat (split; [|reflexivity]). split; assumption.
  Qed.
End Session.
