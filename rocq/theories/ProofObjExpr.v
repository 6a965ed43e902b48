(** * Expr, differentiation and user programs on objects *)
From Verif Require Import Py ModelTree ModelIntern SpecIntern ModelEval ModelDiff ModelSym ModelCas ModelApi ProofBase ProofIntern SpecTree ModelObjects SpecObjects
  ModelObjEval SpecObjEval ModelObjExpr SpecObjExpr ProofTopo ProofGraph ProofObjects ProofObjTree ProofObjEval PropsObjEval.

Section Proof.
  Context (names : nat -> string) (atomic : bool) (who : nat -> Prop) (t : nat).
  Context (Hsafe : safe atomic who) (Hwho : who t) (Hnames : cas_names names).
  Notation has_tree := (has_tree names t).
  Notation has_atom := (has_atom names t).
  Notation has_expr := (has_expr names t).
  Notation W := (W atomic who t).
  Notation le := (le t).
  Notation mono := (mono t).
  Notation refines := (refines atomic who t).
  Notation same_props := (same_props names t).
  Notation trees := (rlist has_tree).
  Notation exprs := (rlist has_expr).
  Implicit Types (s : state pyval).

  Lemma has_expr_le s s' e u : le s s' -> has_expr s e u -> has_expr s' e u.
  Proof.
    intros L (He & a & Ho & Hu). split; [apply L, He|]. exists a. split; [apply (proj2 L e e He (leads_self _ _)), Ho|].
    eapply tree_obj_le; [exact L|exact He|eapply leads_more; [constructor|exact Ho|left; reflexivity]|exact Hu].
  Qed.
  Lemma mono_expr : mono has_expr. Proof. intros s s' e u. apply has_expr_le. Qed.
  Lemma mono_exprs : mono exprs. Proof. apply mono_list, mono_expr. Qed.
  Lemma mono_props : mono same_props. Proof. intros s s' p q L. apply props_later, le_later, L. Qed.
  Lemma expr_identity s e u f v : W s -> has_expr s e u -> has_expr s f v -> Nat.eqb e f = tree_eqb u v.
  Proof.
    intros [Hr _] (He & a & Ho & Hu) (Hf & b & Ho' & Hv). pose proof (reachable_inv pyval_eqb pyval_equivalence atomic who s Hsafe Hr) as I.
    destruct (tree_eqb_spec u v) as [->|Hne].
    - apply Nat.eqb_eq.
      apply (same_unique pyval_eqb pyval_equivalence s (i_mem _ _ _ _ I) e (MSym 0 (term_of v)) (d_sym _ _ _ _ _ Ho (tree_obj_denotes _ _ _ _ Hu))
        (proj1 (i_threads _ _ _ _ I t) e He) f (MSym 0 (term_of v)) (d_sym _ _ _ _ _ Ho' (tree_obj_denotes _ _ _ _ Hv)) (proj1 (i_threads _ _ _ _ I t) f Hf)).
      apply same_refl, pyval_equivalence.
    - apply Nat.eqb_neq. intros ->. apply Hne. assert (b = a) by congruence. subst. eapply tree_obj_fun; eassumption.
  Qed.

  (** ** Sym *)
  Lemma Expr_ref s a u : W s -> has_tree s a u -> refines s (o_Expr a) (Ok u) has_expr.
  Proof.
    intros HW [Ha Hu]. apply (ref_new atomic who t Hsafe Hwho); [exact HW|intros b [<-|[]]; exact Ha|..].
    - unfold args_ok. cbn [check_first check_later andb]. rewrite (tree_is_tree _ _ _ _ Hu). reflexivity.
    - intros s1 b W1 L1 Hb Ho. apply ref_ret; [exact W1|apply mono_expr|]. cbn [rel]. split; [exact Hb|]. exists a. split; [exact Ho|].
      eapply tree_obj_le; [exact L1|exact Ha|constructor|exact Hu].
  Qed.
  Lemma rep_ref s e u : W s -> has_expr s e u -> refines s (o_rep e) (Ok u) has_tree.
  Proof.
    intros HW (He & a & Ho & Hu). eapply ref_read; [exact HW|exact He|exact Ho|].
    intros s1 W1 L1 Ho1 Hh. apply ref_ret; [exact W1|apply mono_tree|]. cbn [rel]. split; [apply Hh; left; reflexivity|].
    eapply tree_obj_le; [exact L1|exact He|eapply leads_more; [constructor|exact Ho|left; reflexivity]|exact Hu].
  Qed.
  Lemma new_ref s ty v : W s -> In ty [T_Integer; T_Symbol; T_Function; T_Wild] -> refines s (o_new ty v) (Ok (Tr (mkAtom ty v))) has_expr.
  Proof.
    intros HW Hty. assert (E : mkType (ty_id ty) (names (ty_id ty)) = ty).
    { unfold cas_names in Hnames. rewrite Forall_forall in Hnames. rewrite (Hnames ty Hty). destruct ty; reflexivity. }
    unfold o_new. eapply (ref_bind_ok atomic who t Hwho _ _ _ _ _ has_atom); [exact HW|apply (Atom_ref names atomic who t Hsafe Hwho); exact HW|].
    intros s1 x W1 L1 Hx. rewrite E in Hx.
    eapply (ref_bind_ok atomic who t Hwho _ _ _ _ _ has_tree); [exact W1|apply (Tr_ref names atomic who t Hsafe Hwho); [exact W1|exact Hx]|].
    intros s2 a W2 L2 Ha. apply Expr_ref; assumption.
  Qed.
  Lemma pmap_ref {A B A' B'} (RA : state pyval -> A -> B -> Prop) (RB : state pyval -> A' -> B' -> Prop) f g : mono RA -> mono RB ->
    forall l m s, W s -> rlist RA s l m -> (forall s1 x y, W s1 -> le s s1 -> RA s1 x y -> refines s1 (f x) (g y) RB) ->
    refines s (pmap f l) (mapM g m) (rlist RB).
  Proof.
    intros MA MB. induction l as [|x l IH]; intros m s HW H K; inversion H as [|? y ? m' Hx Hl]; subst.
    - apply ref_ret; [exact HW|apply mono_list, MB|constructor].
    - cbn [pmap mapM]. eapply (ref_bind atomic who t Hwho _ _ _ _ _ RB); [exact HW|apply K; [exact HW|apply le_refl|exact Hx]|].
      intros s1 y1 z1 W1 L1 H1. eapply (ref_bind atomic who t Hwho _ _ _ _ _ (rlist RB)); [exact W1| |].
      + apply IH; [exact W1|eapply mono_list; eassumption|]. intros s2 x2 y2 W2 L2. apply K; [exact W2|eapply le_trans; eassumption].
      + intros s2 ys zs W2 L2 H2. apply ref_ret; [exact W2|apply mono_list, MB|]. constructor; [eapply MB; eassumption|exact H2].
  Qed.
  Lemma mapM_Ok {A} (l : list A) : mapM (fun x => Ok x) l = Ok l.
  Proof. induction l as [|x l IH]; cbn [mapM bind]; [reflexivity|]. rewrite IH. reflexivity. Qed.
  Lemma reps_ref s l us : W s -> exprs s l us -> refines s (pmap o_rep l) (Ok us) trees.
  Proof.
    intros HW H. rewrite <- mapM_Ok. apply (pmap_ref has_expr has_tree); [apply mono_expr|apply mono_tree|exact HW|exact H|].
    intros s1 x y W1 L1 Hx. apply rep_ref; assumption.
  Qed.
  Lemma head_ref s e u : W s -> has_expr s e u -> refines s (o_head e) (sym_head u) has_expr.
  Proof.
    intros HW He. unfold o_head, sym_head. eapply (ref_bind_ok atomic who t Hwho _ _ _ _ _ has_tree); [exact HW|apply rep_ref; [exact HW|exact He]|].
    intros s1 a W1 L1 Ha. eapply (ref_bind_ok atomic who t Hwho _ _ _ _ _ trees); [exact W1|apply (children_ref names atomic who t); [exact W1|exact Ha]|].
    intros s2 cs W2 L2 Hcs. replace (getitem (children u) 0) with (do h <- getitem (children u) 0; Ok h) by (destruct (getitem (children u) 0); reflexivity).
    eapply (ref_bind atomic who t Hwho _ _ _ _ _ has_tree); [exact W2|apply ref_ret; [exact W2|apply mono_tree|apply (rl_getitem has_tree), Hcs]|].
    intros s3 h v W3 L3 Hh. apply Expr_ref; assumption.
  Qed.
  Lemma args_ref s e u : W s -> has_expr s e u -> refines s (o_args e) (Ok (sym_args u)) exprs.
  Proof.
    intros HW He. unfold o_args, sym_args. eapply (ref_bind_ok atomic who t Hwho _ _ _ _ _ has_tree); [exact HW|apply rep_ref; [exact HW|exact He]|].
    intros s1 a W1 L1 Ha. eapply (ref_bind_ok atomic who t Hwho _ _ _ _ _ trees); [exact W1|apply (children_ref names atomic who t); [exact W1|exact Ha]|].
    intros s2 cs W2 L2 Hcs. rewrite <- mapM_Ok. apply (pmap_ref has_tree has_expr); [apply mono_tree|apply mono_expr|exact W2|apply rl_tl, Hcs|].
    intros s3 x y W3 L3 Hx. apply Expr_ref; assumption.
  Qed.

  (** ** Operators *)
  Definition rop s (o : operand addr) (p : pyobj) : Prop :=
    match o, p with OE e, PExpr u => has_expr s e u | OI z, PInt w => z = w | _, _ => False end.
  Lemma mono_op : mono rop.
  Proof. intros s s' [e|z] [u|w| |] L H; cbn [rop] in *; try contradiction; [eapply has_expr_le; eassumption|exact H]. Qed.
  Lemma expressify_ref s o p : W s -> rop s o p -> refines s (o_expressify o) (expressify p) has_expr.
  Proof.
    intros HW H. destruct o as [e|z], p as [u|w| |]; cbn [rop] in H; try contradiction; cbn [o_expressify expressify].
    - apply ref_ret; [exact HW|apply mono_expr|exact H].
    - subst w. apply new_ref; [exact HW|left; reflexivity].
  Qed.
  Lemma expr_call_ref s e u l m : W s -> has_expr s e u -> rlist rop s l m -> refines s (o_expr_call e l) (expr_call u m) has_expr.
  Proof.
    intros HW He Hl. unfold o_expr_call, expr_call.
    eapply (ref_bind atomic who t Hwho _ _ _ _ _ exprs); [exact HW|apply (pmap_ref rop has_expr); [apply mono_op|apply mono_expr|exact HW|exact Hl|intros s1 x y W1 _ Hx; apply expressify_ref; assumption]|].
    intros s1 es us W1 L1 Hes. eapply (ref_bind_ok atomic who t Hwho _ _ _ _ _ trees); [exact W1|apply reps_ref; [exact W1|exact Hes]|].
    intros s2 rs W2 L2 Hrs. eapply (ref_bind_ok atomic who t Hwho _ _ _ _ _ has_tree); [exact W2|apply rep_ref; [exact W2|]|].
    { eapply has_expr_le; [exact L2|]. eapply has_expr_le; [exact L1|exact He]. }
    intros s3 r W3 L3 Hr. eapply (ref_bind_ok atomic who t Hwho _ _ _ _ _ has_tree); [exact W3|apply (call_ref names atomic who t Hsafe Hwho); [exact W3|exact Hr|eapply has_trees_le; eassumption]|].
    intros s4 b W4 L4 Hb. apply Expr_ref; assumption.
  Qed.
  Lemma call2_ref s h u a v b w : W s -> has_expr s h u -> has_expr s a v -> has_expr s b w -> refines s (o_call2 h a b) (Ok (call2 u v w)) has_expr.
  Proof.
    intros HW Hh Ha Hb. change (Ok (call2 u v w)) with (expr_call u [PExpr v; PExpr w]). apply expr_call_ref; [exact HW|exact Hh|].
    constructor; [exact Ha|]. constructor; [exact Hb|constructor].
  Qed.
  Record module_ok s (g : o_module) : Prop := {
    mo_zero : has_expr s (om_zero g) zero; mo_one : has_expr s (om_one g) one; mo_negone : has_expr s (om_negone g) negone;
    mo_Pow : has_expr s (om_Pow g) Pow; mo_sin : has_expr s (om_sin g) sin; mo_cos : has_expr s (om_cos g) cos;
    mo_Add : has_expr s (om_Add g) Add; mo_Mul : has_expr s (om_Mul g) Mul; mo_List : has_expr s (om_List g) List_
  }.
  Lemma module_le s s' g : le s s' -> module_ok s g -> module_ok s' g.
  Proof. intros L []. constructor; eapply has_expr_le; eassumption. Qed.
  Lemma neg_ref s g e u : W s -> module_ok s g -> has_expr s e u -> refines s (o_neg g e) (Ok (expr_neg u)) has_expr.
  Proof. intros HW Hg He. apply call2_ref; [exact HW|apply Hg|apply Hg|exact He]. Qed.
  Lemma method_ref s g op e u f v : W s -> module_ok s g -> has_expr s e u -> has_expr s f v -> refines s (o_method g op e f) (Ok (method op u v)) has_expr.
  Proof.
    intros HW Hg He Hf. destruct op; cbn [o_method method]; try (apply call2_ref; try assumption; apply Hg).
    - eapply (ref_bind_ok atomic who t Hwho _ _ _ _ _ has_expr); [exact HW|apply call2_ref; [exact HW|apply Hg|apply Hg|exact Hf]|].
      intros s1 p W1 L1 Hp. apply call2_ref; [exact W1|eapply module_le; eassumption|eapply has_expr_le; eassumption|exact Hp].
    - eapply (ref_bind_ok atomic who t Hwho _ _ _ _ _ has_expr); [exact HW|apply call2_ref; [exact HW|apply Hg|exact Hf|apply Hg]|].
      intros s1 p W1 L1 Hp. apply call2_ref; [exact W1|eapply module_le; eassumption|eapply has_expr_le; eassumption|exact Hp].
  Qed.
  Lemma rmethod_ref s g op e u f v : W s -> module_ok s g -> has_expr s e u -> has_expr s f v -> refines s (o_rmethod g op e f) (Ok (rmethod op u v)) has_expr.
  Proof.
    intros HW Hg He Hf. destruct op; cbn [o_rmethod rmethod]; try (apply call2_ref; try assumption; apply Hg).
    - eapply (ref_bind_ok atomic who t Hwho _ _ _ _ _ has_expr); [exact HW|apply call2_ref; [exact HW|apply Hg|apply Hg|exact He]|].
      intros s1 p W1 L1 Hp. apply call2_ref; [exact W1|eapply module_le; eassumption|eapply has_expr_le; eassumption|exact Hp].
    - eapply (ref_bind_ok atomic who t Hwho _ _ _ _ _ has_expr); [exact HW|apply call2_ref; [exact HW|apply Hg|exact He|apply Hg]|].
      intros s1 p W1 L1 Hp. apply call2_ref; [exact W1|eapply module_le; eassumption|eapply has_expr_le; eassumption|exact Hp].
  Qed.
  Lemma binop_ref s g op e u o p : W s -> module_ok s g -> has_expr s e u -> rop s o p ->
    refines s (o_binop g op e o) (op_of_operator op (PExpr u) p) has_expr.
  Proof.
    intros HW Hg He Ho. unfold o_binop.
    assert (E : op_of_operator op (PExpr u) p = do v <- expressify p; Ok (method op u v)).
    { destruct o, p; cbn [rop] in Ho; try contradiction; destruct op; reflexivity. }
    rewrite E. eapply (ref_bind atomic who t Hwho _ _ _ _ _ has_expr); [exact HW|apply expressify_ref; assumption|].
    intros s1 f v W1 L1 Hf. apply method_ref; [exact W1|eapply module_le; eassumption|eapply has_expr_le; eassumption|exact Hf].
  Qed.
  Lemma rbinop_ref s g op z e u : W s -> module_ok s g -> has_expr s e u -> refines s (o_rbinop g op z e) (op_of_operator op (PInt z) (PExpr u)) has_expr.
  Proof.
    intros HW Hg He. unfold o_rbinop.
    assert (E : op_of_operator op (PInt z) (PExpr u) = do v <- expressify (PInt z); Ok (rmethod op u v)) by (destruct op; reflexivity).
    rewrite E. eapply (ref_bind atomic who t Hwho _ _ _ _ _ has_expr); [exact HW|apply expressify_ref; [exact HW|reflexivity]|].
    intros s1 f v W1 L1 Hf. apply rmethod_ref; [exact W1|eapply module_le; eassumption|eapply has_expr_le; eassumption|exact Hf].
  Qed.

  (** ** xreplace *)
  Lemma param_ref s o p : W s -> rop s o p -> refines s (o_param o) (expressify p) has_tree.
  Proof.
    intros HW H. unfold o_param. replace (expressify p) with (do u <- expressify p; Ok u) by (destruct (expressify p); reflexivity).
    eapply (ref_bind atomic who t Hwho _ _ _ _ _ has_expr); [exact HW|apply expressify_ref; assumption|].
    intros s1 e u W1 L1 He. apply rep_ref; assumption.
  Qed.
  Lemma params_ref s l m : W s -> rlist rop s l m -> refines s (pmap o_param l) (mapM expressify m) trees.
  Proof.
    intros HW H. apply (pmap_ref rop has_tree); [apply mono_op|apply mono_tree|exact HW|exact H|]. intros s1 x y W1 _ Hx. apply param_ref; assumption.
  Qed.
  Lemma xreplace_ref s fuel e u l m : W s -> has_expr s e u -> rlist (rprod rop rop) s l m -> enough fuel u ->
    refines s (o_xreplace fuel e l) (xreplace u m) has_expr.
  Proof.
    intros HW He Hl Hf. unfold o_xreplace, xreplace, expr_function, expr_function_call.
    assert (H1 : rlist rop s (map fst l) (map fst m)) by (clear - Hl; induction Hl as [|x y l m [H _] _ IH]; constructor; assumption).
    assert (H2 : rlist rop s (map snd l) (map snd m)) by (clear - Hl; induction Hl as [|x y l m [_ H] _ IH]; constructor; assumption).
    eapply (ref_bind_ok atomic who t Hwho _ _ _ _ _ has_tree); [exact HW|apply rep_ref; [exact HW|exact He]|].
    intros s1 a W1 L1 Ha.
    assert (E : forall {A B C} (x : res A) (f : A -> res B) (g : B -> res C), bind (bind x f) g = bind x (fun y => bind (f y) g)) by (intros A B C [|] f g; reflexivity).
    rewrite E. eapply (ref_bind atomic who t Hwho _ _ _ _ _ trees); [exact W1|apply params_ref; [exact W1|exact (mono_list t rop mono_op _ _ _ _ L1 H1)]|].
    intros s2 ps us W2 L2 Hps.
    eapply (ref_bind atomic who t Hwho _ _ _ _ _ (rsubs names t)); [exact W2|apply (subs_new_ref names atomic who t Hsafe Hwho); [exact W2|exact (has_tree_le names t _ _ _ _ L2 Ha)|exact Hps|exact Hf]|].
    intros s3 x sf W3 L3 Hx.
    eapply (ref_bind atomic who t Hwho _ _ _ _ _ trees); [exact W3|apply params_ref; [exact W3|]|].
    { apply (mono_list t rop mono_op s2 s3 _ _ L3), (mono_list t rop mono_op s1 s2 _ _ L2), (mono_list t rop mono_op s s1 _ _ L1), H2. }
    intros s4 vs ws W4 L4 Hvs. replace (subs_call sf ws) with (do r <- subs_call sf ws; Ok r) by (destruct (subs_call sf ws); reflexivity).
    eapply (ref_bind atomic who t Hwho _ _ _ _ _ has_tree); [exact W4|apply (subs_call_ref names atomic who t Hsafe Hwho); [exact W4|eapply mono_subs; eassumption|exact Hvs]|].
    intros s5 r w W5 L5 Hr. apply Expr_ref; assumption.
  Qed.
  Lemma key_same s a b p q : W s -> rop s a p -> rop s b q -> o_key_eqb a b = key_eqb p q.
  Proof.
    intros HW Ha Hb. destruct a, p; cbn [rop] in Ha; try contradiction; destruct b, q; cbn [rop] in Hb; try contradiction; cbn [o_key_eqb key_eqb]; subst; try reflexivity.
    eapply expr_identity; eassumption.
  Qed.
  Lemma dict_same s l m : W s -> rlist (rprod rop rop) s l m -> rlist (rprod rop rop) s (dict_update o_key_eqb [] l) (dict_update key_eqb [] m).
  Proof.
    intros HW H. unfold dict_update.
    assert (G : forall d d', rlist (rprod rop rop) s d d' -> rlist (rprod rop rop) s (fold_left (fun acc kv => dict_set o_key_eqb acc (fst kv) (snd kv)) l d)
      (fold_left (fun acc kv => dict_set key_eqb acc (fst kv) (snd kv)) m d')); [|apply G; constructor].
    induction H as [|[k v] [k' v'] l m [Hk Hv] _ IH]; intros d d' Hd; [exact Hd|]. cbn [fold_left fst snd] in *. apply IH. clear IH.
    induction Hd as [|[j w] [j' w'] d d' [Hj Hw] Hd IHd]; cbn [dict_set].
    - constructor; [split; assumption|constructor].
    - cbn [fst snd] in *. rewrite (key_same s k j k' j' HW Hk Hj). destruct (key_eqb k' j'); constructor; try assumption; split; assumption.
  Qed.

  (** ** Differentiation *)
  Lemma sym_diff_ref s fuel p q e u x v : W s -> has_expr s e u -> has_expr s x v -> same_props s p q -> enough fuel u ->
    refines s (o_sym_diff fuel p e x) (diff_forward u v q) has_expr.
  Proof.
    intros HW He Hx Hp Hf. unfold o_sym_diff.
    eapply (ref_bind_ok atomic who t Hwho _ _ _ _ _ has_tree); [exact HW|apply rep_ref; [exact HW|exact He]|]. intros s1 a W1 L1 Ha.
    eapply (ref_bind_ok atomic who t Hwho _ _ _ _ _ has_tree); [exact W1|apply rep_ref; [exact W1|eapply has_expr_le; eassumption]|]. intros s2 b W2 L2 Hb.
    replace (diff_forward u v q) with (do r <- diff_forward u v q; Ok r) by (destruct (diff_forward u v q); reflexivity).
    eapply (ref_bind atomic who t Hwho _ _ _ _ _ has_tree); [exact W2|apply (diff_forward_ref names atomic who t Hsafe Hwho); [exact W2|eapply has_tree_le; eassumption|exact Hb| |exact Hf]|].
    { eapply mono_props; [exact L2|]. eapply mono_props; eassumption. }
    intros s3 r w W3 L3 Hr. apply Expr_ref; assumption.
  Qed.
  Lemma ref_err {A B A' B'} s (p : prog A) err (f : A -> prog A') R R' : W s -> refines s p (Err err : res B) R -> refines s (pbind p f) (Err err : res B') R'.
  Proof.
    intros HW [E H]. change (Err err : res B') with (bind (Err err : res B) (fun _ => Err err : res B')).
    apply (ref_bind atomic who t Hwho _ p _ f _ (fun _ _ _ => False)); [exact HW| |intros s1 a b _ _ []].
    split; [exact E|]. intros s' r Hr. specialize (H s' r Hr). destruct r; exact H.
  Qed.
  Lemma diff_ref q v n : forall u, exists N, forall fuel, N <= fuel -> forall s p e x, W s -> has_expr s e u -> has_expr s x v -> same_props s p q ->
    refines s (o_diff fuel p n e x) (repeatM (fun d => sym_diff_call q d v 1) n u) has_expr.
  Proof.
    induction n as [|n IH]; intros u.
    - exists 0. intros fuel _ s p e x HW He _ _. apply ref_ret; [exact HW|apply mono_expr|exact He].
    - assert (E : sym_diff_call q u v 1 = diff_forward u v q) by (unfold sym_diff_call; change (Z.to_nat 1) with 1; cbn [repeatM]; destruct (diff_forward u v q); reflexivity).
      destruct (diff_forward u v q) as [d|err] eqn:Ed.
      + destruct (IH d) as (N & HN). exists (S (topo_weight u) + N). intros fuel Hf s p e x HW He Hx Hp. cbn [o_diff repeatM]. rewrite E. cbn [bind].
        eapply (ref_bind_ok atomic who t Hwho _ _ _ _ _ has_expr); [exact HW|rewrite <- Ed; apply sym_diff_ref; try assumption; unfold enough; lia|].
        intros s1 e1 W1 L1 He1. apply HN; [lia|exact W1|exact He1|eapply has_expr_le; eassumption|eapply mono_props; eassumption].
      + exists (S (topo_weight u)). intros fuel Hf s p e x HW He Hx Hp. cbn [o_diff repeatM]. rewrite E. cbn [bind].
        eapply (ref_err s (o_sym_diff fuel p e x) err _ has_expr); [exact HW|]. rewrite <- Ed. apply sym_diff_ref; try assumption; unfold enough; lia.
  Qed.
  Lemma count_same s l us a u : W s -> trees s l us -> has_tree s a u -> o_count l a = count us u.
  Proof.
    intros HW H Ha. unfold o_count, count. induction H as [|b v l us Hb _ IH]; [reflexivity|]. cbn [filter].
    rewrite (eqb_same names atomic who t Hsafe s a u b v HW Ha Hb). destruct (tree_eqb u v); cbn [length]; rewrite IH; reflexivity.
  Qed.
  Lemma index_same s l us a u : W s -> trees s l us -> has_tree s a u -> o_index l a = tuple_index us u.
  Proof.
    intros HW H Ha. induction H as [|b v l us Hb _ IH]; [reflexivity|]. cbn [o_index tuple_index].
    rewrite (eqb_same names atomic who t Hsafe s b v a u HW Hb Ha), IH. reflexivity.
  Qed.
  Definition v_setitem (q : diff_props) (u x d : tree) : res diff_props := let '(q', r) := diff_setitem q (STuple [u; x]) d in do _ <- r; Ok q'.
  Lemma rules_set s f u n x sf l m : W s -> has_tree s f u -> same_subs names t s x sf ->
    Forall2 (fun r r' => has_tree s (fst (fst r)) (fst (fst r')) /\ snd (fst r) = snd (fst r') /\ same_subs names t s (snd r) (snd r')) l m ->
    Forall2 (fun r r' => has_tree s (fst (fst r)) (fst (fst r')) /\ snd (fst r) = snd (fst r') /\ same_subs names t s (snd r) (snd r'))
      (dict_set o_rule_key_eqb l (f, n) x) (dict_set rule_key_eqb m (u, n) sf).
  Proof.
    intros HW Hf Hx. induction 1 as [|[[h k] r] [[v k'] r'] l m (H1 & H2 & H3) Hl IH]; cbn [dict_set].
    - constructor; [|constructor]. cbn [fst snd]. split; [exact Hf|]. split; [reflexivity|exact Hx].
    - cbn [fst snd] in *. subst k'. unfold o_rule_key_eqb at 1, rule_key_eqb at 1. cbn [fst snd].
      rewrite (eqb_same names atomic who t Hsafe s f u h v HW Hf H1). destruct (tree_eqb u v && Nat.eqb n k); constructor; try assumption; cbn [fst snd]; auto.
  Qed.
  Lemma setitem_ref s fuel p q e u x v d w : W s -> has_expr s e u -> has_expr s x v -> has_expr s d w -> same_props s p q -> enough fuel w ->
    refines s (o_setitem fuel p e x d) (v_setitem q u v w) same_props.
  Proof.
    intros HW He Hx Hd Hp Hf.
    assert (E : v_setitem q u v w = do head <- getitem (children u) 0; if negb (Nat.eqb (count (tl (children u)) v) 1) then Err TypeError
      else do index <- tuple_index (tl (children u)) v; do rhs <- subs_new w (tl (children u)); Ok (add_diff_rule q head index rhs)).
    { unfold v_setitem, diff_setitem. destruct (getitem (children u) 0); cbn [bind]; [|reflexivity].
      destruct (negb (Nat.eqb (count (tl (children u)) v) 1)); cbn [bind]; [reflexivity|].
      destruct (tuple_index (tl (children u)) v); cbn [bind]; [|reflexivity]. destruct (subs_new w (tl (children u))); reflexivity. }
    rewrite E. clear E. unfold o_setitem.
    eapply (ref_bind_ok atomic who t Hwho _ _ _ _ _ has_tree); [exact HW|apply rep_ref; [exact HW|exact He]|]. intros s1 a W1 L1 Ha.
    eapply (ref_bind_ok atomic who t Hwho _ _ _ _ _ has_tree); [exact W1|apply rep_ref; [exact W1|eapply has_expr_le; eassumption]|]. intros s2 dr W2 L2 Hdr.
    assert (L02 : le s s2) by (eapply le_trans; eassumption).
    eapply (ref_bind_ok atomic who t Hwho _ _ _ _ _ has_tree); [exact W2|apply rep_ref; [exact W2|eapply has_expr_le; eassumption]|]. intros s3 xr W3 L3 Hxr.
    assert (L13 : le s1 s3) by (eapply le_trans; eassumption).
    eapply (ref_bind_ok atomic who t Hwho _ _ _ _ _ trees); [exact W3|apply (children_ref names atomic who t); [exact W3|exact (has_tree_le names t _ _ _ _ L13 Ha)]|].
    intros s4 cs W4 L4 Hcs.
    eapply (ref_bind atomic who t Hwho _ _ _ _ _ (fun s x y => has_tree s x y /\ trees s cs (children u) /\ has_tree s dr w /\ has_tree s xr v /\ same_props s p q)); [exact W4|apply ref_ret; [exact W4| |]|].
    { intros s5 s6 a5 b5 L (K1 & K2 & K3 & K4 & K5). split; [eapply has_tree_le; eassumption|]. split; [eapply has_trees_le; eassumption|].
      split; [eapply has_tree_le; eassumption|]. split; [eapply has_tree_le; eassumption|eapply mono_props; eassumption]. }
    { assert (K : has_tree s4 dr w /\ has_tree s4 xr v /\ same_props s4 p q).
      { split; [exact (has_tree_le names t _ _ _ _ L4 (has_tree_le names t _ _ _ _ L3 Hdr))|]. split; [exact (has_tree_le names t _ _ _ _ L4 Hxr)|].
        exact (mono_props _ _ _ _ L4 (mono_props _ _ _ _ L3 (mono_props _ _ _ _ L02 Hp))). }
      pose proof (rl_getitem has_tree s4 _ _ 0 Hcs) as G. destruct (getitem cs 0), (getitem (children u) 0); cbn [rel] in *; try exact G; try contradiction.
      split; [exact G|]. split; [exact Hcs|exact K]. }
    intros s5 h hu W5 L5 (Hh & Hcs5 & Hdr5 & Hxr5 & Hp5). cbv zeta. rewrite (count_same s5 (tl cs) (tl (children u)) xr v W5 (rl_tl has_tree _ _ _ Hcs5) Hxr5).
    destruct (negb (Nat.eqb (count (tl (children u)) v) 1)); [apply ref_ret; [exact W5|apply mono_props|reflexivity]|].
    rewrite (index_same s5 (tl cs) (tl (children u)) xr v W5 (rl_tl has_tree _ _ _ Hcs5) Hxr5).
    eapply (ref_bind atomic who t Hwho _ _ _ _ _ (@req nat)); [exact W5|apply ref_ret; [exact W5|apply mono_eq|destruct (tuple_index _ _); reflexivity]|].
    intros s6 i i' W6 L6 E. red in E. subst i'.
    eapply (ref_bind atomic who t Hwho _ _ _ _ _ (rsubs names t)); [exact W6|apply (subs_new_ref names atomic who t Hsafe Hwho); [exact W6|eapply has_tree_le; eassumption|apply (rl_tl has_tree); eapply has_trees_le; eassumption|exact Hf]|].
    intros s7 r sf W7 L7 Hr. apply ref_ret; [exact W7|apply mono_props|]. cbn [rel].
    assert (L57 : le s5 s7) by (eapply le_trans; eassumption).
    pose proof (mono_props _ _ _ _ L57 Hp5) as [P1 P2 P3 P4 P5 P6]. constructor; try assumption.
    cbn [od_rules add_diff_rule dp_rules]. apply rules_set; [exact W7|eapply has_tree_le; eassumption|exact Hr|exact P6].
  Qed.
  Lemma add_distributive_ref s p q e u : W s -> has_expr s e u -> same_props s p q -> refines s (o_add_distributive p e) (Ok (add_distributive q u)) same_props.
  Proof.
    intros HW He Hp. unfold o_add_distributive. eapply (ref_bind_ok atomic who t Hwho _ _ _ _ _ has_tree); [exact HW|apply rep_ref; [exact HW|exact He]|]. intros s1 a W1 L1 Ha.
    apply ref_ret; [exact W1|apply mono_props|]. cbn [rel]. pose proof (mono_props _ _ _ _ L1 Hp) as [P1 P2 P3 P4 P5 P6]. constructor; try assumption.
    cbn [od_distributive add_distributive dp_distributive]. apply (set_add_same names atomic who t Hsafe); assumption.
  Qed.

  (** ** The import of the module *)
  Ltac lift_all L := match type of L with ProofObjects.le _ ?s ?s' => repeat match goal with
    | H : SpecObjExpr.has_expr _ _ s _ _ |- _ => apply (has_expr_le s s' _ _ L) in H
    | H : SpecObjects.has_tree _ _ s _ _ |- _ => apply (has_tree_le names t s s' _ _ L) in H
    | H : SpecObjEval.same_props _ _ s _ _ |- _ => apply (mono_props s s' _ _ L) in H
    | H : module_ok s _ |- _ => apply (module_le s s' _ L) in H
    | H : rlist (SpecObjExpr.has_expr _ _) s _ _ |- _ => apply (mono_exprs s s' _ _ L) in H
    end end.
  Definition imported s (x : o_module * o_diff_props) (_ : unit) : Prop := module_ok s (fst x) /\ same_props s (snd x) cas_diff.
  Lemma mono_imported : mono imported.
  Proof. intros s s' x y L [H1 H2]. split; [eapply module_le; eassumption|eapply mono_props; eassumption]. Qed.
  Definition import_fuel : nat := S (topo_weight (call1 cos wa) + topo_weight (expr_neg (call1 sin wa)) + topo_weight (m_mul wb (m_pow wa (m_add wb (Integer (-1)))))).
  Definition q0 := sym_diff_new Add Mul zero one.
  Definition q1 := fst (diff_setitem q0 (STuple [call1 sin wa; wa]) (call1 cos wa)).
  Definition q2 := fst (diff_setitem q1 (STuple [call1 cos wa; wa]) (expr_neg (call1 sin wa))).
  Definition q3 := fst (diff_setitem q2 (STuple [m_pow wa wb; wa]) (m_mul wb (m_pow wa (m_add wb (Integer (-1)))))).
  Ltac step_new x H := eapply (ref_bind_ok atomic who t Hwho _ _ _ _ _ has_expr);
    [eassumption|apply new_ref; [eassumption|cbn [In]; tauto]|]; let s1 := fresh "s" in let W1 := fresh "W" in let L1 := fresh "L" in intros s1 x W1 L1 H; lift_all L1.
  Ltac step_expr x H b tac := eapply (ref_bind_ok atomic who t Hwho _ _ b _ _ has_expr);
    [eassumption|tac|]; let s1 := fresh "s" in let W1 := fresh "W" in let L1 := fresh "L" in intros s1 x W1 L1 H; lift_all L1.
  Ltac step_rep x H := eapply (ref_bind_ok atomic who t Hwho _ _ _ _ _ has_tree);
    [eassumption|eapply rep_ref; eassumption|]; let s1 := fresh "s" in let W1 := fresh "W" in let L1 := fresh "L" in intros s1 x W1 L1 H; lift_all L1.
  Ltac step_props x H b tac := eapply (ref_bind_ok atomic who t Hwho _ _ b _ _ same_props);
    [eassumption|tac|]; let s1 := fresh "s" in let W1 := fresh "W" in let L1 := fresh "L" in intros s1 x W1 L1 H; lift_all L1.
  Lemma import_ref s fuel : W s -> import_fuel <= fuel -> refines s (o_import fuel) (Ok tt) imported.
  Proof.
    intros HW Hf. unfold import_fuel in Hf. unfold o_import.
    step_new a0 H0. step_new a1 H1. step_new am Hm. step_new aP HP. step_new asn Hsn. step_new acs Hcs. step_new aA HA. step_new aM HM. step_new aL HL.
    cbv zeta. unfold o_new_wild. step_new aa Ha. step_new ab Hb.
    step_rep rA HrA. step_rep rM HrM. step_rep r0 Hr0. step_rep r1 Hr1.
    set (g := mkModule a0 a1 am aP asn acs aA aM aL).
    match type of Hr1 with SpecObjects.has_tree _ _ ?s _ _ =>
      assert (Hg : module_ok s g) by (constructor; assumption);
      assert (Hp0 : same_props s (mkODiff r0 r1 rA rM [] []) q0) by (constructor; try assumption; constructor) end.
    clear H0 H1 Hm HP HA HM Hr0 Hr1 HrA HrM.
    step_expr e1 He1 (call1 sin wa) ltac:(apply (expr_call_ref _ _ sin _ [PExpr wa]); [eassumption|exact Hsn|constructor; [exact Ha|constructor]]).
    step_expr d1 Hd1 (call1 cos wa) ltac:(apply (expr_call_ref _ _ cos _ [PExpr wa]); [eassumption|exact Hcs|constructor; [exact Ha|constructor]]).
    step_props p1 Hp1 q1 ltac:(change (Ok q1) with (v_setitem q0 (call1 sin wa) wa (call1 cos wa)); apply setitem_ref; try assumption; unfold enough; lia).
    step_expr e2 He2 (call1 cos wa) ltac:(apply (expr_call_ref _ _ cos _ [PExpr wa]); [eassumption|exact Hcs|constructor; [exact Ha|constructor]]).
    step_expr sn2 Hsn2 (call1 sin wa) ltac:(apply (expr_call_ref _ _ sin _ [PExpr wa]); [eassumption|exact Hsn|constructor; [exact Ha|constructor]]).
    step_expr d2 Hd2 (expr_neg (call1 sin wa)) ltac:(apply neg_ref; assumption).
    step_props p2 Hp2 q2 ltac:(change (Ok q2) with (v_setitem q1 (call1 cos wa) wa (expr_neg (call1 sin wa))); apply setitem_ref; try assumption; unfold enough; lia).
    step_expr e3 He3 (m_pow wa wb) ltac:(apply (binop_ref _ g OpPow _ wa _ (PExpr wb)); assumption).
    step_expr x3 Hx3 (m_add wb (Integer (-1))) ltac:(apply (binop_ref _ g OpAdd _ wb _ (PInt (-1))); try assumption; reflexivity).
    step_expr y3 Hy3 (m_pow wa (m_add wb (Integer (-1)))) ltac:(apply (binop_ref _ g OpPow _ wa _ (PExpr (m_add wb (Integer (-1))))); assumption).
    step_expr d3 Hd3 (m_mul wb (m_pow wa (m_add wb (Integer (-1))))) ltac:(apply (binop_ref _ g OpMul _ wb _ (PExpr (m_pow wa (m_add wb (Integer (-1)))))); assumption).
    step_props p3 Hp3 q3 ltac:(change (Ok q3) with (v_setitem q2 (m_pow wa wb) wa (m_mul wb (m_pow wa (m_add wb (Integer (-1)))))); apply setitem_ref; try assumption; unfold enough; lia).
    step_props p4 Hp4 cas_diff ltac:(change cas_diff with (add_distributive q3 List_); apply add_distributive_ref; assumption).
    apply ref_ret; [assumption|apply mono_imported|]. split; assumption.
  Qed.

  (** ** bin_expand and count_ops_graph *)
  Lemma reduce_ref s h u args args' : W s -> has_tree s h u -> Forall2 (same_args has_tree s) args args' ->
    refines s (o_reduce h args) (pyn (reduce (call2 u)) args') has_tree.
  Proof.
    intros HW Hh H.
    unfold pyn. destruct H as [|x y l m Hxy H]; [apply ref_ret; [exact HW|apply mono_tree|reflexivity]|].
    destruct x as [v|vs], y as [w|ws]; cbn [same_args] in Hxy; try contradiction.
    { apply ref_ret; [exact HW|apply mono_tree|]. destruct l, m; reflexivity. }
    destruct H as [|x' y' l m _ _]; [|cbn [o_reduce]; destruct Hxy; apply ref_ret; try exact HW; try apply mono_tree; reflexivity].
    cbn [o_reduce]. destruct Hxy as [|v w vs ws Hv Hl]; [apply ref_ret; [exact HW|apply mono_tree|reflexivity]|]. cbn [reduce].
    rewrite <- (fold_left_foldM (call2 u) ws w).
    assert (M : mono (fun s a b => has_tree s a b /\ has_tree s h u)).
    { intros s1 s2 a b L [K1 K2]. split; eapply has_tree_le; eassumption. }
    eapply (ref_weaken atomic who t Hwho _ _ _ (fun s a b => has_tree s a b /\ has_tree s h u)); [exact HW| |intros s1 a b _ _ K; exact (proj1 K)].
    apply (ref_pfold atomic who t Hwho has_tree (fun s a b => has_tree s a b /\ has_tree s h u)); [apply mono_tree|exact M|exact HW|exact Hl|split; assumption|].
    intros s1 x y a b W1 L1 Hx [Ha Hh1]. eapply (ref_weaken atomic who t Hwho _ _ _ has_tree); [exact W1|apply (call_ref names atomic who t Hsafe Hwho); [exact W1|exact Hh1|constructor; [exact Ha|constructor; [exact Hx|constructor]]]|].
    intros s2 c d W2 L2 Hc. split; [exact Hc|eapply has_tree_le; eassumption].
  Qed.
  Lemma bin_expand_ref s fuel g e u : W s -> module_ok s g -> has_expr s e u -> enough fuel u ->
    refines s (o_bin_expand fuel g e) (bin_expand u) has_expr.
  Proof.
    intros HW Hg He Hf. unfold o_bin_expand. pose proof (mo_Add _ _ Hg) as HA. pose proof (mo_Mul _ _ Hg) as HM.
    step_rep rA HrA. step_rep rM HrM. step_rep r Hr.
    replace (bin_expand u) with (do v <- evaluate (fun _ => false) bin_expand_ev u (Some []); Ok v)
      by (change (bin_expand u) with (evaluate (fun _ => false) bin_expand_ev u (Some [])); destruct (evaluate _ _ _ _); reflexivity).
    match goal with Hr : SpecObjects.has_tree _ _ ?s1 r u |- _ => rename s1 into s4 end.
    eapply (ref_bind atomic who t Hwho _ _ _ _ _ has_tree); [eassumption| |].
    - apply (evaluate_ref names atomic who t Hsafe Hwho has_tree (fun _ => false) (fun _ => false)); try assumption; [| | |constructor|intros gr; apply graph_atoms].
      + intros s5 s6 a b L5 Ha. apply L5, Ha.
      + reflexivity.
      + constructor; [constructor| | |].
        * constructor; [|constructor; [|constructor]].
          -- split; [exact HrA|]. split; [reflexivity|]. intros s5 args args' R5 L5 Hargs. apply (reduce_ref s5 rA Add); [exact R5|apply L5, HrA|exact Hargs].
          -- split; [exact HrM|]. split; [reflexivity|]. intros s5 args args' R5 L5 Hargs. apply (reduce_ref s5 rM Mul); [exact R5|apply L5, HrM|exact Hargs].
        * intros s5 h v l m R5 _ Hh Hl. exact (call_ref names atomic who t Hsafe Hwho s5 h v l m R5 Hh Hl).
        * intros s5 b v R5 _ Hb. apply (ref_ret atomic who t); [exact R5|apply mono_tree|exact Hb].
    - intros s5 b v W5 L5 Hb. apply Expr_ref; assumption.
  Qed.
  Lemma count_ops_graph_ref s fuel e u : W s -> has_expr s e u -> enough fuel u ->
    refines s (o_count_ops_graph fuel e) (count_ops_graph u) (@req Z).
  Proof.
    intros HW He Hf. unfold o_count_ops_graph, count_ops_graph. step_rep r Hr.
    eapply (ref_bind atomic who t Hwho _ _ _ _ _ trees); [eassumption|apply (topological_sort_ref names atomic who t Hsafe Hwho); try assumption; constructor|].
    intros s5 l us W5 L5 Hl. apply ref_ret; [exact W5|apply mono_eq|]. cbn [rel]. red. rewrite (rl_length has_tree _ _ _ Hl). reflexivity.
  Qed.

  (** ** Programs *)
  Definition vars : state pyval -> list addr * o_diff_props -> list tree * diff_props -> Prop := rprod exprs same_props.
  Lemma mono_vars : mono vars. Proof. apply mono_prod; [apply mono_exprs|apply mono_props]. Qed.
  Lemma push_ref s p r oenv env op q : W s -> vars s (oenv, op) (env, q) -> refines s p r has_expr ->
    refines s (run e <- p; ret (oenv ++ [e], op)) (do u <- r; Ok (env ++ [u], q)) vars.
  Proof.
    intros HW Hv Hp. eapply (ref_bind atomic who t Hwho _ _ _ _ _ has_expr); [exact HW|exact Hp|]. intros s1 e u W1 L1 He.
    apply ref_ret; [exact W1|apply mono_vars|]. cbn [rel]. pose proof (mono_vars _ _ _ _ L1 Hv) as [H1 H2]. split; [|exact H2]. apply rl_snoc; assumption.
  Qed.
  Definition item (env : list tree) (oenv : list addr) i s (e : addr) (u : tree) : Prop := has_expr s e u /\ getitem env i = Ok u /\ exprs s oenv env.
  Lemma mono_item env oenv i : mono (item env oenv i).
  Proof. intros s s' e u L (H1 & H2 & H3). split; [eapply has_expr_le; eassumption|]. split; [exact H2|eapply mono_exprs; eassumption]. Qed.
  Lemma item_ref s oenv env i : W s -> exprs s oenv env -> refines s (lift (getitem oenv i)) (getitem env i) (item env oenv i).
  Proof.
    intros HW H. apply ref_ret; [exact HW|apply mono_item|]. pose proof (rl_getitem has_expr s _ _ i H) as G. unfold item.
    destruct (getitem oenv i), (getitem env i); cbn [rel] in *; try contradiction; [|exact G]. split; [exact G|]. split; [reflexivity|exact H].
  Qed.
  Lemma operand_ref s oenv env o : W s -> exprs s oenv env -> refines s (o_operand oenv o) (v_operand env o) rop.
  Proof.
    intros HW H. destruct o as [i|z]; cbn [o_operand v_operand]; [|apply ref_ret; [exact HW|apply mono_op|reflexivity]].
    eapply (ref_bind atomic who t Hwho _ _ _ _ _ (item env oenv i)); [exact HW|apply item_ref; assumption|]. intros s1 e u W1 L1 (He & _).
    apply ref_ret; [exact W1|apply mono_op|exact He].
  Qed.
  Lemma operands_ref s oenv env l : W s -> exprs s oenv env -> refines s (pmap (o_operand oenv) l) (mapM (v_operand env) l) (rlist rop).
  Proof.
    intros HW H. apply (pmap_ref (@req (operand nat)) rop); [apply mono_eq|apply mono_op|exact HW| |].
    - unfold rlist, req. apply list_eq.
    - intros s1 x y W1 L1 E. red in E. subst y. apply operand_ref; [exact W1|eapply mono_exprs; eassumption].
  Qed.
  Lemma pairs_ref s oenv env l : W s -> exprs s oenv env -> refines s (pmap (o_pair oenv) l) (mapM (v_pair env) l) (rlist (rprod rop rop)).
  Proof.
    intros HW H. apply (pmap_ref (@req (operand nat * operand nat)) (rprod rop rop)); [apply mono_eq|apply mono_prod; apply mono_op|exact HW| |].
    - unfold rlist, req. apply list_eq.
    - intros s1 x y W1 L1 E. red in E. subst y. pose proof (mono_exprs _ _ _ _ L1 H) as H1. unfold o_pair, v_pair.
      eapply (ref_bind atomic who t Hwho _ _ _ _ _ rop); [exact W1|apply operand_ref; assumption|]. intros s2 a b W2 L2 Ha.
      eapply (ref_bind atomic who t Hwho _ _ _ _ _ rop); [exact W2|apply operand_ref; [exact W2|eapply mono_exprs; eassumption]|]. intros s3 c d W3 L3 Hc.
      apply ref_ret; [exact W3|apply mono_prod; apply mono_op|]. split; [eapply mono_op; eassumption|exact Hc].
  Qed.
  Ltac get i e u H := eapply (ref_bind atomic who t Hwho _ _ _ _ _ (item _ _ i));
    [eassumption|apply item_ref; eassumption|]; let s1 := fresh "s" in let W1 := fresh "W" in let L1 := fresh "L" in let Ei := fresh "Ei" in intros s1 e u W1 L1 (H & Ei & _); lift_all L1.
  Lemma statement_ref c env q : exists N, forall fuel, N <= fuel -> forall s g st, W s -> module_ok s g -> vars s st (env, q) ->
    refines s (o_statement fuel g st c) (v_statement (env, q) c) vars.
  Proof.
    assert (HN : exists N, forall fuel, N <= fuel -> forall i u, getitem env i = Ok u -> enough fuel u).
    { clear. induction env as [|v env (N & IH)].
      - exists 0. intros fuel _ i u H. destruct i; discriminate H.
      - exists (S (topo_weight v) + N). intros fuel Hf [|i] u H; [injection H as <-; unfold enough; lia|]. eapply IH; [lia|exact H]. }
    destruct HN as (N & HN).
    assert (HD : exists M, forall i j n, c = SDiff i j n -> forall u v, getitem env i = Ok u -> getitem env j = Ok v ->
      forall fuel, M <= fuel -> forall s p e x, W s -> has_expr s e u -> has_expr s x v -> same_props s p q ->
      refines s (o_diff fuel p (Z.to_nat n) e x) (repeatM (fun d => sym_diff_call q d v 1) (Z.to_nat n) u) has_expr).
    { destruct c as [| | | | | | | | | | |i j n| |]; try (exists 0; intros; discriminate). destruct (getitem env i) as [u|] eqn:Eu; [|exists 0; intros i' j' n' [= <- <- <-] u v; congruence].
      destruct (getitem env j) as [v|] eqn:Ev; [|exists 0; intros i' j' n' [= <- <- <-] u' v; congruence].
      destruct (diff_ref q v (Z.to_nat n) u) as (M & HM). exists M. intros i' j' n' [= <- <- <-] u' v' Eu' Ev'. assert (u' = u) by congruence. assert (v' = v) by congruence. subst. exact HM. }
    destruct HD as (M & HD). exists (N + M). intros fuel Hf s g [oenv p] HW Hg [He Hp]. cbn [fst snd] in He, Hp.
    specialize (HN fuel ltac:(lia)). unfold o_statement, v_statement. cbv beta iota zeta.
    destruct c as [z|name|name|op i o|op z i|i|i args|i|i k|i reps|i|i j n|i j k|i];
      try (apply push_ref; [exact HW|split; assumption|]).
    - apply new_ref; [exact HW|cbn [In]; tauto].
    - apply new_ref; [exact HW|cbn [In]; tauto].
    - apply new_ref; [exact HW|cbn [In]; tauto].
    - get i e u H. eapply (ref_bind atomic who t Hwho _ _ _ _ _ rop); [eassumption|apply operand_ref; eassumption|]. intros s2 o1 o2 W2 L2 Ho. lift_all L2.
      apply binop_ref; assumption.
    - get i e u H. apply rbinop_ref; assumption.
    - get i e u H. apply neg_ref; assumption.
    - get i e u H. eapply (ref_bind atomic who t Hwho _ _ _ _ _ (rlist rop)); [eassumption|apply operands_ref; eassumption|]. intros s2 o1 o2 W2 L2 Ho. lift_all L2.
      apply expr_call_ref; assumption.
    - get i e u H. apply head_ref; assumption.
    - get i e u H. eapply (ref_bind_ok atomic who t Hwho _ _ _ _ _ exprs); [eassumption|apply args_ref; eassumption|]. intros s2 l W2 L2 Hl.
      apply ref_ret; [exact W2|apply mono_expr|]. apply (rl_getitem has_expr), Hl.
    - get i e u H. eapply (ref_bind atomic who t Hwho _ _ _ _ _ (rlist (rprod rop rop))); [eassumption|apply pairs_ref; eassumption|]. intros s2 o1 o2 W2 L2 Ho. lift_all L2.
      apply xreplace_ref; [assumption|assumption|apply dict_same; assumption|eapply HN; eassumption].
    - get i e u H. apply bin_expand_ref; try assumption. eapply HN; eassumption.
    - get i e u H. get j x v Hx. eapply HD; try eassumption; [reflexivity|lia].
    - get i e u H. get j x v Hx. get k d w Hd. fold (v_setitem q u v w).
      replace (let '(p', r) := diff_setitem q (STuple [u; v]) w in do _ <- r; Ok (env, p')) with (do q' <- v_setitem q u v w; Ok (env, q'))
        by (unfold v_setitem; destruct (diff_setitem q (STuple [u; v]) w) as [q' [|]]; reflexivity).
      eapply (ref_bind atomic who t Hwho _ _ _ _ _ same_props); [eassumption|apply setitem_ref; try assumption; eapply HN; eassumption|]. intros s5 p5 q5 W5 L5 Hp5. lift_all L5.
      apply ref_ret; [exact W5|apply mono_vars|]. split; assumption.
    - get i e u H. eapply (ref_bind_ok atomic who t Hwho _ _ _ _ _ same_props); [eassumption|apply add_distributive_ref; eassumption|]. intros s5 p5 W5 L5 Hp5. lift_all L5.
      apply ref_ret; [exact W5|apply mono_vars|]. split; assumption.
  Qed.
  Lemma program_ref l : forall env q, exists N, forall fuel, N <= fuel -> forall s g st, W s -> module_ok s g -> vars s st (env, q) ->
    refines s (pfold (o_statement fuel g) l st) (foldM v_statement l (env, q)) vars.
  Proof.
    induction l as [|c l IH]; intros env q.
    - exists 0. intros fuel _ s g st HW _ Hv. apply ref_ret; [exact HW|apply mono_vars|exact Hv].
    - destruct (statement_ref c env q) as (N & HN). destruct (v_statement (env, q) c) as [[env' q']|err] eqn:E.
      + destruct (IH env' q') as (M & HM). exists (N + M). intros fuel Hf s g st HW Hg Hv. cbn [pfold foldM]. rewrite E. cbn [bind].
        eapply (ref_bind_ok atomic who t Hwho _ _ _ _ _ vars); [exact HW|apply HN; [lia|exact HW|exact Hg|exact Hv]|].
        intros s1 st1 W1 L1 Hv1. lift_all L1. apply HM; [lia|assumption..].
      + exists N. intros fuel Hf s g st HW Hg Hv. cbn [pfold foldM]. rewrite E. cbn [bind]. eapply ref_err; [exact HW|apply HN; assumption].
  Qed.
  Lemma session_ref l : exists N, forall fuel, N <= fuel -> forall s, W s -> refines s (o_session fuel l) (v_session l) exprs.
  Proof.
    destruct (program_ref l [] cas_diff) as (N & HN). exists (import_fuel + N). intros fuel Hf s HW. unfold o_session, v_session, v_program, o_program.
    eapply (ref_bind_ok atomic who t Hwho _ _ _ _ _ imported); [exact HW|apply import_ref; [exact HW|lia]|]. intros s1 [g p] W1 L1 [Hg Hp]. cbn [fst snd] in *.
    eapply (ref_bind atomic who t Hwho _ _ _ _ _ vars); [exact W1|apply HN; [lia|exact W1|exact Hg|split; [constructor|exact Hp]]|].
    intros s2 [oenv p'] [env q'] W2 L2 [He _]. apply ref_ret; [exact W2|apply mono_exprs|exact He].
  Qed.
End Proof.
