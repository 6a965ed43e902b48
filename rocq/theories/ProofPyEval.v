(** * Proofs: evaluating the text of an expression as Python *)
From Coq Require Import Reals Lra.
From Verif Require Import Py ModelTree ModelEval ModelCas ModelMatrix ModelApi SpecTree SpecEval SpecPrint SpecReal SpecApi SpecPyText
  ProofBase ProofTree ProofPrint ProofReal ProofBin ProofPyText.
Local Open Scope list_scope.
Local Open Scope string_scope.
Local Open Scope list_scope.

Lemma reval_two env h a b va vb : reval env a = Some va -> reval env b = Some vb ->
  reval env (Node [h; a; b]) = rop h [va; vb].
Proof. intros A B. cbn [reval all_defined]. rewrite A, B. reflexivity. Qed.

Definition op_value (op : operator) (a b : R) : option R :=
  match op with
  | OpAdd => Some (a + b)%R | OpSub => Some (a - b)%R | OpMul => Some (a * b)%R
  | OpDiv => None | OpPow => rpow a b
  end.
Lemma combined_value env op a b va vb v : reval env a = Some va -> reval env b = Some vb -> op_value op va vb = Some v ->
  reval env (combined op a b) = Some v.
Proof.
  intros A B H. destruct op; cbn [combined op_value] in *; try discriminate.
  - rewrite (reval_two env Add a b va vb A B). injection H as <-. cbn. f_equal. ring.
  - rewrite (reval_two env Add a _ va (- vb)%R A).
    + injection H as <-. cbn. f_equal. ring.
    + rewrite (reval_two env Mul _ b (-1)%R vb); [|reflexivity|exact B]. cbn. f_equal. ring.
  - rewrite (reval_two env Mul a b va vb A B). injection H as <-. cbn. f_equal. ring.
  - rewrite (reval_two env Pow a b va vb A B). exact H.
Qed.
Lemma int_binop_value op m n c v : int_binop op m n = Ok (OInt c) -> op_value op (IZR m) (IZR n) = Some v -> v = IZR c.
Proof.
  intros E H. destruct op; cbn [int_binop op_value] in *; try discriminate.
  - injection E as <-. injection H as <-. rewrite plus_IZR. reflexivity.
  - injection E as <-. injection H as <-. rewrite minus_IZR. reflexivity.
  - injection E as <-. injection H as <-. rewrite mult_IZR. reflexivity.
  - destruct (n <? 0)%Z eqn:En; [destruct (m =? 0)%Z; discriminate|]. injection E as <-. apply Z.ltb_ge in En.
    rewrite rpow_int in H by (right; exact En). injection H as <-.
    rewrite <- (Z2Nat.id n) at 1 by exact En. rewrite <- pow_powerRZ.
    rewrite pow_IZR, Z2Nat.id by exact En. reflexivity.
Qed.

Lemma int_binop_result op m n o : int_binop op m n = Ok o -> (o = OOther /\ True) \/ exists c, o = OInt c /\ int_binop op m n = Ok (OInt c).
Proof.
  intros E. assert (H : o = OOther \/ exists c, o = OInt c).
  { destruct op; cbn [int_binop] in E;
      repeat (match type of E with context [if ?x then _ else _] => destruct x end); try discriminate E; injection E as <-; eauto. }
  destruct H as [->|[c ->]]; eauto.
Qed.

Section NS.
  Variable ns : string -> option obj.
  Notation readable := (readable ns).
  Notation eval := (eval_python ns).

  (** If [p] evaluates to an expression or number, its value is [v]. *)
  Definition means (env : string -> R) (p : pyexpr) (v : R) : Prop :=
    forall h o h', eval p h = (Ok o, h') -> h' = h /\ ~ is_matrix o /\
      forall e, expression_of o = Some e -> reval env e = Some v.

  Lemma not_matrix_expr t : ~ is_matrix (OExpr t). Proof. intros [m E]. discriminate. Qed.
  Lemma not_matrix_int n : ~ is_matrix (OInt n). Proof. intros [m E]. discriminate. Qed.
  Lemma not_matrix_other : ~ is_matrix OOther. Proof. intros [m E]. discriminate. Qed.

  Lemma binop_result op l r h o h' : ~ is_matrix l -> ~ is_matrix r -> eval_binop op l r h = (Ok o, h') ->
    h' = h /\ ~ is_matrix o /\ forall e, expression_of o = Some e ->
      exists a b, expression_of l = Some a /\ expression_of r = Some b /\
        (e = combined op a b \/ exists m n c, a = Integer m /\ b = Integer n /\ int_binop op m n = Ok (OInt c) /\ e = Integer c).
  Proof.
    intros Hl Hr. destruct l as [a|m|m|m|]; try (destruct Hl; eexists; reflexivity); destruct r as [b|n|n|n|]; try (destruct Hr; eexists; reflexivity).
    1-5,9,13: destruct op; intros E; try discriminate E; injection E as <- <-; (split; [reflexivity|]); (split; [apply not_matrix_expr|]);
      intros e He; injection He as <-; eexists _, _; (split; [reflexivity|]); (split; [reflexivity|]); left; reflexivity.
    all: unfold eval_binop; cbn [ours orb int_of]; intros E.
    all: try (injection E as <- <-; split; [reflexivity|]; split; [apply not_matrix_other|discriminate]).
    all: try discriminate E.
    all: unfold hlift in E; injection E as E <-; split; [reflexivity|]; apply int_binop_result in E;
      destruct E as [[-> _]|(c & -> & E)]; [split; [apply not_matrix_other|discriminate]|split; [apply not_matrix_int|]];
      intros e He; injection He as <-; eexists _, _; (split; [reflexivity|]); (split; [reflexivity|]); right; eexists _, _, c;
      (split; [reflexivity|]); (split; [reflexivity|]); split; [exact E|reflexivity].
  Qed.

  Lemma means_bin env op p q va vb v : means env p va -> means env q vb -> op_value op va vb = Some v -> means env (PyBin op p q) v.
  Proof.
    intros Hp Hq Hv h o h' E. cbn [eval_python] in E. unfold hbind at 1 in E.
    destruct (eval p h) as [[l|] h1] eqn:E1; [|discriminate]. destruct (Hp _ _ _ E1) as (-> & Ml & Vl).
    unfold hbind in E. destruct (eval q h) as [[r|] h2] eqn:E2; [|discriminate]. destruct (Hq _ _ _ E2) as (-> & Mr & Vr).
    destruct (binop_result op l r h o h' Ml Mr E) as (-> & Mo & Vo). split; [reflexivity|]. split; [exact Mo|].
    intros e He. destruct (Vo e He) as (a & b & Ha & Hb & [->|(m & n & c & -> & -> & Hc & ->)]).
    - eapply combined_value; [apply Vl, Ha|apply Vr, Hb|exact Hv].
    - pose proof (Vl _ Ha) as A. pose proof (Vr _ Hb) as B. injection A as <-. injection B as <-.
      rewrite (int_binop_value op m n c v Hc Hv). reflexivity.
  Qed.
  Lemma means_fold env op (comb : R -> R -> R) l vs : (forall a b, op_value op a b = Some (comb a b)) ->
    Forall2 (fun t v => means env (ast t) v) l vs ->
    forall p v, means env p v -> means env (fold_left (PyBin op) (map ast l) p) (fold_left comb vs v).
  Proof.
    intros Hc H. induction H as [|t w l vs Ht _ IH]; intros p v Hp; [exact Hp|]. cbn [map fold_left]. apply IH.
    eapply means_bin; [exact Hp|exact Ht|apply Hc].
  Qed.
  Lemma fold_plus vs : forall v, fold_left Rplus vs v = (v + fold_right Rplus 0 vs)%R.
  Proof. induction vs as [|w vs IH]; intros v; cbn [fold_left fold_right]; [ring|]. rewrite IH. ring. Qed.
  Lemma fold_mult vs : forall v, fold_left Rmult vs v = (v * fold_right Rmult 1 vs)%R.
  Proof. induction vs as [|w vs IH]; intros v; cbn [fold_left fold_right]; [ring|]. rewrite IH. ring. Qed.

  Lemma Forall2_means env args vs : Forall (fun t => forall env v, reval env t = Some v -> means env (ast t) v) args ->
    Forall2 (fun a w => reval env a = Some w) args vs -> Forall2 (fun t v => means env (ast t) v) args vs.
  Proof. intros H F. revert H. induction F as [|a w args vs Ha _ IH]; intros H; constructor; inversion H; subst; auto. Qed.

  Lemma means_args env args vs : Forall2 (fun t v => means env (ast t) v) args vs -> forall h l h',
    hmapM eval (map ast args) h = (Ok l, h') -> h' = h /\
    forall es, Forall2 (fun o e => expression_of o = Some e) l es -> Forall2 (fun e v => reval env e = Some v) es vs.
  Proof.
    induction 1 as [|t v args vs Ht _ IH]; intros h l h' E; cbn [map hmapM] in E.
    - injection E as <- <-. split; [reflexivity|]. intros es H. inversion H. constructor.
    - unfold hbind in E. destruct (eval (ast t) h) as [[o|] h1] eqn:E1; [|discriminate]. destruct (Ht _ _ _ E1) as (-> & _ & V).
      destruct (hmapM eval (map ast args) h) as [[l'|] h2] eqn:E2; [|discriminate]. injection E as <- <-.
      destruct (IH _ _ _ E2) as [-> W]. split; [reflexivity|]. intros es H. inversion H; subst. constructor; auto.
  Qed.
  Lemma operands l : forall es, mapM expressify (map as_operand l) = Ok es -> Forall2 (fun o e => expression_of o = Some e) l es.
  Proof.
    induction l as [|o l IH]; intros es E; [injection E as <-; constructor|]. cbn [map mapM] in E.
    destruct o as [t|m|z|b|]; try discriminate E; cbn [as_operand expressify bind] in E;
      destruct (mapM expressify (map as_operand l)) as [r|]; try discriminate E; injection E as <-; constructor; try reflexivity; auto.
  Qed.
  Lemma operands_back l es : Forall2 (fun o e => expression_of o = Some e) l es -> mapM expressify (map as_operand l) = Ok es.
  Proof.
    induction 1 as [|o e l es Ho _ IH]; [reflexivity|]. cbn [map mapM]. rewrite IH. destruct o; try discriminate Ho; injection Ho as <-; reflexivity.
  Qed.

  Lemma text_value t : readable t -> forall env v, reval env t = Some v -> means env (ast t) v.
  Proof.
    revert t. refine (readable_ind' ns _ _ _ _ _ _ _); [intros n|intros s Hs Hn|intros args He Hf IH|intros args He Hf IH|intros b e Hb He IHb IHe Hp Hn|intros s args Hs H1 H2 H3 Hn Hf IH];
      intros env v Hv.
    - injection Hv as <-. intros h o h' E. cbn [ast Integer Tr atom_value] in E. destruct (n <? 0)%Z eqn:En; cbn in E; injection E as <- <-;
        (split; [reflexivity|]); (split; [apply not_matrix_int|]); intros e He; injection He as <-; rewrite ?Z.opp_involutive; reflexivity.
    - intros h o h' E. cbn [ast Symbol Tr atom_value eval_python] in E. rewrite Hn in E. injection E as <- <-. split; [reflexivity|].
      split; [apply not_matrix_expr|]. intros e He. injection He as <-. exact Hv.
    - apply reval_node in Hv as (vs & F & Hop). cbn in Hop. injection Hop as <-. apply (Forall2_means env args vs IH) in F.
      cbn [ast]. rewrite tree_eqb_refl. destruct F as [|t w l vs Ht Hl]; [congruence|]. cbn [map fold_bin fold_right].
      rewrite <- fold_plus. apply means_fold; [reflexivity|exact Hl|exact Ht].
    - apply reval_node in Hv as (vs & F & Hop). cbn in Hop. injection Hop as <-. apply (Forall2_means env args vs IH) in F.
      cbn [ast]. change (tree_eqb Mul Add) with false. rewrite tree_eqb_refl. destruct F as [|t w l vs Ht Hl]; [congruence|]. cbn [map fold_bin fold_right].
      rewrite <- fold_mult. apply means_fold; [reflexivity|exact Hl|exact Ht].
    - apply reval_node in Hv as (vs & F & Hop). inversion F as [|? va ? ? Vb F' ]; subst. inversion F' as [|? vb ? ? Ve F'']; subst. inversion F''; subst.
      cbn [ast map]. change (tree_eqb Pow Add) with false. change (tree_eqb Pow Mul) with false. rewrite tree_eqb_refl.
      eapply means_bin; [apply IHb, Vb|apply IHe, Ve|exact Hop].
    - apply reval_node in Hv as (vs & F & Hop). apply (Forall2_means env args vs IH) in F.
      rewrite ast_call by assumption. intros h o h' E. cbn [eval_python] in E. unfold hbind at 1 in E. rewrite Hn in E. cbn [hret] in E.
      unfold hbind at 1 in E. destruct (hmapM eval (map ast args) h) as [[l|] h1] eqn:El; [|discriminate].
      destruct (means_args env args vs F _ _ _ El) as [-> V]. cbn [eval_call] in E. unfold hbind, hlift, expr_call in E.
      destruct (mapM expressify (map as_operand l)) as [es|] eqn:Ees; [|discriminate]. cbn [bind hret] in E. injection E as <- <-.
      split; [reflexivity|]. split; [apply not_matrix_expr|]. intros e He. injection He as <-.
      apply reval_node. exists vs. split; [apply V, operands, Ees|exact Hop].
  Qed.

  (** Without arithmetic on ints alone, the result is exactly [bin_expand]. *)
  Lemma binop_expr op l r a b h : (is_expr l \/ is_expr r) -> expression_of l = Some a -> expression_of r = Some b ->
    eval_binop op l r h = (Ok (OExpr (combined op a b)), h).
  Proof.
    intros H Ha Hb. destruct l as [t|m|z0|b0|], r as [u|m'|z1|b1|]; try discriminate;
      try (destruct H as [[w H]|[w H]]; discriminate); injection Ha as <-; injection Hb as <-; destruct op; reflexivity.
  Qed.
  Definition rebuilds (t : tree) : Prop := exists o e, (forall h, eval (ast t) h = (Ok o, h)) /\
    meaning bin_leaf bin_op t = Ok e /\ expression_of o = Some e /\ (is_integer t \/ is_expr o).
  Lemma bin_eval op p q l r h : eval p h = (Ok l, h) -> eval q h = (Ok r, h) -> eval (PyBin op p q) h = eval_binop op l r h.
  Proof. intros A B. cbn [eval_python]. unfold hbind. rewrite A, B. reflexivity. Qed.
  Lemma rebuild_fold op (H : tree) l : (forall a b, combined op a b = call2 H a b) -> Forall rebuilds l ->
    exists es, mapM (meaning bin_leaf bin_op) l = Ok es /\
    forall p a h, eval p h = (Ok (OExpr a), h) ->
      eval (fold_left (PyBin op) (map ast l) p) h = (Ok (OExpr (fold_left (call2 H) es a)), h).
  Proof.
    intros Hc. induction 1 as [|t l (o & e & A & B & C & _) _ (es & Ees & IH)]; [exists []; split; [reflexivity|auto]|].
    exists (e :: es). split; [cbn [mapM]; rewrite B, Ees; reflexivity|]. intros p a h Hp. cbn [map fold_left]. apply IH.
    rewrite (bin_eval op p (ast t) (OExpr a) o h Hp (A h)). rewrite (binop_expr op (OExpr a) o a e h); [rewrite Hc; reflexivity|left; eexists; reflexivity|reflexivity|exact C].
  Qed.
  Lemma expr_as o e : is_expr o -> expression_of o = Some e -> o = OExpr e.
  Proof. intros [t ->] H. injection H as <-. reflexivity. Qed.
  Lemma rebuild_nary op H l : (forall a b, combined op a b = call2 H a b) -> H = Add \/ H = Mul -> l <> [] -> Forall rebuilds l ->
    (exists a, In a (firstn 2 l) /\ ~ is_integer a) ->
    exists e, (forall h, eval (fold_bin op (map ast l)) h = (Ok (OExpr e), h)) /\ meaning bin_leaf bin_op (Node (H :: l)) = Ok e.
  Proof.
    intros Hc HH Hne Hl (x & Hx & Hi). destruct l as [|t l]; [congruence|]. inversion Hl as [|? ? (o & e & A & B & C & D) Hl']; subst.
    assert (Hb : forall vs, bin_op H vs = reduce (call2 H) vs) by (intros vs; destruct HH as [->| ->]; reflexivity).
    destruct l as [|u l].
    - destruct Hx as [->|[]]. destruct D as [D|D]; [contradiction|]. exists e. cbn [map fold_bin fold_left]. rewrite <- (expr_as o e D C).
      split; [exact A|]. cbn [meaning mapM]. rewrite B. cbn [bind]. rewrite Hb. reflexivity.
    - inversion Hl' as [|? ? (o2 & e2 & A2 & B2 & C2 & D2) Hl'']; subst.
      destruct (rebuild_fold op H l Hc Hl'') as (es & Ees & F). exists (fold_left (call2 H) es (call2 H e e2)).
      split.
      + intros h. cbn [map fold_bin fold_left]. apply F. rewrite (bin_eval op _ _ o o2 h (A h) (A2 h)).
        rewrite (binop_expr op o o2 e e2 h); [rewrite Hc; reflexivity| |exact C|exact C2].
        destruct Hx as [->|[->|[]]]; [destruct D as [D|D]; [contradiction|auto]|destruct D2 as [D2|D2]; [contradiction|auto]].
      + cbn [meaning mapM]. rewrite B, B2. cbn [bind]. rewrite Ees. cbn [bind]. rewrite Hb. reflexivity.
  Qed.
  Lemma no_folding_arg h args a : no_folding (Node (h :: args)) -> In a args -> no_folding a.
  Proof. intros H Ha h' l Hr. apply H. eapply reach_arg; eassumption. Qed.
  Lemma no_folding_args h args : no_folding (Node (h :: args)) -> Forall (fun t => no_folding t -> rebuilds t) args -> Forall rebuilds args.
  Proof. intros H. rewrite !Forall_forall. intros IH a Ha. apply IH; [exact Ha|]. eapply no_folding_arg; eassumption. Qed.

  Lemma text_rebuilds t : readable t -> no_folding t -> rebuilds t.
  Proof.
    revert t. refine (readable_ind' ns _ _ _ _ _ _ _); [intros n|intros s Hs Hn|intros args He Hf IH|intros args He Hf IH|intros b e Hb He IHb IHe Hp Hn|intros s args Hs H1 H2 H3 Hn Hf IH];
      intros Hfold.
    - exists (OInt n), (Integer n). split; [|split; [reflexivity|split; [reflexivity|left; eexists; reflexivity]]].
      intros h. cbn [ast Integer Tr atom_value]. destruct (n <? 0)%Z; cbn; rewrite ?Z.opp_involutive; reflexivity.
    - exists (OExpr (Symbol s)), (Symbol s). split; [|split; [reflexivity|split; [reflexivity|right; eexists; reflexivity]]].
      intros h. cbn [ast Symbol Tr atom_value eval_python]. rewrite Hn. reflexivity.
    - destruct (rebuild_nary OpAdd Add args) as (e & A & B); auto.
      { eapply no_folding_args; eassumption. } { eapply Hfold; [apply reach_refl|auto]. }
      exists (OExpr e), e. split; [|split; [exact B|split; [reflexivity|right; eexists; reflexivity]]].
      intros h. cbn [ast]. rewrite tree_eqb_refl. apply A.
    - destruct (rebuild_nary OpMul Mul args) as (e & A & B); auto.
      { eapply no_folding_args; eassumption. } { eapply Hfold; [apply reach_refl|auto]. }
      exists (OExpr e), e. split; [|split; [exact B|split; [reflexivity|right; eexists; reflexivity]]].
      intros h. cbn [ast]. change (tree_eqb Mul Add) with false. rewrite tree_eqb_refl. apply A.
    - destruct (IHb (no_folding_arg Pow [b; e] b Hfold (or_introl eq_refl))) as (o & e1 & A & B & C & D).
      destruct (IHe (no_folding_arg Pow [b; e] e Hfold (or_intror (or_introl eq_refl)))) as (o2 & e2 & A2 & B2 & C2 & D2).
      exists (OExpr (call2 Pow e1 e2)), (call2 Pow e1 e2). split; [|split; [|split; [reflexivity|right; eexists; reflexivity]]].
      + intros h. cbn [ast map]. change (tree_eqb Pow Add) with false. change (tree_eqb Pow Mul) with false. rewrite tree_eqb_refl.
        rewrite (bin_eval OpPow _ _ o o2 h (A h) (A2 h)). rewrite (binop_expr OpPow o o2 e1 e2 h); [reflexivity| |exact C|exact C2].
        destruct (Hfold Pow [b; e] (reach_refl _) (or_intror (or_intror eq_refl))) as (x & [<-|[<-|[]]] & Hx);
          [destruct D as [D|D]; [contradiction|auto]|destruct D2 as [D2|D2]; [contradiction|auto]].
      + cbn [meaning mapM]. rewrite B, B2. reflexivity.
    - apply (no_folding_args _ _ Hfold) in IH.
      assert (K : exists l es, (forall h, hmapM eval (map ast args) h = (Ok l, h)) /\ Forall2 (fun o e => expression_of o = Some e) l es /\
                  mapM (meaning bin_leaf bin_op) args = Ok es).
      { clear - IH. induction IH as [|t args (o & e & A & B & C & _) _ (l & es & L & F & M)].
        - exists [], []. split; [reflexivity|]. split; [constructor|reflexivity].
        - exists (o :: l), (e :: es). split; [|split; [constructor; assumption|cbn [mapM]; rewrite B, M; reflexivity]].
          intros h. cbn [map hmapM]. unfold hbind. rewrite A, L. reflexivity. }
      destruct K as (l & es & L & F & M). exists (OExpr (tree_call (Function s) es)), (tree_call (Function s) es).
      split; [|split; [|split; [reflexivity|right; eexists; reflexivity]]].
      + intros h. rewrite ast_call by assumption. cbn [eval_python]. unfold hbind at 1. rewrite Hn. cbn [hret].
        unfold hbind at 1. rewrite L. cbn [eval_call]. unfold hbind, hlift, expr_call. rewrite (operands_back l es F). reflexivity.
      + cbn [meaning]. rewrite M. cbn [bind]. unfold bin_op, Add, Mul. rewrite !function_neq by assumption. reflexivity.
  Qed.
End NS.
