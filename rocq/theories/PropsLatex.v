(** * LaTeX text identifies the expression: C78. *)
From Verif Require Import Py ModelTree SpecTree ProofBase ModelEval SpecEval ProofEval ModelDiff ModelSym ModelCas SpecPrint ProofPrint SpecLatex Samples.
Local Open Scope string_scope.

Definition ltx (t : tree) : string := match latex t with Ok s => s | Err _ => "" end.
Lemma mapM_ltx args : Forall (fun t => latex t = Ok (ltx t)) args -> mapM latex args = Ok (map ltx args).
Proof. induction 1 as [|a l H _ IH]; [reflexivity|]. cbn [mapM map]. rewrite H, IH. reflexivity. Qed.
Lemma latex_call s args : ~ In s ["Add"; "Mul"; "pow"; "sin"; "cos"] -> Forall (fun t => latex t = Ok (ltx t)) args ->
  latex (Node (Function s :: args)) = Ok (s ++ "(" ++ join ", " (map ltx args) ++ ")").
Proof.
  intros Hn H. cbn [latex]. rewrite (mapM_ltx _ H). cbn [bind]. unfold Add, Mul, Pow, sin, cos.
  rewrite !function_neq by (intros ->; apply Hn; simpl; tauto). reflexivity.
Qed.
Lemma latexable_ok t : latexable t -> latex t = Ok (ltx t).
Proof.
  induction t as [a|cs IH] using tree_ind_all; intros H; [inversion H; subst; reflexivity|].
  assert (K : forall args, (forall a, In a args -> In a cs) -> Forall latexable args -> Forall (fun t => latex t = Ok (ltx t)) args)
    by (intros args Hi Hp; eapply Forall_impl_in; [|exact Hp]; intros a Ha Hpa; apply IH; auto).
  inversion H; subst.
  1,2: unfold ltx; cbn [latex]; rewrite (mapM_ltx args) by (apply K; auto; intros; right; auto); reflexivity.
  - unfold ltx. cbn [latex mapM]. rewrite (IH b), (IH e) by (simpl; auto). reflexivity.
  - unfold ltx. cbn [latex mapM]. rewrite (IH a) by (simpl; auto). reflexivity.
  - unfold ltx. cbn [latex mapM]. rewrite (IH a) by (simpl; auto). reflexivity.
  - unfold ltx at 1. rewrite latex_call by (auto; apply K; auto; intros; right; auto). reflexivity.
Qed.
Lemma latexable_all args : Forall latexable args -> Forall (fun t => latex t = Ok (ltx t)) args.
Proof. apply Forall_impl. apply latexable_ok. Qed.
Lemma ltx_int n : ltx (Integer n) = str_int n. Proof. reflexivity. Qed.
Lemma ltx_sym s : ltx (Symbol s) = s. Proof. reflexivity. Qed.
Lemma ltx_add args : Forall latexable args -> ltx (Node (Add :: args)) = "(" ++ join " + " (map ltx args) ++ ")".
Proof. intros H. unfold ltx at 1. cbn [latex]. rewrite mapM_ltx by (apply latexable_all, H). reflexivity. Qed.
Lemma ltx_mul args : Forall latexable args -> ltx (Node (Mul :: args)) = "(" ++ join " \times " (map ltx args) ++ ")".
Proof. intros H. unfold ltx at 1. cbn [latex]. rewrite mapM_ltx by (apply latexable_all, H). reflexivity. Qed.
Lemma ltx_pow b e : latexable b -> latexable e -> ltx (Node [Pow; b; e]) = ltx b ++ "^{" ++ ltx e ++ "}".
Proof. intros Hb He. unfold ltx at 1. cbn [latex mapM]. rewrite !latexable_ok by assumption. reflexivity. Qed.
Lemma ltx_sin a : latexable a -> ltx (Node [sin; a]) = "\sin(" ++ join ", " (map ltx [a]) ++ ")".
Proof. intros Ha. unfold ltx at 1. cbn [latex mapM]. rewrite !latexable_ok by assumption. reflexivity. Qed.
Lemma ltx_cos a : latexable a -> ltx (Node [cos; a]) = "\cos(" ++ join ", " (map ltx [a]) ++ ")".
Proof. intros Ha. unfold ltx at 1. cbn [latex mapM]. rewrite !latexable_ok by assumption. reflexivity. Qed.
Lemma ltx_call s args : ~ In s ["Add"; "Mul"; "pow"; "sin"; "cos"] -> Forall latexable args ->
  ltx (Node (Function s :: args)) = s ++ "(" ++ join ", " (map ltx args) ++ ")".
Proof. intros Hn H. unfold ltx at 1. rewrite latex_call by (auto; apply latexable_all, H). reflexivity. Qed.

Definition lstarts (c : ascii) : bool := starts c || Ascii.eqb c "\".
Lemma ltx_head t : latexable t -> head_is lstarts (ltx t) = true.
Proof.
  intros H. induction H as [n|s Hs|args Hl Hf|args Hl Hf|b e Hb IHb He IHe|a Ha IH|a Ha IH|s args Hs Hn Hf].
  - rewrite ltx_int. eapply head_imp; [|apply int_head]. intros c Hc. unfold lstarts, starts, alnum.
    apply orb_prop in Hc as [->| ->]; rewrite ?orb_true_r; reflexivity.
  - rewrite ltx_sym. eapply head_imp; [|apply identifier_head, Hs]. intros c Hc. unfold lstarts, starts, alnum. rewrite Hc. reflexivity.
  - rewrite ltx_add by exact Hf. reflexivity.
  - rewrite ltx_mul by exact Hf. reflexivity.
  - rewrite ltx_pow by assumption. apply head_app, IHb.
  - rewrite ltx_sin by assumption. reflexivity.
  - rewrite ltx_cos by assumption. reflexivity.
  - rewrite ltx_call by assumption. apply head_app. eapply head_imp; [|apply identifier_head, Hs].
    intros c Hc. unfold lstarts, starts, alnum. rewrite Hc. reflexivity.
Qed.

(** Continuations after which an expression has ended. *)
Definition lstop (r : string) : Prop := stop r /\ head_is (fun c => Ascii.eqb c "^") r = false.
Definition lsep (sep : string) : Prop := sep = " + " \/ sep = " \times " \/ sep = ", ".
Lemma lrest_stop sep l r : lsep sep -> lstop (rest sep l r).
Proof. intros [->|[->| ->]]; destruct l; split; reflexivity. Qed.
Lemma ljoin_head sep t l : latexable t -> head_is lstarts (join sep (map ltx (t :: l))) = true.
Proof.
  intros H. pose proof (ltx_head t H) as Hh. cbn [map]. destruct (map ltx l) as [|y m]; cbn [join]; [exact Hh|]. apply head_app, Hh.
Qed.

(** A power as its base and its exponents. *)
Definition is_pow (t : tree) : Prop := exists b e, t = Node [Pow; b; e].
Definition tower (b : tree) (es : list tree) : tree := fold_left (fun t e => Node [Pow; t; e]) es b.
Fixpoint supers (es : list tree) (r : string) : string :=
  match es with [] => r | e :: es => "^{" ++ ltx e ++ "}" ++ supers es r end.
Lemma tower_snoc b es e : tower b (es ++ [e])%list = Node [Pow; tower b es; e].
Proof. unfold tower. rewrite fold_left_app. reflexivity. Qed.
Lemma supers_app es es' r : supers (es ++ es')%list r = supers es (supers es' r).
Proof. induction es as [|e es IH]; cbn [supers app]; [reflexivity|]. rewrite IH. reflexivity. Qed.
Lemma tower_of t : latexable t -> exists b es, t = tower b es /\ latexable b /\ ~ is_pow b /\ Forall latexable es /\
  tree_size b <= tree_size t /\ Forall (fun e => tree_size e < tree_size t) es /\ forall r, ltx t ++ r = ltx b ++ supers es r.
Proof.
  intros H. assert (P : ~ is_pow t -> exists b es, t = tower b es /\ latexable b /\ ~ is_pow b /\ Forall latexable es /\
     tree_size b <= tree_size t /\ Forall (fun e => tree_size e < tree_size t) es /\ forall r, ltx t ++ r = ltx b ++ supers es r).
  { intros Hn. exists t, []. cbn. repeat split; auto. }
  induction H as [n|s Hs|args Hl Hf|args Hl Hf|b e Hb IHb He IHe|a Ha IH|a Ha IH|s args Hs Hn Hf].
  1-4,6-8: apply P; intros (b' & e' & E); try discriminate.
  - injection E as -> _. apply Hn. simpl. tauto.
  - clear P IHe.
    assert (X : exists b0 es, b = tower b0 es /\ latexable b0 /\ ~ is_pow b0 /\ Forall latexable es /\
       tree_size b0 <= tree_size b /\ Forall (fun e => tree_size e < tree_size b) es /\ forall r, ltx b ++ r = ltx b0 ++ supers es r).
    { apply IHb. intros Hn. exists b, []. cbn. repeat split; auto. }
    destruct X as (b0 & es & -> & H1 & H2 & H3 & H4 & H5 & H6). exists b0, (es ++ [e])%list.
    cbn [tree_size map list_sum fold_right]. rewrite tower_snoc. repeat split; auto.
    + apply Forall_app. auto.
    + lia.
    + apply Forall_app. split; [eapply Forall_impl; [|exact H5]; cbn; intros; lia|]. constructor; [lia|constructor].
    + intros r. rewrite ltx_pow, !app_assoc_s by assumption. rewrite H6, supers_app. reflexivity.
Qed.

Section Step.
  Variable n : nat.
  Definition lfull (k : nat) : Prop := forall t u r1 r2, tree_size t <= k -> latexable t -> latexable u ->
    lstop r1 -> lstop r2 -> ltx t ++ r1 = ltx u ++ r2 -> t = u /\ r1 = r2.
  Hypothesis B : lfull n.

  Lemma lrest_inj sep l l' r1 r2 : lsep sep -> Forall latexable l -> Forall latexable l' ->
    Forall (fun t => tree_size t <= n) l -> rest sep (map ltx l) r1 = rest sep (map ltx l') r2 -> l = l' /\ r1 = r2.
  Proof.
    intros Hs Hf. revert l'. induction Hf as [|t l Ht Hl IH]; intros l' Hf' Hsz E.
    - destruct l' as [|t' l']; cbn [map rest] in E; [injection E as E; auto|]. destruct Hs as [->|[->| ->]]; discriminate.
    - destruct l' as [|t' l']; cbn [map rest] in E; [destruct Hs as [->|[->| ->]]; discriminate|].
      apply app_inv_s in E. rewrite !join_cons in E.
      inversion Hf' as [|? ? Ht' Hl']; subst. inversion Hsz as [|? ? Hst Hsl]; subst.
      apply B in E; auto using lrest_stop. destruct E as [-> E]. destruct (IH l' Hl' Hsl E) as [-> ->]. auto.
  Qed.
  Lemma ljoin_inj sep l l' r1 r2 : lsep sep -> Forall latexable l -> Forall latexable l' ->
    Forall (fun t => tree_size t <= n) l -> join sep (map ltx l) ++ ")" ++ r1 = join sep (map ltx l') ++ ")" ++ r2 -> l = l' /\ r1 = r2.
  Proof.
    intros Hs Hf Hf' Hsz E. destruct l as [|t l], l' as [|t' l']; cbn [map] in E.
    - simpl in E. injection E as E. auto.
    - exfalso. inversion Hf' as [|? ? Ht' Hl']; subst. pose proof (ljoin_head sep t' l' Ht') as Hh. cbn [map] in Hh.
      destruct (join sep (ltx t' :: map ltx l')) as [|c s]; [discriminate|]. simpl in E. injection E as <- _. discriminate.
    - exfalso. inversion Hf as [|? ? Ht' Hl']; subst. pose proof (ljoin_head sep t l Ht') as Hh. cbn [map] in Hh.
      destruct (join sep (ltx t :: map ltx l)) as [|c s]; [discriminate|]. simpl in E. injection E as -> _. discriminate.
    - rewrite !join_cons in E. inversion Hf as [|? ? Ht Hl]; subst. inversion Hf' as [|? ? Ht' Hl']; subst. inversion Hsz as [|? ? Hst Hsl]; subst.
      apply B in E; auto using lrest_stop. destruct E as [-> E]. apply lrest_inj in E; auto. destruct E as [-> ->]. auto.
  Qed.
  Lemma ljoin_seps sep sep' l l' r1 r2 : lsep sep -> lsep sep' -> sep <> sep' -> length l >= 2 -> length l' >= 2 ->
    Forall latexable l -> Forall latexable l' -> Forall (fun t => tree_size t <= n) l ->
    join sep (map ltx l) ++ ")" ++ r1 = join sep' (map ltx l') ++ ")" ++ r2 -> False.
  Proof.
    intros Hs Hs' Hne Hl Hl' Hf Hf' Hsz E.
    destruct l as [|t [|t2 l]]; cbn [length] in Hl; try lia. destruct l' as [|u [|u2 l']]; cbn [length] in Hl'; try lia.
    cbn [map] in E. rewrite !join_cons in E.
    inversion Hf as [|? ? Ht Hfl]; subst. inversion Hf' as [|? ? Hu Hfl']; subst. inversion Hsz as [|? ? Hst Hsl]; subst.
    apply B in E; auto using lrest_stop. destruct E as [_ E]. cbn [rest] in E.
    destruct Hs as [->|[->| ->]], Hs' as [->|[->| ->]]; try congruence; discriminate.
  Qed.

  Lemma lprim t u r1 r2 : tree_size t <= S n -> latexable t -> latexable u -> ~ is_pow t -> ~ is_pow u ->
    stop r1 -> stop r2 -> ltx t ++ r1 = ltx u ++ r2 -> t = u /\ r1 = r2.
  Proof.
    intros Hsz Ht Hu Nt Nu S1 S2 E.
    assert (NI : forall m s x y, identifier s -> str_int m ++ x <> s ++ y).
    { intros m s x y Hs E'. pose proof (head_app _ _ x (int_head m)) as H1. rewrite E' in H1.
      pose proof (head_app _ _ y (identifier_head s Hs)) as H2. destruct (s ++ y) as [|c z]; [discriminate|]. simpl in H1, H2.
      unfold is_alpha, is_digit in *. destruct (Ascii.eqb_spec c "-") as [->|_]; [discriminate|].
      rewrite orb_false_r in H1. apply andb_prop in H1 as [A1 A2]. apply Nat.leb_le in A1, A2.
      apply orb_prop in H2 as [H2|H2]; [apply orb_prop in H2 as [H2|H2]; apply andb_prop in H2 as [A3 A4]; apply Nat.leb_le in A3, A4; lia|].
      apply Nat.eqb_eq in H2. lia. }
    assert (NP : forall m x y, str_int m ++ x <> "(" ++ y).
    { intros m x y E'. pose proof (head_app _ _ x (int_head m)) as H1. rewrite E' in H1. discriminate. }
    assert (NS : forall s x y, identifier s -> s ++ x <> "(" ++ y).
    { intros s x y Hs E'. pose proof (head_app _ _ x (identifier_head s Hs)) as H1. rewrite E' in H1. discriminate. }
    assert (NB : forall m x y, str_int m ++ x <> "\" ++ y).
    { intros m x y E'. pose proof (head_app _ _ x (int_head m)) as H1. rewrite E' in H1. discriminate. }
    assert (NC : forall s x y, identifier s -> s ++ x <> "\" ++ y).
    { intros s x y Hs E'. pose proof (head_app _ _ x (identifier_head s Hs)) as H1. rewrite E' in H1. discriminate. }
    destruct Ht as [m|s Hs|args Hl Hf|args Hl Hf|b e Hb He|a Ha|a Ha|s args Hs Hn Hf];
      destruct Hu as [m'|s' Hs'|args' Hl' Hf'|args' Hl' Hf'|b' e' Hb' He'|a' Ha'|a' Ha'|s' args' Hs' Hn' Hf'];
      try (exfalso; apply Nt; do 2 eexists; reflexivity); try (exfalso; apply Nu; do 2 eexists; reflexivity);
      rewrite ?ltx_int, ?ltx_sym, ?ltx_add, ?ltx_mul, ?ltx_sin, ?ltx_cos, ?ltx_call, ?app_assoc_s in E by assumption;
      change "\sin(" with ("\" ++ "sin(") in E; change "\cos(" with ("\" ++ "cos(") in E; rewrite ?app_assoc_s in E;
      try (exfalso; exact (NP _ _ _ E)); try (exfalso; exact (NI _ _ _ _ ltac:(eassumption) E));
      try (exfalso; exact (NS _ _ _ ltac:(eassumption) E)); try (exfalso; exact (NB _ _ _ E)); try (exfalso; exact (NC _ _ _ ltac:(eassumption) E)); symmetry in E;
      try (exfalso; exact (NP _ _ _ E)); try (exfalso; exact (NI _ _ _ _ ltac:(eassumption) E));
      try (exfalso; exact (NS _ _ _ ltac:(eassumption) E)); try (exfalso; exact (NB _ _ _ E)); try (exfalso; exact (NC _ _ _ ltac:(eassumption) E)); symmetry in E;
      try discriminate E.
    - destruct (str_int_form m) as (neg & d & E1 & Hd & Hne), (str_int_form m') as (neg' & d' & E1' & Hd' & Hne').
      assert (H : str_int m = str_int m' /\ r1 = r2); [|destruct H as [H ->]; apply str_int_inj in H; subst; auto].
      rewrite E1, E1' in *. rewrite !app_assoc_s in E. destruct neg, neg'; simpl in E.
      + injection E as E. apply (run_split is_digit) in E; auto using stop_digit. destruct E as [-> ->]. auto.
      + exfalso. destruct d' as [|c d']; [congruence|]. simpl in E. injection E as <- _. discriminate.
      + exfalso. destruct d as [|c d]; [congruence|]. simpl in E. injection E as -> _. discriminate.
      + apply (run_split is_digit) in E; auto using stop_digit.
    - apply (run_split alnum) in E; auto using stop_alnum, identifier_all. destruct E as [-> ->]. auto.
    - apply (run_split alnum) in E; auto using stop_alnum, identifier_all. destruct E as [_ E]. apply stop_par in E; tauto.
    - apply app_inv_s in E. apply ljoin_inj in E; unfold lsep; eauto using args_size. destruct E as [-> ->]. auto.
    - apply app_inv_s in E. apply ljoin_seps in E; unfold lsep; eauto using args_size; try discriminate. tauto.
    - apply app_inv_s in E. apply ljoin_seps in E; unfold lsep; eauto using args_size; try discriminate. tauto.
    - apply app_inv_s in E. apply ljoin_inj in E; unfold lsep; eauto using args_size. destruct E as [-> ->]. auto.
    - do 2 apply app_inv_s in E. apply ljoin_inj in E; unfold lsep; eauto using args_size. destruct E as [E ->]. injection E as ->. auto.
    - do 2 apply app_inv_s in E. apply ljoin_inj in E; unfold lsep; eauto using args_size. destruct E as [E ->]. injection E as ->. auto.
    - symmetry in E. apply (run_split alnum) in E; auto using stop_alnum, identifier_all. destruct E as [_ E]. apply stop_par in E; tauto.
    - apply (run_split alnum) in E; auto using stop_alnum, identifier_all. destruct E as [-> E].
      apply app_inv_s in E. apply ljoin_inj in E; unfold lsep; eauto using args_size. destruct E as [-> ->]. auto.
  Qed.

  Lemma supers_inj es es' r1 r2 : Forall latexable es -> Forall latexable es' -> Forall (fun t => tree_size t <= n) es ->
    lstop r1 -> lstop r2 -> supers es r1 = supers es' r2 -> es = es' /\ r1 = r2.
  Proof.
    intros Hf. revert es'. induction Hf as [|e es He _ IH]; intros es' Hf' Hsz S1 S2 E.
    - destruct es' as [|e' es']; [auto|]. cbn [supers] in E. subst r1. destruct S1 as [_ S1]. discriminate.
    - destruct es' as [|e' es']; [cbn [supers] in E; subst r2; destruct S2 as [_ S2]; discriminate|].
      cbn [supers] in E. apply app_inv_s in E. inversion Hf' as [|? ? He' Hf'']; subst. inversion Hsz as [|? ? Hs1 Hs2]; subst.
      apply B in E; auto; try (split; reflexivity). destruct E as [-> E]. apply app_inv_s in E. destruct (IH es' Hf'' Hs2 S1 S2 E) as [-> ->]. auto.
  Qed.
  Lemma lstep : lfull (S n).
  Proof.
    intros t u r1 r2 Hsz Ht Hu S1 S2 E.
    destruct (tower_of t Ht) as (b & es & -> & H1 & H2 & H3 & H4 & H5 & H6). destruct (tower_of u Hu) as (b' & es' & -> & H1' & H2' & H3' & _ & _ & H6').
    rewrite H6, H6' in E.
    assert (ST : forall es r, lstop r -> stop (supers es r)) by (intros [|e l] r [Hr _]; [exact Hr|reflexivity]).
    apply lprim in E; auto; [|lia]. destruct E as [-> E]. apply supers_inj in E; auto; [destruct E as [-> ->]; auto|].
    eapply Forall_impl; [|exact H5]. cbn. intros; lia.
  Qed.
End Step.
Lemma lfull_all n : lfull n.
Proof. induction n as [|n IH]; [intros t u r1 r2 H; pose proof (tree_size_pos t); lia|]. apply lstep, IH. Qed.

Theorem C78_latex_injective e1 e2 s : latexable e1 -> latexable e2 -> eval_latex e1 = Ok s -> eval_latex e2 = Ok s -> e1 = e2.
Proof.
  intros H1 H2 E1 E2. apply eval_latex_eq in E1, E2. rewrite latexable_ok in E1, E2 by assumption. injection E1 as E1. injection E2 as E2.
  destruct (lfull_all (tree_size e1) e1 e2 "" "" (le_n _) H1 H2) as [H _]; auto; try (split; reflexivity). rewrite !app_nil_s. congruence.
Qed.
Theorem C78_latexable_succeeds e : latexable e -> exists s, eval_latex e = Ok s.
Proof. intros H. exists (ltx e). apply eval_latex_eq, latexable_ok, H. Qed.
(** Outside that class texts coincide: Add(x) and Mul(x); Function("\sin")(x) and sin(x); Symbol("x^{y}") and x**y;
    Function("sin")() cannot be printed while Function("f")() can. *)
Theorem C78_latex_ambiguous_refuted :
  (tree_call Add [x] <> tree_call Mul [x] /\ eval_latex (tree_call Add [x]) = Ok "(x)" /\ eval_latex (tree_call Mul [x]) = Ok "(x)") /\
  (tree_call (Function "\sin") [x] <> tree_call sin [x] /\
   eval_latex (tree_call (Function "\sin") [x]) = Ok "\sin(x)" /\ eval_latex (tree_call sin [x]) = Ok "\sin(x)") /\
  (sym "x^{y}" <> m_pow x y /\ eval_latex (sym "x^{y}") = Ok "x^{y}" /\ eval_latex (m_pow x y) = Ok "x^{y}") /\
  eval_latex (m_pow (int (-1)) x) = Ok "-1^{x}".
Proof. repeat split; discriminate. Qed.
(** str(e) cannot tell [(x**y)**z] from [x**(y**z)] (C40); LaTeX can. *)
Example C78_case :
  latexable (m_pow (m_pow x y) z) /\ latexable (m_pow x (m_pow y z)) /\
  eval_latex (m_pow (m_pow x y) z) = Ok "x^{y}^{z}" /\ eval_latex (m_pow x (m_pow y z)) = Ok "x^{y^{z}}" /\
  latexable (m_mul (tree_call sin [m_add x (int (-2))]) (tree_call f [x; tree_call g []])) /\
  eval_latex (m_mul (tree_call sin [m_add x (int (-2))]) (tree_call f [x; tree_call g []])) = Ok "(\sin((x + -2)) \times f(x, g()))".
Proof.
  assert (Hs : forall s, identifier s -> latexable (sym s)) by (intros; constructor; assumption).
  repeat split; try reflexivity.
  - repeat constructor.
  - repeat constructor.
  - apply lx_mul; [simpl; lia|]. constructor; [|constructor; [|constructor]].
    + apply lx_sin, lx_add; [simpl; lia|]. repeat constructor.
    + apply (lx_call "f"); [repeat constructor|simpl; intuition discriminate|]. constructor; [apply Hs; repeat constructor|]. constructor; [|constructor].
      apply (lx_call "g"); [repeat constructor|simpl; intuition discriminate|constructor].
Qed.
Print Assumptions C78_latex_injective.
Print Assumptions C78_latexable_succeeds.
Print Assumptions C78_latex_ambiguous_refuted.
