(** * C108: a formula written in Python means what it says *)
From Coq Require Import SpecFloat Reals Lra.
From Verif Require Import Py ModelTree SpecTree ProofBase ModelEval SpecEval ModelDiff ModelCas ModelMatrix ModelLLVM ModelApi SpecMatrix SpecLLVM SpecLambdify SpecApi
  SpecReal ProofReal SpecCas SpecExact SpecError SpecBound ProofBound PropsReal PropsApi PropsBound SpecPyText ProofPyText ProofPyEval PropsPyText PropsMatrix PropsExact SpecFormula Samples.
Local Open Scope string_scope.

Section Induction.
  Context (P : pyexpr -> Prop) (Hn : forall s, P (PyName s)) (Hi : forall n, P (PyInt n)) (Hm : forall a, P a -> P (PyNeg a))
    (Hb : forall op a b, P a -> P b -> P (PyBin op a b)) (Hc : forall f args, P f -> Forall P args -> P (PyCall f args)).
  Fixpoint pyexpr_all (p : pyexpr) : P p :=
    match p with
    | PyName s => Hn s
    | PyInt n => Hi n
    | PyNeg a => Hm a (pyexpr_all a)
    | PyBin op a b => Hb op a b (pyexpr_all a) (pyexpr_all b)
    | PyCall f args => Hc f args (pyexpr_all f)
        ((fix go l : Forall P l := match l with [] => Forall_nil P | a :: r => Forall_cons a (pyexpr_all a) (go r) end) args)
    end.
End Induction.


Lemma reval_two_eq env h a b : reval env (Node [h; a; b]) = match reval env a, reval env b with Some u, Some v => rop h [u; v] | _, _ => None end.
Proof. cbn [reval all_defined]. destruct (reval env a); [|reflexivity]. destruct (reval env b); reflexivity. Qed.
Lemma reval_combined env op a b : reval env (combined op a b) =
  match reval env a, reval env b with Some u, Some v => arithmetic op u v | _, _ => None end.
Proof.
  destruct op; cbn [combined]; rewrite !reval_two_eq; change (reval env (Integer (-1))) with (Some (-1)%R);
    (destruct (reval env a) as [u|]; [|reflexivity]); (destruct (reval env b) as [v|]; [|reflexivity]); cbn [arithmetic].
  - change (Some (u + (v + 0)) = Some (u + v))%R. f_equal. ring.
  - change (Some (u + ((-1 * (v * 1)) + 0)) = Some (u - v))%R. f_equal. ring.
  - change (Some (u * (v * 1)) = Some (u * v))%R. f_equal. ring.
  - change (rop Pow [v; (-1)%R]) with (rpow v (-1)). rewrite rpow_m1. destruct (Req_EM_T v 0); [reflexivity|].
    change (Some (u * (/ v * 1)) = Some (u / v))%R. f_equal. unfold Rdiv. ring.
  - reflexivity.
Qed.
Lemma int_arithmetic_ok op m n : (forall c, int_binop op m n = Ok (OInt c) <-> int_arithmetic op m n = Some c) /\
  (forall o, int_binop op m n = Ok o -> o = OOther \/ exists c, o = OInt c).
Proof.
  destruct op; cbn [int_binop int_arithmetic]; try (split; [intros c; split; intros H; injection H as <-; reflexivity|intros o H; injection H as <-; eauto]).
  - split; [|intros o; destruct (n =? 0)%Z; [discriminate|]; intros H; injection H as <-; eauto].
    intros c. destruct (n =? 0)%Z; split; discriminate.
  - destruct (n <? 0)%Z; [destruct (m =? 0)%Z|]; (split; [intros c; split; intros H; try discriminate H; try (injection H as <-; reflexivity)|intros o H; try discriminate H; injection H as <-; eauto]).
Qed.
Lemma int_arithmetic_value op m n c : int_arithmetic op m n = Some c -> arithmetic op (IZR m) (IZR n) = Some (IZR c).
Proof.
  intros E. pose proof (proj2 (proj1 (int_arithmetic_ok op m n) c) E) as H. destruct op; cbn [int_arithmetic] in E; try discriminate E.
  - injection E as <-. cbn. rewrite plus_IZR. reflexivity.
  - injection E as <-. cbn. rewrite minus_IZR. reflexivity.
  - injection E as <-. cbn. rewrite mult_IZR. reflexivity.
  - cbn [arithmetic]. destruct (n <? 0)%Z eqn:En; [discriminate|]. apply Z.ltb_ge in En.
    rewrite rpow_int by (right; exact En). f_equal. rewrite (int_binop_value OpPow m n c (powerRZ (IZR m) n) H); [reflexivity|].
    cbn [op_value]. apply rpow_int. right. exact En.
Qed.

Section NS.
  Context (ns : string -> option obj).
  Notation eval := (eval_python ns).
  Notation value := (formula_value ns).

  (** What an evaluation of [p] can give. *)
  Definition outcome (p : pyexpr) : Prop := forall h o h', eval p h = (Ok o, h') -> h' = h /\ ~ is_matrix o /\
    (forall t, o = OExpr t -> (exists s, p = PyName s) \/ exists l, t = Node l) /\ forall e, expression_of o = Some e -> well_formed ns p /\ (forall env, reval env e = value env p) /\
      ((mentions ns p = true /\ o = OExpr e) \/ (exists n, mentions ns p = false /\ int_of o = Some n /\ number ns p = Some n)).

  Lemma int_expression o n : int_of o = Some n -> expression_of o = Some (Integer n).
  Proof. destruct o as [t|m|z0|[|]|]; intros H; try discriminate H; injection H as <-; reflexivity. Qed.

  Lemma outcome_args args : Forall outcome args -> forall h l h', hmapM eval args h = (Ok l, h') -> h' = h /\
    forall es, Forall2 (fun o e => expression_of o = Some e) l es ->
      Forall (well_formed ns) args /\ forall env, all_defined (reval env) es = all_defined (value env) args.
  Proof.
    induction 1 as [|p args Hp _ IH]; intros h l h' E; cbn [hmapM] in E.
    - injection E as <- <-. split; [reflexivity|]. intros es F. inversion F. split; [constructor|reflexivity].
    - unfold hbind in E. destruct (eval p h) as [[o|] h1] eqn:E1; [|discriminate]. destruct (Hp _ _ _ E1) as (-> & _ & _ & V).
      destruct (hmapM eval args h) as [[l'|] h2] eqn:E2; [|discriminate]. injection E as <- <-. destruct (IH _ _ _ E2) as [-> W].
      split; [reflexivity|]. intros es F. inversion F as [|? e ? es' He F']; subst. destruct (V e He) as (Wp & Vp & _). destruct (W es' F') as [Wr Vr].
      split; [constructor; assumption|]. intros env. cbn [all_defined]. rewrite Vp, Vr. reflexivity.
  Qed.
  Lemma all_outcomes (Hns : no_matrices ns) p : outcome p.
  Proof.
    induction p as [s|n|a IH|op a b IHa IHb|f args IHf IHargs] using pyexpr_all; intros h o h' E; cbn [eval_python] in E.
    - destruct (ns s) as [o0|] eqn:En; [|discriminate]. injection E as <- <-. split; [reflexivity|]. split; [intros [m Em]; subst o0; exact (Hns s m En)|]. split; [eauto|].
      intros e He. split; [apply (wf_name ns s o0 En); destruct o0 as [t|m|z0|c|]; try discriminate He; cbn; eauto|].
      cbn [formula_value mentions number]. rewrite En. destruct o0 as [t|m|z0|[|]|]; try discriminate He; injection He as <-; (split; [reflexivity|]);
        try (left; split; reflexivity); right; eexists; repeat split; reflexivity.
    - injection E as <- <-. split; [reflexivity|]. split; [apply not_matrix_int|]. split; [discriminate|]. intros e He. injection He as <-. split; [constructor|]. split; [reflexivity|].
      right. exists n. cbn. auto.
    - unfold hbind in E. destruct (eval a h) as [[oa|] h1] eqn:E1; [|discriminate]. destruct (IH _ _ _ E1) as (-> & Ma & _ & Va).
      destruct oa as [t|m|z0|c|]; cbn [eval_neg] in E; try discriminate E; injection E as <- <-;
        (split; [reflexivity|]); (split; [intros [m' Em]; discriminate|]); (split; [intros t' Et; try discriminate Et; right; injection Et as <-; eexists; reflexivity|]); intros e He; try discriminate He; injection He as <-;
        destruct (Va _ eq_refl) as (W & V & K); (split; [constructor; exact W|]); cbn [formula_value mentions number].
      + split.
        * intros env. rewrite <- V. unfold expr_neg. rewrite reval_mul. change (reval env negone) with (Some (-1)%R). destruct (reval env t); [f_equal; ring|reflexivity].
        * left. destruct K as [[K _]|(n & _ & K & _)]; [split; [exact K|reflexivity]|discriminate].
      + split.
        * intros env. rewrite <- V. change (Some (IZR (- z0)) = Some (- IZR z0)%R). rewrite opp_IZR. reflexivity.
        * right. destruct K as [[_ K]|(n & K1 & K2 & K3)]; [discriminate|]. cbn in K2. injection K2 as <-. rewrite K3. exists (- z0)%Z. auto.
      + split.
        * intros env. rewrite <- V. destruct c; cbn [expression_of]; [change (Some (-1) = Some (- 1))%R|change (Some (0) = Some (- 0))%R]; f_equal; ring.
        * right. destruct K as [[_ K]|(n & K1 & K2 & K3)]; [discriminate|]. cbn in K2. injection K2 as <-. rewrite K3. eexists. split; [exact K1|]. split; [reflexivity|]. destruct c; reflexivity.
    - unfold hbind in E. destruct (eval a h) as [[l|] h1] eqn:E1; [|discriminate]. destruct (IHa _ _ _ E1) as (-> & Ma & _ & Va).
      destruct (eval b h) as [[r|] h2] eqn:E2; [|discriminate]. destruct (IHb _ _ _ E2) as (-> & Mb & _ & Vb).
      destruct (binop_result op l r h o h' Ma Mb E) as (-> & Mo & Vo). split; [reflexivity|]. split; [exact Mo|].
      assert (D0 : forall e, expression_of o = Some e -> well_formed ns (PyBin op a b) /\ (forall env, reval env e = value env (PyBin op a b)) /\
        ((mentions ns (PyBin op a b) = true /\ o = OExpr e) /\ (exists l0, e = Node l0) \/ (exists n, mentions ns (PyBin op a b) = false /\ int_of o = Some n /\ number ns (PyBin op a b) = Some n))).
      { intros e He.
      destruct (Vo e He) as (ta & tb & Ha & Hb & K). destruct (Va ta Ha) as (Wa & Ra & Ka). destruct (Vb tb Hb) as (Wb & Rb & Kb).
      cbn [formula_value mentions].
      assert (D : (mentions ns a = true \/ mentions ns b = true) /\ o = OExpr (combined op ta tb) \/
        exists m n c, mentions ns a = false /\ mentions ns b = false /\ number ns a = Some m /\ number ns b = Some n /\ ta = Integer m /\ tb = Integer n /\
          int_arithmetic op m n = Some c /\ o = OInt c).
      { destruct Ka as [[Ka ->]|(m & Ka & Ia & Na)]; [|destruct Kb as [[Kb ->]|(n & Kb & Ib & Nb)]].
        - left. split; [auto|]. unfold eval_binop in E. cbn [ours orb] in E.
          rewrite (C66_expressions op (OExpr ta) r ta tb h) in E; [injection E as <-; reflexivity|left; eexists; reflexivity|reflexivity|exact Hb].
        - left. split; [auto|]. unfold eval_binop in E. replace (ours l || ours (OExpr tb)) with true in E by (symmetry; apply Bool.orb_true_r).
          rewrite (C66_expressions op l (OExpr tb) ta tb h) in E; [injection E as <-; reflexivity|right; eexists; reflexivity|exact Ha|reflexivity].
        - right. rewrite (int_expression l m Ia) in Ha. injection Ha as <-. rewrite (int_expression r n Ib) in Hb. injection Hb as <-.
          unfold eval_binop in E. replace (ours l || ours r) with false in E by (destruct l, r; try discriminate Ia; try discriminate Ib; reflexivity).
          rewrite Ia, Ib in E. unfold hlift in E. injection E as E. destruct (proj2 (int_arithmetic_ok op m n) o E) as [->|[c ->]]; [discriminate|].
          exists m, n, c. pose proof (proj1 (proj1 (int_arithmetic_ok op m n) c) E). auto 10. }
      destruct D as [[D ->]|(m & n & c & D1 & D2 & N1 & N2 & -> & -> & D & ->)]; injection He as <-.
      + split; [apply wf_bin; tauto|]. split; [intros env; rewrite reval_combined, Ra, Rb; reflexivity|]. left. split; [split; [|reflexivity]; destruct D as [->| ->]; [reflexivity|apply Bool.orb_true_r]|].
        destruct op; eexists; reflexivity.
      + split; [apply wf_bin; [exact Wa|exact Wb|]; right; right; cbn [number]; rewrite N1, N2, D; discriminate|]. split.
        * intros env. rewrite <- Ra, <- Rb. change (Some (IZR c) = arithmetic op (IZR m) (IZR n)). symmetry. apply int_arithmetic_value, D.
        * right. exists c. rewrite D1, D2. split; [reflexivity|]. split; [reflexivity|]. cbn [number]. rewrite N1, N2. exact D. }
      split.
      + intros t ->. destruct (D0 t eq_refl) as (_ & _ & [[_ K]|(n & _ & K & _)]); [right; exact K|discriminate].
      + intros e He. destruct (D0 e He) as (A & B & [[K _]|K]); auto.
    - unfold hbind in E. destruct (eval f h) as [[o0|] h1] eqn:E1; [|discriminate]. destruct (IHf _ _ _ E1) as (-> & _ & Sf & Vf).
      destruct (hmapM eval args h) as [[l|] h2] eqn:E2; [|discriminate]. destruct (outcome_args args IHargs _ _ _ E2) as [-> Vl].
      destruct o0 as [t|m|z0|c|]; cbn [eval_call] in E; try discriminate E. unfold hbind, hlift in E.
      unfold expr_call in E. destruct (mapM expressify (map as_operand l)) as [es|] eqn:Em; cbn [bind] in E; [|discriminate]. injection E as <- <-.
      split; [reflexivity|]. split; [apply not_matrix_expr|]. split; [intros t' Et; injection Et as <-; right; eexists; reflexivity|]. intros e He. injection He as <-. apply operands in Em.
      destruct (Vl es Em) as [Wl Rl]. destruct (Vf t eq_refl) as (Wf & Rf & Kf). destruct Kf as [[Kf _]|(n & _ & Kf & _)]; [|discriminate].
      split; [apply wf_call; assumption|]. split; [|left; split; reflexivity]. intros env.
      assert (G : reval env (tree_call t es) = match all_defined (value env) args with Some vs => rop t vs | None => None end)
        by (rewrite <- Rl; reflexivity).
      rewrite G. destruct f as [s|n|a|op a b|g l']; cbn [formula_value].
      + cbn [eval_python] in E1. destruct (ns s) as [o0|]; [|discriminate]. injection E1 as ->. reflexivity.
      + destruct (Sf t eq_refl) as [[s0 K]|[l0 ->]]; [discriminate|]. destruct (all_defined (value env) args); reflexivity.
      + destruct (Sf t eq_refl) as [[s0 K]|[l0 ->]]; [discriminate|]. destruct (all_defined (value env) args); reflexivity.
      + destruct (Sf t eq_refl) as [[s0 K]|[l0 ->]]; [discriminate|]. destruct (all_defined (value env) args); reflexivity.
      + destruct (Sf t eq_refl) as [[s0 K]|[l0 ->]]; [discriminate|]. destruct (all_defined (value env) args); reflexivity.
  Qed.

  (** A well-formed formula is accepted. *)
  Definition accepted (p : pyexpr) : Prop := well_formed ns p -> forall h, exists o, eval p h = (Ok o, h) /\
    if mentions ns p then exists e, o = OExpr e else exists n, int_of o = Some n /\ number ns p = Some n.
  Lemma accepted_args args : Forall accepted args -> Forall (well_formed ns) args -> forall h, exists l, hmapM eval args h = (Ok l, h) /\
    exists es, Forall2 (fun o e => expression_of o = Some e) l es.
  Proof.
    induction 1 as [|p args Hp _ IH]; intros W h; inversion W; subst; [exists []; split; [reflexivity|]; exists []; constructor|].
    destruct (Hp ltac:(assumption) h) as (o & E & K). destruct (IH ltac:(assumption) h) as (l & El & es & F).
    exists (o :: l). cbn [hmapM]. unfold hbind. rewrite E, El. split; [reflexivity|].
    assert (X : exists e, expression_of o = Some e) by (destruct (mentions ns p); [destruct K as [e ->]; eexists; reflexivity|destruct K as (n & K & _); eexists; apply int_expression, K]).
    destruct X as [e He]. exists (e :: es). constructor; assumption.
  Qed.
  Lemma all_accepted p : accepted p.
  Proof.
    induction p as [s|n|a IH|op a b IHa IHb|f args IHf IHargs] using pyexpr_all; intros W h; inversion W; subst; cbn [eval_python].
    - destruct H1 as [[t ->]|[n Hn]].
      + rewrite H0. exists (OExpr t). split; [reflexivity|]. cbn [mentions]. rewrite H0. eauto.
      + rewrite H0. exists o. split; [reflexivity|]. cbn [mentions number]. rewrite H0. destruct o; try discriminate Hn; exists n; auto.
    - exists (OInt n). split; [reflexivity|]. exists n. auto.
    - destruct (IH ltac:(assumption) h) as (o & E & K). unfold hbind. rewrite E. cbn [mentions number]. destruct (mentions ns a).
      + destruct K as [e ->]. eexists. split; [reflexivity|]. eauto.
      + destruct K as (n & K & N). rewrite N. destruct o as [t|m|z0|c|]; try discriminate K; injection K as <-; eexists; (split; [reflexivity|]); eexists; (split; [reflexivity|]); [|destruct c]; reflexivity.
    - destruct (IHa ltac:(assumption) h) as (l & El & Kl). destruct (IHb ltac:(assumption) h) as (r & Er & Kr). unfold hbind. rewrite El, Er. unfold eval_binop. cbn [mentions].
      assert (Xl : exists e, expression_of l = Some e) by (destruct (mentions ns a); [destruct Kl as [e ->]; eexists; reflexivity|destruct Kl as (n & K & _); eexists; apply int_expression, K]).
      assert (Xr : exists e, expression_of r = Some e) by (destruct (mentions ns b); [destruct Kr as [e ->]; eexists; reflexivity|destruct Kr as (n & K & _); eexists; apply int_expression, K]).
      destruct Xl as [el Hel]. destruct Xr as [er Her].
      destruct (mentions ns a) eqn:Ma; [|destruct (mentions ns b) eqn:Mb].
      + destruct Kl as [t ->]. cbn [ours orb]. rewrite (C66_expressions op (OExpr t) r el er h); [|left; eexists; reflexivity|exact Hel|exact Her]. eexists. split; [reflexivity|]. eexists. reflexivity.
      + destruct Kr as [t ->]. replace (ours l || ours (OExpr t)) with true by (symmetry; apply Bool.orb_true_r).
        rewrite (C66_expressions op l (OExpr t) el er h); [|right; eexists; reflexivity|exact Hel|exact Her]. eexists. split; [reflexivity|]. eexists. reflexivity.
      + destruct Kl as (m & Il & Nl). destruct Kr as (n & Ir & Nr).
        replace (ours l || ours r) with false by (destruct l, r; try discriminate Il; try discriminate Ir; reflexivity). rewrite Il, Ir.
        match goal with H : false = true \/ false = true \/ _ |- _ => destruct H as [H|[H|H]]; try discriminate H end.
        cbn [number] in *. rewrite Nl, Nr in *. destruct (int_arithmetic op m n) as [c|] eqn:Ec; [|congruence].
        unfold hlift. rewrite (proj2 (proj1 (int_arithmetic_ok op m n) c) Ec). exists (OInt c). split; [reflexivity|]. exists c. auto.
    - destruct (IHf ltac:(assumption) h) as (o & E & K). replace (mentions ns f) with true in K. destruct K as [t ->].
      destruct (accepted_args args IHargs ltac:(assumption) h) as (l & El & es & F). unfold hbind. rewrite E, El. cbn [eval_call]. unfold hbind, hlift, expr_call.
      rewrite (operands_back l es F). cbn [bind]. eexists. split; [reflexivity|]. cbn [mentions]. eauto.
  Qed.
End NS.

(** The object that Python builds from the formula [p] has the value of the formula, for all values of the symbols. *)
Theorem C108_means_what_it_says ns p h o h' e : no_matrices ns -> eval_python ns p h = (Ok o, h') -> expression_of o = Some e ->
  h' = h /\ forall env, reval env e = formula_value ns env p.
Proof. intros Hns E He. destruct (all_outcomes ns Hns p h o h' E) as (-> & _ & _ & H). destruct (H e He) as (_ & V & _). auto. Qed.
(** It builds one exactly if the formula is well-formed: an expression if the formula mentions one, else an int. *)
Theorem C108_accepted ns p h : no_matrices ns ->
  ((exists o e h', eval_python ns p h = (Ok o, h') /\ expression_of o = Some e) <-> well_formed ns p) /\
  (well_formed ns p -> exists o, eval_python ns p h = (Ok o, h) /\
     if mentions ns p then exists e, o = OExpr e else exists n, int_of o = Some n /\ number ns p = Some n).
Proof.
  intros Hns. split; [split|].
  - intros (o & e & h' & E & He). destruct (all_outcomes ns Hns p h o h' E) as (_ & _ & _ & H). exact (proj1 (H e He)).
  - intros W. destruct (all_accepted ns p W h) as (o & E & K).
    assert (X : exists e, expression_of o = Some e) by (destruct (mentions ns p); [destruct K as [e ->]; eexists; reflexivity|destruct K as (n & K & _); eexists; apply int_expression, K]).
    destruct X as [e He]. eauto.
  - intros W. exact (all_accepted ns p W h).
Qed.
(** Its diff is the derivative of the formula. *)
Theorem C108_derivative ns p h e h' s d env v v' : no_matrices ns -> eval_python ns p h = (Ok (OExpr e), h') ->
  expr_diff e (Symbol s) 1 = Ok d -> formula_value ns env p = Some v -> reval env d = Some v' ->
  derivative_at (fun u => formula_value ns (upd env s u) p) (env s) v'.
Proof.
  intros Hns E Hd Hv Hv'. destruct (C108_means_what_it_says ns p h _ h' e Hns E eq_refl) as [_ V].
  destruct (C24_diff_is_the_derivative env e s d v v' Hd ltac:(rewrite V; exact Hv) Hv') as (G & delta & Hp & Hn & Hl).
  exists G, delta. split; [exact Hp|]. split; [|exact Hl]. intros w Hw. rewrite <- V. apply Hn, Hw.
Qed.

(** From a formula to numbers: [e] is what Python makes of [p], the syntax tree of the formula's text. *)
Local Open Scope R_scope.
Section Platform.
  Context (mc : machine) {code : Type} (load : string -> res code)
    (call_f64 : code -> list spec_float -> spec_float) (call_fill : code -> nat -> list spec_float -> list spec_float).
  Context (Hplatform : faithful mc load call_f64 call_fill) (Hadd : ieee_add mc) (Hmul : ieee_mul mc) (acc : accuracy) (Hacc : accurate_machine acc mc).
  Notation call := (call_compiled call_f64 call_fill).
  Theorem C108_compiled ns p h e h' names vals env f h'' v r d : no_matrices ns -> eval_python ns p h = (Ok (OExpr e), h') ->
    good_names (map Symbol names) -> length vals = length names -> Forall is_double vals -> Forall2 (fun n v => env n = double_value v) names vals ->
    lambdify load (map OExpr (map Symbol names)) (OExpr e) h' = (Ok f, h'') -> exponents_fit e -> bases_finite (machine_value mc (map Symbol names) vals) e ->
    call f vals = Ok (FFloat v) -> finite v -> code_estimate acc names (map double_value vals) e = Some (r, d) ->
    formula_value ns env p = Some r /\ Rabs (double_value v - r) <= d.
  Proof.
    intros Hns E Hg Hl Hd Henv Hf Hx Hb Hc F He. destruct (C108_means_what_it_says ns p h _ h' e Hns E eq_refl) as [_ V].
    split; [|eapply C92_lambdify_error; eassumption]. rewrite <- V. apply (C92_exact_value acc names (map double_value vals) env e (r, d)); [|left; exact He].
    clear - Henv. induction Henv; constructor; assumption.
  Qed.
  (** The same for the compiled derivative. *)
  Theorem C108_compiled_derivative ns p h e h' s dd names vals env f h'' v l b : no_matrices ns -> eval_python ns p h = (Ok (OExpr e), h') ->
    good_names (map Symbol names) -> length vals = length names -> Forall is_double vals -> Forall2 (fun n v => env n = double_value v) names vals ->
    formula_value ns env p <> None -> expr_diff e (Symbol s) 1 = Ok dd ->
    lambdify load (map OExpr (map Symbol names)) (OExpr dd) h' = (Ok f, h'') -> exponents_fit dd -> bases_finite (machine_value mc (map Symbol names) vals) dd ->
    call f vals = Ok (FFloat v) -> finite v -> code_estimate acc names (map double_value vals) dd = Some (l, b) ->
    derivative_at (fun u => formula_value ns (upd env s u) p) (env s) l /\ Rabs (double_value v - l) <= b.
  Proof.
    intros Hns E Hg Hl Hd Henv Hv Hdiff Hf Hx Hb Hc F He. split; [|eapply C92_lambdify_error; eassumption].
    destruct (formula_value ns env p) as [w|] eqn:Ew; [|congruence]. eapply C108_derivative; [exact Hns|exact E|exact Hdiff|exact Ew|].
    apply (C92_exact_value acc names (map double_value vals) env dd (l, b)); [|left; exact He].
    clear - Henv. induction Henv; constructor; assumption.
  Qed.
End Platform.

(** sin(x) + x**-2 at 2, with the platform of C92 and the doubles of its case; and what x/2 - 1 and x + 1/2 give. *)
Definition p_wave := PyBin OpAdd (PyCall (PyName "sin") [PyName "x"]) (PyBin OpPow (PyName "x") (PyNeg (PyInt 2))).
Example C108_case : no_matrices all_symbols /\ reads_as "sin(x) + x**-2" p_wave /\ well_formed all_symbols p_wave /\
  (forall h, eval_python all_symbols p_wave h = (Ok (OExpr e_wave), h)) /\
  formula_value all_symbols (fun _ => 2) p_wave <> None /\ expr_diff e_wave x 1 = Ok d_wave /\
  Forall2 (fun n v => (fun _ : string => 2) n = double_value v) ["x"] [v_two] /\ reval (fun _ => 2) d_wave <> None /\
  (let p := PyBin OpSub (PyBin OpDiv (PyName "x") (PyInt 2)) (PyBin OpSub (PyInt 3) (PyInt 2)) in reads_as "x/2 - (3 - 2)" p /\
     forall h, eval_python all_symbols p h = (Ok (OExpr (m_sub (m_truediv x (int 2)) (int 1))), h)) /\
  (let p := PyBin OpMul (PyName "x") (PyBin OpDiv (PyInt 1) (PyInt 2)) in reads_as "x*(1/2)" p /\ ~ well_formed all_symbols p /\
     forall h, eval_python all_symbols p h = (Err TypeError, h)).
Proof.
  assert (Hns : no_matrices all_symbols) by (intros s m; unfold all_symbols; destruct (existsb _ _); discriminate).
  assert (E : forall h, eval_python all_symbols p_wave h = (Ok (OExpr e_wave), h)) by (intros h; vm_compute; reflexivity).
  destruct C92_case as (_ & _ & _ & _ & _ & _ & _ & _ & _ & _ & Hv & He & Hd & _ & _ & _ & (d & d' & Hc & _) & _).
  split; [exact Hns|]. split; [exists 9%nat; intros fuel Hf; do 9 (destruct fuel as [|fuel]; [lia|]); reflexivity|].
  split; [apply (proj1 (proj1 (C108_accepted all_symbols p_wave heap_ab Hns))); eexists _, _, _; split; [apply E|reflexivity]|].
  split; [exact E|]. split; [rewrite <- (proj2 (C108_means_what_it_says all_symbols p_wave heap_ab _ _ e_wave Hns (E heap_ab) eq_refl)); exact He|].
  split; [exact Hd|]. split; [constructor; [symmetry; exact Hv|constructor]|].
  split; [rewrite (C92_exact_value acc_round ["x"] [2] (fun _ => 2) d_wave _ ltac:(constructor; [reflexivity|constructor]) (or_introl Hc)); discriminate|].
  split; [split; [exists 9%nat; intros fuel Hf; do 9 (destruct fuel as [|fuel]; [lia|]); reflexivity|intros h; vm_compute; reflexivity]|].
  split; [exists 9%nat; intros fuel Hf; do 9 (destruct fuel as [|fuel]; [lia|]); reflexivity|]. split; [|intros h; vm_compute; reflexivity].
  intros W. inversion W as [| | |op a b _ Wb _|]; subst. inversion Wb as [| | |op' a' b' _ _ K|]; subst. destruct K as [K|[K|K]]; [discriminate K|discriminate K|apply K; reflexivity].
Qed.
Print Assumptions C108_means_what_it_says.
Print Assumptions C108_accepted.
Print Assumptions C108_derivative.
Print Assumptions C108_compiled.
Print Assumptions C108_compiled_derivative.
