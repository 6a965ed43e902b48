(** * Recursion limits: C79. *)
From Verif Require Import Py ModelTree SpecTree ProofBase ModelEval SpecEval ProofEval ModelSym ModelCas ModelRepr SpecPrint ProofPrint ModelSympy SpecSympy ProofSympy ModelDepth SpecDepth Samples.
Local Open Scope string_scope.

Lemma list_max_ge l n : In n l -> n <= list_max l.
Proof. induction l as [|a l IH]; [intros []|]. intros [->|H]; cbn [list_max fold_right]; [apply Nat.le_max_l|]. specialize (IH H). fold (list_max l). lia. Qed.
(** [mapL] over arguments for which the limit matters. *)
Section Map.
  Context {A B : Type} (f : nat -> A -> limited B) (g : A -> res B) (d : A -> nat).
  Lemma mapL_enough n l : (forall a, In a l -> f n a = Some (g a)) -> mapL (f n) l = Some (mapM g l).
  Proof.
    induction l as [|a l IH]; intros H; [reflexivity|]. cbn [mapL mapM]. rewrite (H a (or_introl eq_refl)), IH by (intros b Hb; apply H; right; exact Hb).
    destruct (g a) as [b|x]; [|reflexivity]. cbn [bindL bind]. destruct (mapM g l); reflexivity.
  Qed.
  Lemma mapL_over n l bs : (forall a, In a l -> limit_matters (fun n => f n a) (g a) (d a)) -> n < list_max (map d l) ->
    mapM g l = Ok bs -> mapL (f n) l = None.
  Proof.
    revert bs. induction l as [|a l IH]; intros bs H Hn E; [cbn in Hn; lia|]. cbn [mapL mapM] in *. destruct (H a (or_introl eq_refl)) as (H1 & H2 & H3).
    destruct (g a) as [b|x] eqn:Eg; [|discriminate]. cbn [bind] in E. destruct (mapM g l) as [bs'|x] eqn:El; [|discriminate].
    destruct (Nat.lt_ge_cases n (d a)) as [Hl|Hl]; [rewrite (H2 n b Hl eq_refl); reflexivity|]. rewrite (H1 n Hl). cbn [bindL].
    rewrite (IH bs'); [reflexivity|intros c Hc; apply H; right; exact Hc| |reflexivity].
    cbn [map list_max fold_right] in Hn. fold (list_max (map d l)) in Hn. lia.
  Qed.
  Lemma mapL_right n l bs : (forall a, In a l -> limit_matters (fun n => f n a) (g a) (d a)) -> mapL (f n) l = Some (Ok bs) -> mapM g l = Ok bs.
  Proof.
    revert bs. induction l as [|a l IH]; intros bs H E; cbn [mapL mapM] in *; [injection E as <-; reflexivity|]. destruct (H a (or_introl eq_refl)) as (_ & _ & H3).
    destruct (f n a) as [[b|x]|] eqn:Ef; try discriminate. rewrite (H3 n b Ef). cbn [bindL bind] in *.
    destruct (mapL (f n) l) as [[bs'|x]|] eqn:El; try discriminate. rewrite (IH bs' (fun c Hc => H c (or_intror Hc)) eq_refl). injection E as <-. reflexivity.
  Qed.
End Map.
(** From the levels of the children to those of the node. *)
Lemma limit_step {A} (f : nat -> limited A) result d :
  f 0 = None -> limit_matters (fun n => f (S n)) result d -> limit_matters f result (S d).
Proof.
  intros H0 (H1 & H2 & H3). split; [|split].
  - intros [|n] Hn; [lia|]. apply H1. lia.
  - intros [|n] a Hn E; [exact H0|]. apply (H2 n a); [lia|exact E].
  - intros [|n] a E; [rewrite H0 in E; discriminate|]. exact (H3 n a E).
Qed.
Lemma limit_leaf {A} (f : nat -> limited A) result : f 0 = None -> (forall n, f (S n) = Some result) -> limit_matters f result 1.
Proof.
  intros H0 HS. apply limit_step; [exact H0|]. split; [|split].
  - intros n _. apply HS.
  - intros n a Hn. lia.
  - intros n a E. rewrite HS in E. injection E as E. exact E.
Qed.
Lemma list_max_bound {A} (d : A -> nat) l a n : In a l -> list_max (map d l) <= n -> d a <= n.
Proof. intros Ha Hn. pose proof (list_max_ge (map d l) (d a) (in_map d l a Ha)). lia. Qed.
Lemma limit_map {A B C} (f : nat -> A -> limited B) (g : A -> res B) (d : A -> nat) l (k : list B -> res C) :
  (forall a, In a l -> limit_matters (fun n => f n a) (g a) (d a)) ->
  limit_matters (fun n => bindL (mapL (f n) l) (fun bs => done (k bs))) (do bs <- mapM g l; k bs) (list_max (map d l)).
Proof.
  intros H. split; [|split].
  - intros n Hn. rewrite (mapL_enough f g n l). 2:{ intros a Ha. apply (H a Ha). eapply list_max_bound; eassumption. }
    destruct (mapM g l); reflexivity.
  - intros n c Hn E. destruct (mapM g l) as [bs|x] eqn:El; [|discriminate]. rewrite (mapL_over f g d n l bs H Hn El). reflexivity.
  - intros n c E. destruct (mapL (f n) l) as [[bs|x]|] eqn:El; try discriminate. rewrite (mapL_right f g d n l bs H El). cbn [bindL done bind] in *. injection E as E. exact E.
Qed.
Lemma limit_ext {A} (f g : nat -> limited A) r r' d : (forall n, f n = g n) -> r = r' -> limit_matters f r d -> limit_matters g r' d.
Proof.
  intros H -> (H1 & H2 & H3). split; [|split].
  - intros n Hn. rewrite <- H. auto.
  - intros n a Hn E. rewrite <- H. eauto.
  - intros n a E. apply (H3 n). rewrite H. exact E.
Qed.

(** Printing a Tree raw succeeds exactly up to its depth, heads included. *)
Theorem C79_repr_limit e : limit_matters (fun n => repr_limited n e) (tree_repr e) (levels true [] e).
Proof.
  induction e as [a|[|h args] IH] using tree_ind_all; [apply limit_leaf; reflexivity|apply limit_leaf; reflexivity|].
  apply limit_step; [reflexivity|]. change (Nat.max (levels true [] h) (list_max (map (levels true []) args))) with (list_max (map (levels true []) (h :: args))).
  eapply limit_ext; [| |apply (limit_map (fun n t => repr_limited n t) tree_repr (levels true []) (h :: args) (fun l => Ok ("Tree(" ++ join ", " l ++ ")")) IH)]; reflexivity.
Qed.
Lemma tree_str_err t x : tree_str t = Err x -> x = AttributeError.
Proof.
  revert x. induction t as [a|[|h args] IH] using tree_ind_all; cbn [tree_str]; intros x E; [discriminate|congruence|].
  destruct (tree_str h) as [hs|y] eqn:Eh; cbn [bind] in E; [|injection E as <-; exact (IH h (or_introl eq_refl) y Eh)].
  destruct (mapM tree_str args) as [l|y] eqn:El; [discriminate|]. cbn [bind] in E. injection E as <-.
  assert (G : forall l y, (forall a, In a l -> forall x, tree_str a = Err x -> x = AttributeError) -> mapM tree_str l = Err y -> y = AttributeError).
  { clear. induction l as [|a l IHl]; intros y H E; [discriminate|]. cbn [mapM] in E. destruct (tree_str a) as [s|z] eqn:Ea; cbn [bind] in E.
    - destruct (mapM tree_str l) as [ss|z] eqn:El; [discriminate|]. injection E as <-. apply IHl; [intros b Hb; apply H; right; exact Hb|reflexivity].
    - injection E as <-. exact (H a (or_introl eq_refl) z Ea). }
  exact (G args y (fun a Ha => IH a (or_intror Ha)) El).
Qed.
Theorem C79_str_limit e : limit_matters (fun n => str_limited n e) (tree_str e) (levels true [] e).
Proof.
  induction e as [a|[|h args] IH] using tree_ind_all; [apply limit_leaf; reflexivity|apply limit_leaf; reflexivity|].
  change (levels true [] (Node (h :: args))) with (S (Nat.max (levels true [] h) (list_max (map (levels true []) args)))).
  apply limit_step; [reflexivity|]. cbn [str_limited tree_str].
  assert (IHa : forall a, In a args -> limit_matters (fun n => str_limited n a) (tree_str a) (levels true [] a)) by (intros a Ha; apply IH; right; exact Ha).
  destruct (IH h (or_introl eq_refl)) as (H1 & H2 & H3). split; [|split].
  - intros n Hn. rewrite (mapL_enough str_limited tree_str n args). 2:{ intros a Ha. apply (IHa a Ha). eapply list_max_bound; [exact Ha|]. lia. }
    rewrite H1 by lia. destruct (mapM tree_str args) as [l|x] eqn:El.
    + destruct (tree_str h); reflexivity.
    + cbn [bindL]. destruct (tree_str h) as [hs|y] eqn:Eh; [reflexivity|]. cbn [bind]. apply tree_str_err in Eh. subst y.
      destruct (tree_str (Node (h :: args))) as [s|z] eqn:Ez; [cbn [tree_str] in Ez; rewrite El in Ez; destruct (tree_str h); discriminate|].
      f_equal. f_equal. assert (G : forall l y, mapM tree_str l = Err y -> y = AttributeError).
      { clear. induction l as [|a l IHl]; intros y E; [discriminate|]. cbn [mapM] in E. destruct (tree_str a) as [s|z] eqn:Ea; cbn [bind] in E.
        - destruct (mapM tree_str l) as [ss|z] eqn:El; [discriminate|]. injection E as <-. apply IHl. reflexivity.
        - injection E as <-. exact (tree_str_err a z Ea). }
      exact (G args x El).
  - intros n a Hn E. destruct (tree_str h) as [hs|y] eqn:Eh; [|discriminate]. cbn [bind] in E. destruct (mapM tree_str args) as [l|y] eqn:El; [|discriminate].
    destruct (Nat.lt_ge_cases n (list_max (map (levels true []) args))) as [Hl|Hl].
    + rewrite (mapL_over str_limited tree_str (levels true []) n args l IHa Hl El). reflexivity.
    + rewrite (mapL_enough str_limited tree_str n args) by (intros b Hb; apply (IHa b Hb); eapply list_max_bound; eassumption). rewrite El. cbn [bindL].
      rewrite (H2 n hs) by (lia || reflexivity). reflexivity.
  - intros n a E. destruct (mapL (str_limited n) args) as [[l|x]|] eqn:El; try discriminate. cbn [bindL] in E.
    destruct (str_limited n h) as [[hs|x]|] eqn:Eh; try discriminate. rewrite (H3 n hs Eh), (mapL_right _ _ _ _ _ _ IHa El). cbn [bind bindL done] in *. injection E as <-. reflexivity.
Qed.

(** Recursive evaluation: heads are not entered, neither are expressions that have a value. *)
Theorem C79_recursive_evaluation_limit {V} (ev : evaluator V) values e :
  limit_matters (fun n => recursive_limited n ev values e) (eval_recursive ev values e) (levels false (map fst values) e).
Proof.
  assert (K : forall t, (exists v, dict_get tree_eqb values t = Some v) \/ dict_get tree_eqb values t = None) by (intros t; destruct (dict_get tree_eqb values t); eauto).
  assert (M : forall t v, dict_get tree_eqb values t = Some v -> mem t (map fst values) = true).
  { clear - values. intros t v. induction values as [|[k w] d IH]; [discriminate|]. cbn [dict_get map fst mem existsb]. destruct (tree_eqb t k); [reflexivity|]. exact IH. }
  assert (N : forall t, dict_get tree_eqb values t = None -> mem t (map fst values) = false).
  { clear - values. intros t. induction values as [|[k w] d IH]; [reflexivity|]. cbn [dict_get map fst mem existsb]. destruct (tree_eqb t k); [discriminate|]. exact IH. }
  induction e as [a|[|h args] IH] using tree_ind_all.
  1,2: cbn [levels]; apply limit_leaf; [reflexivity|]; intros n; cbn [recursive_limited eval_recursive];
    match goal with |- context [dict_get tree_eqb ?d ?t] => destruct (dict_get tree_eqb d t) end; reflexivity.
  cbn [levels]. destruct (K (Node (h :: args))) as [[v Hv]|Hv].
  - rewrite (M _ _ Hv). apply limit_leaf; [reflexivity|]. intros n. cbn [recursive_limited eval_recursive]. rewrite Hv. reflexivity.
  - rewrite (N _ Hv). apply limit_step; [reflexivity|]. rewrite Nat.max_0_l.
    eapply limit_ext; [| |apply (limit_map (fun n t => recursive_limited n ev values t) (eval_recursive ev values) (levels false (map fst values)) args (fun l => eval_operation ev h l))].
    + intros n. cbn [recursive_limited]. rewrite Hv. reflexivity.
    + cbn [eval_recursive]. rewrite Hv. reflexivity.
    + intros a Ha. apply IH. right. exact Ha.
Qed.

(** from_sympy: as many levels as the object has are enough; shared parts may need less, nested calls do not. *)
Definition go_limited (n : nat) := fix go_limited (args : list sexpr) (c : cache) : limited (list tree * cache) :=
  match args with
  | [] => done (Ok ([], c))
  | a :: r => bindL (from_sympy_limited n a c) (fun '(t, c1) => bindL (go_limited r c1) (fun '(ts, c2) => done (Ok (t :: ts, c2))))
  end.
Fixpoint go_cache (args : list sexpr) (c : cache) : res (list tree * cache) :=
  match args with
  | [] => Ok ([], c)
  | a :: r => do (t, c1) <- from_sympy_cache a c; do (ts, c2) <- go_cache r c1; Ok (t :: ts, c2)
  end.
Lemma limited_unfold n h a args c : from_sympy_limited (S n) (SApp h (a :: args)) c =
  match dict_get sexpr_eqb c (SApp h (a :: args)) with
  | Some ret => done (Ok (ret, c))
  | None => bindL (bindL (go_limited n (a :: args) c) (fun '(args', c') => done (do ret <- from_sympy_call h args'; Ok (ret, c'))))
      (fun '(ret, c') => done (Ok (ret, dict_set sexpr_eqb c' (SApp h (a :: args)) ret)))
  end.
Proof. reflexivity. Qed.
Lemma cache_unfold h a args c : from_sympy_cache (SApp h (a :: args)) c =
  match dict_get sexpr_eqb c (SApp h (a :: args)) with
  | Some ret => Ok (ret, c)
  | None => do (ret, c') <- (do (args', c') <- go_cache (a :: args) c; do ret <- from_sympy_call h args'; Ok (ret, c'));
      Ok (ret, dict_set sexpr_eqb c' (SApp h (a :: args)) ret)
  end.
Proof. reflexivity. Qed.
Theorem C79_from_sympy_limit s c n : slevels s <= n -> from_sympy_limited n s c = Some (from_sympy_cache s c).
Proof.
  revert c n. induction s as [p|s m|s|m|h args IH] using sexpr_ind_all; intros c [|n] Hn; try (cbn [slevels] in Hn; lia).
  1-4: cbn [from_sympy_limited from_sympy_cache]; match goal with |- context [dict_get sexpr_eqb ?d ?e] => destruct (dict_get sexpr_eqb d e) as [r|] end; [reflexivity|];
       cbn [from_sympy_leaf bind]; reflexivity.
  destruct args as [|a args].
  { cbn [from_sympy_limited from_sympy_cache]. destruct (dict_get sexpr_eqb c (SApp h [])) as [r|]; reflexivity. }
  rewrite limited_unfold, cache_unfold. destruct (dict_get sexpr_eqb c (SApp h (a :: args))) as [r|]; [reflexivity|].
  assert (G : forall l c, (forall b, In b l -> forall c n, slevels b <= n -> from_sympy_limited n b c = Some (from_sympy_cache b c)) -> list_max (map slevels l) <= n ->
     go_limited n l c = Some (go_cache l c)).
  { clear. induction l as [|b l IHl]; intros c H Hl; [reflexivity|]. cbn [go_limited go_cache]. cbn [map list_max fold_right] in Hl. fold (list_max (map slevels l)) in Hl.
    rewrite (H b (or_introl eq_refl)) by lia. destruct (from_sympy_cache b c) as [[t c1]|x]; [|reflexivity]. cbn [bindL bind].
    rewrite IHl by (lia || (intros d Hd; apply H; right; exact Hd)). destruct (go_cache l c1) as [[ts c2]|x]; reflexivity. }
  rewrite (G (a :: args) c IH) by (cbn [slevels] in Hn; lia). destruct (go_cache (a :: args) c) as [[ts c2]|x]; [|reflexivity]. cbn [bindL bind done].
  destruct (from_sympy_call h ts) as [t|x]; reflexivity.
Qed.

(** Nesting is the limit, not size: an expression nested [k] deep cannot be printed raw, converted or evaluated
    recursively with a limit up to [k], however simple it is; the printed form of an Expr, and forward evaluation, which
    are loops, always give the text and the value. *)
Lemma nested_levels hs stop f x k : children f = [] -> children x = [] -> ~ In x stop -> (forall m, 0 < m <= k -> ~ In (nested f x m) stop) ->
  levels hs stop (nested f x k) = S k.
Proof.
  intros Hf Hx Hs. induction k as [|k IH]; intros H.
  - cbn [nested]. destruct x as [a|[|? ?]]; [reflexivity|reflexivity|discriminate].
  - cbn [nested levels]. assert (E : mem (Node [f; nested f x k]) stop = false) by (apply mem_false; apply (H (S k)); lia). rewrite E.
    cbn [map list_max fold_right]. rewrite IH by (intros m Hm; apply H; lia). f_equal. assert (Lf : levels hs stop f = 1) by (destruct f as [a|[|? ?]]; [reflexivity|reflexivity|discriminate]).
    rewrite Lf. destruct hs; lia.
Qed.
Theorem C79_deep_expressions name s k n : n <= k -> identifier name -> ~ In name ["Add"; "Mul"; "pow"] -> identifier s ->
  let e := nested (Function name) (Symbol s) k in
  repr_limited n e = None /\ str_limited n e = None /\
  (exists text, eval_repr e = Ok text) /\
  (forall V (is_none : V -> bool) (ev : evaluator V) v, eval_recursive ev [] e = Ok v ->
     recursive_limited n ev [] e = None /\ evaluate is_none ev e None = Ok v).
Proof.
  intros Hn Hf Hna Hs e.
  assert (L : forall hs, levels hs [] e = S k) by (intros hs; apply nested_levels; try reflexivity; intros; intros []).
  assert (P : printable e).
  { unfold e. clear - Hf Hna Hs. induction k as [|k IH]; [constructor; exact Hs|]. apply pr_call; [exact Hf|..]; try (intros ->; apply Hna; simpl; tauto). constructor; [exact IH|constructor]. }
  assert (W : whole e).
  { destruct (proj1 (pretty_iff e)) as [H _]; [exists (txt e); apply printable_ok, P|exact H]. }
  assert (R : exists r, tree_repr e = Ok r).
  { unfold e. clear. induction k as [|k [r IH]]; [eexists; reflexivity|]. cbn [nested tree_repr children mapM]. rewrite IH. eexists. reflexivity. }
  destruct R as [r Hr]. destruct (proj2 (tree_str_iff e) W) as [t Ht].
  split; [apply (proj1 (proj2 (C79_repr_limit e)) n r); [rewrite L; lia|exact Hr]|].
  split; [apply (proj1 (proj2 (C79_str_limit e)) n t); [rewrite L; lia|exact Ht]|].
  split; [exists (txt e); apply eval_repr_eq, printable_ok, P|].
  intros V is_none ev v Hv. split; [apply (proj1 (proj2 (C79_recursive_evaluation_limit ev [] e)) n v); [cbn [map]; rewrite L; lia|exact Hv]|].
  apply forward_eq_recursive; [intros u w _ Hw; discriminate Hw|exact Hv].
Qed.
Theorem C79_deep_sympy_objects h s a k n c : n <= k -> (forall m, dict_get sexpr_eqb c (snested h (SSym s a) m) = None) ->
  from_sympy_limited n (snested h (SSym s a) k) c = None.
Proof.
  intros Hn Hc. revert n c Hn Hc. induction k as [|k IH]; intros [|n] c Hn Hc; try reflexivity; [lia|].
  cbn [snested]. rewrite limited_unfold. rewrite (Hc (S k) : dict_get sexpr_eqb c (SApp h [snested h (SSym s a) k]) = None).
  cbn [go_limited]. rewrite IH by (lia || exact Hc). reflexivity.
Qed.
(** Sharing helps from_sympy: sin(x) + f(sin(x)) has 4 levels, and needs only 3. *)
Example C79_case :
  let shared := SApp SAdd [SApp SSin [SSym "x" 0]; SApp (SUndef "f" 0) [SApp SSin [SSym "x" 0]]] in
  slevels shared = 4 /\ from_sympy_limited 3 shared [] = Some (from_sympy_cache shared []) /\ is_ok (from_sympy_cache shared []) = true /\
  from_sympy_limited 2 shared [] = None /\
  levels true [] e_shared = 3 /\ repr_limited 2 e_shared = None /\ is_ok (tree_repr e_shared) = true /\
  levels false [tree_call g [x; y]] e_shared = 2 /\
  recursive_limited 2 ev_sample [(tree_call g [x; y], 5%Z); (x, 1%Z)] e_shared = Some (eval_recursive ev_sample [(tree_call g [x; y], 5%Z); (x, 1%Z)] e_shared) /\
  eval_recursive ev_sample [] (nested f (int 7) 40) = Ok 7%Z /\
  recursive_limited 40 ev_sample [] (nested f (int 7) 40) = None /\ recursive_limited 41 ev_sample [] (nested f (int 7) 40) = Some (Ok 7%Z).
Proof. repeat split; vm_compute; reflexivity. Qed.
Print Assumptions C79_repr_limit.
Print Assumptions C79_str_limit.
Print Assumptions C79_recursive_evaluation_limit.
Print Assumptions C79_from_sympy_limit.
Print Assumptions C79_deep_expressions.
Print Assumptions C79_deep_sympy_objects.
