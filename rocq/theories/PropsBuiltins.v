(** * C106: sum and math.prod *)
From Coq Require Import SpecFloat Reals.
From Verif Require Import Py ModelTree ModelEval ModelDiff ModelSym ModelCas ModelMatrix ModelLLVM ModelApi ModelBuiltins
  SpecTree SpecEval SpecMatrix SpecReal SpecMatrixAlgebra SpecLLVM SpecLambdify SpecApi
  ProofBase ProofTopo ProofTree ProofEval ProofCasDiff ProofMatrix ProofFloat ProofF64 ProofLLVM PropsMatrix PropsLLVM ProofApi PropsApi PropsMatrixAlgebra Samples.
Local Open Scope string_scope.

(** ** Specification *)
(** An int or bool, and its value. *)
Definition number (o : obj) (z : Z) : Prop := o = OInt z \/ exists b, o = OBool b /\ z = if b then 1%Z else 0%Z.
Definition total (zs : list Z) : Z := fold_right Z.add 0%Z zs.
Definition product (zs : list Z) : Z := fold_right Z.mul 1%Z zs.
(** The sums (products) of two terms (factors) that start with [first]. *)
Definition nested (head first : tree) (es : list tree) : tree := fold_left (fun a b => Node [head; a; b]) es first.
(** Adding one number after another, each time with math.fsum. *)
Fixpoint running_sum {F} (o : float_ops F) (acc : F) (vs : list F) : res F :=
  match vs with
  | [] => Ok acc
  | v :: r => do a <- fl_fsum o [acc; v]; running_sum o a r
  end.

(** ** Proofs *)
Lemma as_int_number o z : number o z -> as_int o = Some z.
Proof. intros [->|(b & -> & ->)]; reflexivity. Qed.
Lemma fold_numbers f (g : obj -> obj -> hm obj) l zs : (forall a b z w, as_int a = Some z -> as_int b = Some w -> g a b = hret (OInt (f z w))) ->
  Forall2 number l zs -> forall a rest h, py_fold g (OInt a) (l ++ rest) h = py_fold g (OInt (fold_left f zs a)) rest h.
Proof.
  intros Hg H. induction H as [|o z l zs Ho _ IH]; intros a rest h; [reflexivity|]. cbn [app py_fold fold_left].
  rewrite (Hg (OInt a) o a z eq_refl (as_int_number _ _ Ho)). unfold hbind, hret. apply IH.
Qed.
Lemma fold_total zs : forall a, fold_left Z.add zs a = (a + total zs)%Z.
Proof. induction zs as [|z zs IH]; intros a; unfold total; cbn [fold_left fold_right]; [lia|]. rewrite IH. unfold total. lia. Qed.
Lemma fold_product zs : forall a, fold_left Z.mul zs a = (a * product zs)%Z.
Proof. induction zs as [|z zs IH]; intros a; unfold product; cbn [fold_left fold_right]; [lia|]. rewrite IH. unfold product. lia. Qed.
Lemma add_ints a b z w : as_int a = Some z -> as_int b = Some w -> py_add a b = hret (OInt (z + w)).
Proof. unfold py_add. intros -> ->. reflexivity. Qed.
Lemma mul_ints a b z w : as_int a = Some z -> as_int b = Some w -> py_mul a b = hret (OInt (z * w)).
Proof. unfold py_mul. intros -> ->. reflexivity. Qed.
Lemma add_right e o b h : expression_of o = Some b -> py_add (OExpr e) o h = (Ok (OExpr (Node [Add; e; b])), h).
Proof. intros H. change (py_add (OExpr e) o) with (py_binop OpAdd (OExpr e) o). rewrite (C66_expressions OpAdd (OExpr e) o e b h); [reflexivity|left; eexists; reflexivity|reflexivity|exact H]. Qed.
Lemma mul_right e o b h : expression_of o = Some b -> py_mul (OExpr e) o h = (Ok (OExpr (Node [Mul; e; b])), h).
Proof. intros H. change (py_mul (OExpr e) o) with (py_binop OpMul (OExpr e) o). rewrite (C66_expressions OpMul (OExpr e) o e b h); [reflexivity|left; eexists; reflexivity|reflexivity|exact H]. Qed.
Lemma fold_nested head g : (forall e o b h, expression_of o = Some b -> g (OExpr e) o h = (Ok (OExpr (Node [head; e; b])), h)) ->
  forall l es e h, map expression_of l = map Some es -> py_fold g (OExpr e) l h = (Ok (OExpr (nested head e es)), h).
Proof.
  intros Hg. induction l as [|o l IH]; intros [|b es] e h H; try discriminate; [reflexivity|]. cbn [map] in H. injection H as Ho Hl.
  cbn [py_fold]. unfold hbind. rewrite (Hg e o b h Ho). unfold nested. cbn [fold_left]. apply IH, Hl.
Qed.

(** C106. Without an expression the result is the int that Python computes anyway. *)
Theorem C106_numbers l zs h : Forall2 number l zs ->
  py_sum l (OInt 0) h = (Ok (OInt (total zs)), h) /\ py_prod l (OInt 1) h = (Ok (OInt (product zs)), h).
Proof.
  intros H. rewrite <- (app_nil_r l). unfold py_sum, py_prod. split.
  - rewrite (fold_numbers Z.add py_add l zs add_ints H), fold_total. reflexivity.
  - rewrite (fold_numbers Z.mul py_mul l zs mul_ints H), fold_product, Z.mul_1_l. reflexivity.
Qed.
(** Otherwise it is the sum (product) of the numbers before the first expression, then sums (products) of two terms. Nothing
    is changed. *)
Theorem C106_expressions pre zs e rest es h : Forall2 number pre zs -> map expression_of rest = map Some es ->
  py_sum (pre ++ OExpr e :: rest)%list (OInt 0) h = (Ok (OExpr (nested Add (Integer (total zs)) (e :: es))), h) /\
  py_prod (pre ++ OExpr e :: rest)%list (OInt 1) h = (Ok (OExpr (nested Mul (Integer (product zs)) (e :: es))), h).
Proof.
  intros Hp Hr. unfold py_sum, py_prod. split.
  - rewrite (fold_numbers Z.add py_add pre zs add_ints Hp), fold_total. cbn [py_fold]. unfold hbind at 1.
    change (py_add (OInt (0 + total zs)) (OExpr e)) with (py_binop OpAdd (OInt (0 + total zs)) (OExpr e)).
    rewrite (C66_expressions OpAdd _ _ (Integer (0 + total zs)) e h); [|right; eexists; reflexivity|reflexivity|reflexivity].
    rewrite (fold_nested Add py_add add_right rest es _ _ Hr). reflexivity.
  - rewrite (fold_numbers Z.mul py_mul pre zs mul_ints Hp), fold_product, Z.mul_1_l. cbn [py_fold]. unfold hbind at 1.
    change (py_mul (OInt (product zs)) (OExpr e)) with (py_binop OpMul (OInt (product zs)) (OExpr e)).
    rewrite (C66_expressions OpMul _ _ (Integer (product zs)) e h); [|right; eexists; reflexivity|reflexivity|reflexivity].
    rewrite (fold_nested Mul py_mul mul_right rest es _ _ Hr). reflexivity.
Qed.
(** The start value may be an expression. *)
Theorem C106_start e l es h : map expression_of l = map Some es ->
  py_sum l (OExpr e) h = (Ok (OExpr (nested Add e es)), h) /\ py_prod l (OExpr e) h = (Ok (OExpr (nested Mul e es)), h).
Proof. intros H. split; [apply (fold_nested Add py_add add_right), H|apply (fold_nested Mul py_mul mul_right), H]. Qed.

(** The real value: the sum (product) of the values of the items, undefined if one of these is. *)
Lemma nested_value env head (f : R -> R -> R) : (forall a b, reval env (Node [head; a; b]) = match reval env a, reval env b with Some x, Some y => Some (f x y) | _, _ => None end) ->
  forall es a, reval env (nested head a es) = match reval env a, all_defined (reval env) es with Some x, Some ys => Some (fold_left f ys x) | _, _ => None end.
Proof.
  intros Hf. induction es as [|e es IH]; intros a; unfold nested; cbn [fold_left all_defined]; [destruct (reval env a); reflexivity|].
  fold (nested head (Node [head; a; e]) es). rewrite IH, Hf. destruct (reval env a), (reval env e), (all_defined (reval env) es); reflexivity.
Qed.
Lemma fold_left_sum ys : forall x, (fold_left Rplus ys x = x + fold_right Rplus 0 ys)%R.
Proof. induction ys as [|y ys IH]; intros x; cbn [fold_left fold_right]; [ring|]. rewrite IH. ring. Qed.
Lemma fold_left_prod ys : forall x, (fold_left Rmult ys x = x * fold_right Rmult 1 ys)%R.
Proof. induction ys as [|y ys IH]; intros x; cbn [fold_left fold_right]; [ring|]. rewrite IH. ring. Qed.
Lemma reval_add2 env a b : reval env (Node [Add; a; b]) = match reval env a, reval env b with Some u, Some v => Some (u + v)%R | _, _ => None end.
Proof.
  change (reval env (Node [Add; a; b])) with (match all_defined (reval env) [a; b] with Some vs => rop Add vs | None => None end).
  cbn [all_defined]. destruct (reval env a), (reval env b); cbn; try reflexivity. rewrite Rplus_0_r. reflexivity.
Qed.
Lemma reval_mul2 env a b : reval env (Node [Mul; a; b]) = match reval env a, reval env b with Some u, Some v => Some (u * v)%R | _, _ => None end.
Proof.
  change (reval env (Node [Mul; a; b])) with (match all_defined (reval env) [a; b] with Some vs => rop Mul vs | None => None end).
  cbn [all_defined]. destruct (reval env a), (reval env b); cbn; try reflexivity. rewrite Rmult_1_r. reflexivity.
Qed.
Lemma split_items l es : map expression_of l = map Some es -> (exists zs, Forall2 number l zs /\ es = map Integer zs) \/
  exists pre zs e rest es', l = (pre ++ OExpr e :: rest)%list /\ Forall2 number pre zs /\ map expression_of rest = map Some es' /\ es = (map Integer zs ++ e :: es')%list.
Proof.
  revert es. induction l as [|o l IH]; intros [|b es] H; try discriminate; [left; exists []; split; constructor|]. cbn [map] in H. injection H as Ho Hl.
  assert (G : (exists z, number o z /\ b = Integer z) \/ o = OExpr b).
  { destruct o as [t|m|z|c|]; try discriminate; injection Ho as <-; [right; reflexivity|left; exists z; split; [left|]; reflexivity|].
    left. exists (if c then 1 else 0)%Z. split; [right; exists c; auto|reflexivity]. }
  destruct G as [(z & Hz & ->)| ->].
  - destruct (IH es Hl) as [(zs & Hzs & ->)|(pre & zs & e & rest & es' & -> & Hp & Hr & ->)].
    + left. exists (z :: zs). split; [constructor; assumption|reflexivity].
    + right. exists (o :: pre), (z :: zs), e, rest, es'. repeat split; [constructor; assumption|exact Hr].
  - right. exists [], [], b, l, es. repeat split; [constructor|exact Hl].
Qed.
Lemma defined_app {A B} (f : A -> option B) l m : all_defined f (l ++ m) = match all_defined f l, all_defined f m with Some u, Some v => Some (u ++ v)%list | _, _ => None end.
Proof. induction l as [|a l IH]; cbn [app all_defined]; [destruct (all_defined f m); reflexivity|]. rewrite IH. destruct (f a), (all_defined f l), (all_defined f m); reflexivity. Qed.
Lemma defined_ints env zs : all_defined (reval env) (map Integer zs) = Some (map IZR zs).
Proof. induction zs as [|z zs IH]; [reflexivity|]. cbn [map all_defined]. rewrite IH. reflexivity. Qed.
Lemma IZR_total zs : IZR (total zs) = fold_right Rplus 0%R (map IZR zs).
Proof. induction zs as [|z zs IH]; [reflexivity|]. unfold total in *. cbn [fold_right map]. rewrite plus_IZR, IH. reflexivity. Qed.
Lemma IZR_product zs : IZR (product zs) = fold_right Rmult 1%R (map IZR zs).
Proof. induction zs as [|z zs IH]; [reflexivity|]. unfold product in *. cbn [fold_right map]. rewrite mult_IZR, IH. reflexivity. Qed.
Lemma sum_app l m : (fold_right Rplus 0 (l ++ m) = fold_right Rplus 0 l + fold_right Rplus 0 m)%R.
Proof. induction l as [|a l IH]; cbn [app fold_right]; [ring|]. rewrite IH. ring. Qed.
Lemma prod_app l m : (fold_right Rmult 1 (l ++ m) = fold_right Rmult 1 l * fold_right Rmult 1 m)%R.
Proof. induction l as [|a l IH]; cbn [app fold_right]; [ring|]. rewrite IH. ring. Qed.
Theorem C106_values l es env h : map expression_of l = map Some es ->
  (exists o t, py_sum l (OInt 0) h = (Ok o, h) /\ expression_of o = Some t /\
     reval env t = option_map (fold_right Rplus 0%R) (all_defined (reval env) es)) /\
  (exists o t, py_prod l (OInt 1) h = (Ok o, h) /\ expression_of o = Some t /\
     reval env t = option_map (fold_right Rmult 1%R) (all_defined (reval env) es)).
Proof.
  intros H. destruct (split_items l es H) as [(zs & Hz & ->)|(pre & zs & e & rest & es' & -> & Hp & Hr & ->)].
  - destruct (C106_numbers l zs h Hz) as [-> ->]. rewrite defined_ints. cbn [option_map]. split; eexists _, _; (split; [reflexivity|]); (split; [reflexivity|]).
    + rewrite <- IZR_total. reflexivity.
    + rewrite <- IZR_product. reflexivity.
  - destruct (C106_expressions pre zs e rest es' h Hp Hr) as [-> ->]. rewrite defined_app, defined_ints. split; eexists _, _; (split; [reflexivity|]); (split; [reflexivity|]).
    + rewrite (nested_value env Add Rplus (reval_add2 env)). change (reval env (Integer (total zs))) with (Some (IZR (total zs))).
      destruct (all_defined (reval env) (e :: es')) as [ys|]; [|reflexivity]. cbn [option_map]. rewrite fold_left_sum, sum_app, IZR_total. reflexivity.
    + rewrite (nested_value env Mul Rmult (reval_mul2 env)). change (reval env (Integer (product zs))) with (Some (IZR (product zs))).
      destruct (all_defined (reval env) (e :: es')) as [ys|]; [|reflexivity]. cbn [option_map]. rewrite fold_left_prod, prod_app, IZR_product. reflexivity.
Qed.

(** ** Compiled code *)
Lemma nested_machine mc symargs vals head op : (forall a b, machine_op mc head [a; b] = Some (op a b)) ->
  forall es vs a v, machine_value mc symargs vals a = Some v -> Forall2 (fun e w => machine_value mc symargs vals e = Some w) es vs ->
  machine_value mc symargs vals (nested head a es) = Some (fold_left op vs v).
Proof.
  intros Hop es vs a v Ha H. revert a v Ha. induction H as [|e w es vs He _ IH]; intros a v Ha; [exact Ha|]. unfold nested. cbn [fold_left].
  fold (nested head (Node [head; a; e]) es). apply IH. rewrite machine_value_node. cbn [opt_map]. rewrite Ha, He. apply Hop.
Qed.
Lemma nested_machine_inv mc symargs vals head : forall es a, machine_value mc symargs vals (nested head a es) <> None ->
  forall e, In e (a :: es) -> machine_value mc symargs vals e <> None.
Proof.
  induction es as [|e es IH]; intros a H; [intros e [<-|[]]; exact H|]. unfold nested in H. cbn [fold_left] in H. fold (nested head (Node [head; a; e]) es) in H.
  pose proof (IH _ H) as G. pose proof (G _ (or_introl eq_refl)) as G0. rewrite machine_value_node in G0. cbn [opt_map] in G0.
  destruct (machine_value mc symargs vals a) eqn:Ea; [|destruct G0; reflexivity]. destruct (machine_value mc symargs vals e) eqn:Ee; [|destruct G0; reflexivity].
  intros u [<-|[<-|Hu]]; [congruence|congruence|]. apply G. right. exact Hu.
Qed.
Section Platform.
  Context (mc : machine) {code : Type} (load : string -> res code)
    (call_f64 : code -> list spec_float -> spec_float) (call_fill : code -> nat -> list spec_float -> list spec_float).
  Context (Hplatform : faithful mc load call_f64 call_fill).
  Notation call := (call_compiled call_f64 call_fill).
  Notation compiles symargs e h f := (lambdify load (map OExpr symargs) (OExpr e) h = (Ok f, h)).

  (** lambdify accepts the sum exactly if it accepts each term. *)
  Theorem C106_lambdify_accepts symargs es t h : good_names symargs -> ~ In (Integer 0) symargs -> ~ In (Integer 1) symargs ->
    (py_sum (map OExpr es) (OInt 0) h = (Ok (OExpr t), h) \/ py_prod (map OExpr es) (OInt 1) h = (Ok (OExpr t), h)) ->
    (exists f, compiles symargs t h f) <-> forall e, In e es -> exists f, compiles symargs e h f.
  Proof.
    intros Hg H0 H1 Ht.
    assert (A : forall e, (exists f, compiles symargs e h f) <-> forall mc vals, length vals = length symargs -> exists v, machine_value mc symargs vals e = Some v)
      by (intros e; apply (C65_lambdify_expression mc load call_f64 call_fill Hplatform symargs e h Hg)).
    assert (Hn : exists head a, t = nested head (Integer a) es /\ ~ In (Integer a) symargs /\ (exists c, constant a = Some c) /\
       forall mc, exists op, forall u v, machine_op mc head [u; v] = Some (op u v)).
    { destruct es as [|e es]; [destruct Ht as [Ht|Ht]; discriminate|]. assert (Hm : map expression_of (map OExpr es) = map Some es) by (rewrite map_map; reflexivity).
      destruct (C106_expressions [] [] e (map OExpr es) es h ltac:(constructor) Hm) as [E1 E2]. cbn [app map] in *.
      destruct Ht as [Ht|Ht]; [rewrite E1 in Ht; exists Add, 0%Z|rewrite E2 in Ht; exists Mul, 1%Z]; injection Ht as <-; (split; [reflexivity|]);
        (split; [assumption|]); (split; [eexists; vm_compute; reflexivity|]); intros mc'; eexists; intros u v; reflexivity. }
    destruct Hn as (head & a & -> & Ha & (c & Hc) & Hop). rewrite A. split.
    - intros H e He. apply A. intros mc' vals Hl. destruct (H mc' vals Hl) as (v & Hv).
      destruct (machine_value mc' symargs vals e) as [w|] eqn:E; [eauto|]. destruct (nested_machine_inv mc' symargs vals head es (Integer a) ltac:(congruence) e (or_intror He) E).
    - intros H mc' vals Hl. destruct (Hop mc') as (op & Hop').
      assert (G : exists vs, Forall2 (fun e w => machine_value mc' symargs vals e = Some w) es vs).
      { clear - H A Hl. induction es as [|e es IH]; [exists []; constructor|]. destruct IH as (vs & IH); [intros u Hu; apply H; right; exact Hu|].
        destruct (proj1 (A e) (H e (or_introl eq_refl)) mc' vals Hl) as (v & Hv). exists (v :: vs). constructor; assumption. }
      destruct G as (vs & G). eexists. eapply nested_machine; [exact Hop'| |exact G].
      assert (E : machine_value mc' symargs vals (Integer a) = match argument symargs vals (Integer a) with Some v => Some v | None => constant a end) by reflexivity.
      rewrite E, (argument_none symargs vals (Integer a) Ha). exact Hc.
  Qed.
  (** The code of a sum adds the values that the codes of the terms return, one after another, starting with 0.0, and that of
      a product multiplies them, starting with 1.0. *)
  Theorem C106_lambdify symargs es fs t ft h vals vs : good_names symargs -> ~ In (Integer 0) symargs -> ~ In (Integer 1) symargs ->
    Forall2 (fun e f => compiles symargs e h f) es fs -> compiles symargs t h ft ->
    Forall2 (fun f v => call f vals = Ok (FFloat v)) fs vs -> length vals = length symargs ->
    (py_sum (map OExpr es) (OInt 0) h = (Ok (OExpr t), h) -> call ft vals = Ok (FFloat (fold_left (mc_add mc) vs (S754_zero false)))) /\
    (py_prod (map OExpr es) (OInt 1) h = (Ok (OExpr t), h) ->
       call ft vals = Ok (FFloat (fold_left (mc_mul mc) vs (S754_finite false 4503599627370496 (-52))))).
  Proof.
    intros Hg H0 H1 Hfs Hft Hvs Hl.
    assert (V : Forall2 (fun e w => machine_value mc symargs vals e = Some w) es vs).
    { clear - Hplatform Hg Hfs Hvs Hl. revert vs Hvs. induction Hfs as [|e f es fs He _ IH]; intros vs Hvs; inversion Hvs; subst; constructor; [|apply IH; assumption].
      destruct (proj2 (C65_lambdify_expression mc load call_f64 call_fill Hplatform symargs e h Hg) f h He) as (_ & G & _).
      destruct (G vals Hl) as (v & Hv & Hc). congruence. }
    destruct (proj2 (C65_lambdify_expression mc load call_f64 call_fill Hplatform symargs t h Hg) ft h Hft) as (_ & G & _). destruct (G vals Hl) as (v & Hv & ->).
    assert (I : forall a, ~ In (Integer a) symargs -> machine_value mc symargs vals (Integer a) = constant a).
    { intros a Ha. assert (E : machine_value mc symargs vals (Integer a) = match argument symargs vals (Integer a) with Some v => Some v | None => constant a end) by reflexivity.
      rewrite E, (argument_none symargs vals (Integer a) Ha). reflexivity. }
    split; intros Ht; (destruct es as [|e es]; [discriminate|]); assert (Hm : map expression_of (map OExpr es) = map Some es) by (rewrite map_map; reflexivity);
      destruct (C106_expressions [] [] e (map OExpr es) es h ltac:(constructor) Hm) as [E1 E2]; cbn [app map] in *.
    - assert (Et : t = nested Add (Integer (total [])) (e :: es)) by congruence. clear E1 E2 Ht G Hft. subst t. rewrite (nested_machine mc symargs vals Add (mc_add mc) ltac:(reflexivity) _ vs _ (S754_zero false)) in Hv; [congruence| |exact V].
      change (total []) with 0%Z. rewrite (I 0%Z H0). vm_compute. reflexivity.
    - assert (Et : t = nested Mul (Integer (product [])) (e :: es)) by congruence. clear E1 E2 Ht G Hft. subst t. rewrite (nested_machine mc symargs vals Mul (mc_mul mc) ltac:(reflexivity) _ vs _ (S754_finite false 4503599627370496 (-52))) in Hv; [congruence| |exact V].
      change (product []) with 1%Z. rewrite (I 1%Z H1). vm_compute. reflexivity.
  Qed.
  (** So with IEEE addition sum(es) and Add applied to es give the same double, unless the first value is -0.0. *)
  Theorem C106_same_as_Add symargs e es t f f1 g h vals v : good_names symargs -> ~ In (Integer 0) symargs -> ieee_add mc ->
    py_sum (map OExpr (e :: es)) (OInt 0) h = (Ok (OExpr t), h) -> length vals = length symargs ->
    compiles symargs t h f -> compiles symargs (tree_call Add (e :: es)) h g ->
    compiles symargs e h f1 -> call f1 vals = Ok (FFloat v) -> v <> S754_zero true ->
    call f vals = call g vals.
  Proof.
    intros Hg H0 Ha Ht Hl Hf Hgc Hf1 Hv Hz.
    destruct (proj2 (C65_lambdify_expression mc load call_f64 call_fill Hplatform symargs t h Hg) f h Hf) as (_ & G & _). destruct (G vals Hl) as (a & Va & ->).
    destruct (proj2 (C65_lambdify_expression mc load call_f64 call_fill Hplatform symargs (tree_call Add (e :: es)) h Hg) g h Hgc) as (_ & G' & _). destruct (G' vals Hl) as (b & Vb & ->).
    destruct (proj2 (C65_lambdify_expression mc load call_f64 call_fill Hplatform symargs e h Hg) f1 h Hf1) as (_ & G1 & _). destruct (G1 vals Hl) as (v' & Ve & Hv').
    assert (v' = v) by congruence. subst v'. do 2 f_equal.
    assert (Hm : map expression_of (map OExpr es) = map Some es) by (rewrite map_map; reflexivity).
    destruct (C106_expressions [] [] e (map OExpr es) es h ltac:(constructor) Hm) as [E1 _]. cbn [app map] in *.
    assert (Et : t = nested Add (Integer (total [])) (e :: es)) by congruence. clear E1 Ht Hf G. subst t.
    unfold tree_call in Vb. rewrite machine_value_node in Vb. cbn [opt_map] in Vb. rewrite Ve in Vb.
    destruct (opt_map (machine_value mc symargs vals) es) as [vs|] eqn:Ev; [|discriminate]. apply opt_map_Forall2 in Ev.
    rewrite (nested_machine mc symargs vals Add (mc_add mc) ltac:(reflexivity) (e :: es) (v :: vs) _ (S754_zero false)) in Va; [| |constructor; assumption].
    - cbn [fold_left] in Va. assert (Ez : mc_add mc (S754_zero false) v = v) by (rewrite Ha; destruct v as [[|]|[|]| |]; try reflexivity; congruence).
      rewrite Ez in Va. change (machine_op mc Add (v :: vs)) with (Some (fold_left (mc_add mc) vs v)) in Vb. congruence.
    - change (total []) with 0%Z. assert (E : machine_value mc symargs vals (Integer 0) = match argument symargs vals (Integer 0) with Some v => Some v | None => constant 0 end) by reflexivity.
      rewrite E, (argument_none symargs vals (Integer 0) H0). vm_compute. reflexivity.
  Qed.
End Platform.

(** ** eval_f64 *)
(** eval_f64 adds (with math.fsum) one value after another, starting with that of 0. *)
Theorem C106_eval {F} (o : float_ops F) es t values h v : py_sum (map OExpr es) (OInt 0) h = (Ok (OExpr t), h) ->
  eval_f64 o t (Some values) = Ok v <->
  exists z vs, eval_f64 o (Integer 0) (Some values) = Ok z /\ Forall2 (fun e w => eval_f64 o e (Some values) = Ok w) es vs /\ running_sum o z vs = Ok v.
Proof.
  intros Ht. assert (Et : t = nested Add (Integer 0) es).
  { destruct es as [|e es]; [discriminate|]. assert (Hm : map expression_of (map OExpr es) = map Some es) by (rewrite map_map; reflexivity).
    destruct (C106_expressions [] [] e (map OExpr es) es h ltac:(constructor) Hm) as [E1 _]. cbn [app map] in *. change (total []) with 0%Z in E1. congruence. }
  clear Ht. subst t. generalize (Integer 0). induction es as [|e es IH]; intros a.
  - split; [intros H; exists v, []; repeat split; [exact H|constructor]|]. intros (z & vs & Hz & Hvs & H). inversion Hvs; subst. cbn in H. unfold nested. cbn [fold_left]. congruence.
  - unfold nested. cbn [fold_left]. fold (nested Add (Node [Add; a; e]) es). rewrite IH.
    assert (S : forall w, eval_f64 o (Node [Add; a; e]) (Some values) = Ok w <-> exists x y, eval_f64 o a (Some values) = Ok x /\ eval_f64 o e (Some values) = Ok y /\ fl_fsum o [x; y] = Ok w).
    { intros w. rewrite eval_f64_meaning. cbn [meaning mapM]. split.
      - intros H. destruct (meaning _ _ a) as [x|] eqn:Ex; [|discriminate]. destruct (meaning _ _ e) as [y|] eqn:Ey; [|discriminate]. exists x, y.
        split; [apply eval_f64_meaning, Ex|]. split; [apply eval_f64_meaning, Ey|exact H].
      - intros (x & y & Hx & Hy & H). apply eval_f64_meaning in Hx, Hy. rewrite Hx, Hy. exact H. }
    split.
    + intros (z & vs & Hz & Hvs & H). apply S in Hz as (x & y & Hx & Hy & Hxy). exists x, (y :: vs). split; [exact Hx|]. split; [constructor; assumption|].
      cbn [running_sum]. rewrite Hxy. exact H.
    + intros (z & vs & Hz & Hvs & H). inversion Hvs as [|? y ? vs' Hy Hvs']; subst. cbn [running_sum] in H. destruct (fl_fsum o [z; y]) as [w|] eqn:Ew; [|discriminate].
      exists w, vs'. split; [apply S; eauto|]. split; [exact Hvs'|exact H].
Qed.
(** So eval_f64 of sum(es) need not be eval_f64 of Add applied to es, which is rounded once. *)
Theorem C106_rounding_refuted : exists es t h v w, fsum_rounds o_exact /\ py_sum (map OExpr es) (OInt 0) h = (Ok (OExpr t), h) /\
  eval_f64 o_exact t None = Ok v /\ eval_f64 o_exact (tree_call Add es) None = Ok w /\ double_value v = IZR (2 ^ 53) /\ double_value w = IZR (2 ^ 53 + 2).
Proof.
  exists [int (2 ^ 53); int 1; int 1]. eexists _, (mkHeap [] []), (S754_finite false (2 ^ 52) 1), (S754_finite false (2 ^ 52 + 1) 1).
  split; [exact (proj1 C51_case)|]. split; [vm_compute; reflexivity|]. split; [vm_compute; reflexivity|]. split; [vm_compute; reflexivity|].
  rewrite !value_at_1. split; reflexivity.
Qed.

(** ** Matrices *)
(** sum of a list of matrices fails: it starts with 0 + M ... *)
Theorem C106_matrices_refuted m rest h : py_sum (OMatrix m :: rest) (OInt 0) h = (Err TypeError, h).
Proof. reflexivity. Qed.
(** ... but with a matrix as start it is the sum, entry by entry. *)
Theorem C106_matrices nr nc h ms M l : history h ms -> (forall A, In A (M :: l) -> In A ms /\ m_nrows A = nr /\ m_ncols A = nc) ->
  exists C h' ms', py_sum (map OMatrix l) (OMatrix M) h = (Ok (OMatrix C), h') /\ SpecMatrix.steps h ms h' ms' /\ In C ms' /\ m_nrows C = nr /\ m_ncols C = nc /\
    forall env i j, inside C i j -> entry_value h' env C i j = osum (map (fun A => entry_value h env A i j) (M :: l)).
Proof.
  revert h ms M. induction l as [|A l IH]; intros h ms M Hh Hin.
  - destruct (Hin M (or_introl eq_refl)) as (HM & Er & Ec). exists M, h, ms. split; [reflexivity|]. split; [apply steps_none|]. repeat (split; [assumption|]).
    intros env i j _. cbn [map osum fold_right]. symmetry. apply oplus_0_r.
  - destruct (Hin M (or_introl eq_refl)) as (HM & Er & Ec). destruct (Hin A (or_intror (or_introl eq_refl))) as (HA & Ar & Ac).
    destruct (add_values h ms M A Hh HM HA ltac:(congruence) ltac:(congruence)) as (C & h1 & E & Hs & Cr & Cc & V).
    assert (S1 : SpecMatrix.steps h ms h1 (C :: ms)) by (eapply steps_more; [apply steps_none|exact Hs]).
    assert (Hh1 : history h1 (C :: ms)) by (eapply steps_trans; eauto).
    destruct (IH h1 (C :: ms) C Hh1) as (D & h2 & ms2 & E2 & S2 & HD & Dr & Dc & VD).
    { intros B [<-|HB]; [split; [left; reflexivity|split; congruence]|]. destruct (Hin B (or_intror (or_intror HB))) as (G1 & G2 & G3). split; [right; exact G1|auto]. }
    exists D, h2, ms2. split.
    { unfold py_sum in *. cbn [map py_fold]. unfold hbind at 1. change (py_add (OMatrix M) (OMatrix A)) with (py_binop OpAdd (OMatrix M) (OMatrix A)).
      unfold py_binop, left_method, hbind. rewrite E. unfold hret. exact E2. }
    split; [eapply steps_trans; eauto|]. split; [exact HD|]. split; [exact Dr|]. split; [exact Dc|]. intros env i j Hij. rewrite (VD env i j Hij).
    assert (HijM : inside M i j) by (unfold inside in *; rewrite Er, Ec, <- Dr, <- Dc; exact Hij).
    cbn [map osum fold_right]. rewrite (V env i j HijM), <- oplus_assoc. do 2 f_equal. f_equal. apply map_ext_in. intros B HB.
    destruct (Hin B (or_intror (or_intror HB))) as (G1 & _ & _). eapply value_frame; [exact Hh|exact G1|exact S1].
Qed.

(** A case: sum([2, x, True, y]) is Add(Add(Add(2, x), 1), y), and sum([x, y]) compiled with -0.0 and 0.0. *)
Example C106_case : py_sum [OInt 2; OExpr x; OBool true; OExpr y] (OInt 0) (mkHeap [] []) =
    (Ok (OExpr (m_add (m_add (m_add (int 2) x) (int 1)) y)), mkHeap [] []) /\
  py_prod [OExpr x; OInt 3; OExpr y] (OInt 1) (mkHeap [] []) = (Ok (OExpr (m_mul (m_mul (m_mul (int 1) x) (int 3)) y)), mkHeap [] []) /\
  (exists C h', py_sum [OMatrix mat_b] (OMatrix mat_a) heap_ab = (Ok (OMatrix C), h') /\ fst (matrix_tolist C h') <> fst (matrix_tolist mat_a h')) /\
  faithful mc_case sample_load (sample_f64 mc_case) (sample_fill mc_case).
Proof.
  split; [reflexivity|]. split; [reflexivity|]. split; [eexists _, _; split; [vm_compute; reflexivity|vm_compute; discriminate]|]. apply sample_faithful.
Qed.
Print Assumptions C106_numbers.
Print Assumptions C106_expressions.
Print Assumptions C106_start.
Print Assumptions C106_values.
Print Assumptions C106_lambdify_accepts.
Print Assumptions C106_lambdify.
Print Assumptions C106_same_as_Add.
Print Assumptions C106_eval.
Print Assumptions C106_rounding_refuted.
Print Assumptions C106_matrices_refuted.
Print Assumptions C106_matrices.
