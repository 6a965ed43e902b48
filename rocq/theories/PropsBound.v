(** * Error bounds with sin, cos and integer powers: C92. *)
From Coq Require Import SpecFloat Reals Lra.
From Verif Require Import Py ModelTree SpecTree ProofBase ModelEval SpecEval ModelDiff ModelSym ModelCas ModelMatrix ModelLLVM ModelApi SpecMatrix SpecLLVM SpecLambdify SpecApi
  SpecReal ProofReal SpecDiff ProofDiff ProofCasDiff SpecCas ProofFloat ProofLLVM ProofF64 ProofSums PropsLLVM SpecExact ProofExact SpecError ProofError ProofApi PropsMatrix PropsApi PropsReal PropsExact PropsError SpecBound ProofBound Samples.
Local Open Scope string_scope.
Local Open Scope R_scope.

(** C92. The number in an estimate is the value of the expression. *)
Theorem C92_exact_value acc names xs env e i : Forall2 (fun n x => env n = x) names xs ->
  code_estimate acc names xs e = Some i \/ eval_estimate acc names xs e = Some i -> reval env e = Some (fst i).
Proof.
  intros Henv [H|H].
  - eapply estimate_value; [|exact Henv|exact H]. intros j l. apply add_estimate_value.
  - eapply estimate_value; [|exact Henv|exact H]. intros j l. reflexivity.
Qed.
(** The double that eval_f64 returns, if it is finite, is within the bound. *)
Theorem C92_eval_error acc o names vals e v r d : fsum_correct o -> prod_rounds o -> ints_rounds o -> accurate_float acc o ->
  Forall is_double vals -> exponents_fit e -> bases_finite (f64_value o (map Symbol names) vals) e ->
  eval_f64 o e (Some (combine (map Symbol names) vals)) = Ok v -> finite v ->
  eval_estimate acc names (map double_value vals) e = Some (r, d) -> Rabs (double_value v - r) <= d.
Proof. intros Hs Hp Hi Ha Hd Hx Hb Hv F He. exact (proj2 (f64_close acc o names vals e v (r, d) Hs Hp Hi Ha Hd Hx Hb Hv He) F). Qed.

Section Platform.
  Context (mc : machine) {code : Type} (load : string -> res code)
    (call_f64 : code -> list spec_float -> spec_float) (call_fill : code -> nat -> list spec_float -> list spec_float).
  Context (Hplatform : faithful mc load call_f64 call_fill) (Hadd : ieee_add mc) (Hmul : ieee_mul mc) (acc : accuracy) (Hacc : accurate_machine acc mc).
  Notation call := (call_compiled call_f64 call_fill).

  (** So is the one that the function made by lambdify returns. *)
  Theorem C92_lambdify_error names e h f h' vals v r d : good_names (map Symbol names) ->
    lambdify load (map OExpr (map Symbol names)) (OExpr e) h = (Ok f, h') -> length vals = length names -> Forall is_double vals ->
    exponents_fit e -> bases_finite (machine_value mc (map Symbol names) vals) e ->
    call f vals = Ok (FFloat v) -> finite v ->
    code_estimate acc names (map double_value vals) e = Some (r, d) -> Rabs (double_value v - r) <= d.
  Proof.
    intros Hg Hf Hl Hd Hx Hb Hc F He.
    destruct (proj2 (C65_lambdify_expression mc load call_f64 call_fill Hplatform (map Symbol names) e h Hg) f h' Hf) as (_ & Hv & _).
    destruct (Hv vals) as (w & Ew & Hw); [rewrite map_length; exact Hl|]. rewrite Hw in Hc. injection Hc as ->.
    exact (proj2 (machine_close acc mc names vals e v (r, d) Hadd Hmul Hacc Hd Hx Hb Ew He) F).
  Qed.
  (** Every entry of a matrix. *)
  Theorem C92_lambdify_matrix_error names A h ms f h' vals rows : history h ms -> In A ms ->
    good_names (map Symbol names) -> ~ In "_out"%string names ->
    (Z.of_nat (m_nrows A) * Z.of_nat (m_ncols A) <= 2 ^ 31)%Z ->
    lambdify load (map OExpr (map Symbol names)) (OMatrix A) h = (Ok f, h') -> length vals = length names -> Forall is_double vals ->
    call f vals = Ok (FArray rows) ->
    forall i j t row v r d, inside A i j -> get A i j h = Ok t -> nth_error rows (Z.to_nat i) = Some row -> nth_error row (Z.to_nat j) = Some v ->
    exponents_fit t -> bases_finite (machine_value mc (map Symbol names) vals) t -> finite v ->
    code_estimate acc names (map double_value vals) t = Some (r, d) -> Rabs (double_value v - r) <= d.
  Proof.
    intros Hh HA Hg Ho Hs Hf Hl Hd Hc i j t row v r d Hin Ht Hrow Hent Hx Hb F He.
    assert (Ho' : forall s, In s (map Symbol names) -> tree_str s <> Ok "_out"%string).
    { intros s Hs'. apply in_map_iff in Hs' as (n & <- & Hn). intros E. apply Ho. replace "_out"%string with n; [exact Hn|]. unfold tree_str in E. cbn in E. congruence. }
    assert (Hz : ~ In (Integer 0) (map Symbol names)) by (intros H; apply in_map_iff in H as (n & E & _); discriminate).
    destruct (C65_lambdify_matrix mc load call_f64 call_fill Hplatform (map Symbol names) A h ms Hh HA Hg Ho' Hz Hs f h' Hf) as (_ & Hv).
    destruct (Hv h ms (steps_none h ms)) as (Hv1 & _). destruct (Hv1 vals) as (rows' & Hc' & _ & _ & Hent'); [rewrite map_length; exact Hl|]. rewrite Hc in Hc'. injection Hc' as <-.
    destruct (Hent' i j Hin) as (t' & row' & v' & Ht' & Hrow' & Hn' & Hv'). rewrite Ht in Ht'. injection Ht' as <-.
    rewrite Hrow in Hrow'. injection Hrow' as <-. rewrite Hent in Hn'. injection Hn' as <-.
    exact (proj2 (machine_close acc mc names vals t v (r, d) Hadd Hmul Hacc Hd Hx Hb Hv' He) F).
  Qed.
  (** The compiled derivative is near the derivative. *)
  Theorem C92_derivative names vals e s env d h f h' v l b : good_names (map Symbol names) ->
    length vals = length names -> Forall is_double vals -> Forall2 (fun n v => env n = double_value v) names vals ->
    reval env e <> None -> expr_diff e (Symbol s) 1 = Ok d ->
    lambdify load (map OExpr (map Symbol names)) (OExpr d) h = (Ok f, h') ->
    exponents_fit d -> bases_finite (machine_value mc (map Symbol names) vals) d ->
    call f vals = Ok (FFloat v) -> finite v ->
    code_estimate acc names (map double_value vals) d = Some (l, b) ->
    has_derivative env e s l /\ Rabs (double_value v - l) <= b.
  Proof.
    intros Hg Hl Hd Henv Hr Hdiff Hf Hx Hb Hc F He. split; [|eapply C92_lambdify_error; eassumption].
    destruct (reval env e) as [r|] eqn:Er; [|congruence]. eapply C24_diff_is_the_derivative; [exact Hdiff|exact Er|].
    apply (C92_exact_value acc names (map double_value vals) env d (l, b)); [|left; exact He].
    clear - Henv. induction Henv; constructor; assumption.
  Qed.
  (** eval_f64 and the compiled function differ by at most the sum of the bounds. *)
  Theorem C92_eval_and_code o acc' names e h f h' vals v w i j : fsum_correct o -> prod_rounds o -> ints_rounds o -> accurate_float acc' o ->
    good_names (map Symbol names) -> lambdify load (map OExpr (map Symbol names)) (OExpr e) h = (Ok f, h') -> length vals = length names -> Forall is_double vals ->
    exponents_fit e -> bases_finite (machine_value mc (map Symbol names) vals) e -> bases_finite (f64_value o (map Symbol names) vals) e ->
    call f vals = Ok (FFloat v) -> finite v -> eval_f64 o e (Some (combine (map Symbol names) vals)) = Ok w -> finite w ->
    code_estimate acc names (map double_value vals) e = Some i -> eval_estimate acc' names (map double_value vals) e = Some j ->
    fst i = fst j /\ Rabs (double_value v - double_value w) <= snd i + snd j.
  Proof.
    intros Hs Hp Hi Ha Hg Hf Hl Hd Hx Hb1 Hb2 Hc Fv He Fw Ei Ej.
    assert (E : fst i = fst j).
    { assert (Hn : NoDup names).
      { destruct Hg as (ns & Hns & Hnd & _). replace names with ns; [exact Hnd|]. clear - Hns. revert ns Hns. induction names as [|n names IH]; intros ns H; cbn in H; [congruence|].
        destruct (mapM tree_str (map Symbol names)) as [ns'|] eqn:E; cbn in H; [|discriminate]. injection H as <-. rewrite (IH ns' eq_refl). reflexivity. }
      assert (Henv : exists env : string -> R, Forall2 (fun n x => env n = x) names (map double_value vals)).
      { clear - Hn Hl. revert vals Hl. induction Hn as [|n names Hnin Hn IH]; intros [|x vals] Hl; try discriminate; [exists (fun _ => 0); constructor|].
        destruct (IH vals) as (env & Henv); [injection Hl as <-; reflexivity|]. exists (fun s => if String.eqb s n then double_value x else env s). cbn [map]. constructor.
        - rewrite String.eqb_refl. reflexivity.
        - clear - Hnin Henv. induction Henv as [|s y names xs H _ IH]; constructor.
          + destruct (String.eqb_spec s n) as [->|_]; [destruct Hnin; left; reflexivity|exact H].
          + apply IH. intros X. apply Hnin. right. exact X. }
      destruct Henv as (env & Henv). pose proof (C92_exact_value acc names _ env e i Henv (or_introl Ei)) as E1. pose proof (C92_exact_value acc' names _ env e j Henv (or_intror Ej)) as E2. congruence. }
    split; [exact E|]. destruct i as [r d], j as [r' d']. cbn [fst snd] in *. subst r'.
    pose proof (C92_lambdify_error names e h f h' vals v r d Hg Hf Hl Hd Hx Hb1 Hc Fv Ei) as B1.
    pose proof (C92_eval_error acc' o names vals e w r d' Hs Hp Hi Ha Hd Hx Hb2 He Fw Ej) as B2.
    replace (double_value v - double_value w) with ((double_value v - r) + (r - double_value w)) by ring. apply Rle_trans with (1 := Rabs_triang _ _).
    rewrite (Rabs_minus_sym r). lra.
  Qed.
End Platform.

(** ** Cases *)
From Flocq Require Import Core.
(** A platform whose sin, cos and pow return the nearest double. *)
Definition nearest_double (x : R) : spec_float :=
  SpecFloat.binary_normalize 53 1024 (ZnearestE (scaled_mantissa radix2 (SpecFloat.fexp 53 1024) x)) (cexp radix2 (SpecFloat.fexp 53 1024) x) false.
Lemma nearest_double_cases x : (Rabs (rnd x) < bpow radix2 1024 /\ is_double (nearest_double x) /\ finite (nearest_double x) /\ double_value (nearest_double x) = rnd x) \/
  exists s, nearest_double x = S754_infinity s.
Proof.
  assert (Er : rnd (rnd x) = rnd x).
  { apply round_generic; [apply valid_rnd_N|]. apply generic_format_round; [apply BinarySingleNaN.fexp_correct; reflexivity|apply valid_rnd_N]. }
  destruct (normalize_cases (ZnearestE (scaled_mantissa radix2 (SpecFloat.fexp 53 1024) x)) (cexp radix2 (SpecFloat.fexp 53 1024) x) false) as [H|[_ H]]; [left|right; exact H].
  change (Defs.F2R _) with (rnd x) in H. rewrite Er in H. exact H.
Qed.
Lemma nearest_double_is x : is_double (nearest_double x) /\ (finite (nearest_double x) -> Rabs (double_value (nearest_double x) - x) <= unit_roundoff * Rabs x + half_least).
Proof.
  destruct (nearest_double_cases x) as [(_ & Hd & _ & E)|(s & E)].
  - split; [exact Hd|]. intros _. rewrite E. apply rnd_any.
  - rewrite E. split; [exact Logic.I|intros []].
Qed.
Definition round_trig (f : R -> R) (a : spec_float) : spec_float := if is_finite a then nearest_double (f (double_value a)) else S754_nan.
Definition round_pow (a b : spec_float) : spec_float :=
  let n := Int_part (double_value b) in
  if is_finite a || (n =? 0)%Z then nearest_double (powerRZ (double_value a) n) else S754_nan.
Definition mc_round := mkMachine (SFadd 53 1024) (SFmul 53 1024) round_pow (round_trig Rtrigo_def.sin) (round_trig Rtrigo_def.cos).
Definition o_round : float_ops spec_float := mkFloat _ (fl_of_int o_ints) exact_fsum (fl_prod o_ints)
  (fun a b => Ok (round_pow a b)) (fun a => Ok (round_trig Rtrigo_def.sin a)) (fun a => Ok (round_trig Rtrigo_def.cos a)).
Definition acc_round := mkAccuracy (unit_roundoff + half_least) unit_roundoff half_least.
Lemma finite_dec a : is_finite a = true <-> finite a.
Proof. destruct a; cbn; split; try discriminate; try contradiction; auto. Qed.
Lemma round_trig_accurate f (returns : spec_float -> spec_float -> Prop) : (forall x, Rabs (f x) <= 1) -> (forall a v, returns a v -> v = round_trig f a) -> trig_accurate acc_round f returns.
Proof.
  intros Hf Hr a v Ha H. apply Hr in H. subst v. unfold round_trig. destruct (is_finite a) eqn:E; [|split; [exact Logic.I|intros []]].
  destruct (nearest_double_is (f (double_value a))) as [Hd Hn]. split; [exact Hd|]. intros F. split; [apply finite_dec, E|]. specialize (Hn F). cbn [trig_error acc_round].
  pose proof u_pos. specialize (Hf (double_value a)). nra.
Qed.
Lemma round_pow_accurate (returns : spec_float -> spec_float -> spec_float -> Prop) : (forall a b v, returns a b v -> v = round_pow a b) -> pow_accurate acc_round returns.
Proof.
  intros Hr. split; [left; apply u_pos|]. intros a b n v Ha (_ & _ & Hb) H. apply Hr in H. subst v. unfold round_pow. rewrite Hb.
  replace (Int_part (IZR n)) with n by (symmetry; apply Int_part_IZR).
  destruct (is_finite a || (n =? 0)%Z)%bool eqn:E; [|split; [exact Logic.I|intros []]].
  destruct (nearest_double_is (powerRZ (double_value a) n)) as [Hd Hn]. split; [exact Hd|]. intros F. split.
  - intros Hp. apply Bool.orb_true_iff in E as [E|E]; [apply finite_dec, E|]. apply Z.eqb_eq in E. lia.
  - intros _ _. apply Hn, F.
Qed.
Lemma sin_abs x : Rabs (Rtrigo_def.sin x) <= 1. Proof. apply Rabs_le, SIN_bound. Qed.
Lemma cos_abs x : Rabs (Rtrigo_def.cos x) <= 1. Proof. apply Rabs_le, COS_bound. Qed.
Lemma mc_round_accurate : accurate_machine acc_round mc_round.
Proof.
  split; [|split]; [apply round_trig_accurate; [exact sin_abs|intros a v H; symmetry; exact H]|apply round_trig_accurate; [exact cos_abs|intros a v H; symmetry; exact H]
    |apply round_pow_accurate; intros a b v H; symmetry; exact H].
Qed.
Lemma o_round_accurate : accurate_float acc_round o_round.
Proof.
  split; [|split]; [apply round_trig_accurate; [exact sin_abs|intros a v H; injection H as <-; reflexivity]
    |apply round_trig_accurate; [exact cos_abs|intros a v H; injection H as <-; reflexivity]
    |apply round_pow_accurate; intros a b v H; injection H as <-; reflexivity].
Qed.
(** Finite, and not large. *)
Definition bounded (v : spec_float) (b : R) : Prop := is_double v /\ finite v /\ Rabs (double_value v) <= b.
Lemma half_least_small : 0 < half_least <= unit_roundoff / 2.
Proof.
  unfold half_least, unit_roundoff, Rdiv. split; [apply Rinv_0_lt_compat, pow_lt; lra|]. rewrite <- Rinv_mult. apply Rinv_le_contravar.
  - apply Rmult_lt_0_compat; [apply pow_lt|]; lra.
  - change (2 ^ 53 * 2 <= 2 ^ 1075). replace (2 ^ 53 * 2) with (2 ^ 54) by (rewrite <- (tech_pow_Rmult 2 53); ring). apply Rle_pow; [lra|lia].
Qed.
Lemma u_small : 0 < unit_roundoff <= / 1000.
Proof. split; [apply u_pos|]. unfold unit_roundoff. apply Rinv_le_contravar; [lra|]. rewrite pow_IZR. apply IZR_le. discriminate. Qed.
Lemma rnd_bound x b : Rabs x <= b -> Rabs (rnd x) <= 2 * b + 1.
Proof.
  intros H. pose proof (rnd_any x) as G. pose proof half_least_small. pose proof u_small. pose proof (Rabs_pos x).
  replace (rnd x) with ((rnd x - x) + x) by ring. apply Rle_trans with (1 := Rabs_triang _ _). nra.
Qed.
Lemma nearest_bounded x b : Rabs x <= b -> b <= 2 ^ 1000 -> bounded (nearest_double x) (2 * b + 1).
Proof.
  intros H Hb. destruct (normalize_cases (ZnearestE (scaled_mantissa radix2 (SpecFloat.fexp 53 1024) x)) (cexp radix2 (SpecFloat.fexp 53 1024) x) false) as [(_ & Hd & Hf & E)|[Hge _]].
  - split; [exact Hd|]. split; [exact Hf|]. destruct (nearest_double_cases x) as [(_ & _ & _ & E')|(s & E')]; [rewrite E'; apply rnd_bound, H|].
    unfold nearest_double in E'. rewrite E' in Hf. destruct Hf.
  - exfalso. assert (Er : rnd (rnd x) = rnd x).
    { apply round_generic; [apply valid_rnd_N|]. apply generic_format_round; [apply BinarySingleNaN.fexp_correct; reflexivity|apply valid_rnd_N]. }
    change (Defs.F2R _) with (rnd x) in Hge. rewrite Er in Hge.
    assert (X : in_range x) by (apply small_in_range; lra). apply in_range_rnd in X. lra.
Qed.
Lemma add_bounded a b A B : bounded a A -> bounded b B -> A + B <= 2 ^ 1000 -> bounded (SFadd 53 1024 a b) (2 * (A + B) + 1).
Proof.
  intros (Ha & Fa & Ba) (Hb & Fb & Bb) H.
  assert (S : Rabs (double_value a + double_value b) <= A + B) by (apply Rle_trans with (1 := Rabs_triang _ _); lra).
  assert (F : finite (SFadd 53 1024 a b)) by (apply add_finite; try assumption; apply small_in_range; lra).
  destruct (add_value a b Ha Hb) as [Hd Hf]. destruct (Hf F) as (_ & _ & E). split; [exact Hd|]. split; [exact F|]. rewrite E. apply rnd_bound, S.
Qed.
Lemma mul_bounded a b A B : bounded a A -> bounded b B -> A * B <= 2 ^ 1000 -> bounded (SFmul 53 1024 a b) (2 * (A * B) + 1).
Proof.
  intros (Ha & Fa & Ba) (Hb & Fb & Bb) H.
  assert (S : Rabs (double_value a * double_value b) <= A * B) by (rewrite Rabs_mult; apply Rmult_le_compat; try apply Rabs_pos; assumption).
  assert (F : finite (SFmul 53 1024 a b)) by (apply mul_finite; try assumption; apply small_in_range; lra).
  destruct (mul_value a b Ha Hb) as [Hd Hf]. destruct (Hf F) as (_ & _ & E). split; [exact Hd|]. split; [exact F|]. rewrite E. apply rnd_bound, S.
Qed.
Lemma trig_bounded f a : (forall x, Rabs (f x) <= 1) -> finite a -> bounded (round_trig f a) 3.
Proof.
  intros Hf Fa. unfold round_trig. rewrite (proj2 (finite_dec a) Fa). replace 3 with (2 * 1 + 1) by ring. apply nearest_bounded; [apply Hf|apply pow_R1_Rle; lra].
Qed.
Lemma small_power b : b <= 1000 -> b <= 2 ^ 1000.
Proof. intros H. apply Rle_trans with (1 := H). rewrite pow_IZR. apply IZR_le. discriminate. Qed.

(** sin(x) + x**(-2) at x = 2; the derivative is cos(x) + (-2)*x**((-2) + (-1)). *)
Definition e_wave := tree_call Add [tree_call sin [x]; tree_call Pow [x; int (-2)]].
Definition d_wave := tree_call Add [tree_call cos [x]; tree_call Mul [int (-2); tree_call Pow [x; tree_call Add [int (-2); int (-1)]]]].
Definition v_two := S754_finite false (2 ^ 52) (-51).
Lemma v_two_value : double_value v_two = 2.
Proof.
  change (IZR (2 ^ 52) * / 2 ^ 51 = 2). replace (IZR (2 ^ 52)) with (2 * 2 ^ 51) by (rewrite pow_IZR, <- mult_IZR; reflexivity). field.
Qed.
Lemma wave_pow : pow_estimate acc_round (2, 0) (-3) = Some (/ 8, unit_roundoff / 8 + half_least).
Proof.
  unfold pow_estimate. cbn [fst snd]. change (0 <=? -3)%Z with false. cbv iota. rewrite Rabs_R0, (Rabs_pos_eq 2) by lra. destruct (Rlt_dec 0 2) as [_|H]; [|lra].
  rewrite Rminus_0_r. assert (E : powerRZ 2 (-3) = / 8) by (change (/ 2 ^ 3 = / 8); f_equal; ring). rewrite !E.
  rewrite (Rabs_pos_eq (/ 8)) by lra. cbn [acc_round pow_relative pow_absolute]. do 2 f_equal. field.
Qed.
Lemma v_two_double : is_double v_two.
Proof. repeat constructor; vm_compute; try discriminate; right; discriminate. Qed.
(** The bounds are at most 2**-50. *)
Lemma wave_estimates : exists d d', code_estimate acc_round ["x"] [2] d_wave = Some (Rtrigo_def.cos 2 + (-2 * / 8), d) /\
  eval_estimate acc_round ["x"] [2] d_wave = Some (Rtrigo_def.cos 2 + (-2 * / 8), d') /\ 0 <= d <= 8 * unit_roundoff /\ 0 <= d' <= 8 * unit_roundoff.
Proof.
  set (c := Rtrigo_def.cos 2). pose proof (COS_bound 2) as Hc. fold c in Hc. pose proof half_least_small as Hh. pose proof u_small as Hu.
  set (j := mul_estimate (-2, 0) (/ 8, unit_roundoff / 8 + half_least)).
  assert (Ej : j = (-2 * / 8, unit_roundoff / 4 + 2 * half_least + (/ 4 + (unit_roundoff / 4 + 2 * half_least)) * unit_roundoff + half_least)).
  { unfold j, mul_estimate. cbn [fst snd]. rewrite (Rabs_left1 (-2 * / 8)), (Rabs_left1 (-2)), (Rabs_pos_eq (/ 8)) by lra. f_equal. field. }
  assert (Hj : 0 <= snd j <= 3 * unit_roundoff) by (rewrite Ej; cbn [snd]; nra).
  assert (W : forall sum, estimate acc_round sum ["x"] [2] d_wave = Some (sum (c, 0 + trig_error acc_round) [j])).
  { intros sum. pose proof wave_pow as Hp.
    assert (Ep : estimate acc_round sum ["x"] [2] (tree_call Pow [x; tree_call Add [int (-2); int (-1)]]) = Some (/ 8, unit_roundoff / 8 + half_least)) by exact Hp.
    assert (Em : estimate acc_round sum ["x"] [2] (tree_call Mul [int (-2); tree_call Pow [x; tree_call Add [int (-2); int (-1)]]]) = Some j).
    { match goal with |- estimate _ _ _ _ (tree_call Mul ?l) = _ => change (tree_call Mul l) with (Node (Mul :: l)) end. rewrite (estimate_node acc_round sum ["x"] [2] Mul).
      cbn [opt_map]. rewrite Ep. reflexivity. }
    unfold d_wave. match goal with |- estimate _ _ _ _ (tree_call Add ?l) = _ => change (tree_call Add l) with (Node (Add :: l)) end. rewrite (estimate_node acc_round sum ["x"] [2] Add).
    cbn [opt_map]. rewrite Em. reflexivity. }
  exists (snd (add_estimate (c, 0 + trig_error acc_round) j)), (snd (fsum_estimate [(c, 0 + trig_error acc_round); j])).
  assert (Hs : Rabs (c + -2 * / 8) <= 2) by (apply Rabs_le; lra). pose proof (Rabs_pos (c + -2 * / 8)) as Hp.
  assert (Fj : fst j = -2 * / 8) by (rewrite Ej; reflexivity).
  split; [|split; [|split]].
  - unfold code_estimate. rewrite W. cbn [fold_left]. unfold add_estimate. cbn [fst snd]. rewrite Fj. reflexivity.
  - unfold eval_estimate. rewrite W. unfold fsum_estimate. cbn [map fold_right fst snd]. rewrite Fj. do 2 f_equal. ring.
  - unfold add_estimate. cbn [fst snd acc_round trig_error]. rewrite Fj. nra.
  - unfold fsum_estimate. cbn [map fold_right fst snd acc_round trig_error]. rewrite Fj, !Rplus_0_r. nra.
Qed.
(** [exponents_fit] can be checked, and what the bases are. *)
Lemma powers_checked (p : tree -> tree -> bool) e :
  forallb (fun s => match s with Node [h; b; x0] => negb (tree_eqb h Pow) || p b x0 | _ => true end) (postorder false [] e) = true ->
  forall b x0, reach false [] e (Node [Pow; b; x0]) -> p b x0 = true.
Proof.
  intros H b x0 Hr. rewrite forallb_forall in H. apply ProofTopo.post_reach, H in Hr. rewrite tree_eqb_refl in Hr. exact Hr.
Qed.
Lemma wave_exponents : exponents_fit d_wave.
Proof.
  intros b x0 Hr. apply fits_decided. revert b x0 Hr. apply (powers_checked (fun _ => fits_b [] [])). vm_compute. reflexivity.
Qed.
Lemma wave_bases value : (forall w, value x = Some w -> finite w) -> bases_finite value d_wave.
Proof.
  assert (H : forall b x0, reach false [] d_wave (Node [Pow; b; x0]) -> tree_eqb b x = true) by (apply (powers_checked (fun b _ => tree_eqb b x)); vm_compute; reflexivity).
  intros Hx b x0 n w Hr _ _ Hw. apply H in Hr. apply Hx. destruct (tree_eqb_spec b x) as [->|_]; [exact Hw|discriminate].
Qed.
Lemma fsum_bounded a b A B : bounded a A -> bounded b B -> A + B <= 2 ^ 1000 -> exists v, exact_fsum [a; b] = Ok v /\ finite v.
Proof.
  intros (Ha & Fa & Ba) (Hb & Fb & Bb) H. unfold exact_fsum. cbn [forallb]. rewrite (proj2 (finite_dec a) Fa), (proj2 (finite_dec b) Fb). cbn [andb].
  assert (S : sum_of [a; b] = double_value a + double_value b) by (unfold sum_of; cbn [map fold_right]; ring).
  assert (R : in_range (sum_of [a; b])) by (rewrite S; apply small_in_range; apply Rle_trans with (1 := Rabs_triang _ _); lra).
  rewrite (sum_exact [a; b]) in R by (intros c [<-|[<-|[]]]; auto).
  destruct (normalize_cases (fold_right Z.add 0 (map scaled [a; b]))%Z (-1074) false) as [(_ & _ & Hf & _)|(Hge & _)].
  - destruct (SpecFloat.binary_normalize _ _ _ _ _) as [| | |]; try contradiction; eexists; (split; [reflexivity|exact Logic.I]).
  - exfalso. apply in_range_rnd in R. lra.
Qed.
Lemma wave_parts (be : spec_float) : is_int be (-3) -> exists c2, constant (-2) = Some c2 /\
  bounded (round_trig Rtrigo_def.cos v_two) 3 /\ bounded (SFmul 53 1024 c2 (round_pow v_two be)) 13.
Proof.
  intros (_ & _ & Hb). destruct (constant_some (-2)) as (c2 & E2 & H2 & F2 & V2); [lia|]. exists c2. split; [exact E2|]. split; [apply trig_bounded; [exact cos_abs|exact Logic.I]|].
  assert (B2 : bounded c2 2) by (split; [exact H2|]; split; [exact F2|]; rewrite V2, Rabs_left1; lra).
  assert (Bp : bounded (round_pow v_two be) 3).
  { unfold round_pow. rewrite Hb, Int_part_IZR. cbn [is_finite v_two orb]. replace 3 with (2 * 1 + 1) by ring. fold v_two. rewrite v_two_value.
    apply nearest_bounded; [|apply small_power; lra]. assert (E : powerRZ 2 (-3) = / 8) by (change (/ 2 ^ 3 = / 8); f_equal; ring). rewrite E, Rabs_pos_eq; lra. }
  replace 13 with (2 * (2 * 3) + 1) by ring. apply mul_bounded; [exact B2|exact Bp|apply small_power; lra].
Qed.
Lemma wave_machine : exists w, machine_value mc_round (map Symbol ["x"]) [v_two] d_wave = Some w /\ finite w.
Proof.
  destruct (machine_int mc_round [] [] [] (fun a b => eq_refl) (fun a b => eq_refl) (Forall2_nil _) (tree_call Add [int (-2); int (-1)]) (-3)) as (be & Ee & Hbe);
    [apply fits_decided; vm_compute; reflexivity|reflexivity|].
  destruct (wave_parts be Hbe) as (c2 & E2 & Bc & Bm). exists (SFadd 53 1024 (round_trig Rtrigo_def.cos v_two) (SFmul 53 1024 c2 (round_pow v_two be))). split.
  - rewrite <- (int_value_machine mc_round ["x"] [v_two] _ (-3)%Z) in Ee by reflexivity.
    change (tree_call Add [int (-2); int (-1)]) with (Node [Add; int (-2); int (-1)]) in Ee.
    change d_wave with (Node [Add; Node [cos; x]; Node [Mul; int (-2); Node [Pow; x; Node [Add; int (-2); int (-1)]]]]).
    assert (Ep : machine_value mc_round (map Symbol ["x"]) [v_two] (Node [Pow; x; Node [Add; int (-2); int (-1)]]) = Some (round_pow v_two be)).
    { rewrite machine_value_node. cbn [opt_map]. rewrite Ee. reflexivity. }
    assert (Ei : machine_value mc_round (map Symbol ["x"]) [v_two] (int (-2)) = Some c2) by exact E2.
    assert (Em : machine_value mc_round (map Symbol ["x"]) [v_two] (Node [Mul; int (-2); Node [Pow; x; Node [Add; int (-2); int (-1)]]]) = Some (SFmul 53 1024 c2 (round_pow v_two be))).
    { rewrite machine_value_node. cbn [opt_map]. rewrite Ep, Ei. reflexivity. }
    rewrite machine_value_node. cbn [opt_map]. rewrite Em. reflexivity.
  - apply (add_bounded _ _ 3 13 Bc Bm), small_power. lra.
Qed.
Lemma wave_eval : exists w, eval_f64 o_round d_wave (Some (combine (map Symbol ["x"]) [v_two])) = Ok w /\ finite w.
Proof.
  set (ev := meaning (f64_leaf o_round (combine (map Symbol ["x"]) [v_two])) (f64_op o_round)).
  assert (Ee : exists be, ev (Node [Add; int (-2); int (-1)]) = Ok be /\ is_int be (-3)).
  { destruct (exact_fsum [S754_finite true (2 ^ 52) (-51); S754_finite true (2 ^ 52) (-52)]) as [be|] eqn:E; [|vm_compute in E; discriminate]. exists be.
    assert (Eb : ev (Node [Add; int (-2); int (-1)]) = Ok be) by (rewrite <- E; reflexivity). split; [exact Eb|].
    unfold ev in Eb. destruct C74_case as (H1 & H2 & H3 & _).
    refine (f64_int o_round (map Symbol ["x"]) [2%Z] [v_two] _ _ _ _ _ (-3)%Z be _ _ Eb).
    - exact H1.
    - exact H2.
    - exact H3.
    - constructor; [|constructor]. split; [exact v_two_double|]. split; [exact Logic.I|]. exact v_two_value.
    - apply fits_decided. vm_compute. reflexivity.
    - reflexivity. }
  destruct Ee as (be & Ee & Hbe). destruct (wave_parts be Hbe) as (c2 & E2 & Bc & Bm).
  destruct (fsum_bounded _ _ 3 13 Bc Bm) as (w & Ew & Fw); [apply small_power; lra|]. exists w. split; [|exact Fw]. apply eval_f64_meaning. fold ev.
  assert (N : forall h args, ev (Node (h :: args)) = (do vs <- mapM ev args; f64_op o_round h vs)) by reflexivity.
  change d_wave with (Node [Add; Node [cos; x]; Node [Mul; int (-2); Node [Pow; x; Node [Add; int (-2); int (-1)]]]]).
  assert (Ex : ev x = Ok v_two) by reflexivity.
  assert (Ei : ev (int (-2)) = Ok c2) by (change (of_option OverflowError (constant (-2)) = Ok c2); rewrite E2; reflexivity).
  assert (Ep : ev (Node [Pow; x; Node [Add; int (-2); int (-1)]]) = Ok (round_pow v_two be)).
  { rewrite N. cbn [mapM bind]. rewrite Ex, Ee. reflexivity. }
  assert (Em : ev (Node [Mul; int (-2); Node [Pow; x; Node [Add; int (-2); int (-1)]]]) = Ok (SFmul 53 1024 c2 (round_pow v_two be))).
  { rewrite N. cbn [mapM bind]. rewrite Ei, Ep. reflexivity. }
  assert (Ec : ev (Node [cos; x]) = Ok (round_trig Rtrigo_def.cos v_two)) by (rewrite N; cbn [mapM bind]; rewrite Ex; reflexivity).
  rewrite N. cbn [mapM bind]. rewrite Ec, Em. exact Ew.
Qed.
Example C92_case :
  fsum_correct o_round /\ prod_rounds o_round /\ ints_rounds o_round /\ accurate_float acc_round o_round /\
  ieee_add mc_round /\ ieee_mul mc_round /\ accurate_machine acc_round mc_round /\ faithful mc_round sample_load (sample_f64 mc_round) (sample_fill mc_round) /\
  good_names (map Symbol ["x"]) /\ Forall is_double [v_two] /\ double_value v_two = 2 /\
  reval (fun _ => 2) e_wave <> None /\ expr_diff e_wave x 1 = Ok d_wave /\ exponents_fit d_wave /\
  bases_finite (machine_value mc_round (map Symbol ["x"]) [v_two]) d_wave /\ bases_finite (f64_value o_round (map Symbol ["x"]) [v_two]) d_wave /\
  (exists d d', code_estimate acc_round ["x"] [2] d_wave = Some (Rtrigo_def.cos 2 + (-2 * / 8), d) /\
     eval_estimate acc_round ["x"] [2] d_wave = Some (Rtrigo_def.cos 2 + (-2 * / 8), d') /\ 0 <= d <= 8 * unit_roundoff /\ 0 <= d' <= 8 * unit_roundoff) /\
  (exists w, eval_f64 o_round d_wave (Some (combine (map Symbol ["x"]) [v_two])) = Ok w /\ finite w) /\
  exists f v, lambdify sample_load (map OExpr (map Symbol ["x"])) (OExpr d_wave) heap_ab = (Ok f, heap_ab) /\
    call_compiled (sample_f64 mc_round) (sample_fill mc_round) f [v_two] = Ok (FFloat v) /\ finite v.
Proof.
  destruct C74_case as (_ & H2 & H3 & _).
  assert (Hg : good_names (map Symbol ["x"])).
  { exists ["x"]. split; [reflexivity|]. split; [constructor; [intros []|constructor]|]. split; [repeat constructor; discriminate|]. intros k [H|[]]; discriminate. }
  assert (Hx : forall w, Some v_two = Some w -> finite w) by (intros w H; injection H as <-; exact Logic.I).
  split; [exact o_ints_fsum|]. split; [exact H2|]. split; [exact H3|]. split; [exact o_round_accurate|].
  split; [intros a b; reflexivity|]. split; [intros a b; reflexivity|]. split; [exact mc_round_accurate|]. split; [apply sample_faithful|].
  split; [exact Hg|]. split; [constructor; [exact v_two_double|constructor]|]. split; [exact v_two_value|].
  split.
  { assert (Ep : reval (fun _ => 2) (Node [Pow; x; int (-2)]) = Some (powerRZ 2 (-2))) by (apply rpow_int_pos; lra).
    assert (N : forall h args, reval (fun _ => 2) (Node (h :: args)) = match all_defined (reval (fun _ => 2)) args with Some vs => rop h vs | None => None end) by reflexivity.
    change e_wave with (Node [Add; Node [sin; x]; Node [Pow; x; int (-2)]]). rewrite N. cbn [all_defined]. rewrite Ep. discriminate. }
  split; [vm_compute; reflexivity|]. split; [exact wave_exponents|]. split; [apply wave_bases; exact Hx|]. split; [apply wave_bases; exact Hx|].
  split; [exact wave_estimates|]. split; [exact wave_eval|].
  destruct (proj2 (proj1 (C65_lambdify_expression mc_round sample_load (sample_f64 mc_round) (sample_fill mc_round) (sample_faithful mc_round) (map Symbol ["x"]) d_wave heap_ab Hg))) as (f & Hf).
  { intros mc [|v [|]] Hl; try discriminate. destruct (constant (-2)) as [c2|] eqn:E2; [|vm_compute in E2; discriminate]. destruct (constant (-1)) as [c1|] eqn:E1; [|vm_compute in E1; discriminate].
    eexists. change d_wave with (Node [Add; Node [cos; x]; Node [Mul; int (-2); Node [Pow; x; Node [Add; int (-2); int (-1)]]]]).
    assert (Ea : machine_value mc (map Symbol ["x"]) [v] (int (-2)) = Some c2) by exact E2. assert (Eb : machine_value mc (map Symbol ["x"]) [v] (int (-1)) = Some c1) by exact E1.
    repeat (rewrite machine_value_node; cbn [opt_map]). rewrite Ea, Eb. reflexivity. }
  destruct wave_machine as (w & Ew & Fw). destruct (proj2 (C65_lambdify_expression mc_round sample_load (sample_f64 mc_round) (sample_fill mc_round) (sample_faithful mc_round) (map Symbol ["x"]) d_wave heap_ab Hg) f heap_ab Hf) as (_ & Hv & _).
  destruct (Hv [v_two] eq_refl) as (w' & Ew' & Hc). exists f, w'. split; [exact Hf|]. split; [exact Hc|]. replace w' with w by congruence. exact Fw.
Qed.
Print Assumptions C92_exact_value.
Print Assumptions C92_eval_error.
Print Assumptions C92_lambdify_error.
Print Assumptions C92_lambdify_matrix_error.
Print Assumptions C92_derivative.
Print Assumptions C92_eval_and_code.
