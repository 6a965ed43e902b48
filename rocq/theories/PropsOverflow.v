(** * Estimates decide in advance that nothing overflows: C109. *)
From Coq Require Import SpecFloat Reals Lra.
From Verif Require Import Py ModelTree SpecTree ProofBase ModelEval SpecEval ModelDiff ModelSym ModelCas ModelMatrix ModelLLVM ModelApi SpecMatrix SpecLLVM SpecLambdify SpecApi
  SpecReal ProofReal SpecDiff ProofDiff ProofBin ProofCasDiff SpecCas ProofFloat ProofLLVM ProofF64 ProofSums PropsLLVM SpecExact ProofExact SpecError ProofError ProofApi PropsMatrix PropsApi PropsReal PropsExact PropsError
  SpecBound ProofBound PropsBound SpecOverflow ProofOverflow Samples.
Local Open Scope string_scope.
Local Open Scope R_scope.

(** C109. If all estimates are moderate, eval_f64 returns a finite double, within the bound. *)
Theorem C109_eval_f64 acc o names vals e r d : fsum_correct o -> prod_rounds o -> ints_rounds o -> accurate_float acc o -> total_float o ->
  Forall is_double vals -> Forall finite vals -> exponents_fit e ->
  moderate_everywhere (eval_estimate acc names (map double_value vals)) e -> eval_estimate acc names (map double_value vals) e = Some (r, d) ->
  exists v, eval_f64 o e (Some (combine (map Symbol names) vals)) = Ok v /\ finite v /\ Rabs (double_value v - r) <= d.
Proof.
  intros Hs Hp Hi Ha Ht Hd Hf Hx Hm He. destruct (f64_total acc o names vals e (r, d) Hs Hp Hi Ha Ht Hd Hf Hx Hm He) as (v & Hv & _ & F & B). exists v.
  unfold f64_value in Hv. destruct (eval_f64 o e (Some (combine (map Symbol names) vals))) as [w|]; [|discriminate]. injection Hv as ->. split; [reflexivity|]. split; assumption.
Qed.

Section Platform.
  Context (mc : machine) {code : Type} (load : string -> res code)
    (call_f64 : code -> list spec_float -> spec_float) (call_fill : code -> nat -> list spec_float -> list spec_float).
  Context (Hplatform : faithful mc load call_f64 call_fill) (Hadd : ieee_add mc) (Hmul : ieee_mul mc) (acc : accuracy) (Hacc : accurate_machine acc mc) (Htot : total_machine mc).
  Notation call := (call_compiled call_f64 call_fill).

  (** lambdify accepts the expression, and the function it makes returns a finite double, within the bound. *)
  Theorem C109_lambdify names vals e h r d : good_names (map Symbol names) -> length vals = length names -> Forall is_double vals -> Forall finite vals ->
    exponents_fit e -> moderate_everywhere (code_estimate acc names (map double_value vals)) e -> code_estimate acc names (map double_value vals) e = Some (r, d) ->
    exists f, lambdify load (map OExpr (map Symbol names)) (OExpr e) h = (Ok f, h) /\
      exists v, call f vals = Ok (FFloat v) /\ finite v /\ Rabs (double_value v - r) <= d.
  Proof.
    intros Hg Hl Hd Hfin Hx Hm He. destruct (C65_lambdify_expression mc load call_f64 call_fill Hplatform (map Symbol names) e h Hg) as [Hacc' Hrun].
    destruct (proj2 Hacc') as (f & Hf).
    { intros mc' vals' Hl'. rewrite map_length in Hl'. apply (estimate_accepted acc _ names (map double_value vals) e Hm); [rewrite map_length; exact Hl|exact Hl']. }
    exists f. split; [exact Hf|]. destruct (Hrun f h Hf) as (_ & Hv & _). destruct (Hv vals) as (w & Ew & Hw); [rewrite map_length; exact Hl|].
    destruct (machine_total acc mc names vals e (r, d) Hadd Hmul Hacc Htot Hd Hfin Hx Hm He) as (v & Ev & _ & F & B). exists v.
    replace v with w by congruence. split; [exact Hw|]. replace w with v by congruence. split; assumption.
  Qed.
  (** The same for every entry of a matrix. *)
  Theorem C109_lambdify_matrix names vals A h ms : history h ms -> In A ms ->
    good_names (map Symbol names) -> ~ In "_out"%string names -> (Z.of_nat (m_nrows A) * Z.of_nat (m_ncols A) <= 2 ^ 31)%Z ->
    length vals = length names -> Forall is_double vals -> Forall finite vals ->
    (forall i j, inside A i j -> exists t, get A i j h = Ok t /\ exponents_fit t /\ moderate_everywhere (code_estimate acc names (map double_value vals)) t) ->
    exists f, lambdify load (map OExpr (map Symbol names)) (OMatrix A) h = (Ok f, h) /\
      exists rows, call f vals = Ok (FArray rows) /\ length rows = m_nrows A /\ Forall (fun row => length row = m_ncols A) rows /\
        forall i j, inside A i j -> exists t row v r d, get A i j h = Ok t /\ nth_error rows (Z.to_nat i) = Some row /\ nth_error row (Z.to_nat j) = Some v /\
          code_estimate acc names (map double_value vals) t = Some (r, d) /\ finite v /\ Rabs (double_value v - r) <= d.
  Proof.
    intros Hh HA Hg Ho Hs Hl Hd Hfin Hall.
    assert (Ho' : forall s, In s (map Symbol names) -> tree_str s <> Ok "_out"%string).
    { intros s Hs'. apply in_map_iff in Hs' as (n & <- & Hn). intros E. apply Ho. replace "_out"%string with n; [exact Hn|]. unfold tree_str in E. cbn in E. congruence. }
    assert (Hz : ~ In (Integer 0) (map Symbol names)) by (intros H; apply in_map_iff in H as (n & E & _); discriminate).
    destruct (proj2 (C65_lambdify_matrix_accepts mc load call_f64 call_fill Hplatform (map Symbol names) A h ms Hh HA Hg Ho' Hs)) as (f & Hf).
    { intros mc' vals' Hl' i j Hin _. rewrite map_length in Hl'. destruct (Hall i j Hin) as (t & Ht & _ & Hm). exists t.
      destruct (estimate_accepted acc _ names (map double_value vals) t Hm) with (mc := mc') (vals := vals') as (v & Hv); [rewrite map_length; exact Hl|exact Hl'|]. eauto. }
    exists f. split; [exact Hf|]. destruct (C65_lambdify_matrix mc load call_f64 call_fill Hplatform (map Symbol names) A h ms Hh HA Hg Ho' Hz Hs f h Hf) as (_ & Hv).
    destruct (Hv h ms (steps_none h ms)) as (Hv1 & _). destruct (Hv1 vals) as (rows & Hc & Hnr & Hnc & Hent); [rewrite map_length; exact Hl|]. exists rows. split; [exact Hc|]. split; [exact Hnr|]. split; [exact Hnc|].
    intros i j Hin. destruct (Hent i j Hin) as (t & row & v & Ht & Hrow & Hn & Hval). destruct (Hall i j Hin) as (t' & Ht' & Hx & Hm). replace t' with t in * by congruence.
    destruct (proj1 Hm t (reach_refl t)) as ([r d] & He & _). exists t, row, v, r, d. split; [exact Ht|]. split; [exact Hrow|]. split; [exact Hn|]. split; [exact He|].
    destruct (machine_total acc mc names vals t (r, d) Hadd Hmul Hacc Htot Hd Hfin Hx Hm He) as (w & Ew & _ & F & B). replace v with w by congruence. split; assumption.
  Qed.
  (** A derivative: where its estimates are moderate, the derivative exists and the compiled function returns it within the bound. *)
  Theorem C109_derivative names vals e s env de h l b : good_names (map Symbol names) -> length vals = length names -> Forall is_double vals -> Forall finite vals ->
    Forall2 (fun n v => env n = double_value v) names vals -> reval env e <> None -> expr_diff e (Symbol s) 1 = Ok de ->
    exponents_fit de -> moderate_everywhere (code_estimate acc names (map double_value vals)) de -> code_estimate acc names (map double_value vals) de = Some (l, b) ->
    has_derivative env e s l /\
    exists f, lambdify load (map OExpr (map Symbol names)) (OExpr de) h = (Ok f, h) /\
      exists v, call f vals = Ok (FFloat v) /\ finite v /\ Rabs (double_value v - l) <= b.
  Proof.
    intros Hg Hl Hd Hfin Henv Hr Hdiff Hx Hm He. split; [|apply C109_lambdify; assumption].
    destruct (reval env e) as [r|] eqn:Er; [|congruence]. eapply C24_diff_is_the_derivative; [exact Hdiff|exact Er|].
    apply (C92_exact_value acc names (map double_value vals) env de (l, b)); [|left; exact He].
    clear - Henv. induction Henv; constructor; assumption.
  Qed.
  (** eval_f64 and the compiled function both return, and differ by at most the sum of the bounds. *)
  Theorem C109_eval_and_code o acc' names vals e h i j : fsum_correct o -> prod_rounds o -> ints_rounds o -> accurate_float acc' o -> total_float o ->
    good_names (map Symbol names) -> length vals = length names -> Forall is_double vals -> Forall finite vals -> exponents_fit e ->
    moderate_everywhere (code_estimate acc names (map double_value vals)) e -> moderate_everywhere (eval_estimate acc' names (map double_value vals)) e ->
    code_estimate acc names (map double_value vals) e = Some i -> eval_estimate acc' names (map double_value vals) e = Some j ->
    exists f v w, lambdify load (map OExpr (map Symbol names)) (OExpr e) h = (Ok f, h) /\ call f vals = Ok (FFloat v) /\
      eval_f64 o e (Some (combine (map Symbol names) vals)) = Ok w /\ Rabs (double_value v - double_value w) <= snd i + snd j.
  Proof.
    intros Hs Hp Hi Ha Ht Hg Hl Hd Hf Hx Hm Hm' Ei Ej.
    assert (E : fst i = fst j).
    { assert (Hn : NoDup names).
      { destruct Hg as (ns & Hns & Hnd & _). replace names with ns; [exact Hnd|]. clear - Hns. revert ns Hns. induction names as [|n names IH]; intros ns H; cbn in H; [congruence|].
        destruct (mapM tree_str (map Symbol names)) as [ns'|] eqn:E; cbn in H; [|discriminate]. injection H as <-. rewrite (IH ns' eq_refl). reflexivity. }
      assert (Henv : exists env : string -> R, Forall2 (fun n x => env n = x) names (map double_value vals)).
      { clear - Hn Hl. revert vals Hl. induction Hn as [|n names Hnin Hn IH]; intros [|x0 vals] Hl; try discriminate; [exists (fun _ => 0); constructor|].
        destruct (IH vals) as (env & Henv); [injection Hl as <-; reflexivity|]. exists (fun s => if String.eqb s n then double_value x0 else env s). cbn [map]. constructor.
        - rewrite String.eqb_refl. reflexivity.
        - clear - Hnin Henv. induction Henv as [|s y0 names xs H _ IH]; constructor.
          + destruct (String.eqb_spec s n) as [->|_]; [destruct Hnin; left; reflexivity|exact H].
          + apply IH. intros X. apply Hnin. right. exact X. }
      destruct Henv as (env' & Henv). pose proof (C92_exact_value acc names _ env' e i Henv (or_introl Ei)) as E1. pose proof (C92_exact_value acc' names _ env' e j Henv (or_intror Ej)) as E2. congruence. }
    destruct i as [r d], j as [r' d']. cbn [fst snd] in *. subst r'.
    destruct (C109_lambdify names vals e h r d Hg Hl Hd Hf Hx Hm Ei) as (f & Ef & v & Ev & _ & B1).
    destruct (C109_eval_f64 acc' o names vals e r d' Hs Hp Hi Ha Ht Hd Hf Hx Hm' Ej) as (w & Ew & _ & B2).
    exists f, v, w. split; [exact Ef|]. split; [exact Ev|]. split; [exact Ew|].
    replace (double_value v - double_value w) with ((double_value v - r) + (r - double_value w)) by ring. apply Rle_trans with (1 := Rabs_triang _ _).
    rewrite (Rabs_minus_sym r). lra.
  Qed.
End Platform.

(** ** Cases *)
Definition size (i : estimated) : R := Rabs (fst i) + snd i.
Lemma size_mul i j : 0 <= snd i -> 0 <= snd j -> size (mul_estimate i j) <= 2 * (size i * size j) + 1.
Proof.
  intros Hi Hj. unfold size, mul_estimate. cbn [fst snd]. pose proof half_least_small. pose proof u_small. pose proof (Rabs_pos (fst i)). pose proof (Rabs_pos (fst j)).
  set (P := (Rabs (fst i) + snd i) * (Rabs (fst j) + snd j)). assert (HP : 0 <= P) by (apply Rmult_le_pos; lra).
  assert (P * unit_roundoff <= P * 1) by (apply Rmult_le_compat_l; lra). lra.
Qed.
Lemma size_add i j : 0 <= snd i -> 0 <= snd j -> size (add_estimate i j) <= 2 * (size i + size j) /\ 0 <= snd (add_estimate i j).
Proof.
  intros Hi Hj. unfold size, add_estimate. cbn [fst snd]. pose proof u_small. pose proof (Rabs_triang (fst i) (fst j)). pose proof (Rabs_pos (fst i + fst j)). split; nra.
Qed.
Lemma size_fsum i j : 0 <= snd i -> 0 <= snd j -> size (fsum_estimate [i; j]) <= 2 * (size i + size j) /\ 0 <= snd (fsum_estimate [i; j]).
Proof.
  intros Hi Hj. replace (fsum_estimate [i; j]) with (add_estimate i j); [apply size_add; assumption|].
  unfold fsum_estimate, add_estimate. cbn [map fold_right fst snd]. rewrite !Rplus_0_r. reflexivity.
Qed.
Lemma size_fsum1 i : 0 <= snd i -> size (fsum_estimate [i]) <= 2 * size i.
Proof.
  intros Hi. unfold size, fsum_estimate. cbn [map fold_right fst snd]. rewrite !Rplus_0_r. pose proof u_small. pose proof (Rabs_pos (fst i)). nra.
Qed.
Lemma small_moderate i : size i <= 1000 -> moderate i.
Proof. apply small_power. Qed.

Ltac sl := repeat match goal with H : _ /\ _ |- _ => destruct H end; lra.
(** The estimates of cos(x) + (-2)*x**((-2) + (-1)) at x = 2 are moderate. *)
Lemma wave_moderate (sum : estimated -> list estimated -> estimated) names xs :
  (let est := estimate acc_round sum names xs in est x = Some (2, 0) /\ est (int (-1)) = Some (-1, 0) /\ est (int (-2)) = Some (-2, 0)) -> (forall i : estimated, 0 <= snd i -> size (sum i []) <= 2 * size i) ->
  (forall i j : estimated, 0 <= snd i -> 0 <= snd j -> size (sum i [j]) <= 2 * (size i + size j) /\ 0 <= snd (sum i [j])) ->
  moderate_everywhere (estimate acc_round sum names xs) d_wave.
Proof.
  intros Hx S1 S2. set (est := estimate acc_round sum names xs). pose proof half_least_small as Hh. pose proof u_small as Hu.
  assert (Rm1 : Rabs (-1) = 1) by (rewrite Rabs_left1; lra). assert (Rm2 : Rabs (-2) = 2) by (rewrite Rabs_left1; lra).
  set (i1 := (-1, 0) : estimated). set (i2 := (-2, 0) : estimated). set (ix := (2, 0) : estimated).
  assert (N1 : size i1 <= 2 /\ 0 <= snd i1) by (unfold size, i1; cbn [fst snd]; split; lra).
  assert (N2 : size i2 <= 2 /\ 0 <= snd i2) by (unfold size, i2; cbn [fst snd]; split; lra).
  assert (Nx : size ix <= 2 /\ 0 <= snd ix) by (unfold size, ix; cbn [fst snd]; rewrite Rabs_pos_eq by lra; split; lra).
  set (ic := (Rtrigo_def.cos 2, 0 + trig_error acc_round) : estimated).
  assert (Nc : size ic <= 2 /\ 0 <= snd ic).
  { unfold size, ic. cbn [fst snd trig_error acc_round]. pose proof (cos_abs 2). split; lra. }
  set (ie := sum i2 [i1]). assert (Ne : size ie <= 8 /\ 0 <= snd ie) by (destruct (S2 i2 i1 (proj2 N2) (proj2 N1)); unfold ie; split; [sl|assumption]).
  set (ip := (/ 8, unit_roundoff / 8 + half_least) : estimated).
  assert (Np : size ip <= 1 /\ 0 <= snd ip) by (unfold size, ip; cbn [fst snd]; rewrite Rabs_pos_eq by lra; split; lra).
  set (im := mul_estimate i2 ip). assert (Nm : size im <= 5 /\ 0 <= snd im).
  { split.
    - unfold im. apply Rle_trans with (1 := size_mul i2 ip (proj2 N2) (proj2 Np)). assert (0 <= size ip) by (unfold size, ip; cbn [fst snd]; rewrite Rabs_pos_eq; lra). nra.
    - unfold im, mul_estimate, i2, ip. cbn [fst snd]. rewrite Rm2, (Rabs_left1 (-2 * / 8)), (Rabs_pos_eq (/ 8)) by lra. nra. }
  set (iw := sum ic [im]). assert (Nw : size iw <= 20) by (destruct (S2 ic im (proj2 Nc) (proj2 Nm)); unfold iw; sl).
  set (te := Node [Add; int (-2); int (-1)]). set (tp := Node [Pow; x; te]). set (tm := Node [Mul; int (-2); tp]). set (tc := Node [cos; x]).
  destruct Hx as (Ex & E1 & E2). fold est in Ex, E1, E2. fold ix in Ex. fold i1 in E1. fold i2 in E2.
  assert (Ec : est tc = Some ic) by (unfold tc, est; rewrite (estimate_node acc_round sum names xs cos); cbn [opt_map]; fold est; rewrite Ex; reflexivity).
  assert (Ee : est te = Some ie) by (unfold te, est; rewrite (estimate_node acc_round sum names xs Add); cbn [opt_map]; fold est; rewrite E1, E2; reflexivity).
  assert (Ep : est tp = Some ip) by (unfold tp, est; rewrite (estimate_node acc_round sum names xs Pow); cbn [opt_map]; fold est; rewrite Ex; exact wave_pow).
  assert (Em : est tm = Some im) by (unfold tm, est; rewrite (estimate_node acc_round sum names xs Mul); cbn [opt_map]; fold est; rewrite E2, Ep; reflexivity).
  assert (Ew : est d_wave = Some iw) by (change d_wave with (Node [Add; tc; tm]); unfold est; rewrite (estimate_node acc_round sum names xs Add); cbn [opt_map]; fold est; rewrite Ec, Em; reflexivity).
  assert (Hpost : postorder false [] d_wave = [x; tc; int (-2); x; int (-2); int (-1); te; tp; tm; d_wave]) by (vm_compute; reflexivity).
  split.
  - intros s Hs. apply ProofTopo.post_reach in Hs. rewrite Hpost in Hs.
    repeat (destruct Hs as [<-|Hs]; [eexists; (split; [eassumption|apply small_moderate; sl])|]). destruct Hs.
  - intros h args k Hor Hs Hk. apply ProofTopo.post_reach in Hs. rewrite Hpost in Hs.
    assert (Q : (h = Add /\ args = [int (-2); int (-1)]) \/ (h = Mul /\ args = [int (-2); tp]) \/ (h = Add /\ args = [tc; tm])).
    { clear - Hs Hor. assert (HP : Pow <> Add /\ Pow <> Mul /\ cos <> Add /\ cos <> Mul) by (repeat split; discriminate).
      repeat (destruct Hs as [Hs|Hs]; [try discriminate; injection Hs as <- <-; tauto|]). destruct Hs. }
    clear Hs Hor. destruct Q as [[-> ->]|[[-> ->]|[-> ->]]]; destruct k as [|[|k]]; try (cbn [length] in Hk; lia); cbn [firstn].
    + exists (sum i2 []). split; [unfold est; rewrite (estimate_node acc_round sum names xs Add); cbn [opt_map]; fold est; rewrite E2; reflexivity|]. apply small_moderate. specialize (S1 i2 (proj2 N2)). sl.
    + exists ie. split; [exact Ee|apply small_moderate; sl].
    + exists i2. split; [unfold est; rewrite (estimate_node acc_round sum names xs Mul); cbn [opt_map]; fold est; rewrite E2; reflexivity|]. apply small_moderate. sl.
    + exists im. split; [exact Em|apply small_moderate; sl].
    + exists (sum ic []). split; [unfold est; rewrite (estimate_node acc_round sum names xs Add); cbn [opt_map]; fold est; rewrite Ec; reflexivity|]. apply small_moderate. specialize (S1 ic (proj2 Nc)). sl.
    + exists iw. split; [exact Ew|apply small_moderate; sl].
Qed.
Lemma nearest_finite z : Rabs z <= 2 ^ 1000 -> finite (nearest_double z).
Proof. intros H. apply (nearest_bounded z (2 ^ 1000) H). apply Rle_refl. Qed.
Lemma round_trig_total g (returns : spec_float -> spec_float -> Prop) : (forall z, Rabs (g z) <= 1) -> (forall a, returns a (round_trig g a)) -> trig_total returns.
Proof.
  intros Hg Hr a _ Fa. exists (round_trig g a). split; [apply Hr|]. unfold round_trig. rewrite (proj2 (finite_dec a) Fa). apply nearest_finite.
  apply Rle_trans with (1 := Hg _), pow_R1_Rle. lra.
Qed.
Lemma round_pow_total (returns : spec_float -> spec_float -> spec_float -> Prop) : (forall a b, returns a b (round_pow a b)) -> pow_total returns.
Proof.
  intros Hr a b n _ Fa (_ & _ & Hb) _ H. exists (round_pow a b). split; [apply Hr|]. unfold round_pow. rewrite Hb.
  replace (Int_part (IZR n)) with n by (symmetry; apply Int_part_IZR). rewrite (proj2 (finite_dec a) Fa). apply nearest_finite, H.
Qed.
Lemma mc_round_total : total_machine mc_round.
Proof. split; [|split]; [apply (round_trig_total _ _ sin_abs); reflexivity|apply (round_trig_total _ _ cos_abs); reflexivity|apply round_pow_total; reflexivity]. Qed.
Lemma o_round_total : total_float o_round.
Proof.
  split; [|split; [|split; [|split; [|split]]]].
  - intros n Hn. destruct (constant_moderate n) as (v & Hv & _); [rewrite <- abs_IZR, pow_IZR; apply IZR_le, Hn|]. exists v. cbn [fl_of_int o_round o_ints]. rewrite Hv. reflexivity.
  - intros vs _ Hvs Hpre. cbn [fl_fsum o_round]. unfold exact_fsum.
    assert (Hd : forall a, In a vs -> is_double a /\ finite a) by (intros a Ha; rewrite Forall_forall in Hvs; specialize (Hvs a Ha); tauto).
    replace (forallb is_finite vs) with true by (symmetry; apply forallb_forall; intros a Ha; apply finite_dec, (Hd a Ha)).
    specialize (Hpre (length vs)). rewrite firstn_all in Hpre. apply small_in_range in Hpre. rewrite (sum_exact vs Hd) in Hpre.
    destruct (normalize_cases (fold_right Z.add 0 (map scaled vs))%Z (-1074) false) as [(_ & _ & Hf & _)|(Hge & _)].
    + destruct (SpecFloat.binary_normalize _ _ _ _ _) as [| | |]; try contradiction; eexists; reflexivity.
    + exfalso. apply in_range_rnd in Hpre. lra.
  - intros [|a r] Hne _; [destruct Hne; reflexivity|]. eexists. reflexivity.
  - apply (round_trig_total _ _ sin_abs). reflexivity.
  - apply (round_trig_total _ _ cos_abs). reflexivity.
  - apply round_pow_total. reflexivity.
Qed.
Example C109_case :
  fsum_correct o_round /\ prod_rounds o_round /\ ints_rounds o_round /\ accurate_float acc_round o_round /\ total_float o_round /\
  ieee_add mc_round /\ ieee_mul mc_round /\ accurate_machine acc_round mc_round /\ total_machine mc_round /\
  faithful mc_round sample_load (sample_f64 mc_round) (sample_fill mc_round) /\
  good_names (map Symbol ["x"]) /\ Forall is_double [v_two] /\ Forall finite [v_two] /\
  Forall2 (fun n v => (fun _ : string => 2) n = double_value v) ["x"] [v_two] /\ reval (fun _ => 2) e_wave <> None /\ expr_diff e_wave x 1 = Ok d_wave /\ exponents_fit d_wave /\
  moderate_everywhere (code_estimate acc_round ["x"] (map double_value [v_two])) d_wave /\
  moderate_everywhere (eval_estimate acc_round ["x"] (map double_value [v_two])) d_wave /\
  exists d d', code_estimate acc_round ["x"] (map double_value [v_two]) d_wave = Some (Rtrigo_def.cos 2 + (-2 * / 8), d) /\
     eval_estimate acc_round ["x"] (map double_value [v_two]) d_wave = Some (Rtrigo_def.cos 2 + (-2 * / 8), d') /\ 0 <= d <= 8 * unit_roundoff /\ 0 <= d' <= 8 * unit_roundoff.
Proof.
  destruct C92_case as (H1 & H2 & H3 & H4 & H5 & H6 & H7 & H8 & H9 & H10 & H11 & H12 & H13 & H14 & _ & _ & H15 & _).
  cbn [map]. rewrite H11.
  repeat (split; [first [assumption|exact o_round_total|exact mc_round_total]|]).
  split; [repeat constructor|]. split; [constructor; [symmetry; exact H11|constructor]|]. repeat (split; [assumption|]).
  split; [|split; [|exact H15]].
  - apply wave_moderate; [repeat split; reflexivity|intros i Hi; cbn [fold_left]; unfold size; pose proof (Rabs_pos (fst i)); lra|intros i j; apply size_add].
  - apply wave_moderate; [repeat split; reflexivity|intros i; apply size_fsum1|intros i j; apply size_fsum].
Qed.
Print Assumptions C109_eval_f64.
Print Assumptions C109_lambdify.
Print Assumptions C109_lambdify_matrix.
Print Assumptions C109_derivative.
Print Assumptions C109_eval_and_code.
