(** * Rounding errors: C80. *)
From Coq Require Import SpecFloat Reals Lra.
From Verif Require Import Py ModelTree SpecTree ProofBase ModelEval SpecEval ModelDiff ModelSym ModelCas ModelMatrix ModelLLVM ModelApi SpecMatrix SpecLLVM SpecLambdify SpecApi
  SpecReal ProofReal SpecDiff ProofDiff ProofCasDiff SpecCas ProofFloat ProofLLVM ProofF64 ProofSums PropsLLVM SpecExact ProofExact SpecError ProofError ProofApi PropsMatrix PropsApi PropsReal PropsExact Samples.
Local Open Scope string_scope.
Local Open Scope R_scope.

(** C80. eval_f64 of an expression of integers, arguments, sums and products: if the result is finite and no product underflows,
    its error is at most that of [roundings] roundings of the magnitude; a sum counts as one rounding. *)
Theorem C80_eval_error o symargs vals e v r : fsum_correct o -> prod_rounds o -> ints_rounds o ->
  Forall is_double vals -> eval_f64 o e (Some (combine symargs vals)) = Ok v -> finite v ->
  no_underflow (f64_value o symargs vals) e -> exact_value symargs (map double_value vals) e = Some r ->
  exists m, magnitude symargs (map double_value vals) e = Some m /\ Rabs (double_value v - r) <= growth (roundings (fun _ => 1%nat) e) * m.
Proof.
  intros Hs Hp Hi Hd Hv F Hu Hr. destruct (value_defined _ _ (fun x => x) Rabs e r Hr) as (m & Hm). exists m. split; [exact Hm|].
  apply (f64_near o symargs vals e v r m); assumption.
Qed.

Section Platform.
  Context (mc : machine) {code : Type} (load : string -> res code)
    (call_f64 : code -> list spec_float -> spec_float) (call_fill : code -> nat -> list spec_float -> list spec_float).
  Context (Hplatform : faithful mc load call_f64 call_fill) (Hadd : ieee_add mc) (Hmul : ieee_mul mc).
  Notation call := (call_compiled call_f64 call_fill).

  (** The function made by lambdify: the same, but a sum of n terms counts as n - 1 roundings. *)
  Theorem C80_lambdify_error symargs e h f h' vals v r : good_names symargs ->
    lambdify load (map OExpr symargs) (OExpr e) h = (Ok f, h') -> length vals = length symargs -> Forall is_double vals ->
    call f vals = Ok (FFloat v) -> finite v ->
    no_underflow (machine_value mc symargs vals) e -> exact_value symargs (map double_value vals) e = Some r ->
    exists m, magnitude symargs (map double_value vals) e = Some m /\ Rabs (double_value v - r) <= growth (roundings Nat.pred e) * m.
  Proof.
    intros Hg Hf Hl Hd Hc F Hu Hr.
    destruct (proj2 (C65_lambdify_expression mc load call_f64 call_fill Hplatform symargs e h Hg) f h' Hf) as (_ & Hv & _).
    destruct (Hv vals Hl) as (w & Ew & Hw). rewrite Hw in Hc. injection Hc as ->.
    destruct (value_defined _ _ (fun x => x) Rabs e r Hr) as (m & Hm). exists m. split; [exact Hm|].
    apply (machine_near mc symargs vals e v r m); assumption.
  Qed.
  (** Every entry of a matrix. *)
  Theorem C80_lambdify_matrix_error symargs A h ms f h' vals rows : history h ms -> In A ms ->
    good_names symargs -> (forall s, In s symargs -> tree_str s <> Ok "_out"%string) -> ~ In (Integer 0) symargs ->
    (Z.of_nat (m_nrows A) * Z.of_nat (m_ncols A) <= 2 ^ 31)%Z ->
    lambdify load (map OExpr symargs) (OMatrix A) h = (Ok f, h') -> length vals = length symargs -> Forall is_double vals ->
    call f vals = Ok (FArray rows) ->
    forall i j t row v r, inside A i j -> get A i j h = Ok t -> nth_error rows (Z.to_nat i) = Some row -> nth_error row (Z.to_nat j) = Some v ->
    finite v -> no_underflow (machine_value mc symargs vals) t -> exact_value symargs (map double_value vals) t = Some r ->
    exists m, magnitude symargs (map double_value vals) t = Some m /\ Rabs (double_value v - r) <= growth (roundings Nat.pred t) * m.
  Proof.
    intros Hh HA Hg Ho Hz Hs Hf Hl Hd Hc i j t row v r Hin Ht Hrow Hent F Hu Hr.
    destruct (C65_lambdify_matrix mc load call_f64 call_fill Hplatform symargs A h ms Hh HA Hg Ho Hz Hs f h' Hf) as (_ & Hv).
    destruct (Hv h ms (steps_none h ms)) as (Hv1 & _). destruct (Hv1 vals Hl) as (rows' & Hc' & _ & _ & He). rewrite Hc in Hc'. injection Hc' as <-.
    destruct (He i j Hin) as (t' & row' & v' & Ht' & Hrow' & Hent' & Hv'). rewrite Ht in Ht'. injection Ht' as <-.
    rewrite Hrow in Hrow'. injection Hrow' as <-. rewrite Hent in Hent'. injection Hent' as <-.
    destruct (value_defined _ _ (fun x => x) Rabs t r Hr) as (m & Hm). exists m. split; [exact Hm|].
    apply (machine_near mc symargs vals t v r m); assumption.
  Qed.
End Platform.
(** [growth n] is not more than [2 * n * 2**-53] unless [n] is astronomic. *)
Theorem C80_growth n : (Z.of_nat n <= 2 ^ 52)%Z -> 0 <= growth n <= 2 * INR n / 2 ^ 53.
Proof.
  intros H. split; [apply growth_pos|]. unfold Rdiv. apply growth_linear. unfold unit_roundoff. rewrite INR_IZR_INZ.
  apply Rmult_le_reg_r with (2 ^ 53); [apply pow_lt; lra|]. rewrite Rmult_assoc, Rinv_l, Rmult_1_r by (apply pow_nonzero; lra).
  replace (/ 2 * 2 ^ 53) with (IZR (2 ^ 52)); [apply IZR_le, H|]. rewrite pow_IZR. change (2 ^ Z.of_nat 53)%Z with (2 * 2 ^ 52)%Z. rewrite mult_IZR. lra.
Qed.
(** If no number in the expression is negative, the magnitude is the value: the error is relative to the result. *)
Theorem C80_without_signs symargs xs e : (forall x, In x xs -> 0 <= x) -> (forall ty n, reach false [] e (Atm (mkAtom ty (VInt n))) -> (0 <= n)%Z) ->
  magnitude symargs xs e = exact_value symargs xs e.
Proof. apply magnitude_exact. Qed.
Section Derivative.
  Context (mc : machine) {code : Type} (load : string -> res code)
    (call_f64 : code -> list spec_float -> spec_float) (call_fill : code -> nat -> list spec_float -> list spec_float).
  Context (Hplatform : faithful mc load call_f64 call_fill) (Hadd : ieee_add mc) (Hmul : ieee_mul mc).
  Notation call := (call_compiled call_f64 call_fill).

  (** lambdify of the derivative of such an expression: it exists, and the number returned is near the derivative of the
      function of real numbers that the expression is. *)
  Theorem C80_derivative names vals e r s env h : good_names (map Symbol names) ->
    length vals = length names -> Forall is_double vals -> Forall2 (fun n v => env n = double_value v) names vals ->
    exact_value (map Symbol names) (map double_value vals) e = Some r ->
    exists d, expr_diff e (Symbol s) 1 = Ok d /\
      forall f h' v, lambdify load (map OExpr (map Symbol names)) (OExpr d) h = (Ok f, h') -> call f vals = Ok (FFloat v) -> finite v ->
      no_underflow (machine_value mc (map Symbol names) vals) d ->
      exists l m, has_derivative env e s l /\ magnitude (map Symbol names) (map double_value vals) d = Some m /\
        Rabs (double_value v - l) <= growth (roundings Nat.pred d) * m.
  Proof.
    intros Hg Hl Hd Henv Hr. destruct (deriv_defined names (map double_value vals) s e (ex_intro _ r Hr)) as (d & Ed & l & El). exists d.
    assert (Hdiff : expr_diff e (Symbol s) 1 = Ok d) by (rewrite expr_diff_one; apply diff_forward_deriv, Ed). split; [exact Hdiff|].
    intros f h' v Hf Hc F Hu.
    assert (Henv' : Forall2 (fun n x => env n = x) names (map double_value vals)) by (clear - Henv; induction Henv; constructor; assumption).
    assert (Hl' : length vals = length (map Symbol names)) by (rewrite map_length; exact Hl).
    destruct (C80_lambdify_error mc load call_f64 call_fill Hplatform Hadd Hmul (map Symbol names) d h f h' vals v l Hg Hf Hl' Hd Hc F Hu El) as (m & Hm & Hb).
    exists l, m. split; [|split; assumption]. eapply C24_diff_is_the_derivative; [exact Hdiff| |]; eapply exact_reval; eassumption.
  Qed.
End Derivative.

(** The error is not relative to the result in general: (x + 1) + y for x = 2**53, y = -2**53 is 1, and 0 is computed, by eval_f64 and by the code. *)
Definition e_cancel := m_add (m_add x (int 1)) y.
Definition v_big (s : bool) := S754_finite s (2 ^ 52) 1.
Theorem C80_relative_error_refuted :
  exists text v, to_llvm_f64 [x; y] e_cancel = Ok text /\ run_text mc_ints text "jit_func1" (map VF [v_big false; v_big true]) (fun _ => S754_zero false) = Some (Some v, fun _ => S754_zero false) /\
    eval_f64 o_ints e_cancel (Some (combine [x; y] [v_big false; v_big true])) = Ok v /\
    double_value v = 0 /\ exact_value [x; y] (map double_value [v_big false; v_big true]) e_cancel = Some 1.
Proof.
  eexists. eexists. split; [vm_compute; reflexivity|]. split; [vm_compute; reflexivity|]. split; [vm_compute; reflexivity|]. split; [reflexivity|].
  change (Some (double_value (v_big false) + (IZR 1 + 0) + (double_value (v_big true) + 0)) = Some 1). f_equal. cbn [double_value v_big]. lra.
Qed.

(** ** Cases *)
(** [no_underflow] can be checked. *)
Definition large (a b : spec_float) : bool :=
  match a, b with
  | S754_finite _ _ e, S754_finite _ _ e' => (-1022 <=? e + e')%Z
  | _, _ => true
  end.
Definition no_underflow_b (value : tree -> option spec_float) (e : tree) : bool :=
  forallb (fun s => match s with
    | Node (h :: args) => negb (tree_eqb h Mul) || forallb (fun k =>
        match opt_map value (firstn (S k) args), nth_error args (S k) with
        | Some (p :: ps), Some a => match value a with Some q => large (fold_left (SFmul 53 1024) ps p) q | None => true end
        | _, _ => true
        end) (seq 0 (length args))
    | _ => true end) (postorder false [] e).
Lemma large_product a b : large a b = true -> double_value a * double_value b = 0 \/ / 2 ^ 1022 <= Rabs (double_value a * double_value b).
Proof.
  destruct a as [sa|sa| |sa ma ea], b as [sb|sb| |sb mb eb]; try (left; cbn [double_value]; ring). cbn [large]. intros H. apply Z.leb_le in H. right.
  assert (X : forall s m e, Rabs (double_value (S754_finite s m e)) = IZR (Zpos m) * powerRZ 2 e).
  { intros s m e. cbn [double_value]. assert (0 <= IZR (Zpos m) * powerRZ 2 e) by (apply Rmult_le_pos; [apply IZR_le; lia|apply powerRZ_le; lra]).
    destruct s; [rewrite Rabs_Ropp|]; apply Rabs_pos_eq; assumption. }
  rewrite Rabs_mult, !X.
  assert (P : forall p, 1 <= IZR (Zpos p)) by (intros p; apply IZR_le; lia). pose proof (P ma) as Pa. pose proof (P mb) as Pb.
  replace (IZR (Zpos ma) * powerRZ 2 ea * (IZR (Zpos mb) * powerRZ 2 eb)) with (IZR (Zpos ma) * IZR (Zpos mb) * powerRZ 2 (ea + eb)) by (rewrite powerRZ_add by lra; ring).
  assert (G : / 2 ^ 1022 <= powerRZ 2 (ea + eb)).
  { replace (ea + eb)%Z with (-1022 + Z.of_nat (Z.to_nat (ea + eb + 1022)))%Z by lia. rewrite powerRZ_add by lra.
    change (powerRZ 2 (-1022)) with (/ 2 ^ 1022). rewrite <- pow_powerRZ. rewrite <- (Rmult_1_r (/ 2 ^ 1022)) at 1.
    apply Rmult_le_compat_l; [left; apply Rinv_0_lt_compat, pow_lt; lra|apply pow_R1_Rle; lra]. }
  assert (0 < powerRZ 2 (ea + eb)) by (apply powerRZ_lt; lra). apply Rle_trans with (1 := G). rewrite <- (Rmult_1_l (powerRZ 2 (ea + eb))) at 1.
  apply Rmult_le_compat_r; [lra|]. clear - Pa Pb. generalize dependent (IZR (Zpos ma)). generalize dependent (IZR (Zpos mb)). intros. nra.
Qed.
Lemma no_underflow_decided value e : no_underflow_b value e = true -> no_underflow value e.
Proof.
  intros H args k a p ps q Hr Hp Ha Hq. unfold no_underflow_b in H. rewrite forallb_forall in H. apply ProofTopo.post_reach, H in Hr.
  rewrite tree_eqb_refl in Hr. cbn [negb orb] in Hr. rewrite forallb_forall in Hr. specialize (Hr k). cbv zeta. apply large_product.
  rewrite Hp, Ha, Hq in Hr. apply Hr, in_seq. assert (S k < length args)%nat by (apply nth_error_Some; congruence). lia.
Qed.
Lemma sum_exact vs : (forall a, In a vs -> is_double a /\ finite a) -> sum_of vs = Defs.F2R (Defs.Float Zaux.radix2 (fold_right Z.add 0 (map scaled vs))%Z (-1074)).
Proof.
  intros Hvs. induction vs as [|a vs IH]; [unfold sum_of, Defs.F2R; cbn; ring|].
  unfold sum_of in *. cbn [map fold_right]. rewrite IH by (intros b Hb; apply Hvs; right; exact Hb).
  unfold Defs.F2R. cbn [Defs.Fnum Defs.Fexp]. rewrite plus_IZR, Rmult_plus_distr_r. f_equal.
  destruct (Hvs a (or_introl eq_refl)) as [Hd _]. clear - Hd. destruct a as [s|s| |s m e]; [cbn [double_value scaled]; ring..|].
  rewrite (double_scaled s m e Hd). reflexivity.
Qed.
Lemma fsum_exact_bound vs v : (forall a, In a vs -> is_double a /\ finite a) -> exact_fsum vs = Ok v -> Rabs (sum_of vs) < 2 ^ 1024 - 2 ^ 970.
Proof.
  intros Hvs H. unfold exact_fsum in H. destruct (forallb is_finite vs); [|discriminate]. rewrite (sum_exact vs Hvs).
  destruct (normalize_cases (fold_right Z.add 0 (map scaled vs))%Z (-1074) false) as [(Hlt & _)|(_ & s & Es)]; [|exfalso; rewrite Es in H; discriminate].
  set (w := Defs.F2R _) in *. apply Rnot_le_lt. intros Hge.
  assert (Hb : constant (2 ^ 1024 - 2 ^ 970) = None) by (vm_compute; reflexivity).
  destruct (constant_cases (2 ^ 1024 - 2 ^ 970)) as [(_ & g & Eg & _)|(Hb' & _)]; [congruence|].
  rewrite rnd_abs in Hlt, Hb'. assert (rnd (Rabs (IZR (2 ^ 1024 - 2 ^ 970))) <= rnd (Rabs w)); [|lra]. apply rnd_le. rewrite <- abs_IZR.
  rewrite !pow_IZR, <- minus_IZR in Hge. exact Hge.
Qed.
Lemma o_ints_fsum : fsum_correct o_ints.
Proof.
  destruct C51_case as (H1 & _). split; [exact H1|]. split.
  - intros vs v Hvs H. apply (fsum_exact_bound vs v Hvs H).
  - intros vs v a H Ha Hn. exfalso. cbn [fl_fsum o_ints] in H. unfold exact_fsum in H. destruct (forallb is_finite vs) eqn:E; [|discriminate].
    rewrite forallb_forall in E. apply E in Ha. destruct a; try discriminate; apply Hn; exact I.
Qed.

(** x*x*y + 3*x*y + (-7) at the doubles nearest to 1/3 and 1/7: every product and both sums are rounded. *)
Definition e_poly := tree_call Add [tree_call Mul [x; x; y]; tree_call Mul [int 3; x; y]; int (-7)].
Definition v_third := S754_finite false 6004799503160661 (-54).
Definition v_seventh := S754_finite false 5146971002709138 (-55).
Example C80_case :
  fsum_correct o_ints /\ prod_rounds o_ints /\ ints_rounds o_ints /\ ieee_add mc_ints /\ ieee_mul mc_ints /\
  faithful mc_ints sample_load (sample_f64 mc_ints) (sample_fill mc_ints) /\
  good_names (map Symbol ["x"; "y"]) /\ Forall is_double [v_third; v_seventh] /\
  (exists r, exact_value [x; y] (map double_value [v_third; v_seventh]) e_poly = Some r) /\
  roundings (fun _ => 1%nat) e_poly = 3%nat /\ roundings Nat.pred e_poly = 4%nat /\
  (exists v, eval_f64 o_ints e_poly (Some (combine [x; y] [v_third; v_seventh])) = Ok v /\ finite v) /\
  no_underflow (f64_value o_ints [x; y] [v_third; v_seventh]) e_poly /\
  (exists f v, lambdify sample_load (map OExpr [x; y]) (OExpr e_poly) heap_ab = (Ok f, heap_ab) /\
     call_compiled (sample_f64 mc_ints) (sample_fill mc_ints) f [v_third; v_seventh] = Ok (FFloat v) /\ finite v) /\
  no_underflow (machine_value mc_ints [x; y] [v_third; v_seventh]) e_poly /\
  exists d f v, expr_diff e_poly x 1 = Ok d /\ lambdify sample_load (map OExpr [x; y]) (OExpr d) heap_ab = (Ok f, heap_ab) /\
     call_compiled (sample_f64 mc_ints) (sample_fill mc_ints) f [v_third; v_seventh] = Ok (FFloat v) /\ finite v /\
     no_underflow (machine_value mc_ints [x; y] [v_third; v_seventh]) d.
Proof.
  destruct C74_case as (_ & H2 & H3 & H4 & H5 & H6 & _).
  split; [exact o_ints_fsum|]. split; [exact H2|]. split; [exact H3|]. split; [exact H4|]. split; [exact H5|]. split; [apply sample_faithful|].
  split; [exact H6|]. split; [repeat constructor; vm_compute; try discriminate; right; discriminate|].
  split; [eexists; reflexivity|]. split; [vm_compute; reflexivity|]. split; [vm_compute; reflexivity|].
  split; [eexists; split; [vm_compute; reflexivity|exact I]|]. split; [apply no_underflow_decided; vm_compute; reflexivity|].
  split; [eexists; eexists; split; [vm_compute; reflexivity|split; [vm_compute; reflexivity|exact I]]|].
  split; [apply no_underflow_decided; vm_compute; reflexivity|].
  eexists. eexists. eexists. split; [vm_compute; reflexivity|]. split; [vm_compute; reflexivity|]. split; [vm_compute; reflexivity|]. split; [exact I|].
  apply no_underflow_decided. vm_compute. reflexivity.
Qed.
Print Assumptions C80_eval_error.
Print Assumptions C80_lambdify_error.
Print Assumptions C80_lambdify_matrix_error.
Print Assumptions C80_growth.
Print Assumptions C80_without_signs.
Print Assumptions C80_derivative.
Print Assumptions C80_relative_error_refuted.
