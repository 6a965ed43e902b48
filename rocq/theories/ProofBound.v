(** * Error bounds with sin, cos and integer powers: proofs for C92 *)
From Coq Require Import SpecFloat Reals Lra Psatz.
From Flocq Require Import Core BinarySingleNaN Relative.
From Verif Require Import Py ModelTree SpecTree ProofBase ModelEval SpecEval ProofEval ModelDiff ModelSym ModelCas ProofBin
  ModelLLVM SpecLLVM SpecLambdify ProofFloat ProofSums ProofLLVM ProofF64 SpecExact ProofExact SpecError ProofError SpecReal ProofReal SpecBound.
Local Instance Hprec : Prec_gt_0 53. Proof. reflexivity. Qed.
Local Instance Hmax : Prec_lt_emax 53 1024. Proof. reflexivity. Qed.
Local Open Scope R_scope.

(** ** One rounding *)
Lemma rnd_any x : Rabs (rnd x - x) <= unit_roundoff * Rabs x + half_least.
Proof.
  destruct (error_N_FLT radix2 (-1074) 53 Hprec (fun z => negb (Z.even z)) x) as (eps & eta & He & Hn & _ & E).
  change (round radix2 (FLT_exp (-1074) 53) (Znearest (fun z => negb (Z.even z))) x) with (rnd x) in E. rewrite E.
  replace (x * (1 + eps) + eta - x) with (eps * x + eta) by ring. apply Rle_trans with (1 := Rabs_triang _ _). rewrite Rabs_mult.
  apply Rplus_le_compat.
  - apply Rmult_le_compat_r; [apply Rabs_pos|]. rewrite u_bpow. exact He.
  - apply Rle_trans with (1 := Hn). unfold half_least. change (bpow radix2 (-1074)) with (/ IZR (2 ^ 1074)).
    apply Req_le. rewrite <- Rinv_mult. f_equal. rewrite pow_IZR, <- mult_IZR. f_equal.
Qed.

(** ** Steps *)
Definition close (v : spec_float) (i : estimated) : Prop := is_double v /\ (finite v -> Rabs (double_value v - fst i) <= snd i).
Lemma dist_pos v (i : estimated) : Rabs (v - fst i) <= snd i -> 0 <= snd i.
Proof. intros H. apply Rle_trans with (2 := H), Rabs_pos. Qed.
Lemma dist_abs v (i : estimated) : Rabs (v - fst i) <= snd i -> Rabs v <= Rabs (fst i) + snd i.
Proof. intros H. replace v with (fst i + (v - fst i)) by ring. apply Rle_trans with (1 := Rabs_triang _ _). lra. Qed.
Lemma dist_round v w r d b : Rabs (v - r) <= d -> Rabs (w - v) <= unit_roundoff * Rabs v + b -> Rabs (w - r) <= d + unit_roundoff * (Rabs r + d) + b.
Proof.
  intros H Hw. replace (w - r) with ((w - v) + (v - r)) by ring. apply Rle_trans with (1 := Rabs_triang _ _).
  pose proof (dist_abs v (r, d) H) as Ha. cbn [fst snd] in Ha. pose proof u_pos. nra.
Qed.
Lemma add_close a b i j : close a i -> close b j -> close (SFadd 53 1024 a b) (add_estimate i j) /\ (finite (SFadd 53 1024 a b) -> finite a /\ finite b).
Proof.
  intros [Ha Ca] [Hb Cb]. destruct (add_value a b Ha Hb) as [Hd Hf]. split; [split; [exact Hd|]|intros F; apply Hf in F; tauto].
  intros F. destruct (Hf F) as (Fa & Fb & E). rewrite E. unfold add_estimate. cbn [fst snd].
  assert (H : Rabs (double_value a + double_value b - (fst i + fst j)) <= snd i + snd j).
  { replace (double_value a + double_value b - (fst i + fst j)) with ((double_value a - fst i) + (double_value b - fst j)) by ring.
    apply Rle_trans with (1 := Rabs_triang _ _). specialize (Ca Fa). specialize (Cb Fb). lra. }
  rewrite <- (Rplus_0_r (snd i + snd j + _)). apply dist_round with (1 := H). rewrite Rplus_0_r.
  destruct (sum_multiple a b Ha Hb) as (k & ->). apply rnd_multiple.
Qed.
Lemma mul_dist a b (i j : estimated) : Rabs (a - fst i) <= snd i -> Rabs (b - fst j) <= snd j ->
  Rabs (a * b - fst i * fst j) <= (Rabs (fst i) + snd i) * (Rabs (fst j) + snd j) - Rabs (fst i * fst j).
Proof.
  intros H1 H2. pose proof (dist_pos _ _ H1). pose proof (dist_pos _ _ H2).
  replace (a * b - fst i * fst j) with ((a - fst i) * (b - fst j) + (fst i * (b - fst j) + (a - fst i) * fst j)) by ring.
  apply Rle_trans with (1 := Rabs_triang _ _). eapply Rle_trans; [apply Rplus_le_compat_l, Rabs_triang|]. rewrite !Rabs_mult.
  assert (A : Rabs (a - fst i) * Rabs (b - fst j) <= snd i * snd j) by (apply Rmult_le_compat; try apply Rabs_pos; assumption).
  assert (B : Rabs (fst i) * Rabs (b - fst j) <= Rabs (fst i) * snd j) by (apply Rmult_le_compat_l; [apply Rabs_pos|assumption]).
  assert (C : Rabs (a - fst i) * Rabs (fst j) <= snd i * Rabs (fst j)) by (apply Rmult_le_compat_r; [apply Rabs_pos|assumption]).
  lra.
Qed.
Lemma mul_close a b i j : close a i -> close b j -> close (SFmul 53 1024 a b) (mul_estimate i j) /\ (finite (SFmul 53 1024 a b) -> finite a /\ finite b).
Proof.
  intros [Ha Ca] [Hb Cb]. destruct (mul_value a b Ha Hb) as [Hd Hf]. split; [split; [exact Hd|]|intros F; apply Hf in F; tauto].
  intros F. destruct (Hf F) as (Fa & Fb & E). rewrite E. unfold mul_estimate. cbn [fst snd]. specialize (Ca Fa). specialize (Cb Fb).
  pose proof (mul_dist _ _ _ _ Ca Cb) as H. set (X := (Rabs (fst i) + snd i) * (Rabs (fst j) + snd j)) in *.
  replace (X * (1 + unit_roundoff) - Rabs (fst i * fst j) + half_least)
    with ((X - Rabs (fst i * fst j)) + unit_roundoff * (Rabs (fst i * fst j) + (X - Rabs (fst i * fst j))) + half_least) by ring.
  apply dist_round with (1 := H). apply rnd_any.
Qed.
Lemma fold_close (f : spec_float -> spec_float -> spec_float) (g : estimated -> estimated -> estimated) :
  (forall a b i j, close a i -> close b j -> close (f a b) (g i j) /\ (finite (f a b) -> finite a /\ finite b)) ->
  forall vs l, Forall2 close vs l -> forall a i, close a i -> close (fold_left f vs a) (fold_left g l i).
Proof.
  intros H vs l Hl. induction Hl as [|b j vs l Hb _ IH]; intros a i Ha; [exact Ha|]. cbn [fold_left]. apply IH. apply H; assumption.
Qed.
Lemma fsum_close o vs l v : fsum_correct o -> Forall2 close vs l -> fl_fsum o vs = Ok v -> close v (fsum_estimate l).
Proof.
  intros (Hs1 & Hs2 & Hs3) Hl H.
  assert (Hd : forall a, In a vs -> is_double a) by (clear - Hl; induction Hl as [|a i vs l [Ha _] _ IH]; cbn [In]; intuition; subst; assumption).
  destruct (Exists_dec (fun a => ~ finite a) vs) as [Hex|Hex]; [intros a; destruct a; cbn; [right|left|left|right]; tauto| |].
  { apply Exists_exists in Hex as (a & Ha & Fa). pose proof (Hs3 _ _ _ H Ha Fa) as Fw. split; [destruct v; try exact I; destruct Fw; exact I|intros Fv; contradiction]. }
  assert (Fin : forall a, In a vs -> finite a).
  { intros a Ha. assert (X : ~ ~ finite a) by (intros X; apply Hex, Exists_exists; eauto). destruct a; cbn in *; tauto. }
  assert (Hdf : forall a, In a vs -> is_double a /\ finite a) by auto.
  pose proof (Hs1 _ _ Hdf H) as Hw. pose proof (Hs2 _ _ Hdf H) as Hb. pose proof (nearest_rnd _ _ Hw Hb) as Ew.
  split; [apply Hw|]. intros _. unfold fsum_estimate. cbn [fst snd]. rewrite Ew.
  assert (S : Rabs (sum_of vs - fold_right Rplus 0 (map fst l)) <= fold_right Rplus 0 (map snd l)).
  { unfold sum_of. clear - Hl Fin. induction Hl as [|a i vs l [_ Ha] _ IH]; cbn [map fold_right].
    - unfold Rminus. rewrite Rplus_opp_r, Rabs_R0. lra.
    - specialize (Ha (Fin a (or_introl eq_refl))). assert (IH' := IH (fun b Hb => Fin b (or_intror Hb))).
      match goal with |- Rabs ?x <= _ => replace x with ((double_value a - fst i) + (fold_right Rplus 0 (map double_value vs) - fold_right Rplus 0 (map fst l))) by ring end.
      apply Rle_trans with (1 := Rabs_triang _ _). lra. }
  rewrite <- (Rplus_0_r (fold_right Rplus 0 (map snd l) + _)). apply dist_round with (1 := S). rewrite Rplus_0_r.
  destruct (sum_of_multiple vs Hd) as (k & ->). apply rnd_multiple.
Qed.
Lemma trig_close acc f returns a v i : (forall x y, Rabs (f x - f y) <= Rabs (x - y)) -> trig_accurate acc f returns -> close a i -> returns a v ->
  close v (f (fst i), snd i + trig_error acc).
Proof.
  intros Hf H [Ha Ca] Hr. destruct (H a v Ha Hr) as [Hd Hv]. split; [exact Hd|]. intros F. destruct (Hv F) as [Fa E]. cbn [fst snd].
  replace (double_value v - f (fst i)) with ((double_value v - f (double_value a)) + (f (double_value a) - f (fst i))) by ring.
  apply Rle_trans with (1 := Rabs_triang _ _). specialize (Hf (double_value a) (fst i)). specialize (Ca Fa). lra.
Qed.
Lemma trig_lipschitz f g : (forall x, derivable_pt_lim f x (g x)) -> (forall x, -1 <= g x <= 1) -> forall x y, Rabs (f x - f y) <= Rabs (x - y).
Proof.
  intros Hf Hg.
  assert (L : forall x y, x < y -> Rabs (f y - f x) <= Rabs (y - x)).
  { intros x y Hxy. destruct (MVT_cor2 f g x y Hxy (fun c _ => Hf c)) as (c & E & _). rewrite E, Rabs_mult.
    rewrite <- (Rmult_1_l (Rabs (y - x))) at 2. apply Rmult_le_compat_r; [apply Rabs_pos|]. apply Rabs_le, Hg. }
  intros x y. destruct (Rtotal_order x y) as [H|[->|H]].
  - rewrite (Rabs_minus_sym (f x)), (Rabs_minus_sym x). apply L, H.
  - unfold Rminus. rewrite !Rplus_opp_r. lra.
  - apply L, H.
Qed.
Lemma sin_lipschitz x y : Rabs (Rtrigo_def.sin x - Rtrigo_def.sin y) <= Rabs (x - y).
Proof. apply (trig_lipschitz Rtrigo_def.sin Rtrigo_def.cos); [exact derivable_pt_lim_sin|exact COS_bound]. Qed.
Lemma cos_lipschitz x y : Rabs (Rtrigo_def.cos x - Rtrigo_def.cos y) <= Rabs (x - y).
Proof.
  apply (trig_lipschitz Rtrigo_def.cos (fun x => - Rtrigo_def.sin x)); [exact derivable_pt_lim_cos|]. intros z. pose proof (SIN_bound z). lra.
Qed.
(** Powers. *)
Lemma pow_dist a r d n : Rabs (a - r) <= d -> Rabs (a ^ n - r ^ n) <= (Rabs r + d) ^ n - Rabs r ^ n.
Proof.
  intros H. assert (Hd : 0 <= d) by (apply Rle_trans with (2 := H), Rabs_pos). pose proof (dist_abs a (r, d) H) as Ha. cbn [fst snd] in Ha.
  induction n as [|n IH]; cbn [pow].
  - unfold Rminus. rewrite !Rplus_opp_r, Rabs_R0. lra.
  - replace (a * a ^ n - r * r ^ n) with ((a - r) * a ^ n + r * (a ^ n - r ^ n)) by ring. apply Rle_trans with (1 := Rabs_triang _ _). rewrite !Rabs_mult.
    assert (P : Rabs (a ^ n) <= (Rabs r + d) ^ n) by (rewrite <- RPow_abs; apply pow_incr; split; [apply Rabs_pos|exact Ha]).
    assert (A : Rabs (a - r) * Rabs (a ^ n) <= d * (Rabs r + d) ^ n) by (apply Rmult_le_compat; try apply Rabs_pos; assumption).
    assert (B : Rabs r * Rabs (a ^ n - r ^ n) <= Rabs r * ((Rabs r + d) ^ n - Rabs r ^ n)) by (apply Rmult_le_compat_l; [apply Rabs_pos|exact IH]).
    lra.
Qed.
Lemma inv_dist a r d : Rabs (a - r) <= d -> d < Rabs r -> a <> 0 /\ Rabs (/ a - / r) <= / (Rabs r - d) - / Rabs r.
Proof.
  intros H Hr. assert (Hd : 0 <= d) by (apply Rle_trans with (2 := H), Rabs_pos).
  assert (Ha : Rabs r - d <= Rabs a).
  { assert (Rabs r <= Rabs (r - a) + Rabs a) by (replace r with ((r - a) + a) at 1 by ring; apply Rabs_triang). rewrite Rabs_minus_sym in H. lra. }
  assert (Na : a <> 0) by (intros ->; rewrite Rabs_R0 in Ha; lra). assert (Nr : r <> 0) by (intros ->; rewrite Rabs_R0 in Hr; lra).
  split; [exact Na|]. replace (/ a - / r) with ((r - a) * / (a * r)) by (field; split; assumption).
  replace (/ (Rabs r - d) - / Rabs r) with (d * / ((Rabs r - d) * Rabs r)) by (field; split; lra).
  rewrite Rabs_mult, Rabs_inv, Rabs_mult, Rabs_minus_sym. apply Rmult_le_compat; [apply Rabs_pos| |exact H|].
  - left. apply Rinv_0_lt_compat. apply Rmult_lt_0_compat; apply Rabs_pos_lt; assumption.
  - apply Rinv_le_contravar; [apply Rmult_lt_0_compat; lra|]. apply Rmult_le_compat_r; [apply Rabs_pos|exact Ha].
Qed.
Lemma powerRZ_neg_inv x n : (n < 0)%Z -> powerRZ x n = (/ x) ^ Z.to_nat (- n).
Proof. intros H. destruct n; try lia. cbn [powerRZ Z.opp Z.to_nat]. rewrite pow_inv. reflexivity. Qed.
Lemma powerRZ_nonneg x n : (0 <= n)%Z -> powerRZ x n = x ^ Z.to_nat n.
Proof. intros H. destruct n; try lia; reflexivity. Qed.
Lemma relative_close v p r X rho eta : Rabs (v - p) <= rho * Rabs p + eta -> 0 <= rho -> Rabs p <= X -> Rabs (p - r) <= X - Rabs r -> Rabs (v - r) <= (1 + rho) * X - Rabs r + eta.
Proof.
  intros H Hrho Hp Hpr. replace (v - r) with ((v - p) + (p - r)) by ring. apply Rle_trans with (1 := Rabs_triang _ _). nra.
Qed.
Lemma pow_close acc returns a b n i v k : pow_accurate acc returns -> close a i -> is_int b n -> returns a b v ->
  ((n < 0)%Z -> finite a) -> pow_estimate acc i n = Some k -> close v k.
Proof.
  intros [Hrho H] [Ha Ca] Hb Hr Hfin Hk. destruct (H a b n v Ha Hb Hr) as [Hd Hv]. split; [exact Hd|]. intros F. destruct (Hv F) as [Fa Cv].
  unfold pow_estimate in Hk. destruct (Z.leb_spec 0 n) as [Hn|Hn].
  - injection Hk as <-. cbn [fst snd]. destruct (Z.eq_dec n 0) as [->|Hn0].
    + cbn [powerRZ] in *. specialize (Cv (or_introl eq_refl) (or_introl (Z.le_refl 0))). rewrite Rabs_R1 in Cv. rewrite Rabs_R1. replace ((1 + pow_relative acc) * 1 - 1 + pow_absolute acc) with (pow_relative acc * 1 + pow_absolute acc) by ring. exact Cv.
    + assert (Fa' : finite a) by (apply Fa; lia). specialize (Ca Fa'). specialize (Cv (or_intror Fa') (or_introl Hn)).
      apply relative_close with (powerRZ (double_value a) n); [exact Cv|exact Hrho| |]; rewrite !(powerRZ_nonneg _ n Hn).
      * rewrite <- RPow_abs. apply pow_incr. split; [apply Rabs_pos|apply dist_abs, Ca].
      * rewrite <- RPow_abs. apply pow_dist, Ca.
  - destruct (Rlt_dec (Rabs (snd i)) (Rabs (fst i))) as [Hlt'|_]; [|discriminate]. injection Hk as <-. cbn [fst snd].
    assert (Hlt : snd i < Rabs (fst i)) by (apply Rle_lt_trans with (2 := Hlt'), Rle_abs).
    assert (Fa' : finite a) by (apply Hfin, Hn). specialize (Ca Fa'). destruct (inv_dist _ _ _ Ca Hlt) as [Na Hi].
    specialize (Cv (or_intror Fa') (or_intror Na)). apply relative_close with (powerRZ (double_value a) n); [exact Cv|exact Hrho| |]; rewrite !(powerRZ_neg_inv _ n Hn).
    + rewrite <- RPow_abs. apply pow_incr. split; [apply Rabs_pos|]. pose proof (dist_abs (/ double_value a) (/ fst i, _) Hi) as G. cbn [fst snd] in G. rewrite !Rabs_inv in G. rewrite Rabs_inv. lra.
    + pose proof (pow_dist _ _ _ (Z.to_nat (- n)) Hi) as G. rewrite <- RPow_abs. rewrite Rabs_inv in *.
      replace (/ Rabs (fst i) + (/ (Rabs (fst i) - snd i) - / Rabs (fst i))) with (/ (Rabs (fst i) - snd i)) in G by ring. exact G.
Qed.

(** ** Expressions *)
Lemma exponents_fit_arg h args a : exponents_fit (Node (h :: args)) -> In a args -> exponents_fit a.
Proof. intros H Ha b x Hr. apply (H b x). eapply reach_arg; eauto. Qed.
Lemma bases_finite_arg value h args a : bases_finite value (Node (h :: args)) -> In a args -> bases_finite value a.
Proof. intros H Ha b x n w Hr. apply (H b x n w). eapply reach_arg; eauto. Qed.
Lemma estimate_node acc sum names xs h args : estimate acc sum names xs (Node (h :: args)) =
  if tree_eqb h Pow then
    match args with
    | [b; x] => match estimate acc sum names xs b, int_value [] [] x with Some i, Some n => pow_estimate acc i n | _, _ => None end
    | _ => None
    end
  else
    match opt_map (estimate acc sum names xs) args with
    | Some (i :: r) =>
        if tree_eqb h Add then Some (sum i r)
        else if tree_eqb h Mul then Some (fold_left mul_estimate r i)
        else match r with
          | [] => if tree_eqb h sin then Some (Rtrigo_def.sin (fst i), snd i + trig_error acc)
                  else if tree_eqb h cos then Some (Rtrigo_def.cos (fst i), snd i + trig_error acc) else None
          | _ => None
          end
    | _ => None
    end.
Proof. reflexivity. Qed.
Section Bound.
  Context (acc : accuracy) (sum : estimated -> list estimated -> estimated) (names : list string) (vals : list spec_float) (value : tree -> option spec_float)
    (pow_returns : spec_float -> spec_float -> spec_float -> Prop).
  Notation est := (estimate acc sum names (map double_value vals)).
  Context (Hvals : Forall is_double vals) (Hpow : pow_accurate acc pow_returns).
  Context (Hatom : forall a v, value (Atm a) = Some v -> match argument (map Symbol names) vals (Atm a) with
     | Some w => v = w | None => exists ty n, a = mkAtom ty (VInt n) /\ constant n = Some v end).
  Context (Hargs : forall h args v, value (Node (h :: args)) = Some v -> exists vs, Forall2 (fun a w => value a = Some w) args vs).
  Context (Hadd : forall args vs i l v, value (Node (Add :: args)) = Some v -> Forall2 (fun a w => value a = Some w) args vs -> Forall2 close vs (i :: l) -> close v (sum i l)).
  Context (Hmul : forall args vs i l v, value (Node (Mul :: args)) = Some v -> Forall2 (fun a w => value a = Some w) args vs -> Forall2 close vs (i :: l) -> close v (fold_left mul_estimate l i)).
  Context (Hsin : forall a w i v, value (Node [sin; a]) = Some v -> value a = Some w -> close w i -> close v (Rtrigo_def.sin (fst i), snd i + trig_error acc)).
  Context (Hcos : forall a w i v, value (Node [cos; a]) = Some v -> value a = Some w -> close w i -> close v (Rtrigo_def.cos (fst i), snd i + trig_error acc)).
  Context (Hpw : forall b x v wb wx, value (Node [Pow; b; x]) = Some v -> value b = Some wb -> value x = Some wx -> pow_returns wb wx v).
  Context (Hexp : forall x n w, value x = Some w -> int_value [] [] x = Some n -> fits [] [] x -> is_int w n).
  Lemma value_close e : forall v i, exponents_fit e -> bases_finite value e -> value e = Some v -> est e = Some i -> close v i.
  Proof.
    induction e as [a|cs IH] using tree_ind_all; intros v i Hx Hb Hv He.
    - apply Hatom in Hv. cbn [estimate] in He. pose proof (real_argument_spec (map Symbol names) vals (Atm a)) as G.
      destruct (argument (map Symbol names) vals (Atm a)) as [w|].
      + subst v. destruct G as [Hin E]. rewrite E in He. injection He as <-. rewrite Forall_forall in Hvals. split; [apply Hvals, Hin|]. intros _. cbn [fst snd].
        unfold Rminus. rewrite Rplus_opp_r, Rabs_R0. lra.
      + destruct Hv as (ty & n & -> & Hc). rewrite G in He. destruct (atype_eqb ty T_Integer); [|discriminate]. apply (f_equal (fun o => match o with Some j => j | None => i end)) in He. cbv beta iota in He. subst i.
        destruct (constant_near n v Hc) as [Hd [_ Hn]]. split; [exact Hd|]. intros _. cbn [fst snd]. destruct (Z.abs n <=? 2 ^ 53)%Z.
        * unfold growth in Hn. rewrite pow_O in Hn. replace ((1 - 1) * Rabs (IZR n)) with 0 in Hn by ring. exact Hn.
        * unfold growth in Hn. rewrite pow_1 in Hn. replace ((1 + unit_roundoff - 1) * Rabs (IZR n)) with (unit_roundoff * Rabs (IZR n)) in Hn by ring. exact Hn.
    - destruct cs as [|h args]; [discriminate|]. rewrite (estimate_node acc sum names (map double_value vals) h args) in He. destruct (Hargs h args v Hv) as (vs & Hvs).
      assert (IH' : forall a v i, In a args -> value a = Some v -> est a = Some i -> close v i).
      { intros a w j Ha. apply IH; [right; exact Ha|eapply exponents_fit_arg; eauto|eapply bases_finite_arg; eauto]. }
      destruct (tree_eqb_spec h Pow) as [->|_].
      + destruct args as [|b [|x [|]]]; try discriminate. destruct (est b) as [j|] eqn:Eb; [|discriminate].
        destruct (int_value [] [] x) as [n|] eqn:Ex; [|discriminate].
        inversion Hvs as [|? wb ? ? Hwb Hvs']; subst. inversion Hvs' as [|? wx ? ? Hwx _]; subst.
        eapply (pow_close acc pow_returns wb wx n j v i Hpow).
        * apply (IH' b); [left; reflexivity|exact Hwb|exact Eb].
        * apply (Hexp x); [exact Hwx|exact Ex|]. apply (Hx b). apply reach_refl.
        * eapply Hpw; eassumption.
        * intros Hn. apply (Hb b x n wb); [apply reach_refl|exact Ex|exact Hn|exact Hwb].
        * exact He.
      + destruct (opt_map est args) as [[|j r]|] eqn:E; try discriminate. apply opt_map_Forall2 in E.
        assert (Hc : Forall2 close vs (j :: r)).
        { clear - Hvs E IH'. revert vs Hvs. generalize dependent (j :: r). intros l E. induction E as [|a i args l Ha _ IHl]; intros vs Hvs; inversion Hvs as [|? w ? vs' Hw Hvs']; subst; constructor.
          - eapply IH'; [left; reflexivity|exact Hw|exact Ha].
          - apply IHl; [intros; eapply IH'; [right|..]; eassumption|exact Hvs']. }
        destruct (tree_eqb_spec h Add) as [->|_]; [injection He as <-; eapply Hadd; eassumption|].
        destruct (tree_eqb_spec h Mul) as [->|_]; [injection He as <-; eapply Hmul; eassumption|].
        destruct r as [|]; [|discriminate]. inversion E as [|a ? ? ? Ha E']; subst. inversion E'; subst. inversion Hvs as [|? w ? ? Hw Hvs']; subst.
        inversion Hc as [|? ? ? ? Hcw _]; subst.
        destruct (tree_eqb_spec h sin) as [->|_]; [injection He as <-; eapply Hsin; eassumption|].
        destruct (tree_eqb_spec h cos) as [->|_]; [injection He as <-; eapply Hcos; eassumption|discriminate].
  Qed.
End Bound.

(** Exponents do not depend on the arguments. *)
Lemma argument_not_symbol names vals ty n : argument (map Symbol names) vals (Atm (mkAtom ty (VInt n))) = None.
Proof.
  revert vals. induction names as [|s ss IH]; intros [|v vals]; cbn [map argument]; try reflexivity.
  destruct (tree_eqb_spec (Atm (mkAtom ty (VInt n))) (Symbol s)) as [E|_]; [discriminate|apply IH].
Qed.
Lemma int_value_machine mc names vals : forall x n, int_value [] [] x = Some n -> machine_value mc (map Symbol names) vals x = machine_value mc [] [] x.
Proof.
  intros x. induction x as [a|cs IH] using tree_ind_all; intros n H.
  - cbn [int_value int_argument] in H. destruct a as [ty [k|s]]; [|discriminate]. cbn [machine_value machine_leaf]. rewrite argument_not_symbol. reflexivity.
  - destruct cs as [|h args]; [discriminate|]. rewrite int_value_node in H. destruct (opt_map (int_value [] []) args) as [ns|] eqn:E; [|discriminate].
    rewrite !machine_value_node. replace (opt_map (machine_value mc (map Symbol names) vals) args) with (opt_map (machine_value mc [] []) args); [reflexivity|].
    clear H. apply opt_map_Forall2 in E. assert (IH' : forall a n, In a args -> int_value [] [] a = Some n -> machine_value mc (map Symbol names) vals a = machine_value mc [] [] a) by (intros a k Ha; apply IH; right; exact Ha).
    clear - E IH'. induction E as [|a k args ks Ha _ IHl]; [reflexivity|]. cbn [opt_map]. rewrite (IH' a k (or_introl eq_refl) Ha), IHl; [reflexivity|].
    intros; eapply IH'; [right|]; eassumption.
Qed.
Lemma int_value_f64 (o : float_ops spec_float) names vals : forall x n, int_value [] [] x = Some n ->
  meaning (f64_leaf o (combine (map Symbol names) vals)) (f64_op o) x = meaning (f64_leaf o (combine [] [])) (f64_op o) x.
Proof.
  intros x. induction x as [a|cs IH] using tree_ind_all; intros n H.
  - cbn [int_value int_argument] in H. destruct a as [ty [k|s]]; [|discriminate]. cbn [meaning]. unfold f64_leaf. rewrite get_argument, argument_not_symbol. reflexivity.
  - destruct cs as [|h args]; [discriminate|]. rewrite int_value_node in H. destruct (opt_map (int_value [] []) args) as [ns|] eqn:E; [|discriminate].
    cbn [meaning]. replace (mapM (meaning (f64_leaf o (combine (map Symbol names) vals)) (f64_op o)) args) with (mapM (meaning (f64_leaf o (combine [] [])) (f64_op o)) args); [reflexivity|].
    clear H. apply opt_map_Forall2 in E.
    assert (IH' : forall a n, In a args -> int_value [] [] a = Some n -> meaning (f64_leaf o (combine (map Symbol names) vals)) (f64_op o) a = meaning (f64_leaf o (combine [] [])) (f64_op o) a) by (intros a k Ha; apply IH; right; exact Ha).
    clear - E IH'. induction E as [|a k args ks Ha _ IHl]; [reflexivity|]. cbn [mapM]. rewrite (IH' a k (or_introl eq_refl) Ha), IHl; [reflexivity|].
    intros; eapply IH'; [right|]; eassumption.
Qed.

Lemma machine_close acc mc names vals e v i : ieee_add mc -> ieee_mul mc -> accurate_machine acc mc -> Forall is_double vals ->
  exponents_fit e -> bases_finite (machine_value mc (map Symbol names) vals) e -> machine_value mc (map Symbol names) vals e = Some v ->
  code_estimate acc names (map double_value vals) e = Some i -> close v i.
Proof.
  intros Ha Hm (As & Ac & Ap) Hvals Hx Hb Hv He.
  assert (Fadd : forall l a, fold_left (mc_add mc) l a = fold_left (SFadd 53 1024) l a) by (induction l; intros; cbn [fold_left]; [reflexivity|rewrite Ha; auto]).
  assert (Fmul : forall l a, fold_left (mc_mul mc) l a = fold_left (SFmul 53 1024) l a) by (induction l; intros; cbn [fold_left]; [reflexivity|rewrite Hm; auto]).
  assert (N : forall h args vs, Forall2 (fun a w => machine_value mc (map Symbol names) vals a = Some w) args vs ->
    machine_value mc (map Symbol names) vals (Node (h :: args)) = machine_op mc h vs).
  { intros h args vs H. rewrite machine_value_node. apply opt_map_Forall2 in H. rewrite H. reflexivity. }
  refine (value_close acc _ names vals (machine_value mc (map Symbol names) vals) _ Hvals Ap _ _ _ _ _ _ _ _ e v i Hx Hb Hv He).
  - intros a w H. cbn [machine_value machine_leaf] in H. destruct (argument (map Symbol names) vals (Atm a)); [congruence|].
    destruct a as [ty [n|s]]; [|discriminate]. destruct (atype_eqb ty T_Integer); [|discriminate]. eauto.
  - intros h args w H. rewrite machine_value_node in H. destruct (opt_map _ args) as [vs|] eqn:E; [|discriminate]. exists vs. apply opt_map_Forall2, E.
  - intros args vs j l w H Hvs Hc. rewrite (N _ _ _ Hvs) in H. inversion Hc as [|a ? vs' ? Hca Hc']; subst. cbn in H. injection H as <-. rewrite Fadd.
    apply fold_close; [apply add_close|exact Hc'|exact Hca].
  - intros args vs j l w H Hvs Hc. rewrite (N _ _ _ Hvs) in H. inversion Hc as [|a ? vs' ? Hca Hc']; subst. cbn in H. injection H as <-. rewrite Fmul.
    apply fold_close; [apply mul_close|exact Hc'|exact Hca].
  - intros a w j u H Hw Hc. rewrite (N sin [a] [w]) in H by (repeat constructor; exact Hw). cbn in H. injection H as H. eapply trig_close; [apply sin_lipschitz|exact As|exact Hc|exact H].
  - intros a w j u H Hw Hc. rewrite (N cos [a] [w]) in H by (repeat constructor; exact Hw). cbn in H. injection H as H. eapply trig_close; [apply cos_lipschitz|exact Ac|exact Hc|exact H].
  - intros b x u wb wx H Hwb Hwx. rewrite (N Pow [b; x] [wb; wx]) in H by (repeat constructor; assumption). cbn in H. injection H as H. exact H.
  - intros x n w H Hn Hf. rewrite (int_value_machine mc names vals x n Hn) in H.
    destruct (machine_int mc [] [] [] Ha Hm (Forall2_nil _) x n Hf Hn) as (w' & E & Hi). congruence.
Qed.
Lemma f64_close acc o names vals e v i : fsum_correct o -> prod_rounds o -> ints_rounds o -> accurate_float acc o -> Forall is_double vals ->
  exponents_fit e -> bases_finite (f64_value o (map Symbol names) vals) e -> eval_f64 o e (Some (combine (map Symbol names) vals)) = Ok v ->
  eval_estimate acc names (map double_value vals) e = Some i -> close v i.
Proof.
  intros Hs Hp Hi (As & Ac & Ap) Hvals Hx Hb Hv He.
  assert (Hv' : f64_value o (map Symbol names) vals e = Some v) by (unfold f64_value; rewrite Hv; reflexivity).
  assert (N : forall h args vs w, Forall2 (fun a w => f64_value o (map Symbol names) vals a = Some w) args vs ->
    f64_value o (map Symbol names) vals (Node (h :: args)) = Some w -> f64_op o h vs = Ok w).
  { intros h args vs w H Hw. apply f64_value_meaning in Hw. cbn [meaning] in Hw.
    assert (E : mapM (meaning (f64_leaf o (combine (map Symbol names) vals)) (f64_op o)) args = Ok vs).
    { apply mapM_Ok_Forall2. clear - H. induction H; constructor; [apply f64_value_meaning; assumption|assumption]. }
    rewrite E in Hw. exact Hw. }
  refine (value_close acc _ names vals (f64_value o (map Symbol names) vals) _ Hvals Ap _ _ _ _ _ _ _ _ e v i Hx Hb Hv' He).
  - intros a w H. apply f64_value_meaning in H. cbn [meaning] in H. unfold f64_leaf in H. rewrite get_argument in H.
    destruct (argument (map Symbol names) vals (Atm a)); [congruence|]. destruct a as [ty [n|s]]; [|destruct (atype_eqb ty T_Integer); discriminate].
    destruct (atype_eqb ty T_Integer); [|discriminate]. exists ty, n. split; [reflexivity|]. apply Hi, H.
  - intros h args w H. apply f64_value_meaning in H. cbn [meaning] in H. destruct (mapM _ args) as [vs|] eqn:E; [|discriminate]. exists vs.
    apply mapM_Ok_Forall2 in E. clear - E. induction E; constructor; [apply f64_value_meaning; assumption|assumption].
  - intros args vs j l w H Hvs Hc. apply (N _ _ _ _ Hvs) in H. change (fl_fsum o vs = Ok w) in H. exact (fsum_close o vs (j :: l) w Hs Hc H).
  - intros args vs j l w H Hvs Hc. apply (N _ _ _ _ Hvs) in H. change (fl_prod o vs = Ok w) in H. inversion Hc as [|a ? vs' ? Hca Hc']; subst. apply Hp in H. subst w.
    apply fold_close; [apply mul_close|exact Hc'|exact Hca].
  - intros a w j u H Hw Hc. apply (N sin [a] [w]) in H; [|repeat constructor; exact Hw]. eapply trig_close; [apply sin_lipschitz|exact As|exact Hc|exact H].
  - intros a w j u H Hw Hc. apply (N cos [a] [w]) in H; [|repeat constructor; exact Hw]. eapply trig_close; [apply cos_lipschitz|exact Ac|exact Hc|exact H].
  - intros b x u wb wx H Hwb Hwx. apply (N Pow [b; x] [wb; wx]) in H; [|repeat constructor; assumption]. exact H.
  - intros x n w H Hn Hf. apply f64_value_meaning in H. rewrite (int_value_f64 o names vals x n Hn) in H.
    destruct Hs as (Hs1 & _). exact (f64_int o [] [] [] Hs1 Hp Hi (Forall2_nil _) x n w Hf Hn H).
Qed.

(** ** The exact value *)
Lemma int_value_real env x : forall n, int_value [] [] x = Some n -> reval env x = Some (IZR n).
Proof.
  induction x as [a|cs IH] using tree_ind_all; intros n H.
  - cbn [int_value int_argument] in H. destruct a as [ty [k|s]]; [|discriminate]. cbn [reval]. unfold ratom. cbn [atom_value atom_type].
    destruct (atype_eqb ty T_Integer); [congruence|discriminate].
  - destruct cs as [|h args]; [discriminate|]. rewrite int_value_node in H. destruct (opt_map (int_value [] []) args) as [[|m ms]|] eqn:E; try discriminate. apply opt_map_Forall2 in E.
    assert (G : all_defined (reval env) args = Some (map IZR (m :: ms))).
    { assert (IH' : forall a n, In a args -> int_value [] [] a = Some n -> reval env a = Some (IZR n)) by (intros a k Ha; apply IH; right; exact Ha).
      clear - E IH'. induction E as [|a w args ws Ha _ IHl]; [reflexivity|]. cbn [all_defined map]. rewrite (IH' a w (or_introl eq_refl) Ha), IHl; [reflexivity|].
      intros; apply IH'; [right|]; assumption. }
    cbn [reval]. rewrite G. unfold rop. destruct (tree_eqb h Add); [|destruct (tree_eqb h Mul); [|discriminate]]; injection H as <-; f_equal; cbn [map fold_right].
    + rewrite fold_add, plus_IZR. f_equal. clear. induction ms as [|a ms IH]; cbn [map fold_right]; [reflexivity|]. rewrite plus_IZR, IH. reflexivity.
    + clear. revert m. induction ms as [|a ms IH]; intros m; cbn [map fold_right fold_left]; [ring|]. rewrite <- IH, mult_IZR. ring.
Qed.
Lemma add_estimate_value l i : fst (fold_left add_estimate l i) = fold_right Rplus 0 (map fst (i :: l)).
Proof.
  cbn [map fold_right]. revert i. induction l as [|j l IH]; intros i; cbn [fold_left map fold_right]; [ring|]. rewrite IH. cbn [add_estimate fst]. ring.
Qed.
Lemma mul_estimate_value l i : fst (fold_left mul_estimate l i) = fold_right Rmult 1 (map fst (i :: l)).
Proof.
  cbn [map fold_right]. revert i. induction l as [|j l IH]; intros i; cbn [fold_left map fold_right]; [ring|]. rewrite IH. cbn [mul_estimate fst]. ring.
Qed.
Lemma estimate_value acc sum names xs env : (forall i l, fst (sum i l) = fold_right Rplus 0 (map fst (i :: l))) -> Forall2 (fun s x => env s = x) names xs ->
  forall t i, estimate acc sum names xs t = Some i -> reval env t = Some (fst i).
Proof.
  intros Hsum Henv t. induction t as [a|cs IH] using tree_ind_all; intros i H.
  - cbn [estimate] in H. cbn [reval]. destruct (real_argument (map Symbol names) xs (Atm a)) as [x|] eqn:E.
    + injection H as <-. destruct (real_argument_symbol names xs _ _ E) as (s & Es). rewrite Es in E. injection Es as ->. cbn. f_equal.
      clear - Henv E. induction Henv as [|s' x' names xs H _ IH]; cbn [map real_argument] in E; [discriminate|].
      destruct (tree_eqb_spec (Symbol s) (Symbol s')) as [Es|_]; [injection Es as ->; congruence|apply IH, E].
    + destruct a as [ty [n|s]]; [|discriminate]. unfold ratom. cbn [atom_value atom_type]. destruct (atype_eqb ty T_Integer); [|discriminate]. injection H as <-. reflexivity.
  - destruct cs as [|h args]; [discriminate|]. rewrite (estimate_node acc sum names xs h args) in H.
    assert (IH' : forall a i, In a args -> estimate acc sum names xs a = Some i -> reval env a = Some (fst i)) by (intros a j Ha; apply IH; right; exact Ha).
    cbn [reval]. destruct (tree_eqb_spec h Pow) as [->|_].
    + destruct args as [|b [|x [|]]]; try discriminate. destruct (estimate acc sum names xs b) as [j|] eqn:Eb; [|discriminate].
      destruct (int_value [] [] x) as [n|] eqn:Ex; [|discriminate]. cbn [all_defined].
      rewrite (IH' b j (or_introl eq_refl) Eb), (int_value_real env x n Ex). change (rop Pow [fst j; IZR n]) with (rpow (fst j) (IZR n)).
      unfold pow_estimate in H. destruct (Z.leb_spec 0 n) as [Hn|Hn].
      * injection H as <-. apply rpow_int. right. exact Hn.
      * destruct (Rlt_dec (Rabs (snd j)) (Rabs (fst j))) as [Hl|_]; [|discriminate]. injection H as <-. apply rpow_int.
        destruct (Req_dec (fst j) 0) as [E0|E0]; [|left; exact E0]. exfalso.
        rewrite E0, Rabs_R0 in Hl. pose proof (Rabs_pos (snd j)). lra.
    + destruct (opt_map (estimate acc sum names xs) args) as [[|j r]|] eqn:E; try discriminate. apply opt_map_Forall2 in E.
      assert (G : all_defined (reval env) args = Some (map fst (j :: r))).
      { clear - E IH'. induction E as [|a w args ws Ha _ IHl]; [reflexivity|]. cbn [all_defined map]. rewrite (IH' a w (or_introl eq_refl) Ha), IHl; [reflexivity|].
        intros; apply IH'; [right|]; assumption. }
      rewrite G. destruct (tree_eqb_spec h Add) as [->|_]; [injection H as <-; rewrite Hsum; reflexivity|].
      destruct (tree_eqb_spec h Mul) as [->|_]; [injection H as <-; rewrite mul_estimate_value; reflexivity|].
      destruct r as [|]; [|discriminate]. destruct (tree_eqb_spec h sin) as [->|_]; [injection H as <-; reflexivity|].
      destruct (tree_eqb_spec h cos) as [->|_]; [injection H as <-; reflexivity|discriminate].
Qed.

(** ** Results are finite unless they are large *)
Definition in_range (x : R) : Prop := Rabs x < 2 ^ 1024 - 2 ^ 970.
Lemma mul_finite a b : is_double a -> is_double b -> finite a -> finite b -> in_range (double_value a * double_value b) -> finite (SFmul 53 1024 a b).
Proof.
  intros Ha Hb Fa Fb H. destruct a as [sa|sa| |sa ma ea]; try contradiction; destruct b as [sb|sb| |sb mb eb]; try contradiction; cbn [SFmul]; try exact I.
  rewrite round_aux_equiv. apply is_double_valid in Ha, Hb.
  destruct (Bmult_correct_aux 53 1024 Hprec Hmax mode_NE sa ma ea Ha sb mb eb Hb) as [_ Hz].
  assert (Ex : forall s mm ee, F2R (Float radix2 (cond_Zopp s (Zpos mm)) ee) = double_value (S754_finite s mm ee)).
  { intros s mm ee. rewrite double_value_SF2R. reflexivity. }
  rewrite !Ex in Hz. change (round_mode mode_NE) with ZnearestE in Hz. apply in_range_rnd in H. rewrite Rlt_bool_true in Hz by exact H.
  destruct Hz as (_ & Hf & _). destruct (binary_round_aux _ _ _ _ _ _ _); try discriminate; exact I.
Qed.
Lemma add_finite a b : is_double a -> is_double b -> finite a -> finite b -> in_range (double_value a + double_value b) -> finite (SFadd 53 1024 a b).
Proof.
  intros Ha Hb Fa Fb H. destruct a as [sa|sa| |sa ma ea]; try contradiction; destruct b as [sb|sb| |sb mb eb]; try contradiction; cbn [SFadd]; try exact I.
  - destruct (Bool.eqb sa sb); exact I.
  - cbv zeta. match goal with |- context [SpecFloat.binary_normalize 53 1024 ?n ?e ?sz] => set (nn := n); set (ee := e) end.
    assert (E : F2R (Float radix2 nn ee) = double_value (S754_finite sa ma ea) + double_value (S754_finite sb mb eb)).
    { unfold nn, ee. rewrite <- (align ma ea (Z.min ea eb) sa) by lia. rewrite <- (align mb eb (Z.min ea eb) sb) by lia.
      unfold F2R. cbn [Fnum Fexp]. rewrite plus_IZR. ring. }
    destruct (normalize_cases nn ee false) as [(_ & _ & Hf & _)|(Hge & _)]; [exact Hf|exfalso].
    rewrite E in Hge. apply in_range_rnd in H. lra.
Qed.
Lemma small_in_range x : Rabs x <= 2 ^ 1000 -> in_range x.
Proof.
  unfold in_range. intros H. apply Rle_lt_trans with (1 := H). rewrite !pow_IZR, <- minus_IZR. apply IZR_lt. reflexivity.
Qed.
