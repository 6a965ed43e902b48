(** * Rounding to nearest determines the value; addition of doubles *)
From Coq Require Import SpecFloat Reals Lra Lia Psatz Permutation.
From Flocq Require Import Core BinarySingleNaN.
From Verif Require Import Py ModelTree ModelLLVM SpecLLVM SpecLambdify ProofFloat.

Definition scaled_z (f : spec_float) : Z :=
  match f with S754_finite s m e => ((if s then -1 else 1) * (Zpos m * 2 ^ (e + 1074)))%Z | _ => 0%Z end.
Lemma value_scaled f : is_double f -> double_value f = (IZR (scaled_z f) * bpow radix2 (-1074))%R.
Proof.
  destruct f as [s|s| |s m e]; intros H; try (cbn [double_value scaled_z]; ring). exact (double_scaled s m e H).
Qed.
Lemma bpow_small : (0 < bpow radix2 (-1074))%R. Proof. apply bpow_gt_0. Qed.
Lemma value_lt f g : is_double f -> is_double g -> (double_value f < double_value g)%R -> (scaled_z f < scaled_z g)%Z.
Proof.
  intros Hf Hg H. rewrite (value_scaled f Hf), (value_scaled g Hg) in H. apply lt_IZR.
  apply Rmult_lt_reg_r with (2 := H). apply bpow_small.
Qed.
Lemma lt_value f g : is_double f -> is_double g -> (scaled_z f < scaled_z g)%Z -> (double_value f < double_value g)%R.
Proof.
  intros Hf Hg H. rewrite (value_scaled f Hf), (value_scaled g Hg). apply Rmult_lt_compat_r; [apply bpow_small|apply IZR_lt, H].
Qed.
Definition flip (f : spec_float) : spec_float :=
  match f with S754_zero s => S754_zero (negb s) | S754_infinity s => S754_infinity (negb s) | S754_nan => S754_nan
  | S754_finite s m e => S754_finite (negb s) m e end.
Lemma flip_double f : is_double f -> is_double (flip f). Proof. destruct f; exact (fun H => H). Qed.
Lemma flip_finite f : finite f -> finite (flip f). Proof. destruct f; exact (fun H => H). Qed.
Lemma flip_even f : even_double f -> even_double (flip f). Proof. destruct f; exact (fun H => H). Qed.
Lemma flip_scaled f : scaled_z (flip f) = (- scaled_z f)%Z. Proof. destruct f as [s|s| |[|] m e]; cbn [flip scaled_z negb]; lia. Qed.

(** Between two positive doubles with even significands there is another one. *)
Lemma between_pos m e m' e' : is_double (S754_finite false m e) -> is_double (S754_finite false m' e') ->
  Z.even (Zpos m) = true -> (scaled_z (S754_finite false m e) < scaled_z (S754_finite false m' e'))%Z -> Z.even (Zpos m') = true ->
  exists h, is_double h /\ finite h /\ (scaled_z (S754_finite false m e) < scaled_z h < scaled_z (S754_finite false m' e'))%Z.
Proof.
  intros (Hm & He & Hc) (Hm' & He' & Hc') Ev H Ev'. cbn [scaled_z] in *. rewrite !Z.mul_1_l in *.
  assert (Hm1 : (Zpos m + 1 < 2 ^ 53)%Z).
  { assert (Zpos m <> 2 ^ 53 - 1)%Z by (intros E; rewrite E in Ev; discriminate). lia. }
  exists (S754_finite false (m + 1) e). split; [|split; [exact I|]].
  - cbn [is_double]. rewrite Pos2Z.inj_add. split; [exact Hm1|]. split; [exact He|]. destruct Hc; [left; assumption|right; lia].
  - cbn [scaled_z]. rewrite Z.mul_1_l, Pos2Z.inj_add.
    assert (Hp : (0 < 2 ^ (e + 1074))%Z) by (apply Z.pow_pos_nonneg; lia). split; [nia|].
    destruct (Z.lt_trichotomy e e') as [Hlt|[<-|Hlt]].
    + assert (Hp' : (2 ^ (e' + 1074) = 2 ^ (e + 1074) * 2 ^ (e' - e))%Z) by (rewrite <- Z.pow_add_r by lia; f_equal; lia).
      assert (2 <= 2 ^ (e' - e))%Z by (change 2%Z with (2 ^ 1)%Z at 1; apply Z.pow_le_mono_r; lia).
      destruct Hc' as [|Hc']; [lia|]. rewrite Hp'. nia.
    + assert (Zpos m < Zpos m')%Z by nia. assert (Zpos m' <> Zpos m + 1)%Z; [|nia].
      intros E. rewrite E, Z.even_add, Ev in Ev'. discriminate.
    + exfalso. destruct Hc as [|Hc]; [lia|].
      assert (Hp' : (2 ^ (e + 1074) = 2 ^ (e' + 1074) * 2 ^ (e - e'))%Z) by (rewrite <- Z.pow_add_r by lia; f_equal; lia).
      assert (2 <= 2 ^ (e - e'))%Z by (change 2%Z with (2 ^ 1)%Z at 1; apply Z.pow_le_mono_r; lia).
      assert (0 < 2 ^ (e' + 1074))%Z by (apply Z.pow_pos_nonneg; lia). rewrite Hp' in H. nia.
Qed.
Lemma between_zero m e : is_double (S754_finite false m e) -> Z.even (Zpos m) = true ->
  exists h, is_double h /\ finite h /\ (0 < scaled_z h < scaled_z (S754_finite false m e))%Z.
Proof.
  intros (Hm & He & Hc) Ev. exists (S754_finite false 1 (-1074)). split; [cbn; lia|]. split; [exact I|]. cbn [scaled_z].
  change (2 ^ (-1074 + 1074))%Z with 1%Z. assert (Zpos m <> 1)%Z by (intros E; rewrite E in Ev; discriminate).
  assert (0 < 2 ^ (e + 1074))%Z by (apply Z.pow_pos_nonneg; lia). nia.
Qed.
Lemma between f g : is_double f -> is_double g -> finite f -> finite g -> even_double f -> even_double g -> (scaled_z f < scaled_z g)%Z ->
  exists h, is_double h /\ finite h /\ (scaled_z f < scaled_z h < scaled_z g)%Z.
Proof.
  intros Hf Hg Ff Fg Ef Eg H.
  assert (Hp : forall m e, is_double (S754_finite false m e) -> (0 < scaled_z (S754_finite false m e))%Z).
  { intros m e (_ & He & _). cbn [scaled_z]. assert (0 < 2 ^ (e + 1074))%Z by (apply Z.pow_pos_nonneg; lia). nia. }
  destruct f as [sf|sf| |[|] m e]; destruct g as [sg|sg| |[|] m' e']; try contradiction; cbn [finite] in *.
  - exfalso. cbn [scaled_z] in H. lia.
  - exfalso. specialize (Hp m' e' Hg). cbn [scaled_z] in H, Hp. lia.
  - destruct (between_zero m' e' Hg Eg) as (h & ? & ? & ?). exists h. cbn [scaled_z] in *. auto.
  - destruct (between_zero m e Hf Ef) as (h & Hh & Fh & L). exists (flip h). split; [apply flip_double, Hh|].
    split; [apply flip_finite, Fh|]. rewrite flip_scaled. cbn [scaled_z] in *. lia.
  - destruct (between_pos m' e' m e Hg Hf Eg) as (h & Hh & Fh & L); [cbn [scaled_z] in *; lia|exact Ef|].
    exists (flip h). split; [apply flip_double, Hh|]. split; [apply flip_finite, Fh|]. rewrite flip_scaled. cbn [scaled_z] in *. lia.
  - exists (S754_zero false). split; [exact I|]. split; [exact I|]. specialize (Hp m e Hf). pose proof (Hp : (0 < _)%Z).
    assert (0 < scaled_z (S754_finite false m' e'))%Z by (apply (fun H => H) in Hg; clear - Hg; destruct Hg as (_ & He & _); cbn [scaled_z]; assert (0 < 2 ^ (e' + 1074))%Z by (apply Z.pow_pos_nonneg; lia); nia).
    cbn [scaled_z] in *. lia.
  - exfalso. specialize (Hp m e Hf). cbn [scaled_z] in *. lia.
  - exfalso. specialize (Hp m e Hf). assert (0 < scaled_z (S754_finite false m' e'))%Z by (clear - Hg; destruct Hg as (_ & He & _); cbn [scaled_z]; assert (0 < 2 ^ (e' + 1074))%Z by (apply Z.pow_pos_nonneg; lia); nia).
    cbn [scaled_z] in *. lia.
  - exact (between_pos m e m' e' Hf Hg Ef H Eg).
Qed.
Lemma nearest_same x f g : nearest x f -> nearest x g -> double_value f = double_value g.
Proof.
  intros (Hf & Ff & Mf & Tf) (Hg & Fg & Mg & Tg).
  assert (E : Rabs (double_value f - x) = Rabs (double_value g - x)) by (apply Rle_antisym; [apply Mf|apply Mg]; assumption).
  destruct (Tf g Hg Fg E) as [|Ef]; [assumption|]. destruct (Tg f Hf Ff (eq_sym E)) as [|Eg]; [congruence|].
  destruct (Rtotal_order (double_value f) (double_value g)) as [L|[|L]]; [|assumption|].
  - exfalso. destruct (between f g Hf Hg Ff Fg Ef Eg (value_lt f g Hf Hg L)) as (h & Hh & Fh & L1 & L2).
    apply (lt_value f h Hf Hh) in L1. apply (lt_value h g Hh Hg) in L2. specialize (Mf h Hh Fh). specialize (Mg h Hh Fh).
    revert E Mf Mg. unfold Rabs. repeat destruct Rcase_abs; lra.
  - exfalso. destruct (between g f Hg Hf Fg Ff Eg Ef (value_lt g f Hg Hf L)) as (h & Hh & Fh & L1 & L2).
    apply (lt_value g h Hg Hh) in L1. apply (lt_value h f Hh Hf) in L2. specialize (Mf h Hh Fh). specialize (Mg h Hh Fh).
    revert E Mf Mg. unfold Rabs. repeat destruct Rcase_abs; lra.
Qed.

(** ** Addition of doubles is correctly rounded *)
Lemma align m e ez s : (ez <= e)%Z ->
  F2R (Float radix2 (cond_Zopp s (Zpos (fst (SpecFloat.shl_align m e ez)))) ez) = double_value (S754_finite s m e).
Proof.
  intros H. unfold SpecFloat.shl_align, F2R. cbn [Fnum Fexp]. cbn [double_value]. rewrite powerRZ_bpow.
  destruct (ez - e)%Z as [|p|p] eqn:E; cbn [fst].
  - assert (ez = e) by lia. subst. destruct s; cbn [cond_Zopp]; rewrite ?opp_IZR; ring.
  - lia.
  - rewrite shift_pos_correct. assert (Eb : bpow radix2 e = (IZR (Z.pow_pos 2 p) * bpow radix2 ez)%R).
    { change (Z.pow_pos 2 p) with (Zpower radix2 (Zpos p)). rewrite IZR_Zpower by lia. rewrite <- bpow_plus. f_equal. lia. }
    rewrite Eb. assert (Es : cond_Zopp s (Z.pow_pos 2 p * Zpos m) = ((if s then -1 else 1) * (Z.pow_pos 2 p * Zpos m))%Z) by (destruct s; cbn [cond_Zopp]; lia).
    rewrite Es, !mult_IZR. destruct s; ring.
Qed.
Lemma double_nearest f : is_double f -> finite f -> nearest (double_value f) f.
Proof.
  intros Hf Ff. split; [exact Hf|]. split; [exact Ff|]. replace (double_value f - double_value f)%R with 0%R by ring. rewrite Rabs_R0. split.
  - intros; apply Rabs_pos.
  - intros g _ _ E. left. symmetry in E. destruct (Req_dec (double_value g - double_value f) 0) as [|Hn]; [lra|].
    apply Rabs_no_R0 in Hn. contradiction.
Qed.
Lemma add_nearest a b : is_double a -> is_double b -> finite a -> finite b -> finite (SFadd 53 1024 a b) ->
  nearest (double_value a + double_value b) (SFadd 53 1024 a b).
Proof.
  intros Ha Hb Fa Fb. destruct a as [sa|sa| |sa ma ea]; try contradiction; destruct b as [sb|sb| |sb mb eb]; try contradiction; cbn [SFadd]; intros Ff.
  - replace (double_value (S754_zero sa) + double_value (S754_zero sb))%R with (double_value (S754_zero false)) by (cbn; ring).
    destruct (Bool.eqb sa sb); [exact (double_nearest (S754_zero sa) I I)|exact (double_nearest (S754_zero false) I I)].
  - replace (double_value (S754_zero sa) + double_value (S754_finite sb mb eb))%R with (double_value (S754_finite sb mb eb)) by (cbn [double_value]; ring).
    apply double_nearest; assumption.
  - replace (double_value (S754_finite sa ma ea) + double_value (S754_zero sb))%R with (double_value (S754_finite sa ma ea)) by (cbn [double_value]; ring).
    apply double_nearest; assumption.
  - cbv zeta in Ff |- *. rewrite <- (align ma ea (Z.min ea eb) sa) by lia. rewrite <- (align mb eb (Z.min ea eb) sb) by lia.
    match goal with |- nearest (F2R (Float _ ?p _) + F2R (Float _ ?q _)) _ => 
      replace (F2R (Float radix2 p (Z.min ea eb)) + F2R (Float radix2 q (Z.min ea eb)))%R with (F2R (Float radix2 (p + q) (Z.min ea eb))) end.
    + eapply normalize_nearest; [reflexivity|exact Ff].
    + unfold F2R. cbn [Fnum Fexp]. rewrite plus_IZR. ring.
Qed.
Lemma sum_perm vs ws : Permutation vs ws -> sum_of vs = sum_of ws.
Proof.
  unfold sum_of. intros H. induction H; cbn [map fold_right]; [reflexivity|congruence|ring|congruence].
Qed.
