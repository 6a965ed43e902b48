(** * Doubles: bits, integers, rounding *)
From Coq Require Import SpecFloat Reals Psatz.
From Flocq Require Import Core BinarySingleNaN.
From Verif Require Import Py ModelTree ModelLLVM SpecLLVM SpecLambdify.

Local Instance Hprec : Prec_gt_0 53. Proof. reflexivity. Qed.
Local Instance Hmax : Prec_lt_emax 53 1024. Proof. reflexivity. Qed.

(** ** The standard library's rounding is Flocq's (as in Flocq's PrimFloat.v) *)
Lemma round_ne_equiv s m l : round_nearest_even m l = choice_mode mode_NE s m l.
Proof. case l; [reflexivity|intro c]. case c; [|reflexivity..]. now simpl; unfold Round.cond_incr; case Z.even. Qed.
Lemma round_aux_equiv sx mx ex lx :
  SpecFloat.binary_round_aux 53 1024 sx mx ex lx = BinarySingleNaN.binary_round_aux 53 1024 mode_NE sx mx ex lx.
Proof.
  unfold SpecFloat.binary_round_aux, BinarySingleNaN.binary_round_aux. set (mrse' := shr_fexp _ _ _).
  case mrse'; intros mrs' e'; simpl. now rewrite (round_ne_equiv sx).
Qed.
Lemma round_equiv s m e :
  SpecFloat.binary_round 53 1024 s m e = BinarySingleNaN.binary_round 53 1024 mode_NE s m e.
Proof.
  unfold SpecFloat.binary_round, BinarySingleNaN.binary_round, shl_align_fexp.
  set (mez := shl_align _ _ _); case mez as [mz ez]. apply round_aux_equiv.
Qed.
Lemma normalize_equiv m e szero :
  SpecFloat.binary_normalize 53 1024 m e szero
  = B2SF (BinarySingleNaN.binary_normalize 53 1024 Hprec Hmax mode_NE m e szero).
Proof. case m as [|p|p]; [now simpl|simpl; rewrite B2SF_SF2B; apply round_equiv..]. Qed.

(** ** Valid doubles *)
Lemma is_double_valid f : is_double f <-> valid_binary 53 1024 f = true.
Proof.
  destruct f as [s|s| |s m e]; unfold is_double, valid_binary; try (split; [reflexivity|intros _; exact I]).
  unfold SpecFloat.bounded, SpecFloat.canonical_mantissa, SpecFloat.fexp, SpecFloat.emin. rewrite andb_true_iff, <- Zeq_is_eq_bool, Z.leb_le.
  rewrite Digits.Zpos_digits2_pos.
  assert (Hd := Digits.Zdigits_correct radix2 (Zpos m)). set (d := Digits.Zdigits radix2 (Zpos m)) in *.
  assert (Hd1 : (0 < d)%Z) by (apply Digits.Zdigits_gt_0; discriminate).
  rewrite Z.abs_eq in Hd by lia. change (radix2 : Z) with 2%Z in Hd. destruct Hd as [Hlo Hhi].
  change (3 - 1024 - 53)%Z with (-1074)%Z. change (1024 - 53)%Z with 971%Z.
  split.
  - intros (Hm & He & Hn).
    assert (d <= 53)%Z. { destruct (Z.le_gt_cases d 53); [assumption|]. assert (2 ^ 53 <= 2 ^ (d - 1))%Z by (apply Z.pow_le_mono_r; lia). lia. }
    split; [|lia]. destruct Hn as [->|Hn]; [lia|].
    assert (53 <= d)%Z. { destruct (Z.le_gt_cases 53 d); [assumption|]. assert (2 ^ d <= 2 ^ 52)%Z by (apply Z.pow_le_mono_r; lia). lia. }
    lia.
  - intros [H1 H2].
    assert (Hd53 : (d <= 53)%Z) by lia.
    assert (2 ^ d <= 2 ^ 53)%Z by (apply Z.pow_le_mono_r; lia).
    split; [lia|]. split; [lia|]. destruct (Z.eq_dec e (-1074)); [left; assumption|right].
    assert (d = 53)%Z by lia. subst d. change (53 - 1)%Z with 52%Z in *. rewrite H0 in Hlo. exact Hlo.
Qed.

Lemma powerRZ_bpow e : powerRZ 2 e = bpow radix2 e.
Proof. rewrite (bpow_powerRZ radix2). reflexivity. Qed.
Lemma double_value_SF2R f : double_value f = SF2R radix2 f.
Proof.
  destruct f as [s|s| |s m e]; try reflexivity. simpl. unfold F2R. simpl Fnum. simpl Fexp.
  rewrite powerRZ_bpow. destruct s; simpl; [|reflexivity]. change (IZR (Zneg m)) with (IZR (- Zpos m)). rewrite opp_IZR. ring.
Qed.

(** ** Bits *)
Lemma bits_range f : is_double f -> (0 <= bits_of_double f < 2 ^ 64)%Z.
Proof.
  destruct f as [s|s| |s m e]; intros H.
  - destruct s; vm_compute; split; congruence.
  - destruct s; vm_compute; split; congruence.
  - vm_compute; split; congruence.
  - destruct H as (Hm & He & Hn). cbn [bits_of_double]. destruct (Z.ltb_spec (Zpos m) (2 ^ 52)); destruct s; lia.
Qed.
Lemma bits_round_trip f : is_double f -> double_of_bits (bits_of_double f) = f.
Proof.
  destruct f as [s|s| |s m e]; intros H.
  - destruct s; reflexivity.
  - destruct s; reflexivity.
  - reflexivity.
  - destruct H as (Hm & He & Hn). cbn [bits_of_double].
    set (sg := if s then (2 ^ 63)%Z else 0%Z).
    assert (Hsg : (sg = (if s then 1 else 0) * 2 ^ 63)%Z) by (unfold sg; destruct s; reflexivity).
    destruct (Z.ltb_spec (Zpos m) (2 ^ 52)) as [Hlt|Hge].
    + destruct Hn as [->|Hn]; [|lia]. unfold double_of_bits.
      assert (E0 : ((2 ^ 63 <=? sg + Z.pos m) = s)%Z) by (unfold sg; destruct s; [apply Z.leb_le|apply Z.leb_gt]; lia).
      assert (E1 : (((sg + Z.pos m) / 2 ^ 52) mod 2048 = 0)%Z).
      { replace (sg + Z.pos m)%Z with (Z.pos m + ((if s then 2048 else 0)) * 2 ^ 52)%Z by (rewrite Hsg; destruct s; lia).
        rewrite Z.div_add by lia. rewrite (Z.div_small (Zpos m)) by lia. destruct s; reflexivity. }
      assert (E2 : ((sg + Z.pos m) mod 2 ^ 52 = Z.pos m)%Z).
      { replace (sg + Z.pos m)%Z with (Z.pos m + ((if s then 2048 else 0)) * 2 ^ 52)%Z by (rewrite Hsg; destruct s; lia).
        rewrite Z.mod_add by lia. apply Z.mod_small. lia. }
      rewrite E0, E1, E2. reflexivity.
    + set (x := (sg + (e + 1075) * 2 ^ 52 + (Z.pos m - 2 ^ 52))%Z). unfold double_of_bits.
      assert (Ex : x = ((Z.pos m - 2 ^ 52) + (e + 1075 + (if s then 2048 else 0)) * 2 ^ 52)%Z) by (unfold x; rewrite Hsg; destruct s; lia).
      assert (E0 : ((2 ^ 63 <=? x) = s)%Z) by (unfold x, sg; destruct s; [apply Z.leb_le|apply Z.leb_gt]; lia).
      assert (E1 : ((x / 2 ^ 52) mod 2048 = e + 1075)%Z).
      { rewrite Ex, Z.div_add by lia. rewrite (Z.div_small (_ - _)) by lia. rewrite Z.add_0_l.
        destruct s; [replace (e + 1075 + 2048)%Z with (e + 1075 + 1 * 2048)%Z by lia; rewrite Z.mod_add by lia|rewrite Z.add_0_r]; apply Z.mod_small; lia. }
      assert (E2 : (x mod 2 ^ 52 = Z.pos m - 2 ^ 52)%Z) by (rewrite Ex, Z.mod_add by lia; apply Z.mod_small; lia).
      rewrite E0, E1, E2. destruct (Z.eqb_spec (e + 1075) 0); [lia|]. destruct (Z.eqb_spec (e + 1075) 2047); [lia|].
      replace (2 ^ 52 + (Z.pos m - 2 ^ 52))%Z with (Zpos m) by lia. f_equal. lia.
Qed.

(** ** Integers *)
Lemma F2R_int n : F2R (Float radix2 n 0) = IZR n.
Proof. unfold F2R. simpl. ring. Qed.
Definition rnd (x : R) : R := round radix2 (SpecFloat.fexp 53 1024) ZnearestE x.
Lemma normalize_cases n e sz :
  let x := F2R (Float radix2 n e) in let f := SpecFloat.binary_normalize 53 1024 n e sz in
  (Rabs (rnd x) < bpow radix2 1024 /\ is_double f /\ finite f /\ double_value f = rnd x)%R \/
  (bpow radix2 1024 <= Rabs (rnd x) /\ exists s, f = S754_infinity s)%R.
Proof.
  intros x f. unfold f. rewrite (normalize_equiv n e sz).
  pose proof (binary_normalize_correct 53 1024 _ _ mode_NE n e sz) as H. cbv zeta in H. fold x in H.
  set (z := BinarySingleNaN.binary_normalize 53 1024 Hprec Hmax mode_NE n e sz) in *.
  change (round_mode mode_NE) with ZnearestE in H. fold (rnd x) in H.
  destruct (Rlt_bool_spec (Rabs (rnd x)) (bpow radix2 1024)) as [Hlt|Hge].
  - left. split; [exact Hlt|]. destruct H as (Hv & Hf & _).
    assert (Hd : is_double (B2SF z)) by (apply is_double_valid, valid_binary_B2SF).
    assert (Hvv : double_value (B2SF z) = rnd x) by (rewrite double_value_SF2R, <- Hv; destruct z; reflexivity).
    split; [exact Hd|]. split; [|exact Hvv]. destruct z; try discriminate; exact I.
  - right. split; [exact Hge|]. rewrite H. eexists. reflexivity.
Qed.
Lemma constant_cases n :
  (Rabs (rnd (IZR n)) < bpow radix2 1024 /\ exists f, constant n = Some f /\ is_double f /\ finite f /\ double_value f = rnd (IZR n))%R \/
  (bpow radix2 1024 <= Rabs (rnd (IZR n)) /\ constant n = None)%R.
Proof.
  unfold constant. pose proof (normalize_cases n 0 false) as H. cbv zeta in H. rewrite F2R_int in H.
  destruct H as [(H1 & H2 & H3 & H4)|(H1 & s & E)]; [left|right]; (split; [exact H1|]).
  - eexists. split; [|split; [exact H2|split; [exact H3|exact H4]]]. destruct (SpecFloat.binary_normalize 53 1024 n 0 false); try reflexivity; destruct H3.
  - rewrite E. reflexivity.
Qed.
Lemma constant_double n f : constant n = Some f -> is_double f /\ finite f /\ double_value f = rnd (IZR n).
Proof.
  intros H. destruct (constant_cases n) as [(_ & g & Eg & Hd & Hf & Hv)|(_ & E)]; [|congruence].
  replace g with f in * by congruence. auto.
Qed.
Lemma float_of_int_constant n : float_of_int n = of_option OverflowError (constant n).
Proof. unfold float_of_int, constant. destruct (SpecFloat.binary_normalize 53 1024 n 0 false); reflexivity. Qed.

(** Finite doubles are the numbers of the format below 2^1024. *)
Lemma double_format g : is_double g -> generic_format radix2 (SpecFloat.fexp 53 1024) (double_value g).
Proof.
  intros H. apply is_double_valid in H. rewrite double_value_SF2R.
  pose proof (generic_format_B2R 53 1024 (SF2B g H)) as G. rewrite <- SF2R_B2SF, B2SF_SF2B in G. exact G.
Qed.
Lemma rnd_N x : Rnd_N_pt (generic_format radix2 (SpecFloat.fexp 53 1024)) x (rnd x).
Proof. apply round_N_pt, fexp_correct, Hprec. Qed.
Lemma exact_format n : (Z.abs n <= 2 ^ 53)%Z -> generic_format radix2 (SpecFloat.fexp 53 1024) (IZR n).
Proof.
  intros H. apply generic_format_FLT with (prec := 53%Z) (emin := (-1074)%Z).
  destruct (Z.eq_dec (Z.abs n) (2 ^ 53)) as [E|E].
  - assert (En : IZR n = F2R (Float radix2 (Z.sgn n) 53)).
    { unfold F2R. simpl Fnum. simpl Fexp. change (bpow radix2 53) with (IZR (2 ^ 53)). rewrite <- mult_IZR. f_equal. lia. }
    apply FLT_spec with (Float radix2 (Z.sgn n) 53); [exact En| |]; simpl; lia.
  - apply FLT_spec with (Float radix2 n 0); [symmetry; apply F2R_int| |]; simpl; lia.
Qed.
Lemma constant_exact n : (Z.abs n <= 2 ^ 53)%Z -> exists f, constant n = Some f /\ double_value f = IZR n.
Proof.
  intros H. assert (E : rnd (IZR n) = IZR n) by (apply round_generic; [apply valid_rnd_N|apply exact_format, H]).
  destruct (constant_cases n) as [(_ & g & Eg & _ & _ & Hv)|(Hge & _)].
  - exists g. split; [exact Eg|]. congruence.
  - exfalso. rewrite E in Hge. rewrite <- abs_IZR in Hge. change (bpow radix2 1024) with (IZR (2 ^ 1024)) in Hge.
    apply le_IZR in Hge. assert (2 ^ 53 < 2 ^ 1024)%Z by reflexivity. lia.
Qed.

Lemma rounded_nearest x f : is_double f -> finite f -> double_value f = rnd x -> nearest x f.
Proof.
  intros Hd Hf Hv.
  destruct (rnd_N x) as [_ Hn]. split; [exact Hd|]. split; [exact Hf|].
  assert (Hmin : forall g, is_double g -> (Rabs (double_value f - x) <= Rabs (double_value g - x))%R).
  { intros g Hg. rewrite Hv. apply Hn, double_format, Hg. }
  split; [intros g Hg _; apply Hmin, Hg|].
  intros g Hg _ Heq.
  assert (HNE : Rnd_NE_pt radix2 (SpecFloat.fexp 53 1024) x (rnd x)).
  { apply round_NE_pt; [apply fexp_correct, Hprec|]. apply (@exists_NE_FLT radix2 (-1074) 53). right. reflexivity. }
  destruct HNE as [_ [Hev|Huniq]].
  - right. destruct Hev as (k & Hk & Hc & He). destruct f as [s|s| |s m e]; try exact I. simpl.
    assert (Hcf : canonical radix2 (SpecFloat.fexp 53 1024) (Float radix2 (cond_Zopp s (Zpos m)) e)).
    { apply is_double_valid in Hd. unfold valid_binary, SpecFloat.bounded in Hd. apply andb_prop in Hd as [Hd _].
      apply (canonical_canonical_mantissa 53 1024). exact Hd. }
    assert (Ek : k = Float radix2 (cond_Zopp s (Zpos m)) e).
    { apply (canonical_unique radix2 (SpecFloat.fexp 53 1024)); [exact Hc|exact Hcf|]. rewrite <- Hk, <- Hv, double_value_SF2R. reflexivity. }
    rewrite Ek in He. simpl in He. destruct s; exact He.
  - left. rewrite Hv. symmetry. apply Huniq. split; [apply double_format, Hg|].
    intros y Hy. rewrite <- Heq, Hv. apply Hn, Hy.
Qed.
Lemma constant_nearest n f : constant n = Some f -> nearest (IZR n) f.
Proof. intros H. destruct (constant_double n f H) as (Hd & Hf & Hv). apply rounded_nearest; assumption. Qed.
(** Out of range: at least halfway between the largest double and 2^1024. *)
Lemma rnd_abs x : Rabs (rnd x) = rnd (Rabs x).
Proof. symmetry. apply round_NE_abs, fexp_correct, Hprec. Qed.
Lemma rnd_le x y : (x <= y)%R -> (rnd x <= rnd y)%R.
Proof. apply round_le; [apply fexp_correct, Hprec|apply valid_rnd_N]. Qed.
Lemma constant_none n : constant n = None <-> (2 ^ 1024 - 2 ^ 970 <= Z.abs n)%Z.
Proof.
  set (b := (2 ^ 1024 - 2 ^ 970)%Z).
  assert (Hb : constant b = None) by (vm_compute; reflexivity).
  assert (Hb1 : constant (b - 1) <> None) by (vm_compute; discriminate).
  assert (Hpos : (0 < b)%Z) by reflexivity.
  split; intros H.
  - destruct (Z.le_gt_cases b (Z.abs n)) as [|Hlt]; [assumption|exfalso].
    destruct (constant_cases n) as [(_ & g & Eg & _)|(Hge & _)]; [congruence|].
    destruct (constant_cases (b - 1)) as [(Hlt1 & _)|(_ & E)]; [|congruence].
    rewrite rnd_abs in Hge, Hlt1. assert (rnd (Rabs (IZR n)) <= rnd (Rabs (IZR (b - 1))))%R; [|lra].
    apply rnd_le. rewrite <- !abs_IZR. apply IZR_le. lia.
  - destruct (constant_cases n) as [(Hlt & _)|(_ & E)]; [exfalso|exact E].
    destruct (constant_cases b) as [(_ & g & Eg & _)|(Hge & _)]; [congruence|].
    rewrite rnd_abs in Hge, Hlt. assert (rnd (Rabs (IZR b)) <= rnd (Rabs (IZR n)))%R; [|lra].
    apply rnd_le. rewrite <- !abs_IZR. apply IZR_le. lia.
Qed.

(** Every double is a multiple of 2^-1074. *)
Lemma double_scaled s m e : is_double (S754_finite s m e) ->
  double_value (S754_finite s m e) = F2R (Float radix2 ((if s then -1 else 1) * (Zpos m * 2 ^ (e + 1074))) (-1074)).
Proof.
  intros (_ & He & _). unfold F2R. cbn [Fnum Fexp double_value]. rewrite powerRZ_bpow.
  assert (E : bpow radix2 e = (IZR (2 ^ (e + 1074)) * bpow radix2 (-1074))%R).
  { change (2 ^ (e + 1074))%Z with (Zpower radix2 (e + 1074)). rewrite IZR_Zpower by lia. rewrite <- bpow_plus. f_equal. lia. }
  rewrite E, !mult_IZR. destruct s; ring.
Qed.
Lemma normalize_nearest n e sz f : SpecFloat.binary_normalize 53 1024 n e sz = f -> finite f -> nearest (F2R (Float radix2 n e)) f.
Proof.
  intros H Hf. destruct (normalize_cases n e sz) as [(_ & Hd & Hf' & Hv)|(_ & s & E)].
  - rewrite H in *. apply rounded_nearest; assumption.
  - exfalso. rewrite H in E. subst f. rewrite E in Hf. exact Hf.
Qed.
