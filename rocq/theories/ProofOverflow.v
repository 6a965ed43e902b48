(** * Arithmetic that cannot overflow: proofs for C109 *)
From Coq Require Import SpecFloat Reals Lra Psatz.
From Flocq Require Import Core BinarySingleNaN Relative.
From Verif Require Import Py ModelTree SpecTree ProofBase ModelEval SpecEval ProofEval ModelDiff ModelSym ModelCas ProofBin
  ModelLLVM SpecLLVM SpecLambdify ProofFloat ProofSums ProofLLVM ProofF64 SpecExact ProofExact SpecError ProofError SpecReal ProofReal SpecBound ProofBound SpecOverflow.
Local Instance Hprec' : Prec_gt_0 53. Proof. reflexivity. Qed.
Local Instance Hmax' : Prec_lt_emax 53 1024. Proof. reflexivity. Qed.
Local Open Scope R_scope.

(** A finite double as near as estimated. *)
Definition good (v : spec_float) (i : estimated) : Prop := is_double v /\ finite v /\ Rabs (double_value v - fst i) <= snd i.
Lemma good_close v i : good v i -> close v i. Proof. intros (H1 & H2 & H3). split; [exact H1|intros _; exact H3]. Qed.
Lemma close_good v i : close v i -> finite v -> good v i. Proof. intros [H1 H2] H3. split; [exact H1|]. split; [exact H3|apply H2, H3]. Qed.
Lemma good_moderate v i : good v i -> moderate i -> Rabs (double_value v) <= 2 ^ 1000.
Proof. intros (_ & _ & H) Hm. apply Rle_trans with (2 := Hm), dist_abs, H. Qed.
Lemma half_least_pos : 0 < half_least.
Proof. unfold half_least. apply Rinv_0_lt_compat, pow_lt. lra. Qed.

Lemma add_good a b i j : good a i -> good b j -> moderate (add_estimate i j) -> good (SFadd 53 1024 a b) (add_estimate i j).
Proof.
  intros Ha Hb Hm. apply close_good; [apply add_close; apply good_close; assumption|].
  destruct Ha as (H1 & H2 & H3), Hb as (H4 & H5 & H6). apply add_finite; try assumption. apply small_in_range. apply Rle_trans with (2 := Hm).
  unfold add_estimate. cbn [fst snd]. pose proof u_pos. pose proof (dist_pos _ _ H3). pose proof (dist_pos _ _ H6). pose proof (Rabs_pos (fst i + fst j)).
  assert (D : Rabs (double_value a + double_value b - (fst i + fst j)) <= snd i + snd j).
  { replace (double_value a + double_value b - (fst i + fst j)) with ((double_value a - fst i) + (double_value b - fst j)) by ring. apply Rle_trans with (1 := Rabs_triang _ _). lra. }
  pose proof (dist_abs _ (fst i + fst j, snd i + snd j) D) as G. cbn [fst snd] in G. nra.
Qed.
Lemma mul_good a b i j : good a i -> good b j -> moderate (mul_estimate i j) -> good (SFmul 53 1024 a b) (mul_estimate i j).
Proof.
  intros Ha Hb Hm. apply close_good; [apply mul_close; apply good_close; assumption|].
  destruct Ha as (H1 & H2 & H3), Hb as (H4 & H5 & H6). apply mul_finite; try assumption. apply small_in_range. apply Rle_trans with (2 := Hm).
  unfold mul_estimate. cbn [fst snd]. pose proof u_pos. pose proof half_least_pos. pose proof (dist_pos _ _ H3). pose proof (dist_pos _ _ H6).
  pose proof (dist_abs _ _ H3) as A. pose proof (dist_abs _ _ H6) as B. rewrite Rabs_mult.
  pose proof (Rabs_pos (double_value a)). pose proof (Rabs_pos (double_value b)).
  assert (P : Rabs (double_value a) * Rabs (double_value b) <= (Rabs (fst i) + snd i) * (Rabs (fst j) + snd j)) by (apply Rmult_le_compat; assumption).
  assert (Q : 0 <= (Rabs (fst i) + snd i) * (Rabs (fst j) + snd j)) by (apply Rle_trans with (2 := P), Rmult_le_pos; assumption). nra.
Qed.
Lemma fold_good (f : spec_float -> spec_float -> spec_float) (g : estimated -> estimated -> estimated) :
  (forall a b i j, good a i -> good b j -> moderate (g i j) -> good (f a b) (g i j)) ->
  forall vs l, Forall2 good vs l -> forall a i, good a i -> (forall k, (k <= length l)%nat -> moderate (fold_left g (firstn k l) i)) -> good (fold_left f vs a) (fold_left g l i).
Proof.
  intros H vs l Hl. induction Hl as [|b j vs l Hb _ IH]; intros a i Ha Hk; [exact Ha|]. cbn [fold_left]. apply IH.
  - apply H; [exact Ha|exact Hb|]. apply (Hk 1%nat). cbn [length]. lia.
  - intros k Hle. apply (Hk (S k)). cbn [length]. lia.
Qed.
Lemma trig_good acc f returns a i : (forall x y, Rabs (f x - f y) <= Rabs (x - y)) -> trig_accurate acc f returns -> trig_total returns -> good a i ->
  exists v, returns a v /\ good v (f (fst i), snd i + trig_error acc).
Proof.
  intros Hf Ha Ht Hg. destruct (Ht a) as (v & Hr & Fv); [apply Hg|apply Hg|]. exists v. split; [exact Hr|]. apply close_good; [|exact Fv].
  eapply trig_close; [exact Hf|exact Ha|apply good_close, Hg|exact Hr].
Qed.
(** The errors of an accurate function that does return something are not negative. *)
Lemma pow_absolute_pos acc returns : pow_accurate acc returns -> pow_total returns -> 0 <= pow_absolute acc.
Proof.
  intros [Hrho Ha] Ht. destruct (constant_some 1) as (one & _ & H1); [lia|].
  assert (D0 : is_double (S754_zero false)) by exact I.
  assert (Fs : (0 <= 1)%Z \/ double_value (S754_zero false) <> 0) by (left; lia).
  destruct (Ht (S754_zero false) one 1%Z D0 I H1 Fs) as (v & Hr & Fv).
  { cbn [powerRZ double_value]. change (0 ^ Pos.to_nat 1) with (0 * 1). rewrite Rmult_0_l, Rabs_R0. apply pow_le. lra. }
  destruct (Ha _ _ _ _ D0 H1 Hr) as [_ Hv]. destruct (Hv Fv) as [_ Hb]. specialize (Hb (or_intror I) (or_introl (Zle_0_pos 1))).
  cbn [powerRZ double_value] in Hb. change (0 ^ Pos.to_nat 1) with (0 * 1) in Hb. rewrite Rmult_0_l, Rabs_R0, Rmult_0_r, Rplus_0_l in Hb.
  apply Rle_trans with (2 := Hb), Rabs_pos.
Qed.
Lemma pow_good acc returns a b i n k : pow_accurate acc returns -> pow_total returns -> good a i -> is_int b n -> pow_estimate acc i n = Some k -> moderate k ->
  exists v, returns a b v /\ good v k.
Proof.
  intros Ha Ht Hg Hb He Hm. pose proof (pow_absolute_pos _ _ Ha Ht) as Heta. pose proof (proj1 Ha) as Hrho. pose proof Hg as (H1 & H2 & H3).
  assert (G : ((0 <= n)%Z \/ double_value a <> 0) /\ Rabs (powerRZ (double_value a) n) <= 2 ^ 1000).
  { unfold pow_estimate in He. destruct (Z.leb_spec 0 n) as [Hn|Hn].
    - injection He as <-. split; [left; exact Hn|]. apply Rle_trans with (2 := Hm). cbn [fst snd].
      assert (P : Rabs (powerRZ (double_value a) n) <= powerRZ (Rabs (fst i) + snd i) n).
      { rewrite !(powerRZ_nonneg _ n Hn), <- RPow_abs. apply pow_incr. split; [apply Rabs_pos|apply dist_abs, H3]. }
      pose proof (Rabs_pos (powerRZ (double_value a) n)). nra.
    - destruct (Rlt_dec (Rabs (snd i)) (Rabs (fst i))) as [Hlt'|_]; [|discriminate]. injection He as <-.
      assert (Hlt : snd i < Rabs (fst i)) by (apply Rle_lt_trans with (2 := Hlt'), Rle_abs). destruct (inv_dist _ _ _ H3 Hlt) as [Na Hi].
      split; [right; exact Na|]. apply Rle_trans with (2 := Hm). cbn [fst snd].
      assert (P : Rabs (powerRZ (double_value a) n) <= powerRZ (Rabs (fst i) - snd i) n).
      { rewrite !(powerRZ_neg_inv _ n Hn), <- RPow_abs. apply pow_incr. split; [apply Rabs_pos|].
        pose proof (dist_abs (/ double_value a) (/ fst i, _) Hi) as G. cbn [fst snd] in G. rewrite !Rabs_inv in G. rewrite Rabs_inv. lra. }
      pose proof (Rabs_pos (powerRZ (double_value a) n)). nra. }
  destruct G as [Hd Hl]. destruct (Ht a b n H1 H2 Hb Hd Hl) as (v & Hr & Fv). exists v. split; [exact Hr|]. apply close_good; [|exact Fv].
  eapply pow_close; [exact Ha|apply good_close, Hg|exact Hb|exact Hr|intros _; exact H2|exact He].
Qed.
Lemma fsum_good o vs i l : fsum_correct o -> total_float o -> Forall2 good vs (i :: l) -> Forall moderate (i :: l) ->
  (forall k, (k <= length l)%nat -> moderate (fsum_estimate (i :: firstn k l))) -> exists v, fl_fsum o vs = Ok v /\ good v (fsum_estimate (i :: l)).
Proof.
  intros Hs (_ & Ht & _) Hl Hm Hk.
  assert (Hd : Forall (fun a => is_double a /\ finite a /\ Rabs (double_value a) <= 2 ^ 1000) vs).
  { clear - Hl Hm. remember (i :: l) as ll. clear - Hl Hm. induction Hl as [|a j vs ll Ha _ IH]; constructor; [|inversion Hm; auto].
    inversion Hm; subst. split; [apply Ha|]. split; [apply Ha|]. eapply good_moderate; eassumption. }
  assert (Hc : forall ws ll, Forall2 good ws ll -> Rabs (sum_of ws - fold_right Rplus 0 (map fst ll)) <= fold_right Rplus 0 (map snd ll)).
  { intros ws ll H. unfold sum_of. induction H as [|a j ws ll (_ & _ & Ha) _ IH]; cbn [map fold_right].
    - unfold Rminus. rewrite Rplus_opp_r, Rabs_R0. lra.
    - match goal with |- Rabs ?x <= _ => replace x with ((double_value a - fst j) + (fold_right Rplus 0 (map double_value ws) - fold_right Rplus 0 (map fst ll))) by ring end.
      apply Rle_trans with (1 := Rabs_triang _ _). lra. }
  assert (Hpre : forall k, Rabs (sum_of (firstn k vs)) <= 2 ^ 1000).
  { intros [|k]; [unfold sum_of; cbn [firstn map fold_right]; rewrite Rabs_R0; apply pow_le; lra|].
    assert (Hf : Forall2 good (firstn (S k) vs) (i :: firstn k l)).
    { inversion Hl as [|a ? ws ? Ha Hws]; subst. cbn [firstn]. constructor; [exact Ha|]. clear - Hws. revert k. induction Hws; intros [|k]; cbn [firstn]; constructor; auto. }
    assert (M : moderate (fsum_estimate (i :: firstn k l))).
    { destruct (Nat.le_gt_cases k (length l)) as [Hle|Hgt]; [apply Hk, Hle|]. rewrite firstn_all2 by lia. rewrite <- (firstn_all l) at 1. apply Hk. lia. }
    apply Rle_trans with (2 := M). unfold fsum_estimate. cbn [fst snd]. pose proof (Hc _ _ Hf) as G.
    pose proof (dist_abs _ (_, _) G) as G1. pose proof (dist_pos _ (_, _) G) as G2. cbn [fst snd] in G1, G2. pose proof u_pos.
    match goal with |- context [unit_roundoff * (Rabs ?r + ?d)] => pose proof (Rabs_pos r); assert (0 <= unit_roundoff * (Rabs r + d)) by (apply Rmult_le_pos; lra) end. lra. }
  assert (Hne : vs <> []) by (intros ->; inversion Hl).
  destruct (Ht vs Hne Hd Hpre) as (v & Hv). exists v. split; [exact Hv|]. apply close_good.
  - apply (fsum_close o vs (i :: l) v Hs); [|exact Hv]. clear - Hl. remember (i :: l) as ll. clear - Hl. induction Hl; constructor; [apply good_close|]; assumption.
  - destruct Hs as (Hs1 & _). apply (Hs1 vs v); [|exact Hv]. intros a Ha. rewrite Forall_forall in Hd. specialize (Hd a Ha). tauto.
Qed.
Lemma constant_moderate n : Rabs (IZR n) <= 2 ^ 1000 -> exists v, constant n = Some v /\ finite v.
Proof.
  intros H. unfold constant. destruct (normalize_cases n 0 false) as [(_ & _ & Hf & _)|(Hge & _)].
  - destruct (SpecFloat.binary_normalize 53 1024 n 0 false); try contradiction; eexists; split; try reflexivity; exact I.
  - exfalso. assert (E : F2R (Float radix2 n 0) = IZR n) by (unfold F2R; cbn; ring). rewrite E in Hge. apply small_in_range, in_range_rnd in H. lra.
Qed.

Lemma error_of_int n : Rabs (IZR n) <= Rabs (IZR n) + (if (Z.abs n <=? 2 ^ 53)%Z then 0 else unit_roundoff * Rabs (IZR n)).
Proof.
  pose proof u_pos as H. pose proof (Rabs_pos (IZR n)) as H0. destruct (Z.abs n <=? 2 ^ 53)%Z.
  - rewrite Rplus_0_r. apply Rle_refl.
  - rewrite <- (Rplus_0_r (Rabs (IZR n))) at 1. apply Rplus_le_compat_l, Rmult_le_pos; [left; exact H|exact H0].
Qed.

(** ** Expressions *)
Lemma moderate_arg est h args a : moderate_everywhere est (Node (h :: args)) -> In a args -> moderate_everywhere est a.
Proof.
  intros [H1 H2] Ha. split.
  - intros s Hs. apply H1. eapply reach_arg; eauto.
  - intros h' args' k Hh Hr. apply H2; [exact Hh|]. eapply reach_arg; eauto.
Qed.
Section Total.
  Context (acc : accuracy) (sum : estimated -> list estimated -> estimated) (names : list string) (vals : list spec_float) (value : tree -> option spec_float).
  Notation est := (estimate acc sum names (map double_value vals)).
  Context (Hvals : Forall is_double vals) (Hfin : Forall finite vals).
  Context (Harg : forall a w, argument (map Symbol names) vals (Atm a) = Some w -> value (Atm a) = Some w).
  Context (Hint : forall ty n, atype_eqb ty T_Integer = true -> argument (map Symbol names) vals (Atm (mkAtom ty (VInt n))) = None -> Rabs (IZR n) <= 2 ^ 1000 ->
    exists v, value (Atm (mkAtom ty (VInt n))) = Some v /\ constant n = Some v).
  Context (Hadd : forall args vs i l, Forall2 (fun a w => value a = Some w) args vs -> Forall2 good vs (i :: l) -> Forall moderate (i :: l) ->
    (forall k, (k <= length l)%nat -> moderate (sum i (firstn k l))) -> exists v, value (Node (Add :: args)) = Some v /\ good v (sum i l)).
  Context (Hmul : forall args vs i l, Forall2 (fun a w => value a = Some w) args vs -> Forall2 good vs (i :: l) ->
    (forall k, (k <= length l)%nat -> moderate (fold_left mul_estimate (firstn k l) i)) -> exists v, value (Node (Mul :: args)) = Some v /\ good v (fold_left mul_estimate l i)).
  Context (Hsin : forall a w i, value a = Some w -> good w i -> exists v, value (Node [sin; a]) = Some v /\ good v (Rtrigo_def.sin (fst i), snd i + trig_error acc)).
  Context (Hcos : forall a w i, value a = Some w -> good w i -> exists v, value (Node [cos; a]) = Some v /\ good v (Rtrigo_def.cos (fst i), snd i + trig_error acc)).
  Context (Hpow : forall b x wb wx n i k, value b = Some wb -> value x = Some wx -> good wb i -> is_int wx n -> pow_estimate acc i n = Some k -> moderate k ->
    exists v, value (Node [Pow; b; x]) = Some v /\ good v k).
  Context (Hexp : forall x n w, value x = Some w -> int_value [] [] x = Some n -> fits [] [] x -> is_int w n).
  Lemma value_total e : forall i, exponents_fit e -> moderate_everywhere est e -> est e = Some i -> exists v, value e = Some v /\ good v i.
  Proof.
    induction e as [a|cs IH] using tree_ind_all; intros i Hx Hm He.
    - cbn [estimate] in He. pose proof (real_argument_spec (map Symbol names) vals (Atm a)) as G.
      destruct (argument (map Symbol names) vals (Atm a)) as [w|] eqn:Ea.
      + destruct G as [Hin E]. rewrite E in He. injection He as <-. exists w. split; [apply Harg, Ea|]. rewrite Forall_forall in Hvals, Hfin.
        split; [apply Hvals, Hin|]. split; [apply Hfin, Hin|]. cbn [fst snd]. unfold Rminus. rewrite Rplus_opp_r, Rabs_R0. lra.
      + rewrite G in He. destruct a as [ty [n|s]]; [|discriminate]. destruct (atype_eqb ty T_Integer) eqn:Et; [|discriminate].
        destruct (proj1 Hm _ (reach_refl _)) as (j & Ej & Mj). cbn [estimate] in Ej. rewrite G, Et in Ej.
        assert (Rn : Rabs (IZR n) <= 2 ^ 1000).
        { apply (f_equal (fun o => match o with Some k => k | None => j end)) in Ej. cbv beta iota in Ej. subst j. apply Rle_trans with (2 := Mj). cbn [fst snd]. apply error_of_int. }
        destruct (Hint ty n Et Ea Rn) as (v & Hv & Hc). exists v. split; [exact Hv|]. destruct (constant_moderate n Rn) as (v' & Hc' & Fv). replace v' with v in Fv by congruence.
        apply close_good; [|exact Fv]. destruct (constant_near n v Hc) as [Hd [_ Hn]]. split; [exact Hd|]. intros _. apply (f_equal (fun o => match o with Some k => k | None => i end)) in He. cbv beta iota in He. subst i. cbn [fst snd]. destruct (Z.abs n <=? 2 ^ 53)%Z.
        * unfold growth in Hn. rewrite pow_O in Hn. replace ((1 - 1) * Rabs (IZR n)) with 0 in Hn by ring. exact Hn.
        * unfold growth in Hn. rewrite pow_1 in Hn. replace ((1 + unit_roundoff - 1) * Rabs (IZR n)) with (unit_roundoff * Rabs (IZR n)) in Hn by ring. exact Hn.
    - destruct cs as [|h args]; [discriminate|]. pose proof He as He'. rewrite (estimate_node acc sum names (map double_value vals) h args) in He.
      assert (IH' : forall a i, In a args -> est a = Some i -> exists v, value a = Some v /\ good v i).
      { intros a j Ha. apply IH; [right; exact Ha|eapply exponents_fit_arg; eauto|eapply moderate_arg; eauto]. }
      assert (Mi : moderate i) by (destruct (proj1 Hm _ (reach_refl _)) as (i' & Ei' & Mi'); congruence).
      destruct (tree_eqb_spec h Pow) as [->|Hnp].
      + destruct args as [|b [|x [|]]]; try discriminate. destruct (est b) as [j|] eqn:Eb; [|discriminate].
        destruct (int_value [] [] x) as [n|] eqn:Ex; [|discriminate].
        destruct (IH' b j (or_introl eq_refl) Eb) as (wb & Hwb & Gb).
        assert (Rx : reach false [] (Node [Pow; b; x]) x) by (eapply reach_arg; [right; left; reflexivity|apply reach_refl]).
        destruct (proj1 Hm _ Rx) as (jx & Ejx & _). destruct (IH' x jx (or_intror (or_introl eq_refl)) Ejx) as (wx & Hwx & _).
        apply (Hpow b x wb wx n j i Hwb Hwx Gb); [apply (Hexp x n wx Hwx Ex)|exact He|exact Mi]. apply (Hx b). apply reach_refl.
      + destruct (opt_map est args) as [[|j r]|] eqn:E; try discriminate. pose proof E as E'. apply opt_map_Forall2 in E.
        assert (Hc : exists vs, Forall2 (fun a w => value a = Some w) args vs /\ Forall2 good vs (j :: r)).
        { clear - E IH'. revert E. generalize (j :: r). intros l E. induction E as [|a k args l Ha _ IHl]; [exists []; split; constructor|].
          destruct (IH' a k (or_introl eq_refl) Ha) as (v & Hv & Gv). destruct IHl as (vs & Hvs & Gvs); [intros b i Hb; apply IH'; right; exact Hb|].
          exists (v :: vs). split; constructor; assumption. }
        destruct Hc as (vs & Hvs & Gvs).
        assert (Mall : Forall moderate (j :: r)).
        { apply Forall_forall. intros k Hk. assert (Q : exists a, In a args /\ est a = Some k).
          { clear - E Hk. revert E Hk. generalize (j :: r). intros l E Hk. induction E as [|a m args l Ha _ IHl]; [destruct Hk|]. destruct Hk as [->|Hk]; [exists a; split; [left; reflexivity|exact Ha]|].
            destruct (IHl Hk) as (b & Hb & Eb). exists b. split; [right; exact Hb|exact Eb]. }
          destruct Q as (a & Ha & Ea). assert (Ra : reach false [] (Node (h :: args)) a) by (eapply reach_arg; [exact Ha|apply reach_refl]).
          destruct (proj1 Hm _ Ra) as (k' & Ek & Mk). congruence. }
        assert (Hlen : length args = S (length r)) by (apply Forall2_len in E; exact E).
        assert (Pre : h = Add \/ h = Mul -> forall k, (k <= length r)%nat -> exists i', est (Node (h :: firstn (S k) args)) = Some i' /\ moderate i' /\ opt_map est (firstn (S k) args) = Some (j :: firstn k r)).
        { intros Hh k Hk. destruct (proj2 Hm h args k Hh (reach_refl _)) as (i' & Ei & Mi'); [lia|]. exists i'. split; [exact Ei|]. split; [exact Mi'|].
          apply (opt_map_firstn _ (S k)) in E'. exact E'. }
        destruct (tree_eqb_spec h Add) as [->|Hna].
        * injection He as <-. apply (Hadd args vs j r Hvs Gvs Mall). intros k Hk. destruct (Pre (or_introl eq_refl) k Hk) as (i' & Ei & Mi' & Eo).
          rewrite (estimate_node acc sum names (map double_value vals) Add) in Ei. rewrite Eo in Ei. change (Some (sum j (firstn k r)) = Some i') in Ei. injection Ei as <-. exact Mi'.
        * destruct (tree_eqb_spec h Mul) as [->|Hnm].
          -- injection He as <-. apply (Hmul args vs j r Hvs Gvs). intros k Hk. destruct (Pre (or_intror eq_refl) k Hk) as (i' & Ei & Mi' & Eo).
             rewrite (estimate_node acc sum names (map double_value vals) Mul) in Ei. rewrite Eo in Ei. change (Some (fold_left mul_estimate (firstn k r) j) = Some i') in Ei. injection Ei as <-. exact Mi'.
          -- destruct r as [|]; [|discriminate]. inversion E as [|a ? ? ? Ha E1]; subst. inversion E1; subst. inversion Hvs as [|? w ? ? Hw Hvs']; subst. inversion Hvs'; subst.
             inversion Gvs as [|? ? ? ? Gw _]; subst.
             destruct (tree_eqb_spec h sin) as [->|_]; [injection He as <-; apply (Hsin a w); assumption|].
             destruct (tree_eqb_spec h cos) as [->|_]; [injection He as <-; apply (Hcos a w); assumption|discriminate].
  Qed.
End Total.

Lemma machine_total acc mc names vals e i : ieee_add mc -> ieee_mul mc -> accurate_machine acc mc -> total_machine mc -> Forall is_double vals -> Forall finite vals ->
  exponents_fit e -> moderate_everywhere (code_estimate acc names (map double_value vals)) e -> code_estimate acc names (map double_value vals) e = Some i ->
  exists v, machine_value mc (map Symbol names) vals e = Some v /\ good v i.
Proof.
  intros Ha Hm (As & Ac & Ap) (Ts & Tc & Tp) Hvals Hfin Hx Hmod He.
  assert (Fadd : forall l a, fold_left (mc_add mc) l a = fold_left (SFadd 53 1024) l a) by (induction l; intros; cbn [fold_left]; [reflexivity|rewrite Ha; auto]).
  assert (Fmul : forall l a, fold_left (mc_mul mc) l a = fold_left (SFmul 53 1024) l a) by (induction l; intros; cbn [fold_left]; [reflexivity|rewrite Hm; auto]).
  assert (N : forall h args vs, Forall2 (fun a w => machine_value mc (map Symbol names) vals a = Some w) args vs ->
    machine_value mc (map Symbol names) vals (Node (h :: args)) = machine_op mc h vs).
  { intros h args vs H. rewrite machine_value_node. apply opt_map_Forall2 in H. rewrite H. reflexivity. }
  refine (value_total acc _ names vals (machine_value mc (map Symbol names) vals) Hvals Hfin _ _ _ _ _ _ _ _ e i Hx Hmod He).
  - intros a w H. cbn [machine_value machine_leaf]. rewrite H. reflexivity.
  - intros ty n Et Ea Rn. destruct (constant_moderate n Rn) as (v & Hc & _). exists v. split; [|exact Hc]. cbn [machine_value machine_leaf]. rewrite Ea, Et. exact Hc.
  - intros args vs j l Hvs Hc _ Hk. rewrite (N _ _ _ Hvs). inversion Hc as [|a ? vs' ? Hca Hc']; subst. cbn. eexists. split; [reflexivity|]. rewrite Fadd.
    apply fold_good; [apply add_good|exact Hc'|exact Hca|exact Hk].
  - intros args vs j l Hvs Hc Hk. rewrite (N _ _ _ Hvs). inversion Hc as [|a ? vs' ? Hca Hc']; subst. cbn. eexists. split; [reflexivity|]. rewrite Fmul.
    apply fold_good; [apply mul_good|exact Hc'|exact Hca|exact Hk].
  - intros a w j Hw Hc. rewrite (N sin [a] [w]) by (repeat constructor; exact Hw). cbn. destruct (trig_good acc _ _ w j sin_lipschitz As Ts Hc) as (v & E & G). subst v. eauto.
  - intros a w j Hw Hc. rewrite (N cos [a] [w]) by (repeat constructor; exact Hw). cbn. destruct (trig_good acc _ _ w j cos_lipschitz Ac Tc Hc) as (v & E & G). subst v. eauto.
  - intros b x wb wx n j k Hwb Hwx Hc Hi Hk Mk. rewrite (N Pow [b; x] [wb; wx]) by (repeat constructor; assumption). cbn.
    destruct (pow_good acc _ wb wx j n k Ap Tp Hc Hi Hk Mk) as (v & E & G). subst v. eauto.
  - intros x n w H Hn Hf. rewrite (int_value_machine mc names vals x n Hn) in H.
    destruct (machine_int mc [] [] [] Ha Hm (Forall2_nil _) x n Hf Hn) as (w' & E & Hi). congruence.
Qed.
Lemma f64_total acc o names vals e i : fsum_correct o -> prod_rounds o -> ints_rounds o -> accurate_float acc o -> total_float o -> Forall is_double vals -> Forall finite vals ->
  exponents_fit e -> moderate_everywhere (eval_estimate acc names (map double_value vals)) e -> eval_estimate acc names (map double_value vals) e = Some i ->
  exists v, f64_value o (map Symbol names) vals e = Some v /\ good v i.
Proof.
  intros Hs Hp Hi (As & Ac & Ap) Ht Hvals Hfin Hx Hmod He. pose proof Ht as (Ti & Tf & Tm & Ts & Tc & Tp).
  assert (N : forall h args vs w, Forall2 (fun a w => f64_value o (map Symbol names) vals a = Some w) args vs -> f64_op o h vs = Ok w ->
    f64_value o (map Symbol names) vals (Node (h :: args)) = Some w).
  { intros h args vs w H Hw. apply f64_value_meaning. cbn [meaning].
    assert (E : mapM (meaning (f64_leaf o (combine (map Symbol names) vals)) (f64_op o)) args = Ok vs).
    { apply mapM_Ok_Forall2. clear - H. induction H; constructor; [apply f64_value_meaning; assumption|assumption]. }
    rewrite E. exact Hw. }
  refine (value_total acc _ names vals (f64_value o (map Symbol names) vals) Hvals Hfin _ _ _ _ _ _ _ _ e i Hx Hmod He).
  - intros a w H. apply f64_value_meaning. cbn [meaning]. unfold f64_leaf. rewrite get_argument, H. reflexivity.
  - intros ty n Et Ea Rn. destruct (Ti n) as (v & Hv).
    { apply le_IZR. rewrite abs_IZR. apply Rle_trans with (1 := Rn). apply Req_le. rewrite pow_IZR. reflexivity. }
    exists v. split; [|apply Hi, Hv]. apply f64_value_meaning. cbn [meaning]. unfold f64_leaf. rewrite get_argument, Ea, Et. exact Hv.
  - intros args vs j l Hvs Hc Mall Hk. destruct (fsum_good o vs j l Hs Ht Hc Mall Hk) as (v & E & G). exists v. split; [|exact G]. apply (N _ _ _ _ Hvs). exact E.
  - intros args vs j l Hvs Hc Hk. destruct (Tm vs) as (v & E); [intros ->; inversion Hc| |].
    { clear - Hc. remember (j :: l) as ll. clear - Hc. induction Hc as [|a k vs ll Ha _ IH]; constructor; [apply Ha|exact IH]. }
    exists v. split; [apply (N _ _ _ _ Hvs); exact E|]. inversion Hc as [|a ? vs' ? Hca Hc']; subst. apply Hp in E. subst v.
    apply fold_good; [apply mul_good|exact Hc'|exact Hca|exact Hk].
  - intros a w j Hw Hc. destruct (trig_good acc _ _ w j sin_lipschitz As Ts Hc) as (v & E & G). exists v. split; [|exact G]. apply (N sin [a] [w]); [repeat constructor; exact Hw|exact E].
  - intros a w j Hw Hc. destruct (trig_good acc _ _ w j cos_lipschitz Ac Tc Hc) as (v & E & G). exists v. split; [|exact G]. apply (N cos [a] [w]); [repeat constructor; exact Hw|exact E].
  - intros b x wb wx n j k Hwb Hwx Hc Hi' Hk Mk. destruct (pow_good acc _ wb wx j n k Ap Tp Hc Hi' Hk Mk) as (v & E & G). exists v. split; [|exact G].
    apply (N Pow [b; x] [wb; wx]); [repeat constructor; assumption|exact E].
  - intros x n w H Hn Hf. apply f64_value_meaning in H. rewrite (int_value_f64 o names vals x n Hn) in H.
    destruct Hs as (Hs1 & _). exact (f64_int o [] [] [] Hs1 Hp Hi (Forall2_nil _) x n w Hf Hn H).
Qed.

(** ** The code is accepted *)
Lemma estimate_accepted acc sum names xs e : moderate_everywhere (estimate acc sum names xs) e -> length xs = length names ->
  forall mc vals, length vals = length names -> exists v, machine_value mc (map Symbol names) vals e = Some v.
Proof.
  intros Hm Hxs mc vals Hl. induction e as [a|cs IH] using tree_ind_all.
  - destruct (proj1 Hm _ (reach_refl _)) as (j & Ej & Mj). cbn [machine_value machine_leaf]. cbn [estimate] in Ej.
    destruct (argument (map Symbol names) vals (Atm a)) as [w|] eqn:Ea; [eauto|].
    assert (Er : real_argument (map Symbol names) xs (Atm a) = None).
    { clear - Ea Hl Hxs. revert vals xs Hl Hxs Ea. induction names as [|s ss IH]; intros [|v vals] [|x xs] Hl Hxs Ea; try discriminate; [reflexivity|]. cbn [map argument real_argument] in *.
      destruct (tree_eqb (Atm a) (Symbol s)); [discriminate|]. apply (IH vals); [injection Hl; auto|injection Hxs; auto|exact Ea]. }
    rewrite Er in Ej. destruct a as [ty [n|s]]; [|discriminate]. destruct (atype_eqb ty T_Integer); [|discriminate].
    destruct (constant_moderate n) as (v & Hc & _); [|eauto]. apply (f_equal (fun o => match o with Some k => k | None => j end)) in Ej. cbv beta iota in Ej. subst j. apply Rle_trans with (2 := Mj). cbn [fst snd].
    apply error_of_int.
  - destruct (proj1 Hm _ (reach_refl _)) as (j & Ej & _). destruct cs as [|h args]; [discriminate|].
    assert (IH' : forall a, In a args -> exists v, machine_value mc (map Symbol names) vals a = Some v).
    { intros a Ha. apply IH; [right; exact Ha|]. eapply moderate_arg; eauto. }
    assert (Hvs : exists vs, opt_map (machine_value mc (map Symbol names) vals) args = Some vs /\ length vs = length args).
    { clear - IH'. induction args as [|a args IHl]; [exists []; split; reflexivity|]. destruct (IH' a (or_introl eq_refl)) as (v & Hv). destruct IHl as (vs & Hvs & Ev); [intros b Hb; apply IH'; right; exact Hb|].
      exists (v :: vs). cbn [opt_map length]. rewrite Hv, Hvs, Ev. split; reflexivity. }
    destruct Hvs as (vs & Evs & Lvs). rewrite machine_value_node, Evs. rewrite (estimate_node acc sum names xs h args) in Ej. unfold machine_op.
    destruct (tree_eqb_spec h Pow) as [->|_].
    + destruct args as [|b [|x [|]]]; try discriminate. destruct vs as [|v [|w [|]]]; try discriminate. eexists. reflexivity.
    + destruct (opt_map (estimate acc sum names xs) args) as [[|k r]|] eqn:E; try discriminate. apply opt_map_Forall2, Forall2_len in E.
      destruct vs as [|v vs]; [cbn in Lvs, E; rewrite <- Lvs in E; discriminate|].
      destruct (tree_eqb h Add); [eauto|]. destruct (tree_eqb h Mul); [eauto|]. destruct r; [|discriminate].
      destruct (tree_eqb h sin); [eauto|]. destruct (tree_eqb h cos); [eauto|discriminate].
Qed.
