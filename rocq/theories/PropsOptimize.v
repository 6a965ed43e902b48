(** * What computed derivatives prove about a function: C111. *)
From Coq Require Import SpecFloat Reals Lra Ranalysis5.
From Verif Require Import Py ModelTree SpecTree ProofBase ModelEval SpecEval ModelDiff ModelSym ModelCas ModelMatrix ModelLLVM ModelApi SpecMatrix SpecLLVM SpecLambdify SpecApi
  SpecReal ProofReal SpecDiff ProofDiff ProofBin ProofCasDiff SpecCas ProofFloat ProofLLVM PropsLLVM SpecExact SpecError ProofError ProofApi PropsMatrix PropsApi PropsReal
  SpecBound ProofBound PropsBound SpecOverflow ProofOverflow PropsOverflow PropsTaylor PropsChain PropsCurve PropsJacobian Samples.
Local Open Scope string_scope.
Local Open Scope R_scope.

Lemma positive_slope F t l : derivable_pt_lim F t l -> 0 < l -> exists delta, 0 < delta /\ forall u, u <> t -> Rabs (u - t) < delta -> 0 < (F u - F t) * (u - t).
Proof.
  intros H Hl. destruct (H l Hl) as (delta & Hd). exists delta. split; [apply cond_pos|]. intros u Hne Hu.
  specialize (Hd (u - t) ltac:(lra) Hu). replace (t + (u - t)) with u in Hd by ring. apply Rabs_def2 in Hd as [_ Hd].
  replace ((F u - F t) * (u - t)) with ((F u - F t) / (u - t) * ((u - t) * (u - t))) by (field; lra).
  apply Rmult_lt_0_compat; [lra|]. assert (u - t <> 0) by lra. nra.
Qed.
Lemma negative_slope F t l : derivable_pt_lim F t l -> l < 0 -> exists delta, 0 < delta /\ forall u, u <> t -> Rabs (u - t) < delta -> (F u - F t) * (u - t) < 0.
Proof.
  intros H Hl. destruct (positive_slope (- F)%F t (- l)) as (delta & Hd & G); [apply derivable_pt_lim_opp, H|lra|]. exists delta. split; [exact Hd|].
  intros u Hne Hu. specialize (G u Hne Hu). unfold opp_fct in G. lra.
Qed.
Lemma abs_between x y : Rabs x <= y -> - y <= x <= y.
Proof. unfold Rabs. destruct (Rcase_abs x); lra. Qed.
Lemma line_zero env ss bs s : line env ss bs 0 s = env s.
Proof.
  revert bs. induction ss as [|s1 ss IH]; intros [|b bs]; cbn [line]; try reflexivity. unfold upd. destruct (String.eqb_spec s s1) as [->|_]; [ring|apply IH].
Qed.
Lemma gradient_ext env env' e ss coeffs : (forall s, env s = env' s) -> gradient env e ss coeffs -> gradient env' e ss coeffs.
Proof.
  intros H G. unfold gradient in *. induction G as [|s a ss coeffs (d & Hd & Ha) _ IH]; constructor; [|exact IH]. exists d. split; [exact Hd|]. rewrite <- Ha. symmetry. apply reval_ext. intros; apply H.
Qed.

(** ** Descent directions *)
(** C111. A direction in which the partial derivatives give a negative slope is a direction of descent. *)
Theorem C111_descent env e ss (bs coeffs : list R) v : NoDup ss -> length ss = length bs -> reval env e = Some v -> gradient env e ss coeffs -> dot coeffs bs < 0 ->
  exists delta, 0 < delta /\ forall t, 0 < t < delta -> exists w, reval (line env ss bs t) e = Some w /\ w < v.
Proof.
  intros Hnd Hlen Hv Hg Hneg.
  destruct (C102_directional env e ss bs coeffs 0 v Hnd Hlen) as (F & delta & Hd & HF & Hl).
  - rewrite <- Hv. apply reval_ext. intros s _. apply line_zero.
  - apply (gradient_ext env); [intros s; symmetry; apply line_zero|exact Hg].
  - destruct (negative_slope F 0 _ Hl Hneg) as (d1 & Hd1 & G). exists (Rmin delta d1). split; [apply Rmin_glb_lt; assumption|].
    intros t [Ht Ht']. assert (t < delta /\ t < d1) as [T1 T2] by (split; eapply Rlt_le_trans; [exact Ht'|apply Rmin_l|exact Ht'|apply Rmin_r]).
    exists (F t). split; [apply HF; rewrite Rminus_0_r, Rabs_pos_eq; lra|].
    assert (E : v = F 0). { specialize (HF 0). rewrite Rminus_0_r, Rabs_R0 in HF. specialize (HF Hd). assert (Some v = Some (F 0)) by (rewrite <- HF, <- Hv; symmetry; apply reval_ext; intros s _; apply line_zero). congruence. }
    specialize (G t ltac:(lra)). rewrite Rminus_0_r, Rabs_pos_eq in G by lra. specialize (G T2). rewrite E. nra.
Qed.
Lemma near_gradient acc names vals env e ns cs : Forall2 (fun n v => env n = double_value v) names vals ->
  Forall2 (fun s vb => near_derivative acc names vals env e s (fst vb) (snd vb)) ns cs ->
  exists ls, gradient env e ns ls /\ Forall2 (fun vb l => Rabs (double_value (fst vb) - l) <= snd vb) cs ls.
Proof.
  intros Henv H. assert (Henv' : Forall2 (fun n x => env n = x) names (map double_value vals)) by (clear - Henv; induction Henv; constructor; assumption).
  unfold gradient. induction H as [|s vb ns cs (d & l & Hd & He & _ & B) _ (ls & IH1 & IH2)]; [exists []; split; constructor|]. exists (l :: ls). split; constructor; try assumption.
  exists d. split; [exact Hd|]. exact (C92_exact_value acc names (map double_value vals) env d (l, snd vb) Henv' (or_introl He)).
Qed.
Lemma dot_near row bounds ls bs : length bounds = length row -> length bs = length ls ->
  Forall2 (fun vb l => Rabs (double_value (fst vb) - l) <= snd vb) (combine row bounds) ls -> Rabs (dot (map double_value row) bs - dot ls bs) <= dot bounds (map Rabs bs).
Proof.
  revert row bounds bs. induction ls as [|l ls IH]; intros row bounds bs Hlen Hb Hls.
  - destruct bs; [|discriminate]. destruct row, bounds; try discriminate; cbn [map dot combine] in *; try (inversion Hls); unfold Rminus; rewrite Rplus_opp_r, Rabs_R0; apply Rle_refl.
  - destruct bs as [|b bs]; [discriminate|]. destruct row as [|w row], bounds as [|c bounds]; try discriminate; cbn [combine] in Hls; inversion Hls as [|? ? ? ? B Hls']; subst.
    cbn [map dot fst snd] in *. specialize (IH row bounds bs). injection Hlen as Hlen. injection Hb as Hb. specialize (IH Hlen Hb Hls').
    replace (double_value w * b + dot (map double_value row) bs - (l * b + dot ls bs)) with ((double_value w - l) * b + (dot (map double_value row) bs - dot ls bs)) by ring.
    apply Rle_trans with (1 := Rabs_triang _ _). rewrite Rabs_mult. apply Rplus_le_compat; [|exact IH]. apply Rmult_le_compat_r; [apply Rabs_pos|exact B].
Qed.
(** It is enough that the slope computed by the compiled Jacobian (C110) is negative by more than its bound. *)
Theorem C111_computed_descent acc env e names vals (bs : list R) row bounds v : NoDup names -> length names = length bs ->
  Forall2 (fun n v => env n = double_value v) names vals -> reval env e = Some v -> length bounds = length row ->
  Forall2 (fun s vb => near_derivative acc names vals env e s (fst vb) (snd vb)) names (combine row bounds) ->
  dot (map double_value row) bs + dot bounds (map Rabs bs) < 0 ->
  exists delta, 0 < delta /\ forall t, 0 < t < delta -> exists w, reval (line env names bs t) e = Some w /\ w < v.
Proof.
  intros Hnd Hlen Henv Hv Hb Hrow Hneg. destruct (near_gradient acc names vals env e names _ Henv Hrow) as (ls & Hg & Hls).
  apply (C111_descent env e names bs ls v Hnd Hlen Hv Hg).
  pose proof (dot_near row bounds ls bs Hb ltac:(rewrite <- Hlen; apply (Forall2_len _ _ _ Hg)) Hls) as H. apply abs_between in H. lra.
Qed.

(** ** Extrema *)
(** If no value of [e] near the point, changing only [s], is smaller (or none is larger), the derivative is zero there. *)
Theorem C111_extremum env e s d v l delta : expr_diff e (Symbol s) 1 = Ok d -> reval env e = Some v -> reval env d = Some l -> 0 < delta ->
  (forall u w, Rabs (u - env s) < delta -> reval (upd env s u) e = Some w -> v <= w) \/ (forall u w, Rabs (u - env s) < delta -> reval (upd env s u) e = Some w -> w <= v) ->
  l = 0.
Proof.
  intros Hd Hv Hl Hdelta Hext. destruct (C24_diff_is_the_derivative env e s d v l Hd Hv Hl) as (F & d0 & Hd0 & HF & Hlim).
  assert (E : F (env s) = v).
  { specialize (HF (env s)). rewrite Rminus_diag_eq, Rabs_R0 in HF by reflexivity. specialize (HF Hd0). assert (Some (F (env s)) = Some v); [|congruence].
    rewrite <- HF, <- Hv. apply reval_ext. intros r _. unfold upd. destruct (String.eqb_spec r s) as [->|_]; reflexivity. }
  assert (P : forall d1, 0 < d1 -> exists h, 0 < h /\ h < d0 /\ h < delta /\ h < d1).
  { intros d1 H1. exists (Rmin d0 (Rmin delta d1) / 2). pose proof (Rmin_l d0 (Rmin delta d1)). pose proof (Rmin_r d0 (Rmin delta d1)). pose proof (Rmin_l delta d1). pose proof (Rmin_r delta d1).
    assert (0 < Rmin d0 (Rmin delta d1)) by (repeat apply Rmin_glb_lt; assumption). lra. }
  assert (A : forall h, 0 < h -> Rabs (env s + h - env s) = h /\ Rabs (env s - h - env s) = h).
  { intros h Hh. split; [rewrite Rabs_pos_eq by lra; ring|rewrite Rabs_left1 by lra; ring]. }
  destruct (Rtotal_order l 0) as [H|[H|H]]; [|exact H|]; exfalso.
  - destruct (negative_slope F _ l Hlim H) as (d1 & H1 & G). destruct (P d1 H1) as (h & Hh & L0 & L1 & L2). destruct (A h Hh) as [A1 A2].
    pose proof (G (env s + h) ltac:(lra) ltac:(rewrite A1; exact L2)) as G1. pose proof (G (env s - h) ltac:(lra) ltac:(rewrite A2; exact L2)) as G2.
    pose proof (HF (env s + h) ltac:(rewrite A1; exact L0)) as V1. pose proof (HF (env s - h) ltac:(rewrite A2; exact L0)) as V2.
    destruct Hext as [X|X]; [specialize (X _ _ ltac:(rewrite A1; exact L1) V1)|specialize (X _ _ ltac:(rewrite A2; exact L1) V2)]; rewrite E in *; nra.
  - destruct (positive_slope F _ l Hlim H) as (d1 & H1 & G). destruct (P d1 H1) as (h & Hh & L0 & L1 & L2). destruct (A h Hh) as [A1 A2].
    pose proof (G (env s + h) ltac:(lra) ltac:(rewrite A1; exact L2)) as G1. pose proof (G (env s - h) ltac:(lra) ltac:(rewrite A2; exact L2)) as G2.
    pose proof (HF (env s + h) ltac:(rewrite A1; exact L0)) as V1. pose proof (HF (env s - h) ltac:(rewrite A2; exact L0)) as V2.
    destruct Hext as [X|X]; [specialize (X _ _ ltac:(rewrite A2; exact L1) V2)|specialize (X _ _ ltac:(rewrite A1; exact L1) V1)]; rewrite E in *; nra.
Qed.
(** If a compiled derivative is further from zero than its bound, the point is no extremum. *)
Theorem C111_computed_not_extremum acc env e names vals s x b v : Forall2 (fun n v => env n = double_value v) names vals -> reval env e = Some v ->
  near_derivative acc names vals env e s x b -> b < Rabs (double_value x) ->
  forall delta, 0 < delta -> (exists u w, Rabs (u - env s) < delta /\ reval (upd env s u) e = Some w /\ w < v) /\ (exists u w, Rabs (u - env s) < delta /\ reval (upd env s u) e = Some w /\ v < w).
Proof.
  intros Henv Hv (d & l & Hd & He & _ & B) Hx delta Hdelta.
  assert (Hl : reval env d = Some l).
  { apply (C92_exact_value acc names (map double_value vals) env d (l, b)); [|left; exact He]. clear - Henv. induction Henv; constructor; assumption. }
  assert (Hne : l <> 0) by (intros ->; rewrite Rminus_0_r in B; lra).
  split; apply Classical_Prop.NNPP; intros N; apply Hne, (C111_extremum env e s d v l delta Hd Hv Hl Hdelta); [left|right]; intros u w Hu Hw; apply Rnot_lt_le; intros L; apply N; exists u, w; auto.
Qed.
(** Where the first derivative is zero and e.diff(s, 2) is positive, e has a strict local minimum along s. *)
Theorem C111_second_derivative env e s d1 d2 v c : expr_diff e (Symbol s) 1 = Ok d1 -> expr_diff e (Symbol s) 2 = Ok d2 ->
  reval env e = Some v -> reval env d1 = Some 0 -> reval env d2 = Some c -> 0 < c ->
  exists delta, 0 < delta /\ forall u, u <> env s -> Rabs (u - env s) < delta -> exists w, reval (upd env s u) e = Some w /\ v < w.
Proof.
  intros H1 H2 Hv Hd1 Hd2 Hc. pose proof (expr_diff_step e s 1 d1 d2 H1 H2) as H12. set (a := env s).
  assert (Ha : forall t, reval (upd env s a) t = reval env t) by (intros t; apply reval_ext; intros r _; unfold upd, a; destruct (String.eqb_spec r s) as [->|_]; reflexivity).
  assert (D0 : defined_at env s e a) by (unfold defined_at; rewrite Ha; congruence). assert (D1 : defined_at env s d1 a) by (unfold defined_at; rewrite Ha; congruence). assert (D2 : defined_at env s d2 a) by (unfold defined_at; rewrite Ha; congruence).
  destruct (step_near env s e d1 a H1 D0 D1) as [(e0 & N0) _]. destruct (step_near env s d1 d2 a H12 D1 D2) as [(e1 & N1) L1].
  destruct (positive_slope _ _ _ L1) as (e2 & He2 & G); [unfold function_of; rewrite Ha, Hd2; exact Hc|].
  assert (E1 : function_of env s d1 a = 0) by (unfold function_of; rewrite Ha, Hd1; reflexivity). rewrite E1 in G.
  exists (Rmin e0 (Rmin e1 e2)). split; [repeat apply Rmin_glb_lt; [apply cond_pos|apply cond_pos|exact He2]|].
  intros u Hne Hu. pose proof (Rmin_l e0 (Rmin e1 e2)). pose proof (Rmin_r e0 (Rmin e1 e2)). pose proof (Rmin_l e1 e2). pose proof (Rmin_r e1 e2).
  assert (Hin : forall t, Rmin a u <= t <= Rmax a u -> Rabs (t - a) < Rmin e0 (Rmin e1 e2)).
  { intros t Ht. apply Rle_lt_trans with (2 := Hu). unfold Rmin, Rmax in Ht. destruct (Rle_dec a u).
    - rewrite !Rabs_pos_eq; lra.
    - rewrite !Rabs_left1; lra. }
  assert (Dt : forall t, Rmin a u <= t <= Rmax a u -> defined_at env s e t /\ defined_at env s d1 t) by (intros t Ht; specialize (Hin t Ht); split; [apply N0; change (Rabs (t - a) < e0)|apply N1; change (Rabs (t - a) < e1)]; lra).
  destruct (C101_taylor env s e (fun j => match j with O => e | S _ => d1 end) 0 a u) as (t & vb & va & r & Ht & Hb & Hva & Hr & E).
  - intros [|[|j]] Hj; [reflexivity|exact H1|lia].
  - auto.
  - intros t [|j] Ht Hj; apply Dt; exact Ht.
  - exists vb. split; [exact Hb|]. specialize (Hva 0%nat ltac:(lia)). rewrite Ha, Hv in Hva. injection Hva as Hva. rewrite E. cbn [sum_f_R0]. rewrite <- Hva.
    change (fact 0) with 1%nat. change (fact 1) with 1%nat. cbn [pow INR]. replace (1 / 1 * v + (u - a) * 1 / 1 * r) with (v + (u - a) * r) by field.
    assert (Hta : t <> a /\ (u - a) * (t - a) > 0) by (unfold Rmin, Rmax in Ht; destruct (Rle_dec a u); split; try lra; nra). destruct Hta as [Hta Hs].
    pose proof (G t Hta ltac:(specialize (Hin t ltac:(lra)); lra)) as G'. unfold function_of in G'. rewrite Hr in G'.
    assert (0 < (u - a) * r); [|lra]. apply Rmult_lt_reg_r with ((t - a) * (t - a)); [nra|]. rewrite Rmult_0_l. replace ((u - a) * r * ((t - a) * (t - a))) with ((u - a) * (t - a) * ((r - 0) * (t - a))) by ring.
    apply Rmult_lt_0_compat; lra.
Qed.

(** ** Roots *)
Theorem C111_root env s e d a b va vb : expr_diff e (Symbol s) 1 = Ok d -> a < b ->
  (forall u, a <= u <= b -> defined_at env s e u /\ defined_at env s d u) -> reval (upd env s a) e = Some va -> reval (upd env s b) e = Some vb ->
  va < 0 < vb \/ vb < 0 < va -> exists u, a < u < b /\ reval (upd env s u) e = Some 0.
Proof.
  intros Hd Hab Hdef Ha Hb Hsign.
  assert (Hc : forall u, a <= u <= b -> continuity_pt (function_of env s e) u).
  { intros u Hu. destruct (Hdef u Hu) as [D0 D1]. destruct (step_near env s e d u Hd D0 D1) as [_ L]. apply derivable_continuous_pt. eexists. exact L. }
  assert (Fa : function_of env s e a = va) by (unfold function_of; rewrite Ha; reflexivity). assert (Fb : function_of env s e b = vb) by (unfold function_of; rewrite Hb; reflexivity).
  assert (X : exists u, a <= u <= b /\ function_of env s e u = 0).
  { destruct Hsign as [S|S].
    - destruct (IVT_interv (function_of env s e) a b Hc Hab) as (u & Hu & E); [lra|lra|]. exists u. auto.
    - destruct (IVT_interv (- function_of env s e)%F a b) as (u & Hu & E); [intros u Hu; apply continuity_pt_opp, Hc, Hu|exact Hab|unfold opp_fct; lra|unfold opp_fct; lra|].
      exists u. split; [exact Hu|]. unfold opp_fct in E. lra. }
  destruct X as (u & Hu & E). exists u. split.
  - assert (u <> a) by (intros ->; lra). assert (u <> b) by (intros ->; lra). lra.
  - destruct (Hdef u Hu) as [D0 _]. unfold function_of, defined_at in *. destruct (reval (upd env s u) e); [congruence|contradiction].
Qed.
(** Where the derivative is not zero there is at most one. *)
Theorem C111_at_most_one_root env s e d a b : expr_diff e (Symbol s) 1 = Ok d ->
  (forall u, a <= u <= b -> defined_at env s e u /\ exists l, reval (upd env s u) d = Some l /\ l <> 0) ->
  forall u1 u2, a <= u1 <= b -> a <= u2 <= b -> reval (upd env s u1) e = Some 0 -> reval (upd env s u2) e = Some 0 -> u1 = u2.
Proof.
  intros Hd Hdef u1 u2 I1 I2 R1 R2. apply Classical_Prop.NNPP. intros Hne.
  assert (Hin : forall t, Rmin u1 u2 <= t <= Rmax u1 u2 -> a <= t <= b) by (intros t Ht; unfold Rmin, Rmax in Ht; destruct (Rle_dec u1 u2); lra).
  destruct (C101_taylor env s e (fun j => match j with O => e | S _ => d end) 0 u1 u2) as (c & vb & va & r & Hc & Hb & Hva & Hr & E).
  - intros [|[|j]] Hj; [reflexivity|exact Hd|lia].
  - exact Hne.
  - intros t j Ht Hj. destruct (Hdef t (Hin t Ht)) as (D & l & Hl & _). destruct j; [exact D|]. unfold defined_at. congruence.
  - destruct (Hdef c (Hin c ltac:(lra))) as (_ & l & Hl & Hl0). assert (r = l) as -> by congruence. specialize (Hva 0%nat ltac:(lia)). change (reval (upd env s u1) e = Some (va 0%nat)) in Hva. rewrite R1 in Hva. injection Hva as Hva. rewrite R2 in Hb. injection Hb as Hb.
    cbn [sum_f_R0] in E. rewrite <- Hva in E. change (fact 0) with 1%nat in E. change (fact 1) with 1%nat in E. cbn [pow INR] in E.
    assert (E' : (u2 - u1) * l = 0) by (rewrite Hb, E; field). apply Rmult_integral in E' as [E'|E']; lra.
Qed.

Section Platform.
  Context (mc : machine) {code : Type} (load : string -> res code)
    (call_f64 : code -> list spec_float -> spec_float) (call_fill : code -> nat -> list spec_float -> list spec_float).
  Context (Hplatform : faithful mc load call_f64 call_fill) (Hadd : ieee_add mc) (Hmul : ieee_mul mc) (acc : accuracy) (Hacc : accurate_machine acc mc) (Htot : total_machine mc).
  Notation call := (call_compiled call_f64 call_fill).

  (** If a compiled function takes values of opposite signs at two points that differ in [s] only, each further from zero than its bound,
      and the expression and its derivative are defined in between, then the expression has a root strictly between. *)
  Theorem C111_bracket names vals_a vals_b e s d env a b h ra da rb db : good_names (map Symbol names) -> exponents_fit e ->
    length vals_a = length names -> Forall is_double vals_a -> Forall finite vals_a -> moderate_everywhere (code_estimate acc names (map double_value vals_a)) e ->
    length vals_b = length names -> Forall is_double vals_b -> Forall finite vals_b -> moderate_everywhere (code_estimate acc names (map double_value vals_b)) e ->
    code_estimate acc names (map double_value vals_a) e = Some (ra, da) -> code_estimate acc names (map double_value vals_b) e = Some (rb, db) ->
    Forall2 (fun n v => upd env s a n = double_value v) names vals_a -> Forall2 (fun n v => upd env s b n = double_value v) names vals_b ->
    expr_diff e (Symbol s) 1 = Ok d -> a < b -> (forall u, a <= u <= b -> defined_at env s e u /\ defined_at env s d u) ->
    exists f va vb, lambdify load (map OExpr (map Symbol names)) (OExpr e) h = (Ok f, h) /\ call f vals_a = Ok (FFloat va) /\ call f vals_b = Ok (FFloat vb) /\
      Rabs (double_value va - ra) <= da /\ Rabs (double_value vb - rb) <= db /\
      ((double_value va < - da /\ db < double_value vb) \/ (da < double_value va /\ double_value vb < - db) ->
       exists u, a < u < b /\ reval (upd env s u) e = Some 0).
  Proof.
    intros Hg Hx La Da Fa Ma Lb Db Fb Mb Ea Eb Va Vb Hd Hab Hdef.
    destruct (C109_lambdify mc load call_f64 call_fill Hplatform Hadd Hmul acc Hacc Htot names vals_a e h ra da Hg La Da Fa Hx Ma Ea) as (f & Hf & va & Ca & _ & Ba).
    destruct (C109_lambdify mc load call_f64 call_fill Hplatform Hadd Hmul acc Hacc Htot names vals_b e h rb db Hg Lb Db Fb Hx Mb Eb) as (f' & Hf' & vb & Cb & _ & Bb).
    assert (f' = f) as -> by congruence. exists f, va, vb. split; [exact Hf|]. split; [exact Ca|]. split; [exact Cb|]. split; [exact Ba|]. split; [exact Bb|]. intros Hs.
    assert (X : forall ns vals t, Forall2 (fun n v => upd env s t n = double_value v) ns vals -> Forall2 (fun n x => upd env s t n = x) ns (map double_value vals)) by (intros ns vals t H; induction H; constructor; assumption).
    apply (C111_root env s e d a b ra rb Hd Hab Hdef).
    - exact (C92_exact_value acc names _ _ e _ (X _ _ _ Va) (or_introl Ea)).
    - exact (C92_exact_value acc names _ _ e _ (X _ _ _ Vb) (or_introl Eb)).
    - apply abs_between in Ba. apply abs_between in Bb. destruct Hs as [[S1 S2]|[S1 S2]]; [left|right]; lra.
  Qed.
End Platform.

(** ** Cases *)
Ltac cons2 := repeat apply Forall2_cons; try apply Forall2_nil.
(** x*y at (2, 2), towards (-1, -1). *)
Definition two_two : string -> R := fun _ => 2.
Lemma prod_near : forall s, In s ["x"; "y"] -> reval two_two (m_mul x y) <> None /\ near_derivative acc_round ["x"; "y"] [v_two; v_two] two_two (m_mul x y) s v_two (2 * unit_roundoff + half_least).
Proof.
  assert (Rt : Rabs 2 = 2) by (apply Rabs_pos_eq; lra). assert (Ro : Rabs 1 = 1) by (apply Rabs_pos_eq; lra).
  assert (Hv : forall d, reval two_two d = Some 2 -> expr_diff (m_mul x y) x 1 = Ok d -> has_derivative two_two (m_mul x y) "x" 2).
  { intros d Hd E. apply (C24_diff_is_the_derivative two_two (m_mul x y) "x" d (2 * (2 * 1)) 2 E eq_refl Hd). }
  assert (Hw : forall d, reval two_two d = Some 2 -> expr_diff (m_mul x y) y 1 = Ok d -> has_derivative two_two (m_mul x y) "y" 2).
  { intros d Hd E. apply (C24_diff_is_the_derivative two_two (m_mul x y) "y" d (2 * (2 * 1)) 2 E eq_refl Hd). }
  intros s [<-|[<-|[]]]; (split; [discriminate|]); (eexists; exists 2; split; [vm_compute; reflexivity|]); cbn [map]; rewrite !v_two_value; (split; [|split]).
  - match goal with |- _ = Some (2, ?b) => change (Some (mul_estimate (1, 0) (2, 0)) = Some (2, b)) end. unfold mul_estimate. cbn [fst snd]. replace (1 * 2) with 2 by ring. rewrite Rt, Ro. do 2 f_equal. ring.
  - eapply Hv; [|vm_compute; reflexivity]. match goal with |- ?t = _ => change t with (Some (1 * (2 * 1))) end. f_equal. ring.
  - rewrite Rminus_diag_eq, Rabs_R0 by reflexivity. pose proof u_small. pose proof half_least_small. lra.
  - match goal with |- _ = Some (2, ?b) => change (Some (mul_estimate (2, 0) (1, 0)) = Some (2, b)) end. unfold mul_estimate. cbn [fst snd]. replace (2 * 1) with 2 by ring. rewrite Rt, Ro. do 2 f_equal. ring.
  - eapply Hw; [|vm_compute; reflexivity]. match goal with |- ?t = _ => change t with (Some (2 * (1 * 1))) end. f_equal. ring.
  - rewrite Rminus_diag_eq, Rabs_R0 by reflexivity. pose proof u_small. pose proof half_least_small. lra.
Qed.
Example C111_case_descent : let b := 2 * unit_roundoff + half_least in
  NoDup ["x"; "y"] /\ Forall2 (fun n v => two_two n = double_value v) ["x"; "y"] [v_two; v_two] /\ reval two_two (m_mul x y) <> None /\
  Forall2 (fun s vb => near_derivative acc_round ["x"; "y"] [v_two; v_two] two_two (m_mul x y) s (fst vb) (snd vb)) ["x"; "y"] (combine [v_two; v_two] [b; b]) /\
  dot (map double_value [v_two; v_two]) [-1; -1] + dot [b; b] (map Rabs [-1; -1]) < 0 /\ b < Rabs (double_value v_two).
Proof.
  intros b. split; [repeat constructor; cbn; intuition discriminate|]. split; [cons2; symmetry; exact v_two_value|]. split; [apply (prod_near "x"); left; reflexivity|].
  split; [cons2; apply prod_near; cbn; auto|]. pose proof u_small. pose proof half_least_small. unfold b. cbn [map dot]. rewrite v_two_value, (Rabs_left1 (-1)), (Rabs_pos_eq 2) by lra. split; lra.
Qed.
(** x*x at 0. *)
Example C111_case_minimum : let env : string -> R := fun _ => 0 in exists d1 d2,
  expr_diff (m_mul x x) x 1 = Ok d1 /\ expr_diff (m_mul x x) x 2 = Ok d2 /\ reval env (m_mul x x) = Some 0 /\ reval env d1 = Some 0 /\ reval env d2 = Some 2 /\
  (forall u w, Rabs (u - env "x") < 1 -> reval (upd env "x" u) (m_mul x x) = Some w -> 0 <= w).
Proof.
  intros env. do 2 eexists. split; [vm_compute; reflexivity|]. split; [vm_compute; reflexivity|]. split; [|split; [|split]].
  - change (Some (0 * (0 * 1)) = Some 0). f_equal. ring.
  - match goal with |- ?t = _ => change t with (Some (1 * (0 * 1) + (0 * (1 * 1) + 0))) end. f_equal. ring.
  - match goal with |- ?t = _ => change t with (Some (1 * (1 * 1) + (1 * (1 * 1) + 0))) end. f_equal. ring.
  - intros u w _ H. change (Some (u * (u * 1)) = Some w) in H. injection H as <-. nra.
Qed.
(** x*x - 3 between 1 and 2. *)
Definition v_one := S754_finite false (2 ^ 52) (-52).
Lemma v_one_value : double_value v_one = 1.
Proof. change (IZR (2 ^ 52) * / 2 ^ 52 = 1). replace (IZR (2 ^ 52)) with (2 ^ 52) by (rewrite pow_IZR; reflexivity). field. Qed.
Lemma v_one_double : is_double v_one.
Proof. repeat constructor; vm_compute; try discriminate; right; discriminate. Qed.
Definition e_square := m_add (m_mul x x) (int (-3)).
Lemma square_estimate c : 0 < c <= 2 -> exists b, code_estimate acc_round ["x"] [c] e_square = Some (c * c + -3, b) /\ 0 <= b <= / 10 /\ moderate_everywhere (code_estimate acc_round ["x"] [c]) e_square.
Proof.
  intros Hc. pose proof u_small as Hu. pose proof half_least_small as Hh. set (est := code_estimate acc_round ["x"] [c]).
  set (i := (c, 0) : estimated). set (j := mul_estimate i i). set (k := (-3, 0) : estimated).
  assert (Rc : Rabs c = c) by (apply Rabs_pos_eq; lra). assert (Rcc : Rabs (c * c) = c * c) by (apply Rabs_pos_eq; nra).
  assert (Ej : j = (c * c, c * c * unit_roundoff + half_least)) by (unfold j, mul_estimate, i; cbn [fst snd]; rewrite Rc, Rcc; f_equal; ring).
  assert (Bj : 0 <= c * c * unit_roundoff + half_least <= / 100) by nra.
  assert (Hr : Rabs (c * c + -3) <= 3) by (apply Rabs_le; nra). pose proof (Rabs_pos (c * c + -3)) as Hr0.
  set (b := snd (add_estimate j k)).
  assert (Eb : add_estimate j k = (c * c + -3, b)) by (unfold b; rewrite Ej; reflexivity).
  assert (Bb : 0 <= b <= / 10) by (unfold b; rewrite Ej; unfold add_estimate, k; cbn [fst snd]; rewrite !Rplus_0_r; split; nra).
  assert (Ei : est x = Some i) by reflexivity. assert (Ek : est (int (-3)) = Some k) by reflexivity.
  assert (Em : est (Node [Mul; x; x]) = Some j) by (unfold est, code_estimate; rewrite (estimate_node acc_round _ ["x"] [c] Mul); reflexivity).
  assert (Ee : est e_square = Some (c * c + -3, b)).
  { change e_square with (Node [Add; Node [Mul; x; x]; int (-3)]). rewrite <- Eb. unfold est, code_estimate. rewrite (estimate_node acc_round _ ["x"] [c] Add). reflexivity. }
  assert (Mi : moderate i) by (apply small_moderate; unfold size, i; cbn [fst snd]; rewrite Rc; lra).
  assert (Mj : moderate j) by (apply small_moderate; unfold size; rewrite Ej; cbn [fst snd]; rewrite Rcc; nra).
  assert (Mk : moderate k) by (apply small_moderate; unfold size, k; cbn [fst snd]; rewrite Rabs_left1 by lra; lra).
  assert (Me : moderate (c * c + -3, b)) by (apply small_moderate; unfold size; cbn [fst snd]; lra).
  exists b. split; [exact Ee|]. split; [exact Bb|].
  assert (Hpost : postorder false [] e_square = [x; x; Node [Mul; x; x]; int (-3); e_square]) by (vm_compute; reflexivity).
  split.
  - intros s Hs. apply ProofTopo.post_reach in Hs. rewrite Hpost in Hs. repeat (destruct Hs as [<-|Hs]; [eexists; split; [eassumption|assumption]|]). destruct Hs.
  - intros h args n Hor Hs Hn. apply ProofTopo.post_reach in Hs. rewrite Hpost in Hs.
    assert (Q : (h = Mul /\ args = [x; x]) \/ (h = Add /\ args = [Node [Mul; x; x]; int (-3)])).
    { clear - Hs. repeat (destruct Hs as [Hs|Hs]; [try discriminate; injection Hs as <- <-; tauto|]). destruct Hs. }
    destruct Q as [[-> ->]|[-> ->]]; destruct n as [|[|n]]; try (cbn [length] in Hn; lia); cbn [firstn].
    + exists i. split; [reflexivity|exact Mi].
    + exists j. split; [exact Em|exact Mj].
    + exists j. split; [unfold est, code_estimate; rewrite (estimate_node acc_round _ ["x"] [c] Add); reflexivity|exact Mj].
    + eexists. split; [exact Ee|exact Me].
Qed.
Example C111_case_root : let env : string -> R := fun _ => 0 in exists d da db f va vb,
  good_names (map Symbol ["x"]) /\ exponents_fit e_square /\
  Forall is_double [v_one] /\ Forall finite [v_one] /\ moderate_everywhere (code_estimate acc_round ["x"] (map double_value [v_one])) e_square /\
  Forall is_double [v_two] /\ Forall finite [v_two] /\ moderate_everywhere (code_estimate acc_round ["x"] (map double_value [v_two])) e_square /\
  code_estimate acc_round ["x"] (map double_value [v_one]) e_square = Some (1 * 1 + -3, da) /\ code_estimate acc_round ["x"] (map double_value [v_two]) e_square = Some (2 * 2 + -3, db) /\
  Forall2 (fun n v => upd env "x" 1 n = double_value v) ["x"] [v_one] /\ Forall2 (fun n v => upd env "x" 2 n = double_value v) ["x"] [v_two] /\
  expr_diff e_square x 1 = Ok d /\ (forall u, 1 <= u <= 2 -> defined_at env "x" e_square u /\ exists l, reval (upd env "x" u) d = Some l /\ l <> 0) /\
  lambdify sample_load (map OExpr (map Symbol ["x"])) (OExpr e_square) empty_heap = (Ok f, empty_heap) /\
  call_compiled (sample_f64 mc_round) (sample_fill mc_round) f [v_one] = Ok (FFloat va) /\ call_compiled (sample_f64 mc_round) (sample_fill mc_round) f [v_two] = Ok (FFloat vb) /\
  double_value va < - da /\ db < double_value vb /\
  (exists u, 1 < u < 2 /\ reval (upd env "x" u) e_square = Some 0).
Proof.
  intros env. destruct C109_case as (_ & _ & _ & _ & _ & H1 & H2 & H3 & H4 & H5 & Hg & Hd2 & Hf2 & _).
  destruct (square_estimate 1 ltac:(lra)) as (da & Ea & Ba & Ma). destruct (square_estimate 2 ltac:(lra)) as (db & Eb & Bb & Mb). cbn [map]. rewrite v_one_value, v_two_value.
  assert (Hx : exponents_fit e_square) by (apply no_powers_fit; intros b0 x0 [H|[H|[H|[H|[H|[]]]]]]; discriminate).
  assert (Hd1 : Forall is_double [v_one]) by (constructor; [exact v_one_double|constructor]). assert (Hf1 : Forall finite [v_one]) by (constructor; [exact Logic.I|constructor]).
  assert (V1 : Forall2 (fun n v => upd env "x" 1 n = double_value v) ["x"] [v_one]) by (cons2; rewrite v_one_value; reflexivity).
  assert (V2 : Forall2 (fun n v => upd env "x" 2 n = double_value v) ["x"] [v_two]) by (cons2; rewrite v_two_value; reflexivity).
  set (d := Node [Add; Node [Mul; int 1; x]; Node [Mul; x; int 1]]). assert (Ed : expr_diff e_square x 1 = Ok d) by (vm_compute; reflexivity).
  assert (Hdef : forall u, 1 <= u <= 2 -> defined_at env "x" e_square u /\ exists l, reval (upd env "x" u) d = Some l /\ l <> 0).
  { intros u Hu. split; [discriminate|]. exists (1 * (u * 1) + (u * (1 * 1) + 0)). split; [reflexivity|lra]. }
  rewrite <- v_one_value in Ea, Ma at 1. rewrite <- v_two_value in Eb, Mb at 1.
  destruct (C111_bracket mc_round sample_load (sample_f64 mc_round) (sample_fill mc_round) H5 H1 H2 acc_round H3 H4 ["x"] [v_one] [v_two] e_square "x" d env 1 2 empty_heap _ da _ db Hg Hx
    eq_refl Hd1 Hf1 Ma eq_refl Hd2 Hf2 Mb Ea Eb V1 V2 Ed ltac:(lra)) as (f & va & vb & Hf & Ca & Cb & Na & Nb & Hroot).
  { intros u Hu. destruct (Hdef u Hu) as (D & l & Hl & _). split; [exact D|]. unfold defined_at. congruence. }
  rewrite v_one_value in Ea, Ma, Na. rewrite v_two_value in Eb, Mb, Nb. apply abs_between in Na. apply abs_between in Nb.
  assert (G1 : forall p q : R, 0 <= q <= / 10 -> - q <= p - (1 * 1 + -3) <= q -> p < - q) by (intros; lra).
  assert (G2 : forall p q : R, 0 <= q <= / 10 -> - q <= p - (2 * 2 + -3) <= q -> q < p) by (intros; lra).
  assert (S1 : double_value va < - da) by (apply (G1 _ _ Ba Na)). assert (S2 : db < double_value vb) by (apply (G2 _ _ Bb Nb)).
  exists d, da, db, f, va, vb. repeat (split; [assumption|]). apply Hroot. left. split; assumption.
Qed.
Print Assumptions C111_descent.
Print Assumptions C111_computed_descent.
Print Assumptions C111_extremum.
Print Assumptions C111_computed_not_extremum.
Print Assumptions C111_second_derivative.
Print Assumptions C111_root.
Print Assumptions C111_at_most_one_root.
Print Assumptions C111_bracket.
Print Assumptions C111_case_root.
