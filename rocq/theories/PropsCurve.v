(** * C102: the partial derivatives give the derivative along every curve *)
From Coq Require Import Reals Lra.
From Verif Require Import Py ModelTree SpecTree ProofBase ModelDiff SpecDiff ProofDiff ModelSym ModelCas SpecCas
  ProofCasDiff SpecReal ProofReal PropsReal ProofChain PropsChain ProofCurve Samples.
Local Open Scope R_scope.

(** The values [coeffs] of the partial derivatives of [e] by the symbols [ss] at a point. *)
Definition gradient (env : string -> R) (e : tree) (ss : list string) (coeffs : list R) : Prop :=
  Forall2 (fun s a => exists d, expr_diff e (Symbol s) 1 = Ok d /\ reval env d = Some a) ss coeffs.

Lemma gradient_good env e ss coeffs : gradient env e ss coeffs -> good env ss e /\ coeffs = map (gv env e) ss.
Proof.
  intros H. split.
  - intros s Hs. induction H as [|s1 a ss coeffs (d & Hd & Hv) _ IH]; [destruct Hs|]. destruct Hs as [<-|Hs]; [|exact (IH Hs)].
    exists d, a. rewrite expr_diff_one in Hd. apply diff_forward_deriv in Hd. auto.
  - induction H as [|s1 a ss coeffs (d & Hd & Hv) _ IH]; [reflexivity|]. cbn [map]. f_equal; [|exact IH].
    symmetry. apply (gv_value _ _ _ d); [|exact Hv]. rewrite expr_diff_one in Hd. apply diff_forward_deriv in Hd. exact Hd.
Qed.
Lemma dot_fun_of (g k : string -> R) ss bs : NoDup ss -> length ss = length bs ->
  Rsum (map (fun s => g s * fun_of ss bs k s) ss) = dot (map g ss) bs.
Proof.
  intros Hnd. revert bs. induction Hnd as [|s ss Hs Hnd IH]; intros [|b0 bs] Hlb; try discriminate; [reflexivity|]. injection Hlb as Hlb.
  unfold Rsum in *. cbn [map fold_right fun_of dot]. rewrite String.eqb_refl. f_equal. rewrite <- (IH bs Hlb). f_equal. apply map_ext_in. intros s' Hs'.
  destruct (String.eqb_spec s' s) as [->|_]; [contradiction|reflexivity].
Qed.
Lemma fun_of_in (P : string -> R -> Prop) ss bs k s : Forall2 P ss bs -> In s ss -> P s (fun_of ss bs k s).
Proof.
  induction 1 as [|s1 b ss bs H _ IH]; intros Hin; [destruct Hin|]. cbn [fun_of]. destruct (String.eqb_spec s s1) as [->|Hne]; [exact H|].
  destruct Hin as [->|Hin]; [contradiction|exact (IH Hin)].
Qed.

(** C102. Let the values of the distinct symbols [ss] move with the time t along a curve with the
    velocities [bs] at [t0], the other symbols in [e] being fixed. Where [e] and all e.diff(s) are
    defined, [e] is defined along the curve near [t0] and its value there has the derivative
    sum of e.diff(s) * b_s. *)
Theorem C102_total_derivative (curve : R -> string -> R) t0 e ss (bs coeffs : list R) v :
  NoDup ss ->
  Forall2 (fun s b => derivable_pt_lim (fun t => curve t s) t0 b) ss bs ->
  (forall s t, contains e s -> ~ In s ss -> curve t s = curve t0 s) ->
  reval (curve t0) e = Some v -> gradient (curve t0) e ss coeffs ->
  exists F delta, 0 < delta /\ (forall t, Rabs (t - t0) < delta -> reval (curve t) e = Some (F t)) /\
    derivable_pt_lim F t0 (dot coeffs bs).
Proof.
  intros Hnd Hb Hfix Hv Hg. destruct (gradient_good _ _ _ _ Hg) as [Hgood ->].
  set (cv := fun t s => if in_dec string_dec s ss then curve t s else curve t0 s).
  assert (Hcv : forall t, reval (cv t) e = reval (curve t) e).
  { intros t. apply reval_ext. intros s Hs. unfold cv. destruct (in_dec string_dec s ss) as [_|Hn]; [reflexivity|]. symmetry. apply Hfix; assumption. }
  assert (Hcv0 : forall d, reval (cv t0) d = reval (curve t0) d).
  { intros d. apply reval_ext. intros s _. unfold cv. destruct (in_dec string_dec s ss); reflexivity. }
  destruct (along_curve cv t0 ss (fun_of ss bs (fun _ => 0)) Hnd) with (e := e) (w := v) as (F & delta & Hd & HF & Hl).
  - intros s Hs. pose proof (fun_of_in _ ss bs (fun _ => 0) s Hb Hs) as H. unfold cv. destruct (in_dec string_dec s ss); [exact H|contradiction].
  - intros s t Hs. unfold cv. destruct (in_dec string_dec s ss); [contradiction|reflexivity].
  - exact (reval_arith _ _ _ Hv).
  - intros s Hs. destruct (Hgood s Hs) as (d & w & H1 & H2). exists d, w. rewrite Hcv0. auto.
  - rewrite Hcv0. exact Hv.
  - exists F, delta. split; [exact Hd|]. split; [intros t Ht; rewrite <- Hcv; apply HF, Ht|].
    replace (dot (map (gv (curve t0) e) ss) bs) with (dotf ss (fun_of ss bs (fun _ => 0)) (gv (cv t0) e)); [exact Hl|].
    unfold dotf. rewrite dot_fun_of; [|exact Hnd|clear -Hb; induction Hb; cbn [length]; congruence].
    f_equal. apply map_ext. intros s. unfold gv. destruct (deriv cas_diff (Symbol s) e) as [d|]; [|reflexivity]. rewrite Hcv0. reflexivity.
Qed.

(** The straight line from one point in a direction: the symbols [ss] get the values p + t * b. *)
Fixpoint line (env : string -> R) (ss : list string) (bs : list R) (t : R) : string -> R :=
  match ss, bs with
  | s :: ss', b :: bs' => upd (line env ss' bs' t) s (env s + t * b)
  | _, _ => env
  end.
Lemma line_in env ss bs t s : NoDup ss -> line env ss bs t s = env s + t * fun_of ss bs (fun _ => 0) s \/ length ss <> length bs.
Proof.
  intros Hnd. revert bs. induction Hnd as [|s1 ss Hs Hnd IH]; intros [|b bs]; cbn [line fun_of]; try (right; discriminate); [left; ring|].
  destruct (IH bs) as [E|E]; [left|right; cbn [length]; congruence]. unfold upd. destruct (String.eqb_spec s s1) as [->|Hne]; [reflexivity|exact E].
Qed.
Lemma fun_of_out ss bs k s : ~ In s ss -> fun_of ss bs k s = k s.
Proof.
  revert bs. induction ss as [|s1 ss IH]; intros [|b bs] H; cbn [fun_of]; try reflexivity.
  destruct (String.eqb_spec s s1) as [->|_]; [destruct H; left; reflexivity|]. apply IH. intros Hi. apply H. right. exact Hi.
Qed.

(** The directional derivative at the point reached at time [t0]. *)
Theorem C102_directional env e ss (bs coeffs : list R) t0 v :
  NoDup ss -> length ss = length bs ->
  reval (line env ss bs t0) e = Some v -> gradient (line env ss bs t0) e ss coeffs ->
  exists F delta, 0 < delta /\ (forall t, Rabs (t - t0) < delta -> reval (line env ss bs t) e = Some (F t)) /\
    derivable_pt_lim F t0 (dot coeffs bs).
Proof.
  intros Hnd Hlen Hv Hg. assert (HL : forall t s, line env ss bs t s = env s + t * fun_of ss bs (fun _ => 0) s).
  { intros t s. destruct (line_in env ss bs t s Hnd) as [E|E]; [exact E|contradiction]. }
  apply (C102_total_derivative _ t0 e ss bs coeffs v Hnd); [|intros s t _ Hs; rewrite !HL, fun_of_out by exact Hs; ring|exact Hv|exact Hg].
  assert (Hd : forall s, derivable_pt_lim (fun t => line env ss bs t s) t0 (fun_of ss bs (fun _ => 0) s)).
  { intros s. set (b := fun_of ss bs (fun _ => 0) s).
    replace b with (0 + (1 * b + t0 * 0)) by ring.
    assert (G : derivable_pt_lim (fun t => env s + t * b) t0 (0 + (1 * b + t0 * 0))).
    { apply (derivable_pt_lim_plus (fun _ => env s) (fun t => t * b)); [apply (derivable_pt_lim_const (env s))|].
      apply (derivable_pt_lim_mult (fun t => t) (fun _ => b)); [apply derivable_pt_lim_id|apply (derivable_pt_lim_const b)]. }
    intros eps He. destruct (G eps He) as (del & Hdel). exists del. intros h Hh Hl. rewrite !HL. apply Hdel; assumption. }
  clear -Hnd Hlen Hd. assert (Hb : forall s b, In (s, b) (combine ss bs) -> derivable_pt_lim (fun t => line env ss bs t s) t0 b).
  { intros s b Hin. replace b with (fun_of ss bs (fun _ => 0) s); [apply Hd|]. clear -Hnd Hin. revert bs Hin.
    induction Hnd as [|s1 ss Hs Hnd IH]; intros [|b1 bs] Hin; try (destruct Hin; fail). cbn [combine fun_of] in *.
    destruct Hin as [E|Hin]; [injection E as -> ->; rewrite String.eqb_refl; reflexivity|].
    destruct (String.eqb_spec s s1) as [->|_]; [apply in_combine_l in Hin; contradiction|exact (IH bs Hin)]. }
  revert Hb. generalize (line env ss bs) as L. intros L Hb. clear -Hb Hlen. revert bs Hlen Hb.
  induction ss as [|s ss IH]; intros [|b bs] Hlen Hb; try discriminate; constructor.
  - apply Hb. left. reflexivity.
  - apply IH; [injection Hlen as ->; reflexivity|]. intros s' b' Hin. apply Hb. right. exact Hin.
Qed.

(** The mean value theorem: the change of e along a segment is the directional derivative somewhere on it. *)
Theorem C102_mean_value env e ss (bs : list R) va vb :
  NoDup ss -> length ss = length bs ->
  (forall t, 0 <= t <= 1 -> exists v coeffs, reval (line env ss bs t) e = Some v /\ gradient (line env ss bs t) e ss coeffs) ->
  reval (line env ss bs 0) e = Some va -> reval (line env ss bs 1) e = Some vb ->
  exists t coeffs, 0 < t < 1 /\ gradient (line env ss bs t) e ss coeffs /\ vb - va = dot coeffs bs.
Proof.
  intros Hnd Hlen Hdef H0 H1. pose (f := fun t => match reval (line env ss bs t) e with Some v => v | None => 0 end).
  pose (f' := fun t => dot (map (gv (line env ss bs t) e) ss) bs).
  assert (Hf : forall c, 0 <= c <= 1 -> derivable_pt_lim f c (f' c)).
  { intros c Hc. destruct (Hdef c Hc) as (v & co & Hv & Hg). destruct (C102_directional env e ss bs co c v Hnd Hlen Hv Hg) as (F & del & Hdel & HF & Hl).
    destruct (gradient_good _ _ _ _ Hg) as [_ ->]. fold (f' c) in Hl.
    intros eps He. destruct (Hl eps He) as (d0 & Hd0). exists (mkposreal (Rmin d0 del) (Rmin_glb_lt _ _ _ (cond_pos d0) Hdel)). intros h Hh Hlt. cbn [pos] in Hlt.
    unfold f. rewrite HF; [|replace (c + h - c) with h by ring; eapply Rlt_le_trans; [exact Hlt|apply Rmin_r]].
    rewrite (HF c) by (rewrite Rminus_diag_eq by reflexivity; rewrite Rabs_R0; exact Hdel).
    apply Hd0; [exact Hh|]. eapply Rlt_le_trans; [exact Hlt|apply Rmin_l]. }
  destruct (MVT_cor2 f f' 0 1 Rlt_0_1 Hf) as (c & E & Hc). destruct (Hdef c ltac:(lra)) as (v & co & _ & Hg).
  exists c, co. split; [exact Hc|]. split; [exact Hg|]. destruct (gradient_good _ _ _ _ Hg) as [_ ->]. fold (f' c).
  replace (vb - va) with (f 1 - f 0) by (unfold f; rewrite H0, H1; reflexivity). rewrite E. ring.
Qed.

(** Along a curve on which [e] keeps its value the velocity is orthogonal to the gradient. *)
Theorem C102_level_curves (curve : R -> string -> R) t0 e ss (bs coeffs : list R) v delta :
  NoDup ss ->
  Forall2 (fun s b => derivable_pt_lim (fun t => curve t s) t0 b) ss bs ->
  (forall s t, contains e s -> ~ In s ss -> curve t s = curve t0 s) ->
  gradient (curve t0) e ss coeffs ->
  0 < delta -> (forall t, Rabs (t - t0) < delta -> reval (curve t) e = Some v) ->
  dot coeffs bs = 0.
Proof.
  intros Hnd Hb Hfix Hg Hpos Hconst.
  assert (H0 : reval (curve t0) e = Some v) by (apply Hconst; rewrite Rminus_diag_eq by reflexivity; rewrite Rabs_R0; exact Hpos).
  destruct (C102_total_derivative curve t0 e ss bs coeffs v Hnd Hb Hfix H0 Hg) as (F & d & Hd & HF & Hl).
  apply (uniqueness_limite F t0); [exact Hl|]. intros eps He. exists (mkposreal (Rmin d delta) (Rmin_glb_lt _ _ _ Hd Hpos)). intros h Hh Hlt. cbn [pos] in Hlt.
  assert (Hval : forall t, Rabs (t - t0) < Rmin d delta -> F t = v).
  { intros t Ht. assert (E : Some (F t) = Some v); [|congruence]. rewrite <- HF, Hconst; [reflexivity| |]; eapply Rlt_le_trans; try exact Ht; [apply Rmin_r|apply Rmin_l]. }
  rewrite !Hval; [|rewrite Rminus_diag_eq by reflexivity; rewrite Rabs_R0; apply Rmin_glb_lt; assumption|replace (t0 + h - t0) with h by ring; exact Hlt].
  replace ((v - v) / h - 0) with 0 by (unfold Rdiv; ring). rewrite Rabs_R0. exact He.
Qed.

(** x * y on the unit circle x = cos t, y = sin t has at t = 0 the derivative 0 * 0 + 1 * 1 = 1; from (1, 1) to
    (3, 4) it grows by 12 - 1. *)
Definition circle (t : R) (s : string) : R := if String.eqb s "x" then Rtrigo_def.cos t else Rtrigo_def.sin t.
Example C102_case :
  let e := m_mul x y in let ss := ["x"; "y"]%string in
  NoDup ss /\
  Forall2 (fun s b => derivable_pt_lim (fun t => circle t s) 0 b) ss [0; 1] /\
  reval (circle 0) e = Some 0 /\ gradient (circle 0) e ss [0; 1] /\
  (exists F delta, 0 < delta /\ (forall t, Rabs (t - 0) < delta -> reval (circle t) e = Some (F t)) /\ derivable_pt_lim F 0 1) /\
  (exists t coeffs, 0 < t < 1 /\ gradient (line (fun _ => 1) ss [2; 3] t) e ss coeffs /\ 12 - 1 = dot coeffs [2; 3]).
Proof.
  intros e ss.
  assert (H1 : NoDup ss) by (repeat constructor; cbn; intuition discriminate).
  assert (H2 : Forall2 (fun s b => derivable_pt_lim (fun t => circle t s) 0 b) ss [0; 1]).
  { constructor; [|constructor; [|constructor]]; unfold circle; cbn [String.eqb Ascii.eqb Bool.eqb].
    - replace 0 with (- Rtrigo_def.sin 0) at 2 by (rewrite sin_0; ring). apply derivable_pt_lim_cos.
    - rewrite <- cos_0. apply derivable_pt_lim_sin. }
  assert (Hcir : circle 0 "x" = 1 /\ circle 0 "y" = 0) by (unfold circle; cbn; rewrite cos_0, sin_0; auto).
  destruct Hcir as [Hx Hy].
  assert (H3 : reval (circle 0) e = Some 0).
  { change (Some (circle 0 "x" * (circle 0 "y" * 1)) = Some 0). rewrite Hx, Hy. f_equal. ring. }
  assert (H4 : gradient (circle 0) e ss [0; 1]).
  { constructor; [|constructor; [|constructor]]; eexists; (split; [reflexivity|]).
    - change (Some (1 * (circle 0 "y" * 1)) = Some 0). rewrite Hy. f_equal. ring.
    - change (Some (circle 0 "x" * (1 * 1)) = Some 1). rewrite Hx. f_equal. ring. }
  split; [exact H1|]. split; [exact H2|]. split; [exact H3|]. split; [exact H4|]. split.
  - destruct (C102_total_derivative circle 0 e ss [0; 1] [0; 1] 0 H1 H2) as (F & d & Hd & HF & Hl); [|exact H3|exact H4|].
    2: { exists F, d. split; [exact Hd|]. split; [exact HF|]. replace 1 with (dot [0; 1] [0; 1]) by (cbn [dot]; ring). exact Hl. }
    intros s t Hc Hs. destruct Hs. apply contains_node in Hc as (c & [<-|[<-|[]]] & Hc); apply contains_sym in Hc; subst s; cbn; auto.
  - apply (C102_mean_value (fun _ => 1) e ss [2; 3] 1 12 H1 eq_refl).
    + intros t _. exists ((1 + t * 2) * ((1 + t * 3) * 1)). exists [1 * ((1 + t * 3) * 1); (1 + t * 2) * (1 * 1)]. split; [reflexivity|].
      constructor; [|constructor; [|constructor]]; eexists; (split; reflexivity).
    + change (Some ((1 + 0 * 2) * ((1 + 0 * 3) * 1)) = Some 1). f_equal. ring.
    + change (Some ((1 + 1 * 2) * ((1 + 1 * 3) * 1)) = Some 12). f_equal. ring.
Qed.
(** x * x + y * y is 1 on the circle: the gradient and the velocity are orthogonal at every time. *)
Example C102_case_level : forall t0, let e := m_add (m_mul x x) (m_mul y y) in let ss := ["x"; "y"]%string in
  let co := [circle t0 "x" + circle t0 "x"; circle t0 "y" + circle t0 "y"] in let bs := [- Rtrigo_def.sin t0; Rtrigo_def.cos t0] in
  Forall2 (fun s b => derivable_pt_lim (fun t => circle t s) t0 b) ss bs /\ gradient (circle t0) e ss co /\
  (forall t, reval (circle t) e = Some 1) /\ dot co bs = 0.
Proof.
  intros t0 e ss co bs.
  assert (H2 : Forall2 (fun s b => derivable_pt_lim (fun t => circle t s) t0 b) ss bs).
  { constructor; [|constructor; [|constructor]]; unfold circle; cbn [String.eqb Ascii.eqb Bool.eqb]; [apply derivable_pt_lim_cos|apply derivable_pt_lim_sin]. }
  assert (H3 : gradient (circle t0) e ss co).
  { constructor; [|constructor; [|constructor]]; eexists; (split; [reflexivity|]).
    - change (Some (1 * (circle t0 "x" * 1) + (circle t0 "x" * (1 * 1) + 0)) = Some (circle t0 "x" + circle t0 "x")). f_equal. ring.
    - change (Some (1 * (circle t0 "y" * 1) + (circle t0 "y" * (1 * 1) + 0)) = Some (circle t0 "y" + circle t0 "y")). f_equal. ring. }
  assert (H4 : forall t, reval (circle t) e = Some 1).
  { intros t. change (Some (Rtrigo_def.cos t * (Rtrigo_def.cos t * 1) + (Rtrigo_def.sin t * (Rtrigo_def.sin t * 1) + 0)) = Some 1). f_equal.
    pose proof (sin2_cos2 t) as E. unfold Rsqr in E. lra. }
  split; [exact H2|]. split; [exact H3|]. split; [exact H4|].
  apply (C102_level_curves circle t0 e ss bs co 1 1); [repeat constructor; cbn; intuition discriminate|exact H2| |exact H3|lra|intros; apply H4].
  intros s t Hc Hs. destruct Hs. apply contains_node in Hc as (c & [<-|[<-|[]]] & Hc); apply contains_node in Hc as (c' & [<-|[<-|[]]] & Hc); apply contains_sym in Hc; subst s; cbn; auto.
Qed.
Print Assumptions C102_total_derivative.
Print Assumptions C102_mean_value.
