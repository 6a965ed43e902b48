(** * C122: repeated derivatives of sine waves. *)
From Coq Require Import Reals Lra Lia.
From Verif Require Import Py ModelTree SpecTree ProofBase ModelDiff SpecDiff ProofDiff ModelSym ModelCas SpecCas
  ProofCasDiff SpecReal ProofReal PropsReal ProofTopo ProofBin ProofSwell SpecLeibniz PropsLeibniz SpecWaves Samples.
Local Open Scope R_scope.

Lemma leib_affine k : forall a c, leib k a (affine c 0) = a k * c.
Proof.
  assert (E : forall k a, leib k a (fun j => affine 0 0 j) = 0) by (intros m a; apply leib_0r; intros [|[|j]] _; reflexivity).
  induction k as [|k IH]; intros a c; cbn [leib]; [reflexivity|]. rewrite IH. rewrite (leib_0r k a (fun j => affine c 0 (S j))); [ring|]. intros [|j] _; reflexivity.
Qed.
Lemma cos_sin' u : Rtrigo_def.cos u = Rtrigo_def.sin (u + PI / 2).
Proof. rewrite cos_sin. f_equal. ring. Qed.
Lemma sin_cos' u : - Rtrigo_def.sin u = Rtrigo_def.cos (u + PI / 2).
Proof. rewrite (sin_cos u). rewrite Ropp_involutive. f_equal. ring. Qed.
Section Waves.
  Variables (env : string -> R) (s : string).
  Let J := derivatives env s.
  Lemma sin_value g v : reval env g = Some v -> reval env (Node [sin; g]) = Some (Rtrigo_def.sin v).
  Proof. intros H. change (reval env (Node [sin; g])) with (match all_defined (reval env) [g] with Some vs => rop sin vs | None => None end). cbn [all_defined]. rewrite H. reflexivity. Qed.
  Lemma cos_value g v : reval env g = Some v -> reval env (Node [cos; g]) = Some (Rtrigo_def.cos v).
  Proof. intros H. change (reval env (Node [cos; g])) with (match all_defined (reval env) [g] with Some vs => rop cos vs | None => None end). cbn [all_defined]. rewrite H. reflexivity. Qed.
  Lemma J_times r d k a c : J r k a -> J d k (affine c 0) -> J (times r d) k (fun j => a j * c).
  Proof.
    intros Hr Hd. unfold times. destruct (tree_eqb_spec d zero) as [->|_]; [|destruct (tree_eqb_spec d one) as [->|_]].
    - eapply J_ext; [|exact Hd]. intros j Hj. cbv beta. pose proof (J_0 env s zero k _ Hd) as E. change (reval env zero) with (Some 0) in E. injection E as E. cbn in E. rewrite <- E.
      destruct j as [|[|j]]; cbn [affine]; ring.
    - eapply J_ext; [|exact Hr]. intros j Hj. cbv beta. pose proof (J_0 env s one k _ Hd) as E. change (reval env one) with (Some 1) in E. injection E as E. cbn in E. rewrite <- E. ring.
    - eapply J_ext; [|exact (J_mul env s k _ _ _ _ Hr Hd)]. intros j _. apply leib_affine.
  Qed.
  Lemma J_neg g k a : J g k a -> J (Node [Mul; negone; g]) k (fun j => - a j).
  Proof. intros H. destruct (C120_linear env s g g k a a 0 H H) as (_ & _ & K & _). exact K. Qed.
  Lemma waves k : forall g v c, J g k (affine v c) -> J (Node [sin; g]) k (sine_wave v c) /\ J (Node [cos; g]) k (cosine_wave v c).
  Proof.
    induction k as [|k IH]; intros g v c H; pose proof (J_0 _ _ _ _ _ H) as H0; cbn [affine] in H0.
    - split; apply J_base; [rewrite (sin_value g v H0)|rewrite (cos_value g v H0)]; unfold sine_wave, cosine_wave; cbn [INR pow]; f_equal; rewrite Rmult_0_l, Rplus_0_r; ring.
    - destruct (J_S _ _ g k _ H) as (g' & Eg & Hg'). destruct (IH g v c (J_le _ _ _ _ _ _ (Nat.le_succ_diag_r k) H)) as [Hs Hc].
      assert (Hd : J g' k (affine c 0)) by (eapply J_ext; [|exact Hg']; intros [|[|j]] _; reflexivity).
      assert (Q : forall j, v + INR (S j) * (PI / 2) = v + INR j * (PI / 2) + PI / 2) by (intros j; rewrite S_INR; ring).
      split.
      + apply (J_intro env s _ (times (Node [cos; g]) g')); [rewrite (sin_value g v H0); unfold sine_wave; cbn [INR pow]; f_equal; rewrite Rmult_0_l, Rplus_0_r; ring|rewrite D_sin, Eg; reflexivity|].
        eapply J_ext; [|exact (J_times _ _ k _ c Hc Hd)]. intros j _. cbv beta. unfold sine_wave, cosine_wave. rewrite Q, <- cos_sin'. cbn [pow]. ring.
      + apply (J_intro env s _ (times (Node [Mul; negone; Node [sin; g]]) g')); [rewrite (cos_value g v H0); unfold cosine_wave; cbn [INR pow]; f_equal; rewrite Rmult_0_l, Rplus_0_r; ring|rewrite D_cos, Eg; reflexivity|].
        eapply J_ext; [|exact (J_times _ _ k _ c (J_neg _ _ _ Hs) Hd)]. intros j _. cbv beta. unfold sine_wave, cosine_wave. rewrite Q, <- sin_cos'. cbn [pow]. ring.
  Qed.
End Waves.

(** C122. *)
Theorem C122_waves env s g k v c : derivatives env s g k (affine v c) ->
  derivatives env s (Node [sin; g]) k (fun j => c ^ j * Rtrigo_def.sin (v + INR j * (PI / 2))) /\
  derivatives env s (Node [cos; g]) k (fun j => c ^ j * Rtrigo_def.cos (v + INR j * (PI / 2))).
Proof. exact (waves env s k g v c). Qed.
(** So for sin(n*s + e) and cos(n*s + e), where e does not contain s and may be anything that has a value. *)
Lemma affine_phase env s n e w k : ~ contains e s -> (forall args, ~ reach false [] e (Node (List_ :: args))) -> reval env e = Some w ->
  derivatives env s (m_add (m_mul (Integer n) (Symbol s)) e) k (affine (IZR n * env s + w) (IZR n)).
Proof.
  intros He Hl Hw.
  assert (Hz : forall m k, derivatives env s (Integer m) k (affine (IZR m) 0)) by (intros m i; eapply J_ext; [|apply (J_number env s m i)]; intros [|[|j]] _; reflexivity).
  assert (Hs : derivatives env s (Symbol s) k (affine (env s) 1)).
  { destruct k as [|k]; [apply J_base; reflexivity|]. apply (J_intro env s _ one); [reflexivity|rewrite sym_D, String.eqb_refl; reflexivity|].
    eapply J_ext; [|exact (Hz 1%Z k)]. intros [|[|j]] _; reflexivity. }
  assert (Hc : derivatives env s e k (affine w 0)).
  { destruct k as [|k]; [apply J_base, Hw|]. apply (J_intro env s _ zero); [exact Hw| |].
    - apply (deriv_absent cas_diff); [intros [_ H]; exact (He H)|]. intros h args H [<-|[]]. exact (Hl args H).
    - eapply J_ext; [|exact (Hz 0%Z k)]. intros [|[|j]] _; reflexivity. }
  destruct (C120_linear env s (Symbol s) e k _ _ n Hs Hc) as (_ & _ & _ & Hm).
  destruct (C120_linear env s (m_mul (Integer n) (Symbol s)) e k _ _ n Hm Hc) as (Ha & _).
  eapply J_ext; [|exact Ha]. intros [|[|j]] _; cbn [affine]; ring.
Qed.
Theorem C122_sine env s n e w k : ~ contains e s -> (forall args, ~ reach false [] e (Node (List_ :: args))) -> reval env e = Some w -> exists d d',
  expr_diff (Node [sin; m_add (m_mul (Integer n) (Symbol s)) e]) (Symbol s) (Z.of_nat k) = Ok d /\
  expr_diff (Node [cos; m_add (m_mul (Integer n) (Symbol s)) e]) (Symbol s) (Z.of_nat k) = Ok d' /\
  reval env d = Some (IZR n ^ k * Rtrigo_def.sin (IZR n * env s + w + INR k * (PI / 2))) /\
  reval env d' = Some (IZR n ^ k * Rtrigo_def.cos (IZR n * env s + w + INR k * (PI / 2))).
Proof.
  intros He Hl Hw. destruct (C122_waves env s _ k _ _ (affine_phase env s n e w k He Hl Hw)) as [H H'].
  destruct (H k (le_n k)) as (d & Hd & Hv), (H' k (le_n k)) as (d' & Hd' & Hv'). exists d, d'. auto.
Qed.
(** A case: the fourth derivative of sin(2*x + y). *)
Example C122_case env : exists d, expr_diff (Node [sin; m_add (m_mul (Integer 2) x) y]) x 4 = Ok d /\ reval env d = Some (16 * Rtrigo_def.sin (2 * env "x"%string + env "y"%string)).
Proof.
  destruct (C122_sine env "x" 2 y (env "y"%string) 4) as (d & _ & Hd & _ & Hv & _); [intros H; apply reach_leaf in H; [discriminate|reflexivity]|intros args H; apply reach_leaf in H; [discriminate|reflexivity]|reflexivity|].
  exists d. split; [exact Hd|]. rewrite Hv. f_equal. cbn [INR pow].
  replace (2 * env "x"%string + env "y"%string + (1 + 1 + 1 + 1) * (PI / 2)) with (2 * env "x"%string + env "y"%string + 2 * INR 1 * PI) by (cbn [INR]; field). rewrite sin_period. ring.
Qed.
