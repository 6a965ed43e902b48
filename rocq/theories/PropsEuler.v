(** * C126: Euler's theorem for homogeneous expressions *)
From Coq Require Import Reals Lra.
From Verif Require Import Py ModelTree SpecTree ProofBase ModelDiff SpecDiff ProofDiff ModelSym ModelCas SpecCas
  ProofCasDiff SpecReal ProofReal PropsReal ProofChain PropsChain ProofCurve PropsCurve Samples.
Local Open Scope R_scope.

(** All the symbols' values multiplied by t. *)
Definition scaled (env : string -> R) (t : R) : string -> R := fun s => t * env s.

(** [e] has the degree [n] at the point [env]: multiplying all the values by a t near 1
    multiplies the value of [e] by t to the n. *)
Definition homogeneous (env : string -> R) (e : tree) (n : nat) (v : R) : Prop :=
  exists delta, 0 < delta /\ forall t, Rabs (t - 1) < delta -> reval (scaled env t) e = Some (t ^ n * v).

Lemma scaled_1 env e : reval (scaled env 1) e = reval env e.
Proof. apply reval_ext. intros s _. unfold scaled. apply Rmult_1_l. Qed.

(** C126. For a homogeneous expression of the degree n whose symbols are all among [ss], the sum of
    e.diff(s) * s over [ss] has the value n * e. *)
Theorem C126_euler env e ss n v coeffs :
  NoDup ss -> (forall s, contains e s -> In s ss) ->
  homogeneous env e n v -> gradient env e ss coeffs ->
  reval env e = Some v /\ dot coeffs (map env ss) = INR n * v.
Proof.
  intros Hnd Hss (delta & Hd & Hh) Hg.
  assert (Hv : reval env e = Some v).
  { rewrite <- scaled_1, Hh; [rewrite pow1, Rmult_1_l; reflexivity|]. rewrite Rminus_diag_eq by reflexivity. rewrite Rabs_R0. exact Hd. }
  split; [exact Hv|].
  assert (Hb : Forall2 (fun s b => derivable_pt_lim (fun t => scaled env t s) 1 b) ss (map env ss)).
  { clear. induction ss as [|s ss IH]; cbn [map]; constructor; [|exact IH]. unfold scaled.
    assert (G : derivable_pt_lim (fun t => t * env s) 1 (1 * env s + 1 * 0)).
    { apply (derivable_pt_lim_mult (fun t => t) (fun _ => env s)); [apply derivable_pt_lim_id|apply (derivable_pt_lim_const (env s))]. }
    replace (1 * env s + 1 * 0) with (env s) in G by ring. exact G. }
  assert (Hg1 : gradient (scaled env 1) e ss coeffs).
  { unfold gradient in *. clear -Hg. induction Hg as [|s a ss co (d & H1 & H2) _ IH]; constructor; [|exact IH]. exists d. rewrite scaled_1. auto. }
  destruct (C102_total_derivative (scaled env) 1 e ss (map env ss) coeffs v Hnd Hb) as (F & d & Hdd & HF & Hl);
    [intros s t Hc Hn; destruct Hn; apply Hss, Hc|rewrite scaled_1; exact Hv|exact Hg1|].
  assert (Hp : derivable_pt_lim (fun t => t ^ n * v) 1 (INR n * v)).
  { replace (INR n * v) with ((INR n * 1 ^ pred n) * v + 1 ^ n * 0) by (rewrite !pow1; ring).
    apply (derivable_pt_lim_mult (fun t => t ^ n) (fun _ => v)); [apply derivable_pt_lim_pow|apply (derivable_pt_lim_const v)]. }
  apply (uniqueness_limite F 1); [exact Hl|]. intros eps He. destruct (Hp eps He) as (d0 & Hd0).
  exists (mkposreal (Rmin d0 (Rmin d delta)) (Rmin_glb_lt _ _ _ (cond_pos d0) (Rmin_glb_lt _ _ _ Hdd Hd))).
  intros h Hh0 Hlt. cbn [pos] in Hlt.
  assert (Hval : forall t, Rabs (t - 1) < Rmin d delta -> F t = t ^ n * v).
  { intros t Ht. assert (E : Some (F t) = Some (t ^ n * v)); [|congruence].
    rewrite <- HF, Hh; [reflexivity| |]; eapply Rlt_le_trans; try exact Ht; [apply Rmin_r|apply Rmin_l]. }
  rewrite !Hval.
  - apply Hd0; [exact Hh0|]. eapply Rlt_le_trans; [exact Hlt|apply Rmin_l].
  - rewrite Rminus_diag_eq by reflexivity. rewrite Rabs_R0. apply Rmin_glb_lt; assumption.
  - replace (1 + h - 1) with h by ring. eapply Rlt_le_trans; [exact Hlt|apply Rmin_r].
Qed.

(** Homogeneous expressions are closed under products and, for equal degrees, sums of two. *)
Theorem C126_products env e1 e2 n1 n2 v1 v2 :
  homogeneous env e1 n1 v1 -> homogeneous env e2 n2 v2 -> homogeneous env (m_mul e1 e2) (n1 + n2) (v1 * v2).
Proof.
  intros (d1 & P1 & H1) (d2 & P2 & H2). exists (Rmin d1 d2). split; [apply Rmin_glb_lt; assumption|].
  intros t Ht. assert (E1 := H1 t (Rlt_le_trans _ _ _ Ht (Rmin_l _ _))). assert (E2 := H2 t (Rlt_le_trans _ _ _ Ht (Rmin_r _ _))).
  unfold m_mul. cbn. cbn in E1, E2. rewrite E1, E2. cbn. f_equal. rewrite pow_add. ring.
Qed.
Theorem C126_sums env e1 e2 n v1 v2 :
  homogeneous env e1 n v1 -> homogeneous env e2 n v2 -> homogeneous env (m_add e1 e2) n (v1 + v2).
Proof.
  intros (d1 & P1 & H1) (d2 & P2 & H2). exists (Rmin d1 d2). split; [apply Rmin_glb_lt; assumption|].
  intros t Ht. assert (E1 := H1 t (Rlt_le_trans _ _ _ Ht (Rmin_l _ _))). assert (E2 := H2 t (Rlt_le_trans _ _ _ Ht (Rmin_r _ _))).
  unfold m_add. cbn. cbn in E1, E2. rewrite E1, E2. cbn. f_equal. ring.
Qed.
Theorem C126_symbols env s : homogeneous env (Symbol s) 1 (env s).
Proof. exists 1. split; [lra|]. intros t _. change (Some (t * env s) = Some (t ^ 1 * env s)). f_equal. ring. Qed.

(** x*x + x*y has the degree 2: at (3, 5) its partial derivatives are 11 and 3, and 11*3 + 3*5 = 2*24. *)
Definition at35 (s : string) : R := if String.eqb s "x" then 3 else 5.
Example C126_case : let e := m_add (m_mul x x) (m_mul x y) in let ss := ["x"; "y"]%string in
  NoDup ss /\ (forall s, contains e s -> In s ss) /\ homogeneous at35 e 2 24 /\ gradient at35 e ss [11; 3] /\
  dot [11; 3] (map at35 ss) = 2 * 24.
Proof.
  intros e ss.
  assert (H1 : NoDup ss) by (repeat constructor; cbn; intuition discriminate).
  assert (H2 : forall s, contains e s -> In s ss).
  { intros s Hc. apply contains_node in Hc as (c & [<-|[<-|[]]] & Hc); apply contains_node in Hc as (c' & [<-|[<-|[]]] & Hc); apply contains_sym in Hc; subst s; cbn; auto. }
  assert (H3 : homogeneous at35 e 2 24).
  { replace 24 with (3 * 3 + 3 * 5) by ring. apply C126_sums; apply (C126_products _ _ _ 1 1); apply C126_symbols. }
  assert (H4 : gradient at35 e ss [11; 3]).
  { constructor; [|constructor; [|constructor]]; eexists; (split; [reflexivity|]).
    - cbn. f_equal. ring.
    - cbn. f_equal. ring. }
  split; [exact H1|]. split; [exact H2|]. split; [exact H3|]. split; [exact H4|].
  destruct (C126_euler at35 e ss 2 24 [11; 3] H1 H2 H3 H4) as [_ E]. cbn [INR] in E. rewrite E. ring.
Qed.
