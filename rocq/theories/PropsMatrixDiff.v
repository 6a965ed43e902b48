(** * C124: differentiating a matrix several times. *)
From Verif Require Import Py ModelTree SpecTree ProofBase ModelDiff ModelSym ModelCas SpecCas ModelMatrix ModelSympy SpecMatrix SpecPolynomial SpecMatrixDiff Samples.
From Verif Require ProofSubstDiff ProofMatrix PropsMatrix PropsPolynomial ProofCasDiff.

Lemma expr_diff_first t s k : expr_diff t s (Z.of_nat (S k)) = do d <- expr_diff t s 1; expr_diff d s (Z.of_nat k).
Proof.
  unfold expr_diff. rewrite !Nat2Z.id. change (Z.to_nat 1) with 1. cbn [repeatM].
  destruct (sym_diff_call cas_diff t s 1) as [d|e]; reflexivity.
Qed.
Lemma entry h ms A i j : history h ms -> In A ms -> inside A i j -> exists t, get A i j h = Ok t.
Proof.
  intros Hh HA Hi. destruct (proj1 (PropsMatrix.C42_getitem h ms A Hh HA) (PInt i) (PInt j) i j) as [K _]; [constructor|constructor|].
  destruct (K Hi) as (t & _ & E). exists t. exact E.
Qed.

(** C124. *)
Theorem C124_entries s k : s <> zero -> forall h ms A C h', history h ms -> In A ms -> diff_times A s k h = (Ok C, h') ->
  (exists ms', history h' ms' /\ In C ms' /\ incl ms ms') /\ m_nrows C = m_nrows A /\ m_ncols C = m_ncols A /\
  forall i j t, inside A i j -> get A i j h = Ok t -> get C i j h' = expr_diff t s (Z.of_nat k).
Proof.
  intros Hs. induction k as [|k IH]; intros h ms A C h' Hh HA E.
  - injection E as <- <-. split; [exists ms; split; [exact Hh|split; [exact HA|apply incl_refl]]|]. split; [reflexivity|]. split; [reflexivity|]. intros i j t _ ->. reflexivity.
  - cbn [diff_times] in E. unfold hbind in E. destruct (matrix_diff A s h) as [[B|e] h1] eqn:EB; [|discriminate].
    destruct (proj2 (PropsMatrix.C45_diff_is_entrywise h ms A s Hh HA Hs) B h1 EB) as (Hh1 & Hr & Hc & Hg).
    destruct (IH h1 (B :: ms) B C h' Hh1 (or_introl eq_refl) E) as ((ms' & Hh' & HC & Hi') & Hr' & Hc' & Hg').
    split; [exists ms'; split; [exact Hh'|split; [exact HC|intros M HM; apply Hi'; right; exact HM]]|]. split; [congruence|]. split; [congruence|].
    intros i j t Hi Ht. assert (HiB : inside B i j) by (unfold inside in *; rewrite Hr, Hc; exact Hi). rewrite expr_diff_first.
    destruct (entry h1 (B :: ms) B i j Hh1 (or_introl eq_refl) HiB) as [d Hd]. rewrite (Hg' i j d HiB Hd). rewrite (Hg i j t Hi Ht) in Hd. rewrite Hd. reflexivity.
Qed.
Theorem C124_when s k : s <> zero -> forall h ms A, history h ms -> In A ms ->
  (exists C h', diff_times A s k h = (Ok C, h')) <-> (forall i j t, inside A i j -> get A i j h = Ok t -> exists d, expr_diff t s (Z.of_nat k) = Ok d).
Proof.
  intros Hs. induction k as [|k IH]; intros h ms A Hh HA.
  - split; [intros _ i j t _ _; exists t; reflexivity|intros _; exists A, h; reflexivity].
  - cbn [diff_times]. unfold hbind. destruct (PropsMatrix.C45_diff_is_entrywise h ms A s Hh HA Hs) as [W V]. split.
    + intros (C & h' & E). destruct (matrix_diff A s h) as [[B|e] h1] eqn:EB; [|discriminate]. destruct (V B h1 eq_refl) as (Hh1 & Hr & Hc & Hg).
      pose proof (proj1 (IH h1 (B :: ms) B Hh1 (or_introl eq_refl)) (ex_intro _ C (ex_intro _ h' E))) as K. intros i j t Hi Ht.
      assert (HiB : inside B i j) by (unfold inside in *; rewrite Hr, Hc; exact Hi). destruct (entry h1 (B :: ms) B i j Hh1 (or_introl eq_refl) HiB) as [d Hd].
      destruct (K i j d HiB Hd) as [d' Hd']. exists d'. rewrite expr_diff_first. rewrite (Hg i j t Hi Ht) in Hd. rewrite Hd. exact Hd'.
    + intros H. destruct (proj1 W) as (B & h1 & EB).
      { intros i j t Hi Ht. destruct (H i j t Hi Ht) as [d Hd]. rewrite expr_diff_first in Hd. apply ProofSubstDiff.bind_Ok in Hd as (d1 & Hd1 & _). exists d1. exact Hd1. }
      rewrite EB. destruct (V B h1 EB) as (Hh1 & Hr & Hc & Hg). apply (IH h1 (B :: ms) B Hh1 (or_introl eq_refl)). intros i j d Hi Hd.
      assert (HiA : inside A i j) by (unfold inside in *; rewrite Hr, Hc in Hi; exact Hi). destruct (entry h ms A i j Hh HA HiA) as [t Ht].
      destruct (H i j t HiA Ht) as [d' Hd']. exists d'. rewrite expr_diff_first, <- (Hg i j t HiA Ht), Hd in Hd'. exact Hd'.
Qed.
(** The k-th derivative of a matrix of polynomials of lower degree than k exists, and all its entries are the expression 0. *)
Theorem C124_polynomials h ms A s n k : history h ms -> In A ms -> (forall i j t, inside A i j -> get A i j h = Ok t -> polynomial s t n) -> n < k ->
  exists C h', diff_times A (Symbol s) k h = (Ok C, h') /\ m_nrows C = m_nrows A /\ m_ncols C = m_ncols A /\ forall i j, inside C i j -> get C i j h' = Ok zero.
Proof.
  intros Hh HA Hp Hk. assert (Hs : Symbol s <> zero) by discriminate.
  destruct (proj2 (C124_when (Symbol s) k Hs h ms A Hh HA)) as (C & h' & E).
  { intros i j t Hi Ht. exists zero. exact (PropsPolynomial.C121_zero s t n k (Hp i j t Hi Ht) Hk). }
  exists C, h'. destruct (C124_entries (Symbol s) k Hs h ms A C h' Hh HA E) as (_ & Hr & Hc & Hg). split; [exact E|]. split; [exact Hr|]. split; [exact Hc|].
  intros i j Hi. assert (HiA : inside A i j) by (unfold inside in *; rewrite Hr, Hc in Hi; exact Hi). destruct (entry h ms A i j Hh HA HiA) as [t Ht].
  rewrite (Hg i j t HiA Ht). exact (PropsPolynomial.C121_zero s t n k (Hp i j t HiA Ht) Hk).
Qed.
(** A case: Matrix([[x, 0], [3, y]]), of degree 1 in x, once and twice by x. *)
Example C124_case : history PropsMatrix.heap_ab [PropsMatrix.mat_b; PropsMatrix.mat_a] /\
  (exists C h', diff_times PropsMatrix.mat_a x 1 PropsMatrix.heap_ab = (Ok C, h') /\ tolist C h' = Ok [[int 1; int 0]; [int 0; int 0]]) /\
  (exists C h', diff_times PropsMatrix.mat_a x 2 PropsMatrix.heap_ab = (Ok C, h') /\ tolist C h' = Ok [[int 0; int 0]; [int 0; int 0]]) /\
  forall i j t, inside PropsMatrix.mat_a i j -> get PropsMatrix.mat_a i j PropsMatrix.heap_ab = Ok t -> polynomial "x" t 1.
Proof.
  split; [exact PropsMatrix.history_ab|]. split; [do 2 eexists; split; vm_compute; reflexivity|]. split; [do 2 eexists; split; vm_compute; reflexivity|].
  intros i j t [Hi Hj] Ht. cbn in Hi, Hj.
  assert (Hc : forall a, Atm a <> Symbol "x" -> polynomial "x" (Atm a) 1) by (intros a Ha; apply poly_const; [intros H; apply ProofBin.reach_leaf in H; [congruence|reflexivity]|intros args; apply PropsPolynomial.atom_no_list]).
  assert (Ei : (i = 0 \/ i = 1)%Z) by lia. assert (Ej : (j = 0 \/ j = 1)%Z) by lia.
  destruct Ei as [-> | ->], Ej as [-> | ->]; vm_compute in Ht; injection Ht as <-; [apply (poly_sym "x"); lia|apply Hc; discriminate|apply Hc; discriminate|apply Hc; discriminate].
Qed.
