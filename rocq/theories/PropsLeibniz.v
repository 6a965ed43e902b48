(** * C120: repeated derivatives of sums and products. *)
From Coq Require Import Reals Lra Lia.
From Coquelicot Require Import Hierarchy Derive ElemFct.
From Verif Require Import Py ModelTree SpecTree ProofBase ModelDiff SpecDiff ProofDiff ModelSym ModelCas SpecCas
  ProofCasDiff SpecReal ProofReal PropsReal PropsTaylor SpecLeibniz ProofSubstDiff Samples.
Local Open Scope R_scope.

Section Jets.
  Variables (env : string -> R) (s : string).
  Let D := deriv cas_diff (Symbol s).
  Let J := derivatives env s.

  Lemma diff_S e d j : D e = Ok d -> expr_diff e (Symbol s) (Z.of_nat (S j)) = expr_diff d (Symbol s) (Z.of_nat j).
  Proof.
    intros E. unfold expr_diff. rewrite !Nat2Z.id. cbn [repeatM]. rewrite sym_diff_call_one.
    rewrite (proj2 (diff_forward_deriv cas_diff (Symbol s) e d) E). reflexivity.
  Qed.
  Lemma diff_1 e d : expr_diff e (Symbol s) 1 = Ok d -> D e = Ok d.
  Proof.
    unfold expr_diff. change (Z.to_nat 1) with 1%nat. cbn [repeatM]. rewrite sym_diff_call_one.
    intros H. apply bind_Ok in H as (d' & H & E). apply diff_forward_deriv in H. injection E as ->. exact H.
  Qed.
  Lemma J_ext e k a b : (forall j, (j <= k)%nat -> a j = b j) -> J e k a -> J e k b.
  Proof. intros E H j Hj. destruct (H j Hj) as (d & Hd & Hv). exists d. rewrite <- E by exact Hj. auto. Qed.
  Lemma J_le e k k' a : (k' <= k)%nat -> J e k a -> J e k' a.
  Proof. intros L H j Hj. apply H. lia. Qed.
  Lemma J_0 e k a : J e k a -> reval env e = Some (a 0%nat).
  Proof. intros H. destruct (H 0%nat) as (d & Hd & Hv); [lia|]. injection Hd as <-. exact Hv. Qed.
  Lemma J_S e k a : J e (S k) a -> exists d, D e = Ok d /\ J d k (fun j => a (S j)).
  Proof.
    intros H. destruct (H 1%nat) as (d & Hd & _); [lia|]. apply diff_1 in Hd. exists d. split; [exact Hd|].
    intros j Hj. destruct (H (S j)) as (dj & Hdj & Hv); [lia|]. rewrite (diff_S e d j Hd) in Hdj. exists dj. auto.
  Qed.
  Lemma J_intro e d k a : reval env e = Some (a 0%nat) -> D e = Ok d -> J d k (fun j => a (S j)) -> J e (S k) a.
  Proof.
    intros H0 Hd H [|j] Hj; [exists e; auto|]. destruct (H j) as (dj & Hdj & Hv); [lia|]. exists dj. rewrite (diff_S e d j Hd). auto.
  Qed.
  Lemma J_base e a : reval env e = Some (a 0%nat) -> J e 0 a.
  Proof. intros H j Hj. replace j with 0%nat by lia. exists e. auto. Qed.
  Lemma J_number z k : J (Integer z) k (fun j => match j with O => IZR z | S _ => 0 end).
  Proof.
    assert (Hz : forall k, J zero k (fun _ => 0)).
    { clear k. induction k as [|k IH]; [apply J_base; reflexivity|]. apply (J_intro _ zero); [reflexivity|reflexivity|exact IH]. }
    destruct k as [|k]; [apply J_base; reflexivity|]. apply (J_intro _ zero); [reflexivity|reflexivity|apply Hz].
  Qed.
  Lemma J_zero k a : J zero k a -> forall j, (j <= k)%nat -> a j = 0.
  Proof.
    intros H j Hj. destruct (H j Hj) as (d & Hd & Hv). destruct (J_number 0 k j Hj) as (d' & Hd' & Hv').
    change (Integer 0) with zero in Hd'. rewrite Hd in Hd'. injection Hd' as <-. rewrite Hv in Hv'. injection Hv' as ->. destruct j; reflexivity.
  Qed.

  Lemma add_value p q u v : reval env p = Some u -> reval env q = Some v -> reval env (Node [Add; p; q]) = Some (u + v).
  Proof.
    intros Hp Hq. change (reval env (Node [Add; p; q])) with (match all_defined (reval env) [p; q] with Some vs => rop Add vs | None => None end).
    cbn [all_defined]. rewrite Hp, Hq. change (rop Add [u; v]) with (Some (u + (v + 0))). f_equal. ring.
  Qed.
  Lemma mul_value p q u v : reval env p = Some u -> reval env q = Some v -> reval env (Node [Mul; p; q]) = Some (u * v).
  Proof.
    intros Hp Hq. change (reval env (Node [Mul; p; q])) with (match all_defined (reval env) [p; q] with Some vs => rop Mul vs | None => None end).
    cbn [all_defined]. rewrite Hp, Hq. change (rop Mul [u; v]) with (Some (u * (v * 1))). f_equal. ring.
  Qed.
  Lemma J_add k : forall p q a b, J p k a -> J q k b -> J (Node [Add; p; q]) k (fun j => a j + b j).
  Proof.
    induction k as [|k IH]; intros p q a b Hp Hq; pose proof (add_value p q _ _ (J_0 _ _ _ Hp) (J_0 _ _ _ Hq)) as H0; [apply J_base, H0|].
    destruct (J_S p k a Hp) as (p' & Ep & Hp'), (J_S q k b Hq) as (q' & Eq & Hq').
    apply (J_intro _ (total cas_diff (map snd (dependent zero [p'; q'])))); [exact H0|unfold D in *; rewrite D_add; cbn [mapM]; rewrite Ep, Eq; reflexivity|].
    unfold dependent. cbn [length seq combine filter snd].
    destruct (tree_eqb_spec p' zero) as [->|_], (tree_eqb_spec q' zero) as [->|_]; cbn [negb map snd total].
    - eapply J_ext; [|exact Hp']. intros j Hj. cbv beta. rewrite (J_zero k _ Hq' j Hj). ring.
    - eapply J_ext; [|exact Hq']. intros j Hj. cbv beta. rewrite (J_zero k _ Hp' j Hj). ring.
    - eapply J_ext; [|exact Hp']. intros j Hj. cbv beta. rewrite (J_zero k _ Hq' j Hj). ring.
    - apply (IH p' q' _ _ Hp' Hq').
  Qed.

  Fixpoint leib (k : nat) (a b : nat -> R) : R :=
    match k with O => a 0%nat * b 0%nat | S k => leib k (fun j => a (S j)) b + leib k a (fun j => b (S j)) end.
  Lemma leib_ext k : forall a b a' b', (forall j, (j <= k)%nat -> a j = a' j) -> (forall j, (j <= k)%nat -> b j = b' j) -> leib k a b = leib k a' b'.
  Proof. induction k as [|k IH]; intros a b a' b' Ha Hb; cbn [leib]; [rewrite Ha, Hb by lia; reflexivity|]. f_equal; apply IH; intros j Hj; auto; (apply Ha || apply Hb); lia. Qed.
  Lemma leib_0l k : forall a b, (forall j, (j <= k)%nat -> a j = 0) -> leib k a b = 0.
  Proof. induction k as [|k IH]; intros a b Ha; cbn [leib]; [rewrite Ha by lia; ring|]. rewrite !IH; [ring|intros j Hj; apply Ha; lia|intros j Hj; apply Ha; lia]. Qed.
  Lemma leib_0r k : forall a b, (forall j, (j <= k)%nat -> b j = 0) -> leib k a b = 0.
  Proof. induction k as [|k IH]; intros a b Hb; cbn [leib]; [rewrite Hb by lia; ring|]. rewrite !IH; [ring|intros j Hj; apply Hb; lia|intros j Hj; apply Hb; lia]. Qed.
  Lemma J_mul k : forall p q a b, J p k a -> J q k b -> J (Node [Mul; p; q]) k (fun j => leib j a b).
  Proof.
    induction k as [|k IH]; intros p q a b Hp Hq; pose proof (mul_value p q _ _ (J_0 _ _ _ Hp) (J_0 _ _ _ Hq)) as H0; [apply J_base, H0|].
    destruct (J_S p k a Hp) as (p' & Ep & Hp'), (J_S q k b Hq) as (q' & Eq & Hq').
    apply (J_intro _ (total cas_diff (map (fun id => Node (Mul :: set_nth [p; q] (fst id) (snd id))) (dependent zero [p'; q'])))); [exact H0|unfold D in *; rewrite D_mul; cbn [mapM]; rewrite Ep, Eq; reflexivity|].
    pose proof (IH p' q _ _ Hp' (J_le _ _ _ _ (Nat.le_succ_diag_r k) Hq)) as A. pose proof (IH p q' _ _ (J_le _ _ _ _ (Nat.le_succ_diag_r k) Hp) Hq') as B.
    unfold dependent. cbn [length seq combine filter snd].
    destruct (tree_eqb_spec p' zero) as [->|_], (tree_eqb_spec q' zero) as [->|_]; cbn [negb map fst snd set_nth total].
    - eapply J_ext; [|exact Hp']. intros j Hj. cbv beta. cbn [leib].
      rewrite leib_0l, leib_0r; [|intros i Hi; apply (J_zero k _ Hq'); lia|intros i Hi; apply (J_zero k _ Hp'); lia]. rewrite (J_zero k _ Hp' j Hj). ring.
    - eapply J_ext; [|exact B]. intros j Hj. cbv beta. cbn [leib]. rewrite (leib_0l j (fun j => a (S j))); [ring|intros i Hi; apply (J_zero k _ Hp'); lia].
    - eapply J_ext; [|exact A]. intros j Hj. cbv beta. cbn [leib]. rewrite (leib_0r j a (fun j => b (S j))); [ring|intros i Hi; apply (J_zero k _ Hq'); lia].
    - exact (J_add k _ _ _ _ A B).
  Qed.
End Jets.

Lemma C_0 k : C k 0 = 1.
Proof. unfold C. rewrite Nat.sub_0_r. cbn [fact]. change (INR 1) with 1. field. apply INR_fact_neq_0. Qed.
Lemma C_n k : C k k = 1.
Proof. unfold C. rewrite Nat.sub_diag. cbn [fact]. change (INR 1) with 1. field. apply INR_fact_neq_0. Qed.
Lemma leibniz_S k a b : leibniz a b (S k) = leibniz (fun j => a (S j)) b k + leibniz a (fun j => b (S j)) k.
Proof.
  unfold leibniz. destruct k as [|k].
  - cbn [sum_f_R0 Nat.sub]. rewrite !C_0, C_n. ring.
  - rewrite (decomp_sum (fun i => C (S (S k)) i * _ * _)) by lia. cbn [pred]. rewrite C_0.
    rewrite (decomp_sum (fun i => C (S k) i * a i * _)) by lia. cbn [pred]. rewrite C_0.
    rewrite !(tech5 _ k). rewrite !C_n, !Nat.sub_diag. change (S (S k) - 0)%nat with (S (S k)). change (S k - 0)%nat with (S k).
    rewrite (sum_eq (fun i => C (S (S k)) (S i) * a (S i) * b (S (S k) - S i)%nat) (fun i => C (S k) i * a (S i) * b (S k - i)%nat + C (S k) (S i) * a (S i) * b (S (S k - S i))) k).
    + rewrite sum_plus. ring.
    + intros i Hi. rewrite <- (pascal (S k) i) by lia. replace (S (S k) - S i)%nat with (S k - i)%nat by lia. replace (S (S k - S i)) with (S k - i)%nat by lia. ring.
Qed.
Lemma leib_binomial k : forall a b, leib k a b = leibniz a b k.
Proof.
  induction k as [|k IH]; intros a b; [unfold leibniz; cbn [sum_f_R0 leib Nat.sub]; rewrite C_0; ring|]. cbn [leib]. rewrite !IH. symmetry. apply leibniz_S.
Qed.

(** C120. The derivatives of sums, differences, negations, multiples and products of expressions with derivatives up to order k. *)
Theorem C120_linear env s e f k a b z : derivatives env s e k a -> derivatives env s f k b ->
  derivatives env s (m_add e f) k (fun j => a j + b j) /\ derivatives env s (m_sub e f) k (fun j => a j - b j) /\
  derivatives env s (expr_neg e) k (fun j => - a j) /\ derivatives env s (m_mul (Integer z) e) k (fun j => IZR z * a j).
Proof.
  intros He Hf. assert (Hz : forall z g c, derivatives env s g k c -> derivatives env s (Node [Mul; Integer z; g]) k (fun j => IZR z * c j)).
  { clear. intros z g c Hg. eapply J_ext; [|exact (J_mul env s k _ _ _ _ (J_number env s z k) Hg)]. clear Hg.
    intros j _. cbv beta. revert c. induction j as [|j IH]; intros c; cbn [leib]; [reflexivity|]. rewrite leib_0l by reflexivity. rewrite (IH (fun j => c (S j))). ring. }
  repeat split.
  - apply J_add; assumption.
  - eapply J_ext; [|exact (J_add env s k e _ a _ He (Hz (-1)%Z f b Hf))]. intros j _. cbv beta. ring.
  - eapply J_ext; [|exact (Hz (-1)%Z e a He)]. intros j _. cbv beta. ring.
  - apply Hz, He.
Qed.
Theorem C120_leibniz env s e f k a b : derivatives env s e k a -> derivatives env s f k b ->
  derivatives env s (m_mul e f) k (leibniz a b).
Proof. intros He Hf. eapply J_ext; [|exact (J_mul env s k e f a b He Hf)]. intros j _. apply leib_binomial. Qed.
(** They are the derivatives of calculus. *)
Theorem C120_calculus env s e f k a b : derivatives env s e k a -> derivatives env s f k b ->
  is_derive_n (function_of env s (m_mul e f)) k (env s) (sum_f_R0 (fun i => C k i * a i * b (k - i)%nat) k) /\
  is_derive_n (function_of env s (m_add e f)) k (env s) (a k + b k).
Proof.
  intros He Hf.
  assert (K : forall g c, derivatives env s g k c -> is_derive_n (function_of env s g) k (env s) (c k)).
  { clear. intros g c Hg. 
    assert (E : forall t, reval (upd env s (env s)) t = reval env t).
    { intros t. apply reval_ext. intros s' _. unfold upd. destruct (String.eqb_spec s' s) as [->|]; reflexivity. }
    destruct (Hg k (le_n k)) as (dk & _ & _).
    set (ds := fun j => match expr_diff g (Symbol s) (Z.of_nat j) with Ok d => d | Err _ => zero end).
    apply (C101_kth_derivative env s g ds k).
    - intros j Hj. destruct (Hg j Hj) as (d & Hd & Hv). unfold ds, defined_at. rewrite Hd. split; [reflexivity|]. rewrite E, Hv. discriminate.
    - destruct (Hg k (le_n k)) as (d & Hd & Hv). unfold ds. rewrite Hd, E. exact Hv. }
  split; [exact (K _ _ (C120_leibniz env s e f k a b He Hf))|exact (K _ _ (proj1 (C120_linear env s e f k a b 0 He Hf)))].
Qed.
(** A case: the derivatives of x * sin(x) up to the third, from those of x and of sin(x). *)
Example C120_case env : let u := env "x"%string in
  derivatives env "x" x 3 (fun j => nth j [u; 1; 0; 0] 0) /\ derivatives env "x" (Node [sin; x]) 3 (fun j => nth j [Rtrigo_def.sin u; Rtrigo_def.cos u; - Rtrigo_def.sin u; - Rtrigo_def.cos u] 0) /\
  exists d, expr_diff (m_mul x (Node [sin; x])) x 3 = Ok d /\ reval env d = Some (- u * Rtrigo_def.cos u - 3 * Rtrigo_def.sin u).
Proof.
  cbv zeta. set (u := env "x"%string).
  assert (Hx : derivatives env "x" x 3 (fun j => nth j [u; 1; 0; 0] 0)).
  { intros j Hj. destruct j as [|[|[|[|j]]]]; try lia; (eexists; split; [vm_compute; reflexivity|reflexivity]). }
  assert (Hs : derivatives env "x" (Node [sin; x]) 3 (fun j => nth j [Rtrigo_def.sin u; Rtrigo_def.cos u; - Rtrigo_def.sin u; - Rtrigo_def.cos u] 0)).
  { intros j Hj. destruct j as [|[|[|[|j]]]]; try lia; (eexists; split; [vm_compute; reflexivity|]).
    - reflexivity.
    - reflexivity.
    - etransitivity; [apply (mul_value env (int (-1)) (Node [sin; x]) (IZR (-1)) (Rtrigo_def.sin u)); reflexivity|]. cbn [nth]. f_equal. ring.
    - etransitivity; [apply (mul_value env (int (-1)) (Node [cos; x]) (IZR (-1)) (Rtrigo_def.cos u)); reflexivity|]. cbn [nth]. f_equal. ring. }
  split; [exact Hx|]. split; [exact Hs|]. destruct (C120_leibniz env "x" x (Node [sin; x]) 3 _ _ Hx Hs 3%nat (le_n 3)) as (d & Hd & Hv).
  exists d. split; [exact Hd|]. rewrite Hv. f_equal. unfold leibniz. cbn [sum_f_R0 nth Nat.sub]. unfold C. cbn [fact Nat.sub Nat.mul Nat.add INR]. field.
Qed.
