(** * The algebra of matrices: C76. *)
From Coq Require Import Reals Permutation.
From Verif Require Import Py ModelTree SpecTree ProofBase ModelDiff SpecDiff ProofDiff ModelSym ModelCas ModelMatrix ModelSympy SpecMatrix SpecReal
  SpecMatrixAlgebra ProofCasDiff ProofMatrix ProofSympy PropsMatrix Samples.
Local Open Scope string_scope.

Lemma oplus_comm a b : oplus a b = oplus b a.
Proof. destruct a, b; cbn; try reflexivity. f_equal. apply Rplus_comm. Qed.
Lemma oplus_assoc a b c : oplus a (oplus b c) = oplus (oplus a b) c.
Proof. destruct a, b, c; cbn; try reflexivity. f_equal. symmetry. apply Rplus_assoc. Qed.
Lemma oplus_0_l a : oplus (Some 0%R) a = a.
Proof. destruct a; cbn; [|reflexivity]. rewrite Rplus_0_l. reflexivity. Qed.
Lemma oplus_0_r a : oplus a (Some 0%R) = a.
Proof. rewrite oplus_comm. apply oplus_0_l. Qed.
Lemma osum_app l m : osum (l ++ m) = oplus (osum l) (osum m).
Proof. induction l as [|a l IH]; cbn [app osum fold_right]; [symmetry; apply oplus_0_l|]. fold (osum (l ++ m)) (osum l). rewrite IH. apply oplus_assoc. Qed.
Lemma osum_perm l m : Permutation l m -> osum l = osum m.
Proof.
  induction 1 as [|a l m _ IH|a b l|l m n _ IH1 _ IH2]; [reflexivity| | |congruence]; cbn [osum fold_right].
  - fold (osum l) (osum m). congruence.
  - fold (osum l). rewrite !oplus_assoc, (oplus_comm b a). reflexivity.
Qed.
Lemma reval_add env a b : reval env (call2 Add a b) = oplus (reval env a) (reval env b).
Proof.
  change (reval env (call2 Add a b)) with (match all_defined (reval env) [a; b] with Some vs => rop Add vs | None => None end).
  cbn [all_defined]. destruct (reval env a), (reval env b); cbn; try reflexivity. rewrite Rplus_0_r. reflexivity.
Qed.
Lemma reval_zero env : reval env zero = Some 0%R.
Proof. reflexivity. Qed.

Lemma stored_dec m i j h : stored m i j h \/ ~ stored m i j h.
Proof. unfold stored. destruct (in_dec (fun p q => reflect_dec _ _ (pos_eqb_spec p q)) (Z.to_nat i, Z.to_nat j) (map fst (nth (m_entrymap m) (h_dicts h) []))); tauto. Qed.
Lemma add_values h ms A B : history h ms -> In A ms -> In B ms -> m_nrows A = m_nrows B -> m_ncols A = m_ncols B ->
  exists C h', matrix_add A B h = (Ok C, h') /\ step h ms h' (C :: ms) /\ m_nrows C = m_nrows A /\ m_ncols C = m_ncols A /\
    forall env i j, inside A i j -> entry_value h' env C i j = oplus (entry_value h env A i j) (entry_value h env B i j).
Proof.
  intros Hh HA HB Er Ec. destruct (C43_addition_is_entrywise h ms A B Hh HA HB Er Ec) as (C & h' & E & Hh' & Enr & Enc & He).
  exists C, h'. split; [exact E|]. split; [exact (step_binop _ _ _ _ _ _ _ HA HB E)|]. split; [exact Enr|]. split; [exact Enc|].
  intros env i j Hin. destruct (He i j Hin) as (t & Ht & a & b & Ha & Hb & H1 & H2 & H3 & H4). unfold entry_value. rewrite Ht, Ha, Hb.
  destruct (stored_dec A i j h) as [SA|SA], (stored_dec B i j h) as [SB|SB].
  - rewrite (H1 SA SB). apply reval_add.
  - destruct (H2 SA SB) as [-> ->]. rewrite reval_zero. symmetry. apply oplus_0_r.
  - destruct (H3 SA SB) as [-> ->]. rewrite reval_zero. symmetry. apply oplus_0_l.
  - destruct (H4 SA SB) as (-> & -> & ->). rewrite reval_zero. cbn. rewrite Rplus_0_l. reflexivity.
Qed.
Lemma value_frame h ms h' ms' m env i j : history h ms -> In m ms -> steps h ms h' ms' -> entry_value h' env m i j = entry_value h env m i j.
Proof. intros Hh Hm Hs. destruct (C43_matrices_never_change h ms h' ms' m Hh Hm Hs) as (_ & _ & H). unfold entry_value. rewrite H. reflexivity. Qed.
Lemma steps_trans h ms h1 ms1 h2 ms2 : steps h ms h1 ms1 -> steps h1 ms1 h2 ms2 -> steps h ms h2 ms2.
Proof. intros H1 H2. induction H2 as [|h0 ms0 ha msa hb msb _ IH Hs]; [exact H1|]. eapply steps_more; [apply IH, H1|exact Hs]. Qed.
Lemma steps_held h ms h' ms' m : history h ms -> In m ms -> steps h ms h' ms' -> In m ms'.
Proof. intros Hh Hm Hs. apply (steps_inv _ _ _ _ Hs (history_wf _ _ Hh)), Hm. Qed.

(** C76. A sum of matrices of the same shape, bracketed in any way: it can be computed, and the value of each entry is
    the sum of the values of the entries of the summands (undefined if one of these is). *)
Theorem C76_sums_of_values nr nc h ms e : history h ms ->
  (forall A, In A (summands e) -> In A ms /\ m_nrows A = nr /\ m_ncols A = nc) ->
  exists C h' ms', compute e h = (Ok C, h') /\ steps h ms h' ms' /\ In C ms' /\ m_nrows C = nr /\ m_ncols C = nc /\
    forall env i j, inside C i j ->
      entry_value h' env C i j = osum (map (fun A => entry_value h env A i j) (summands e)).
Proof.
  revert h ms. induction e as [A|l IHl r IHr]; intros h ms Hh Hs.
  - destruct (Hs A (or_introl eq_refl)) as (HA & Hr & Hc). exists A, h, ms. split; [reflexivity|]. split; [apply steps_none|].
    repeat (split; [assumption|]). intros env i j _. cbn [summands map osum fold_right]. symmetry. apply oplus_0_r.
  - cbn [summands] in Hs. destruct (IHl h ms Hh (fun A HA => Hs A (in_or_app _ _ _ (or_introl HA)))) as (L & h1 & ms1 & El & S1 & HL & Lr & Lc & VL).
    assert (Hh1 : history h1 ms1) by (eapply steps_trans; eauto).
    assert (Hs1 : forall A, In A (summands r) -> In A ms1 /\ m_nrows A = nr /\ m_ncols A = nc).
    { intros A HA. destruct (Hs A (in_or_app _ _ _ (or_intror HA))) as (H1 & H2 & H3). split; [exact (steps_held _ _ _ _ _ Hh H1 S1)|auto]. }
    destruct (IHr h1 ms1 Hh1 Hs1) as (R & h2 & ms2 & Er & S2 & HR & Rr & Rc & VR).
    assert (Hh2 : history h2 ms2) by (eapply steps_trans; eauto).
    assert (HL2 : In L ms2) by exact (steps_held _ _ _ _ _ Hh1 HL S2).
    destruct (add_values h2 ms2 L R Hh2 HL2 HR ltac:(congruence) ltac:(congruence)) as (C & h3 & Ec & S3 & Cr & Cc & VC).
    exists C, h3, (C :: ms2). split; [cbn [compute]; rewrite (hbind_ok _ _ _ _ _ El), (hbind_ok _ _ _ _ _ Er); exact Ec|].
    split; [eapply steps_more; [|exact S3]; eapply steps_trans; eauto|]. split; [left; reflexivity|]. split; [congruence|]. split; [congruence|].
    intros env i j Hin. cbn [summands]. rewrite map_app, osum_app.
    assert (HinL : inside L i j) by (unfold inside in *; rewrite <- Cr, <- Cc; exact Hin).
    assert (HinR : inside R i j) by (unfold inside in *; rewrite Rr, Rc, <- Lr, <- Lc; exact HinL).
    rewrite (VC env i j HinL). f_equal.
    + rewrite (value_frame h1 ms1 h2 ms2 L env i j Hh1 HL S2). apply VL, HinL.
    + rewrite (VR env i j HinR). f_equal. apply map_ext_in. intros A HA. apply (value_frame h ms h1 ms1 A env i j Hh); [|exact S1]. apply Hs. apply in_or_app. auto.
Qed.
(** So the order and the brackets do not matter for values ... *)
Theorem C76_rearranged_sums h ms e1 e2 C1 C2 h1 h2 : history h ms -> incl (summands e1) ms -> Permutation (summands e1) (summands e2) ->
  compute e1 h = (Ok C1, h1) -> compute e2 h1 = (Ok C2, h2) -> same_values h2 C1 C2.
Proof.
  intros Hh Hin Hp E1 E2.
  assert (HX : forall e h ms C h', history h ms -> incl (summands e) ms -> compute e h = (Ok C, h') -> exists ms', steps h ms h' ms' /\ In C ms' /\
     forall A, In A (summands e) -> m_nrows A = m_nrows C /\ m_ncols A = m_ncols C).
  { clear. intros e. induction e as [A|l IHl r IHr]; intros h ms C h' Hh Hin E.
    - injection E as <- <-. exists ms. split; [apply steps_none|]. split; [apply Hin; left; reflexivity|]. intros A' [<-|[]]. auto.
    - cbn [compute] in E. unfold hbind in E. destruct (compute l h) as [[L|x] ha] eqn:El; [|discriminate]. destruct (compute r ha) as [[R|x] hb] eqn:Er; [|discriminate].
      destruct (IHl h ms L ha Hh (fun A HA => Hin A (in_or_app _ _ _ (or_introl HA))) El) as (ms1 & S1 & HL & DL).
      assert (Hh1 : history ha ms1) by (eapply steps_trans; eauto).
      destruct (IHr ha ms1 R hb Hh1) as (ms2 & S2 & HR & DR); [|exact Er|].
      { intros A HA. eapply steps_held; [exact Hh| |exact S1]. apply Hin. cbn [summands]. apply in_or_app. auto. }
      assert (Hh2 : history hb ms2) by (eapply steps_trans; eauto).
      assert (HL2 : In L ms2) by exact (steps_held _ _ _ _ _ Hh1 HL S2).
      destruct (Nat.eq_dec (m_nrows L) (m_nrows R)) as [Ea|Ea]; [destruct (Nat.eq_dec (m_ncols L) (m_ncols R)) as [Eb|Eb]|].
      2,3: rewrite C43_shape_mismatch in E by congruence; discriminate.
      destruct (add_values hb ms2 L R Hh2 HL2 HR Ea Eb) as (C' & hc & Ec & S3 & Cr & Cc & _). rewrite Ec in E. injection E as <- <-.
      exists (C' :: ms2). split; [eapply steps_more; [|exact S3]; eapply steps_trans; eauto|]. split; [left; reflexivity|].
      intros A HA. cbn [summands] in HA. apply in_app_or in HA as [HA|HA]; [apply DL in HA|apply DR in HA]; destruct HA; split; congruence. }
  destruct (HX e1 h ms C1 h1 Hh Hin E1) as (ms1 & S1 & HC1 & D1). assert (Hh1 : history h1 ms1) by (eapply steps_trans; eauto).
  assert (Hin2 : incl (summands e2) ms1).
  { intros A HA. eapply steps_held; [exact Hh| |exact S1]. apply Hin. eapply Permutation_in; [apply Permutation_sym, Hp|exact HA]. }
  destruct (C76_sums_of_values (m_nrows C1) (m_ncols C1) h ms e1 Hh) as (C1' & h1' & ms1' & E1' & _ & _ & _ & _ & V1).
  { intros A HA. split; [apply Hin, HA|apply D1, HA]. }
  rewrite E1 in E1'. injection E1' as <- <-.
  destruct (C76_sums_of_values (m_nrows C1) (m_ncols C1) h1 ms1 e2 Hh1) as (C2' & h2' & ms2 & E2' & S2 & HC2 & Cr & Cc & V2).
  { intros A HA. split; [apply Hin2, HA|]. apply D1. eapply Permutation_in; [apply Permutation_sym, Hp|exact HA]. }
  rewrite E2 in E2'. injection E2' as <- <-. split; [congruence|]. split; [congruence|]. intros env i j Hij.
  assert (Hij2 : inside C2 i j) by (unfold inside in *; rewrite Cr, Cc; exact Hij).
  rewrite (value_frame h1 ms1 h2 ms2 C1 env i j Hh1 HC1 S2), (V1 env i j Hij), (V2 env i j Hij2).
  rewrite <- (osum_perm _ _ (Permutation_map (fun A => entry_value h1 env A i j) Hp)). f_equal. apply map_ext_in. intros A HA.
  symmetry. eapply value_frame; [exact Hh|apply Hin, HA|exact S1].
Qed.
(** ... but they show in the entries: A + B and B + A need not have the same entries as expressions. *)
Theorem C76_same_entries_refuted : exists h ms A B C D h1 h2, history h ms /\ In A ms /\ In B ms /\
  matrix_add A B h = (Ok C, h1) /\ matrix_add B A h1 = (Ok D, h2) /\ tolist C h2 <> tolist D h2.
Proof.
  exists heap_ab, [mat_b; mat_a], mat_a, mat_b. eexists _, _, _, _. split; [exact history_ab|]. split; [simpl; auto|]. split; [simpl; auto|].
  split; [vm_compute; reflexivity|]. split; [vm_compute; reflexivity|]. vm_compute. discriminate.
Qed.

Lemma repeat_pair {X Y} (P : X -> Y -> Prop) a b n : P a b -> Forall2 P (repeat a n) (repeat b n).
Proof. intros H. induction n as [|n IH]; constructor; assumption. Qed.
(** Adding a matrix made from zeros, on either side, gives the same entries. *)
Theorem C76_zero_matrix h ms A n Z0 h0 : history h ms -> In A ms ->
  matrix_new (PRows (repeat (PRow (repeat (PInt 0) (m_ncols A))) n)) h = (Ok Z0, h0) -> n = m_nrows A ->
  exists C h1 D h2, matrix_add A Z0 h0 = (Ok C, h1) /\ matrix_add Z0 A h1 = (Ok D, h2) /\
    forall i j, inside A i j -> get C i j h2 = get A i j h /\ get D i j h2 = get A i j h.
Proof.
  intros Hh HA E ->.
  assert (Hne : m_nrows A <> 0) by (intros E0; rewrite E0 in E; discriminate).
  set (rows := repeat (repeat (PInt 0) (m_ncols A)) (m_nrows A)). set (ts := repeat (repeat zero (m_ncols A)) (m_nrows A)).
  assert (Erows : repeat (PRow (repeat (PInt 0) (m_ncols A))) (m_nrows A) = map PRow rows) by (unfold rows; clear; induction (m_nrows A) as [|n IH]; [reflexivity|]; cbn [repeat map]; rewrite IH; reflexivity).
  rewrite Erows in E.
  assert (Hts : Forall2 (Forall2 (fun o t => expressify o = Ok t)) rows ts).
  { unfold rows, ts. apply repeat_pair, repeat_pair. reflexivity. }
  destruct (matrix_new_ok rows (m_ncols A) ts h) as (m & h' & E' & Hext & Hwf & Hnr & Hnc & Hrect & Hl & Hent0); try assumption.
  { unfold rows. destruct (m_nrows A); [congruence|discriminate]. }
  { intros r Hr. apply repeat_spec in Hr. subst r. apply repeat_length. }
  rewrite E in E'. injection E' as <- <-. pose proof (fun p => proj1 (Hent0 p)) as Hent.
  assert (Hnrows : m_nrows Z0 = m_nrows A) by (rewrite Hnr; unfold rows; apply repeat_length).
  assert (S0 : step h ms h0 (Z0 :: ms)) by exact (step_new _ _ _ _ _ E).
  assert (Hh0 : history h0 (Z0 :: ms)) by (eapply steps_more; eauto).
  assert (HZ : forall i j, inside Z0 i j -> get Z0 i j h0 = Ok zero).
  { intros i j Hin. rewrite (get_inside h0 Z0 i j Hwf Hin), Hent. f_equal. cbn [fst snd].
    destruct (nth_error ts (Z.to_nat i)) as [row|] eqn:Er; [|reflexivity]. destruct (nth_error row (Z.to_nat j)) as [t|] eqn:Et; [|reflexivity].
    apply nth_error_In, repeat_spec in Er. subst row. apply nth_error_In, repeat_spec in Et. exact Et. }
  assert (NS : forall i j, inside Z0 i j -> ~ stored Z0 i j h0).
  { intros i j Hin Hst. apply (Hent0 (Z.to_nat i, Z.to_nat j)) in Hst. apply Hst. pose proof (HZ i j Hin) as E1.
    rewrite (get_inside h0 Z0 i j Hwf Hin) in E1. injection E1 as E1. exact E1. }
  assert (HA0 : In A (Z0 :: ms)) by (right; exact HA). assert (HZ0 : In Z0 (Z0 :: ms)) by (left; reflexivity).
  destruct (C43_addition_is_entrywise h0 (Z0 :: ms) A Z0 Hh0 HA0 HZ0 (eq_sym Hnrows) (eq_sym Hnc)) as (C & h1 & E1 & Hh1 & Cr & Cc & HeC).
  destruct (C43_addition_is_entrywise h1 (C :: Z0 :: ms) Z0 A Hh1 (or_intror HZ0) (or_intror HA0) Hnrows Hnc) as (D & h2 & E2 & Hh2 & Dr & Dc & HeD).
  exists C, h1, D, h2. split; [exact E1|]. split; [exact E2|]. intros i j Hin.
  assert (S1 : steps h0 (Z0 :: ms) h1 (C :: Z0 :: ms)) by (eapply steps_more; [apply steps_none|exact (step_binop _ _ _ _ _ _ _ HA0 HZ0 E1)]).
  assert (S2 : steps h1 (C :: Z0 :: ms) h2 (D :: C :: Z0 :: ms)) by (eapply steps_more; [apply steps_none|exact (step_binop h1 (C :: Z0 :: ms) Z0 A Add (Ok D) h2 (or_intror HZ0) (or_intror HA0) E2)]).
  assert (S00 : steps h ms h0 (Z0 :: ms)) by (eapply steps_more; [apply steps_none|exact S0]).
  assert (HinZ : inside Z0 i j) by (unfold inside in *; rewrite Hnrows, Hnc; exact Hin).
  assert (NS1 : ~ stored Z0 i j h1).
  { destruct (steps_inv _ _ _ _ S1 (history_wf _ _ Hh0)) as (Hx & _ & _). unfold stored. fold (emap h1 Z0). rewrite (proj2 (extends_same _ _ _ Hwf Hx)). apply NS, HinZ. }
  destruct (C43_matrices_never_change _ _ _ _ A Hh HA S00) as (_ & _ & GA).
  destruct (C43_matrices_never_change _ _ _ _ A Hh0 HA0 S1) as (_ & _ & GA1).
  destruct (C43_matrices_never_change _ _ _ _ C Hh1 (or_introl eq_refl) S2) as (_ & _ & GC).
  split.
  - rewrite GC. destruct (HeC i j Hin) as (t & Ht & a & b & Ha & Hb & _ & H2 & _ & H4). rewrite Ht, <- GA, Ha.
    destruct (stored_dec A i j h0) as [SA|SA]; [destruct (H2 SA (NS i j HinZ)); congruence|destruct (H4 SA (NS i j HinZ)) as (? & ? & ?); congruence].
  - destruct (HeD i j HinZ) as (t & Ht & a & b & Ha & Hb & _ & _ & H3 & H4). rewrite Ht, <- GA, <- GA1, Hb.
    destruct (stored_dec A i j h1) as [SA|SA]; [destruct (H3 NS1 SA); congruence|destruct (H4 NS1 SA) as (? & ? & ?); congruence].
Qed.

(** Derivatives: of a sum of expressions. *)
Lemma diff_sum_err a b s : (exists d, expr_diff (call2 Add a b) s 1 = Ok d) <-> (exists d, expr_diff a s 1 = Ok d) /\ (exists d, expr_diff b s 1 = Ok d).
Proof.
  rewrite !expr_diff_one. setoid_rewrite diff_forward_deriv. unfold call2. cbn [tree_call deriv mapM].
  change (mem Add (dp_distributive cas_diff)) with false. change (tree_eqb Add (dp_add cas_diff)) with true. cbn iota.
  destruct (deriv cas_diff s a) as [da|]; cbn [bind]; [|split; [intros (d & E); discriminate|intros ((d & E) & _); discriminate]].
  destruct (deriv cas_diff s b) as [db|]; cbn [bind]; [|split; [intros (d & E); discriminate|intros (_ & (d & E)); discriminate]].
  split; intros _; eauto.
Qed.
Lemma diff_sum_value env a b s da db d : expr_diff a s 1 = Ok da -> expr_diff b s 1 = Ok db -> expr_diff (call2 Add a b) s 1 = Ok d ->
  reval env d = oplus (reval env da) (reval env db).
Proof.
  rewrite !expr_diff_one, !diff_forward_deriv. intros Ha Hb. unfold call2. cbn [tree_call deriv mapM]. rewrite Ha, Hb. cbn [bind].
  change (mem Add (dp_distributive cas_diff)) with false. change (tree_eqb Add (dp_add cas_diff)) with true. cbn iota. cbn [bind].
  unfold dependent. cbn [length seq combine filter snd]. change (dp_zero cas_diff) with zero. intros E. injection E as <-.
  destruct (tree_eqb_spec da zero) as [->|Hda], (tree_eqb_spec db zero) as [->|Hdb]; cbn [negb map snd total].
  - change (dp_zero cas_diff) with zero. rewrite reval_zero. cbn. rewrite Rplus_0_l. reflexivity.
  - rewrite reval_zero. symmetry. apply oplus_0_l.
  - rewrite reval_zero. symmetry. apply oplus_0_r.
  - apply (reval_add env da db).
Qed.

Lemma diff_entry h ms A s C h' : history h ms -> In A ms -> matrix_diff A s h = (Ok C, h') ->
  step h ms h' (C :: ms) /\ m_nrows C = m_nrows A /\ m_ncols C = m_ncols A /\
  (forall i j, stored C i j h' <-> stored A i j h) /\
  forall i j t, inside A i j -> stored A i j h -> get A i j h = Ok t -> get C i j h' = expr_diff t s 1.
Proof.
  intros Hh HA E. split; [exact (step_diff _ _ _ _ _ _ HA E)|]. pose proof (history_wf _ _ Hh _ HA) as Hw.
  destruct (mapM (fun e => expr_diff e s 1) (elems h A)) as [ds|x] eqn:Ed; [|destruct (mdiff_err A s h x Hw Ed) as [y Ey]; congruence].
  destruct (mdiff_ok A s h ds Hw Ed) as (C0 & h0 & E0 & Hext & WC & Enr & Enc & Em & Hent). rewrite E in E0. injection E0 as <- <-.
  split; [exact Enr|]. split; [exact Enc|]. split; [intros i j; unfold stored; fold (emap h' C) (emap h A); rewrite Em; reflexivity|].
  intros i j t Hin Hst Ht. assert (HinC : inside C i j) by (unfold inside in *; rewrite Enr, Enc; exact Hin).
  rewrite (get_inside h A i j Hw Hin) in Ht. injection Ht as <-. rewrite (get_inside h' C i j WC HinC), Hent.
  apply (entry_some h A i j Hin Hw) in Hst. unfold entry. destruct (dict_get pos_eqb (emap h A) _) as [n|] eqn:En; [|congruence].
  symmetry. apply (mapM_nth _ _ _ _ zero zero Ed). eapply good_lt; [apply Hw|exact En].
Qed.
Lemma stored_frame h ms h' ms' m i j : history h ms -> In m ms -> steps h ms h' ms' -> (stored m i j h' <-> stored m i j h).
Proof.
  intros Hh Hm Hs. destruct (steps_inv _ _ _ _ Hs (history_wf _ _ Hh)) as (Hx & _ & _). unfold stored. fold (emap h' m) (emap h m).
  rewrite (proj2 (extends_same _ _ _ (history_wf _ _ Hh _ Hm) Hx)). reflexivity.
Qed.
Lemma get_frame h ms h' ms' m i j : history h ms -> In m ms -> steps h ms h' ms' -> get m i j h' = get m i j h.
Proof. intros Hh Hm Hs. apply (C43_matrices_never_change h ms h' ms' m Hh Hm Hs). Qed.

(** The derivative of a sum is the sum of the derivatives, in values ... *)
Theorem C76_derivative_of_a_sum h ms A B s DA DB C D h1 h2 h3 h4 h5 E : history h ms -> In A ms -> In B ms ->
  matrix_diff A s h = (Ok DA, h1) -> matrix_diff B s h1 = (Ok DB, h2) ->
  matrix_add A B h2 = (Ok C, h3) -> matrix_diff C s h3 = (Ok D, h4) -> matrix_add DA DB h4 = (Ok E, h5) ->
  same_values h5 D E.
Proof.
  intros Hh HA HB E1 E2 E3 E4 E5.
  destruct (diff_entry _ _ _ _ _ _ Hh HA E1) as (S1 & DAr & DAc & DAs & DAv).
  assert (T1 : steps h ms h1 (DA :: ms)) by (eapply steps_more; [apply steps_none|exact S1]).
  assert (Hh1 : history h1 (DA :: ms)) by (eapply steps_more; eauto).
  destruct (diff_entry h1 (DA :: ms) B s DB h2 Hh1 (or_intror HB) E2) as (S2 & DBr & DBc & DBs & DBv).
  assert (T2 : steps h1 (DA :: ms) h2 (DB :: DA :: ms)) by (eapply steps_more; [apply steps_none|exact S2]).
  assert (Hh2 : history h2 (DB :: DA :: ms)) by (eapply steps_more; eauto).
  assert (HA2 : In A (DB :: DA :: ms)) by (right; right; exact HA). assert (HB2 : In B (DB :: DA :: ms)) by (right; right; exact HB).
  destruct (Nat.eq_dec (m_nrows A) (m_nrows B)) as [Er|Er]; [destruct (Nat.eq_dec (m_ncols A) (m_ncols B)) as [Ec|Ec]|].
  2,3: rewrite C43_shape_mismatch in E3 by congruence; discriminate.
  destruct (C43_addition_is_entrywise h2 _ A B Hh2 HA2 HB2 Er Ec) as (C' & h3' & E3' & Hh3 & Cr & Cc & HeC). rewrite E3 in E3'. injection E3' as <- <-.
  assert (S3 : step h2 (DB :: DA :: ms) h3 (C :: DB :: DA :: ms)) by exact (step_binop _ _ _ _ _ _ _ HA2 HB2 E3).
  assert (T3 : steps h2 (DB :: DA :: ms) h3 (C :: DB :: DA :: ms)) by (eapply steps_more; [apply steps_none|exact S3]).
  destruct (diff_entry h3 _ C s D h4 Hh3 (or_introl eq_refl) E4) as (S4 & Dr & Dc & Ds & Dv).
  assert (T4 : steps h3 (C :: DB :: DA :: ms) h4 (D :: C :: DB :: DA :: ms)) by (eapply steps_more; [apply steps_none|exact S4]).
  assert (Hh4 : history h4 (D :: C :: DB :: DA :: ms)) by (eapply steps_more; eauto).
  assert (HDA : In DA (D :: C :: DB :: DA :: ms)) by (simpl; auto). assert (HDB : In DB (D :: C :: DB :: DA :: ms)) by (simpl; auto).
  destruct (add_values h4 _ DA DB Hh4 HDA HDB ltac:(congruence) ltac:(congruence)) as (E' & h5' & E5' & S5 & Nr & Nc & V).
  rewrite E5 in E5'. injection E5' as <- <-.
  assert (T5 : steps h4 (D :: C :: DB :: DA :: ms) h5 (E :: D :: C :: DB :: DA :: ms)) by (eapply steps_more; [apply steps_none|exact S5]).
  split; [congruence|]. split; [congruence|]. intros env i j Hin.
  assert (HinA : inside A i j) by (unfold inside in *; rewrite <- Cr, <- Cc, <- Dr, <- Dc; exact Hin).
  assert (HinC : inside C i j) by (unfold inside in *; rewrite Cr, Cc; exact HinA).
  assert (HinB : inside B i j) by (unfold inside in *; rewrite <- Er, <- Ec; exact HinA).
  assert (HinDA : inside DA i j) by (unfold inside in *; rewrite DAr, DAc; exact HinA).
  rewrite (value_frame _ _ _ _ D env i j Hh4 (or_introl eq_refl) T5), (V env i j HinDA).
  assert (T34 : steps h2 (DB :: DA :: ms) h4 (D :: C :: DB :: DA :: ms)) by (eapply steps_trans; eauto).
  assert (T24 : steps h1 (DA :: ms) h4 (D :: C :: DB :: DA :: ms)) by (eapply steps_trans; eauto).
  rewrite (value_frame _ _ _ _ DA env i j Hh1 (or_introl eq_refl) T24), (value_frame _ _ _ _ DB env i j Hh2 (or_introl eq_refl) T34).
  destruct (HeC i j HinA) as (t & Ht & a & b & Ha & Hb & G1 & G2 & G3 & G4).
  assert (T12 : steps h ms h2 (DB :: DA :: ms)) by (eapply steps_trans; eauto).
  rewrite (get_frame _ _ _ _ A i j Hh HA T12) in Ha. rewrite (get_frame _ _ _ _ B i j Hh1 (or_intror HB) T2) in Hb.
  pose proof (stored_frame _ _ _ _ A i j Hh HA T12) as FA. pose proof (stored_frame _ _ _ _ B i j Hh1 (or_intror HB) T2) as FB.
  assert (wfD : wf h4 D) by (apply (history_wf _ _ Hh4); left; reflexivity).
  assert (wfDA : wf h1 DA) by (apply (history_wf _ _ Hh1); left; reflexivity).
  assert (wfDB : wf h2 DB) by (apply (history_wf _ _ Hh2); left; reflexivity).
  assert (HinDB : inside DB i j) by (unfold inside in *; rewrite DBr, DBc; exact HinB).
  assert (ZA : ~ stored A i j h -> entry_value h1 env DA i j = Some 0%R).
  { intros Hn. unfold entry_value. rewrite (not_stored h1 DA i j HinDA wfDA); [reflexivity|]. rewrite DAs. exact Hn. }
  assert (ZB : ~ stored B i j h1 -> entry_value h2 env DB i j = Some 0%R).
  { intros Hn. unfold entry_value. rewrite (not_stored h2 DB i j HinDB wfDB); [reflexivity|]. rewrite DBs. exact Hn. }
  assert (wfC : wf h3 C) by (apply (history_wf _ _ Hh3); left; reflexivity).
  assert (SC : stored C i j h3 <-> stored A i j h \/ stored B i j h1).
  { pose proof (history_wf _ _ Hh2 _ HA2) as WA. pose proof (history_wf _ _ Hh2 _ HB2) as WB.
    destruct (binop_spec A B Add h2 WA WB Er Ec) as (C' & h3' & E3' & _ & _ & _ & _ & Hk & _). unfold matrix_add in E3. rewrite E3 in E3'. injection E3' as <- <-.
    rewrite <- FA, <- FB. unfold stored. apply Hk. }
  destruct (stored_dec A i j h) as [SA|SA], (stored_dec B i j h1) as [SB|SB].
  - rewrite (G1 (proj2 FA SA) (proj2 FB SB)) in Ht. pose proof (Dv i j _ HinC (proj2 SC (or_introl SA)) Ht) as HD.
    pose proof (DAv i j a HinA SA Ha) as HDa. pose proof (DBv i j b HinB SB Hb) as HDb. unfold entry_value. rewrite HD, HDa, HDb.
    destruct (expr_diff (call2 Add a b) s 1) as [d|x] eqn:Ed.
    + destruct (proj1 (diff_sum_err a b s) (ex_intro _ d Ed)) as ((da & Eda) & (db & Edb)). rewrite Eda, Edb. exact (diff_sum_value env a b s da db d Eda Edb Ed).
    + rewrite (get_inside h4 D i j wfD Hin) in HD. discriminate.
  - rewrite (ZB SB), oplus_0_r. destruct (G2 (proj2 FA SA) (fun H => SB (proj1 FB H))) as [-> _].
    unfold entry_value. rewrite (Dv i j _ HinC (proj2 SC (or_introl SA)) Ht), (DAv i j a HinA SA Ha). reflexivity.
  - rewrite (ZA SA), oplus_0_l. destruct (G3 (fun H => SA (proj1 FA H)) (proj2 FB SB)) as [-> _].
    unfold entry_value. rewrite (Dv i j _ HinC (proj2 SC (or_intror SB)) Ht), (DBv i j b HinB SB Hb). reflexivity.
  - rewrite (ZA SA), (ZB SB), oplus_0_l. unfold entry_value.
    rewrite (not_stored h4 D i j Hin wfD); [reflexivity|]. rewrite Ds, SC. tauto.
Qed.
(** ... and a sum can be differentiated exactly if both summands can. *)
Theorem C76_sum_is_differentiable h ms A B C h1 s : history h ms -> In A ms -> In B ms -> matrix_add A B h = (Ok C, h1) ->
  (exists D h2, matrix_diff C s h1 = (Ok D, h2)) <->
  (exists DA h2, matrix_diff A s h = (Ok DA, h2)) /\ (exists DB h2, matrix_diff B s h = (Ok DB, h2)).
Proof.
  intros Hh HA HB E.
  destruct (Nat.eq_dec (m_nrows A) (m_nrows B)) as [Er|Er]; [destruct (Nat.eq_dec (m_ncols A) (m_ncols B)) as [Ec|Ec]|].
  2,3: rewrite C43_shape_mismatch in E by congruence; discriminate.
  pose proof (history_wf _ _ Hh _ HA) as WA. pose proof (history_wf _ _ Hh _ HB) as WB.
  assert (K : forall h m, wf h m -> ((exists D h2, matrix_diff m s h = (Ok D, h2)) <->
     forall p, In p (map fst (emap h m)) -> exists d, expr_diff (entry (elems h m) (emap h m) p) s 1 = Ok d)).
  { clear. intros h m Hw. destruct (mapM (fun e => expr_diff e s 1) (elems h m)) as [ds|x] eqn:Ed.
    - split; [intros _ p Hp|intros _; destruct (mdiff_ok m s h ds Hw Ed) as (C & h' & E & _); eauto].
      unfold entry. destruct (dict_get pos_eqb (emap h m) p) as [n|] eqn:En; [|apply dget_none in En; contradiction].
      rewrite (mapM_nth _ _ _ _ zero zero Ed); [eauto|]. eapply good_lt; [apply Hw|exact En].
    - destruct (mdiff_err m s h x Hw Ed) as [y Ey]. split; [intros (D & h2 & E); congruence|]. intros Hall. exfalso.
      apply mapM_err_in in Ed as (a & Ha & Hx). apply In_nth with (d := zero) in Ha as (n & Hn & Ha).
      destruct Hw as (W1 & W2 & W3 & G1 & G2 & G3).
      assert (Hn' : In n (map snd (emap h m))) by (rewrite G2; apply in_seq; lia).
      apply in_map_iff in Hn' as ([p n'] & E & Hp). cbn [snd] in E. subst n'.
      destruct (Hall p (in_map fst _ _ Hp)) as [d Hd]. unfold entry in Hd. rewrite (dget_in _ _ _ G1 Hp), Ha in Hd. congruence. }
  destruct (binop_spec A B Add h WA WB Er Ec) as (C' & h1' & E' & _ & WC & _ & _ & Hk & Hent). unfold matrix_add in E. rewrite E in E'. injection E' as <- <-.
  rewrite (K h1 C WC), (K h A WA), (K h B WB). split.
  - intros H. split; intros p Hp.
    + destruct (H p (proj2 (Hk p) (or_introl Hp))) as [d Hd]. rewrite Hent in Hd.
      destruct (dict_get pos_eqb (emap h A) p) as [n|] eqn:EA; [|apply dget_none in EA; contradiction].
      destruct (dict_get pos_eqb (emap h B) p); [|eauto]. exact (proj1 (proj1 (diff_sum_err _ _ s) (ex_intro _ d Hd))).
    + destruct (H p (proj2 (Hk p) (or_intror Hp))) as [d Hd]. rewrite Hent in Hd.
      destruct (dict_get pos_eqb (emap h B) p) as [n|] eqn:EB; [|apply dget_none in EB; contradiction].
      destruct (dict_get pos_eqb (emap h A) p); [|eauto]. exact (proj2 (proj1 (diff_sum_err _ _ s) (ex_intro _ d Hd))).
  - intros [H1 H2] p Hp. rewrite Hent. apply Hk in Hp. pose proof (dget_none (emap h A) p) as NA. pose proof (dget_none (emap h B) p) as NB.
    destruct (dict_get pos_eqb (emap h B) p) as [nb|] eqn:EB; destruct (dict_get pos_eqb (emap h A) p) as [na|] eqn:EA.
    + apply diff_sum_err. split; [apply H1|apply H2]; apply dget_some_in in EA, EB; [apply (in_map fst) in EA|apply (in_map fst) in EB]; assumption.
    + apply H2. apply dget_some_in, (in_map fst) in EB. exact EB.
    + apply H1. apply dget_some_in, (in_map fst) in EA. exact EA.
    + destruct Hp as [Hp|Hp]; [destruct (proj1 NA eq_refl Hp)|destruct (proj1 NB eq_refl Hp)].
Qed.

(** [[x, 0], [3, y]] and [[y, 1], [0, y]]: A + (B + A) and (A + A) + B, the derivative by x of A + B, and A plus zeros. *)
Definition sum1 := Plus (One mat_a) (Plus (One mat_b) (One mat_a)).
Definition sum2 := Plus (Plus (One mat_a) (One mat_a)) (One mat_b).
Definition is_ok {A} (r : res A * heap) : bool := match fst r with Ok _ => true | Err _ => false end.
Example C76_case : history heap_ab [mat_b; mat_a] /\ incl (summands sum1) [mat_b; mat_a] /\ Permutation (summands sum1) (summands sum2) /\
  is_ok ((let! a <- compute sum1; compute sum2) heap_ab) = true /\
  is_ok ((let! da <- matrix_diff mat_a x; let! db <- matrix_diff mat_b x; let! c <- matrix_add mat_a mat_b; let! d <- matrix_diff c x; matrix_add da db) heap_ab) = true /\
  is_ok (matrix_new (PRows (repeat (PRow (repeat (PInt 0) (m_ncols mat_a))) 2)) heap_ab) = true.
Proof.
  split; [exact history_ab|]. split; [intros a [<-|[<-|[<-|[]]]]; simpl; auto|].
  split; [apply perm_skip, perm_swap|]. repeat split; vm_compute; reflexivity.
Qed.
Print Assumptions C76_sums_of_values.
Print Assumptions C76_rearranged_sums.
Print Assumptions C76_same_entries_refuted.
Print Assumptions C76_zero_matrix.
Print Assumptions C76_derivative_of_a_sum.
Print Assumptions C76_sum_is_differentiable.
