(** * Properties of matrices: C42 - C45. *)
From Coq Require Import Reals.
From Verif Require Import Py ModelTree SpecTree ProofBase ModelDiff ModelSym ModelCas ModelMatrix ModelSympy SpecMatrix SpecReal
  ProofMatrix ProofSympy Samples.
From Verif Require ProofOutcome ProofCasDiff.
Local Open Scope string_scope.

(** C42. [history h ms]: some program has run, the heap is [h] and it holds the matrices [ms]; see SpecMatrix.v.
    Building a matrix and reading it, at once or after any further program. *)
Theorem C42_construction_round_trip h ms rows ncols ts :
  history h ms -> rows <> [] -> (forall r, In r rows -> length r = ncols) ->
  Forall2 (Forall2 (fun o t => expressify o = Ok t)) rows ts ->
  exists m h', matrix_new (PRows (map PRow rows)) h = (Ok m, h') /\ history h' (m :: ms) /\
    m_nrows m = length rows /\ m_ncols m = ncols /\
    forall h2 ms2, steps h' (m :: ms) h2 ms2 ->
      tolist m h2 = Ok ts /\
      forall i j row t, nth_error ts i = Some row -> nth_error row j = Some t ->
        get m (Z.of_nat i) (Z.of_nat j) h2 = Ok t.
Proof.
  intros Hh Hne Hlen Hts.
  destruct (matrix_new_ok rows ncols ts h Hne Hlen Hts) as (m & h' & E & Hext & Hwf & Hnr & Hnc & Hrect & Hl & Hent0).
  pose proof (fun p => proj1 (Hent0 p)) as Hent. clear Hent0.
  assert (Hh' : history h' (m :: ms)) by (eapply steps_more; [exact Hh|]; exact (step_new _ _ _ _ _ E)).
  exists m, h'. split; [exact E|]. split; [exact Hh'|]. split; [exact Hnr|]. split; [exact Hnc|].
  intros h2 ms2 Hs. destruct (steps_inv _ _ _ _ Hs (history_wf _ _ Hh')) as (Hx & Hin & Hw2).
  assert (Hwf2 : wf h2 m) by (apply Hw2, Hin; left; reflexivity).
  destruct (extends_same _ _ _ Hwf Hx) as [Ee Em]. split.
  - unfold tolist. destruct (tolist_spec h2 m Hwf2) as (rows2 & E2 & [Hl2 Hr2] & Hc). rewrite E2. cbn [fst]. f_equal.
    apply nth_ext with (d := []) (d' := []); [congruence|]. intros n Hn.
    assert (Hn' : n < length ts) by lia.
    destruct (nth_error ts n) as [row|] eqn:En; [|apply nth_error_None in En; lia].
    pose proof (nth_error_nth _ _ [] En) as Er. rewrite Er.
    assert (Hrl : length row = ncols) by (apply Hrect; eapply nth_error_In; eauto).
    assert (Hrl2 : length (nth n rows2 []) = m_ncols m) by (apply Hr2, nth_In; lia).
    apply nth_ext with (d := zero) (d' := zero); [congruence|]. intros k Hk.
    specialize (Hc (n, k)). unfold cell in Hc. cbn [fst snd] in Hc. rewrite Hc, Ee, Em, Hent. cbn [fst snd]. rewrite En.
    destruct (nth_error row k) as [t|] eqn:Ek; [|apply nth_error_None in Ek; lia]. symmetry. apply nth_error_nth, Ek.
  - intros i j row t Hi Hj. rewrite get_inside; [|exact Hwf2|].
    + rewrite !Nat2Z.id, Ee, Em, Hent. cbn [fst snd]. rewrite Hi, Hj. reflexivity.
    + assert (Hrl : length row = ncols) by (apply Hrect; eapply nth_error_In; eauto).
      assert (i < length ts) by (apply nth_error_Some; congruence). assert (j < length row) by (apply nth_error_Some; congruence).
      unfold inside. lia.
Qed.
(** Every other argument is rejected, and nothing changes. *)
Theorem C42_construction_rejected entries h :
  (exists rows ncols ts, entries = PRows (map PRow rows) /\ rows <> [] /\ (forall r, In r rows -> length r = ncols) /\
     Forall2 (Forall2 (fun o t => expressify o = Ok t)) rows ts) \/
  (exists x, matrix_new entries h = (Err x, h) /\
     ((x = TypeError /\ entries = PRowsNotList) \/
      (x = TypeError /\ exists l, entries = PRows l /\ In PNotList l) \/
      (x = IndexError /\ entries = PRows []) \/
      (x = TypeError /\ exists rows r0 r, entries = PRows (map PRow (r0 :: rows)) /\ In r rows /\ length r <> length r0) \/
      (x = ExpressifyError /\ exists rows r0, entries = PRows (map PRow (r0 :: rows)) /\
         (forall r, In r rows -> length r = length r0) /\ exists r, In r (r0 :: rows) /\ In POther r))).
Proof. apply matrix_new_cases. Qed.
(** Reading: the two integers must be in range; negative ones are not. [tolist] lists what [get] gives. *)
Theorem C42_getitem h ms m : history h ms -> In m ms ->
  (forall oi oj i j, is_index oi i -> is_index oj j ->
     (inside m i j -> exists t, matrix_getitem m (ITuple [oi; oj]) h = (Ok t, h) /\ get m i j h = Ok t) /\
     (~ inside m i j -> matrix_getitem m (ITuple [oi; oj]) h = (Err IndexError, h))) /\
  (forall ix, (forall oi oj i j, ix = ITuple [oi; oj] -> is_index oi i -> is_index oj j -> False) ->
     matrix_getitem m ix h = (Err TypeError, h)) /\
  (exists rows, tolist m h = Ok rows /\ length rows = m_nrows m /\
     (forall row, In row rows -> length row = m_ncols m) /\
     forall i j row t, nth_error rows i = Some row -> nth_error row j = Some t ->
       get m (Z.of_nat i) (Z.of_nat j) h = Ok t).
Proof.
  intros Hh Hm. pose proof (history_wf _ _ Hh _ Hm) as Hwf.
  assert (X : forall o i, is_index o i <-> as_int o = Some i).
  { intros o i. split; [intros []; reflexivity|]. destruct o as [| |[]|]; intros H; try discriminate; injection H as <-; constructor. }
  split; [|split].
  - intros oi oj i j Hi Hj. apply X in Hi, Hj. split.
    + intros Hin. rewrite (getitem_inside h m oi oj i j Hwf Hi Hj Hin), (get_inside h m i j Hwf Hin). eauto.
    + intros Hout. apply (getitem_outside h m oi oj i j Hi Hj Hout).
  - intros ix Hix. destruct ix as [[|oi [|oj [|]]]|]; try reflexivity. unfold matrix_getitem.
    destruct (as_int oi) as [i|] eqn:Ei; [|reflexivity]. destruct (as_int oj) as [j|] eqn:Ej; [|reflexivity].
    apply X in Ei, Ej. destruct (Hix oi oj i j eq_refl Ei Ej).
  - destruct (tolist_spec h m Hwf) as (rows & E & [Hl Hr] & Hc). exists rows. unfold tolist. rewrite E.
    split; [reflexivity|]. split; [exact Hl|]. split; [exact Hr|]. intros i j row t Hi Hj.
    assert (Hrl : length row = m_ncols m) by (apply Hr; eapply nth_error_In; eauto).
    assert (i < length rows) by (apply nth_error_Some; congruence). assert (j < length row) by (apply nth_error_Some; congruence).
    rewrite get_inside; [|exact Hwf|unfold inside; lia]. rewrite !Nat2Z.id, <- Hc. unfold cell. cbn [fst snd].
    rewrite (nth_error_nth _ _ [] Hi), (nth_error_nth _ _ zero Hj). reflexivity.
Qed.

(** Two matrices used in the examples: [[x, 0], [3, y]] and [[y, 1], [0, y]]. *)
Definition rows_a := PRows [PRow [PExpr x; PInt 0]; PRow [PInt 3; PExpr y]].
Definition rows_b := PRows [PRow [PExpr y; PInt 1]; PRow [PInt 0; PExpr y]].
Definition prog_ab : hm (matrix * matrix) := let! a <- matrix_new rows_a; let! b <- matrix_new rows_b; hret (a, b).
Definition mat_a := mkMatrix 2 2 1 (tree_call List_ [x; int 3; y]) 0.
Definition mat_b := mkMatrix 2 2 3 (tree_call List_ [y; int 1; y]) 1.
Definition heap_ab := mkHeap [[x; int 3; y]; [x; int 3; y]; [y; int 1; y]; [y; int 1; y]]
  [[((0, 0), 0); ((1, 0), 1); ((1, 1), 2)]; [((0, 0), 0); ((0, 1), 1); ((1, 1), 2)]].
Definition heap_a := mkHeap [[x; int 3; y]; [x; int 3; y]] [[((0, 0), 0); ((1, 0), 1); ((1, 1), 2)]].
Lemma history_ab : history heap_ab [mat_b; mat_a].
Proof.
  assert (E1 : matrix_new rows_a empty_heap = (Ok mat_a, heap_a)) by (vm_compute; reflexivity).
  assert (E2 : matrix_new rows_b heap_a = (Ok mat_b, heap_ab)) by (vm_compute; reflexivity).
  eapply steps_more; [eapply steps_more; [apply steps_none|]|].
  - exact (step_new _ _ _ _ _ E1).
  - exact (step_new _ _ _ _ _ E2).
Qed.
Example C42_case : prog_ab empty_heap = (Ok (mat_a, mat_b), heap_ab) /\
  tolist mat_a heap_ab = Ok [[x; int 0]; [int 3; y]] /\
  get mat_a 0 1 heap_ab = Ok (int 0) /\ get mat_a 1 0 heap_ab = Ok (int 3) /\ get mat_a 2 0 heap_ab = Err IndexError /\
  get mat_a (-1) 0 heap_ab = Err IndexError /\ fst (matrix_getitem mat_a INotTuple heap_ab) = Err TypeError /\
  fst (matrix_new (PRows [PRow [PInt 1; PInt 2]; PRow [PInt 1]]) empty_heap) = Err TypeError /\
  fst (matrix_new (PRows []) empty_heap) = Err IndexError.
Proof. repeat split. Qed.
Print Assumptions C42_construction_round_trip.
Print Assumptions C42_construction_rejected.
Print Assumptions C42_getitem.

Lemma entry_some h m i j : inside m i j -> wf h m ->
  (stored m i j h <-> dict_get pos_eqb (emap h m) (Z.to_nat i, Z.to_nat j) <> None).
Proof.
  intros Hin Hw. unfold stored. fold (emap h m). rewrite dget_none.
  destruct (in_dec (fun p q => reflect_dec _ _ (pos_eqb_spec p q)) (Z.to_nat i, Z.to_nat j) (map fst (emap h m))); tauto.
Qed.
Lemma not_stored h m i j : inside m i j -> wf h m -> ~ stored m i j h -> get m i j h = Ok zero.
Proof.
  intros Hin Hw Hs. rewrite (get_inside h m i j Hw Hin). unfold entry.
  destruct (dict_get pos_eqb (emap h m) _) eqn:E; [|reflexivity]. exfalso. apply Hs, (entry_some h m i j Hin Hw). congruence.
Qed.

(** The entry of a binop, from those of the operands. *)
Definition binop_entry_spec (A B : matrix) (func : tree) (h : heap) (i j : Z) (t : tree) : Prop :=
  exists a b, get A i j h = Ok a /\ get B i j h = Ok b /\
    (stored A i j h -> stored B i j h -> t = call2 func a b) /\
    (stored A i j h -> ~ stored B i j h -> t = a /\ b = zero) /\
    (~ stored A i j h -> stored B i j h -> t = b /\ a = zero) /\
    (~ stored A i j h -> ~ stored B i j h -> t = zero /\ a = zero /\ b = zero).

Lemma binop_entrywise h ms A B func : history h ms -> In A ms -> In B ms ->
  m_nrows A = m_nrows B -> m_ncols A = m_ncols B ->
  exists C h', matrix_binop A B func h = (Ok C, h') /\ history h' (C :: ms) /\
    m_nrows C = m_nrows A /\ m_ncols C = m_ncols A /\
    forall i j, inside A i j -> exists t, get C i j h' = Ok t /\ binop_entry_spec A B func h i j t.
Proof.
  intros Hh HA HB Er Ec. pose proof (history_wf _ _ Hh _ HA) as WA. pose proof (history_wf _ _ Hh _ HB) as WB.
  destruct (binop_spec A B func h WA WB Er Ec) as (C & h' & E & Hext & WC & Enr & Enc & _ & Hent).
  exists C, h'. split; [exact E|].
  split; [eapply steps_more; [exact Hh|]; exact (step_binop _ _ _ _ _ _ _ HA HB E)|].
  split; [exact Enr|]. split; [exact Enc|]. intros i j Hin.
  assert (HinC : inside C i j) by (unfold inside in *; rewrite Enr, Enc; exact Hin).
  assert (HinB : inside B i j) by (unfold inside in *; rewrite <- Er, <- Ec; exact Hin).
  rewrite (get_inside h' C i j WC HinC), Hent. eexists. split; [reflexivity|].
  unfold binop_entry_spec.
  exists (entry (elems h A) (emap h A) (Z.to_nat i, Z.to_nat j)), (entry (elems h B) (emap h B) (Z.to_nat i, Z.to_nat j)).
  rewrite (get_inside h A i j WA Hin), (get_inside h B i j WB HinB).
  split; [reflexivity|]. split; [reflexivity|].
  rewrite (entry_some h A i j Hin WA), (entry_some h B i j HinB WB). unfold entry.
  destruct (dict_get pos_eqb (emap h A) _) as [na|], (dict_get pos_eqb (emap h B) _) as [nb|];
    repeat split; intros; try congruence; exfalso; intuition congruence.
Qed.

(** C43. *)
Theorem C43_addition_is_entrywise h ms A B : history h ms -> In A ms -> In B ms ->
  m_nrows A = m_nrows B -> m_ncols A = m_ncols B ->
  exists C h', matrix_add A B h = (Ok C, h') /\ history h' (C :: ms) /\
    m_nrows C = m_nrows A /\ m_ncols C = m_ncols A /\
    forall i j, inside A i j -> exists t, get C i j h' = Ok t /\ binop_entry_spec A B Add h i j t.
Proof. apply binop_entrywise. Qed.
(** As real numbers, the entries are the sums. *)
Theorem C43_addition_adds_values h ms A B C h' : history h ms -> In A ms -> In B ms ->
  matrix_add A B h = (Ok C, h') ->
  forall env i j a b va vb, inside A i j -> get A i j h = Ok a -> get B i j h = Ok b ->
    reval env a = Some va -> reval env b = Some vb ->
    exists t, get C i j h' = Ok t /\ reval env t = Some (va + vb)%R.
Proof.
  intros Hh HA HB E env i j a b va vb Hin Ha Hb Va Vb.
  destruct (Nat.eq_dec (m_nrows A) (m_nrows B)) as [Er|Er]; [destruct (Nat.eq_dec (m_ncols A) (m_ncols B)) as [Ec|Ec]|].
  2,3: unfold matrix_add in E; rewrite binop_mismatch in E by congruence; discriminate.
  destruct (C43_addition_is_entrywise h ms A B Hh HA HB Er Ec) as (C' & h2 & E2 & _ & _ & _ & Hent).
  rewrite E2 in E. injection E as <- <-. destruct (Hent i j Hin) as (t & Ht & a' & b' & Ha' & Hb' & H1 & H2 & H3 & H4).
  rewrite Ha in Ha'. rewrite Hb in Hb'. injection Ha' as <-. injection Hb' as <-.
  exists t. split; [exact Ht|].
  assert (Hz : forall v, reval env zero = Some v -> v = 0%R) by (intros v Hv; injection Hv as <-; reflexivity).
  assert (Hdec : forall m, stored m i j h \/ ~ stored m i j h).
  { intros m. unfold stored. destruct (in_dec (fun p q => reflect_dec _ _ (pos_eqb_spec p q)) (Z.to_nat i, Z.to_nat j) (map fst (nth (m_entrymap m) (h_dicts h) []))); tauto. }
  destruct (Hdec A) as [SA|SA], (Hdec B) as [SB|SB].
  - rewrite (H1 SA SB). change (reval env (call2 Add a b)) with (match all_defined (reval env) [a; b] with Some vs => rop Add vs | None => None end).
    cbn [all_defined]. rewrite Va, Vb. cbn. f_equal. rewrite Rplus_0_r. reflexivity.
  - destruct (H2 SA SB) as [-> ->]. apply Hz in Vb. subst. rewrite Va, Rplus_0_r. reflexivity.
  - destruct (H3 SA SB) as [-> ->]. apply Hz in Va. subst. rewrite Vb, Rplus_0_l. reflexivity.
  - destruct (H4 SA SB) as (-> & -> & ->). rewrite Va. apply Hz in Va, Vb. subst. rewrite Rplus_0_l. reflexivity.
Qed.
(** No program changes a matrix it holds: not the operands of a sum, nor the result. *)
Theorem C43_matrices_never_change h ms h' ms' m : history h ms -> In m ms -> steps h ms h' ms' ->
  In m ms' /\ tolist m h' = tolist m h /\ forall i j, get m i j h' = get m i j h.
Proof.
  intros Hh Hm Hs. pose proof (history_wf _ _ Hh) as Hw. destruct (steps_inv _ _ _ _ Hs Hw) as (Hx & Hin & _).
  split; [apply Hin, Hm|]. split.
  - unfold tolist. rewrite (tolist_frame h h' m (Hw _ Hm) Hx). reflexivity.
  - intros i j. unfold get. rewrite (getitem_frame h h' m _ (Hw _ Hm) Hx). reflexivity.
Qed.
Theorem C43_shape_mismatch A B h : (m_nrows A, m_ncols A) <> (m_nrows B, m_ncols B) ->
  matrix_add A B h = (Err TypeError, h).
Proof. apply binop_mismatch. Qed.
Example C43_case :
  exists C h', matrix_add mat_a mat_b heap_ab = (Ok C, h') /\
    tolist C h' = Ok [[m_add x y; int 1]; [int 3; m_add y y]] /\
    tolist mat_a h' = tolist mat_a heap_ab /\ inside mat_a 1 0 /\ history heap_ab [mat_b; mat_a].
Proof. eexists _, _. split; [reflexivity|]. split; [reflexivity|]. split; [reflexivity|]. split; [unfold inside; simpl; lia|exact history_ab]. Qed.
Print Assumptions C43_addition_is_entrywise.
Print Assumptions C43_addition_adds_values.
Print Assumptions C43_matrices_never_change.
Print Assumptions C43_shape_mismatch.

(** C44. binop for any function: where one entry is not stored the other is taken ... *)
Theorem C44_binop_entries h ms A B func : history h ms -> In A ms -> In B ms ->
  m_nrows A = m_nrows B -> m_ncols A = m_ncols B ->
  exists C h', matrix_binop A B func h = (Ok C, h') /\ history h' (C :: ms) /\
    m_nrows C = m_nrows A /\ m_ncols C = m_ncols A /\
    forall i j, inside A i j -> exists t, get C i j h' = Ok t /\ binop_entry_spec A B func h i j t.
Proof. apply binop_entrywise. Qed.
(** ... so with Mul an entry is not the product of the entries: 0 * 1 gives 1. *)
Theorem C44_binop_mul_refuted :
  exists h ms A B C h', history h ms /\ In A ms /\ In B ms /\ matrix_binop A B Mul h = (Ok C, h') /\
    exists i j a b t, inside A i j /\ get A i j h = Ok a /\ get B i j h = Ok b /\ get C i j h' = Ok t /\
      forall env, reval env a = Some 0%R /\ reval env b = Some 1%R /\ reval env t = Some 1%R.
Proof.
  exists heap_ab, [mat_b; mat_a], mat_a, mat_b. eexists _, _. split; [exact history_ab|]. split; [simpl; auto|]. split; [simpl; auto|].
  split; [reflexivity|]. exists 0%Z, 1%Z, (int 0), (int 1), (int 1). split; [unfold inside; simpl; lia|].
  repeat split.
Qed.
Print Assumptions C44_binop_entries.
Print Assumptions C44_binop_mul_refuted.

(** C45. *)
Theorem C45_diff_is_entrywise h ms A s : history h ms -> In A ms -> s <> zero ->
  ((forall i j t, inside A i j -> get A i j h = Ok t -> exists d, expr_diff t s 1 = Ok d) <->
   (exists C h', matrix_diff A s h = (Ok C, h'))) /\
  forall C h', matrix_diff A s h = (Ok C, h') ->
    history h' (C :: ms) /\ m_nrows C = m_nrows A /\ m_ncols C = m_ncols A /\
    forall i j t, inside A i j -> get A i j h = Ok t -> get C i j h' = expr_diff t s 1.
Proof.
  intros Hh HA Hs. pose proof (history_wf _ _ Hh _ HA) as Hw.
  destruct (mapM (fun e => expr_diff e s 1) (elems h A)) as [ds|x] eqn:Ed.
  - destruct (mdiff_ok A s h ds Hw Ed) as (C0 & h0 & E & Hext & WC & Enr & Enc & _ & Hent).
    assert (G : forall i j t, inside A i j -> get A i j h = Ok t -> get C0 i j h0 = expr_diff t s 1).
    { intros i j t Hin Ht. assert (HinC : inside C0 i j) by (unfold inside in *; rewrite Enr, Enc; exact Hin).
      rewrite (get_inside h A i j Hw Hin) in Ht. injection Ht as <-.
      rewrite (get_inside h0 C0 i j WC HinC), Hent. unfold entry.
      destruct (dict_get pos_eqb (emap h A) _) as [n|] eqn:En; [|symmetry; apply diff_zero, Hs].
      symmetry. apply (mapM_nth _ _ _ _ zero zero Ed). eapply good_lt; [apply Hw|exact En]. }
    split.
    + split; [intros _; eauto|]. intros _ i j t Hin Ht. rewrite <- (G i j t Hin Ht).
      assert (HinC : inside C0 i j) by (unfold inside in *; rewrite Enr, Enc; exact Hin).
      rewrite (get_inside h0 C0 i j WC HinC). eauto.
    + intros C h' E'. rewrite E in E'. injection E' as <- <-.
      split; [eapply steps_more; [exact Hh|]; exact (step_diff _ _ _ _ _ _ HA E)|]. auto.
  - destruct (mdiff_err A s h x Hw Ed) as [y Ey]. split; [|intros C h' E'; rewrite Ey in E'; discriminate].
    split; [|intros (C & h' & E'); rewrite Ey in E'; discriminate]. intros Hall. exfalso.
    apply mapM_err_in in Ed as (a & Ha & Hx). apply In_nth with (d := zero) in Ha as (n & Hn & Ha).
    pose proof Hw as Hw0. destruct Hw as (W1 & W2 & W3 & G1 & G2 & G3).
    assert (Hn' : In n (map snd (emap h A))) by (rewrite G2; apply in_seq; lia).
    apply in_map_iff in Hn' as ([p n'] & E & Hp). cbn [snd] in E. subst n'.
    pose proof (G3 p (in_map fst _ _ Hp)) as [R1 R2].
    assert (Hin : inside A (Z.of_nat (fst p)) (Z.of_nat (snd p))) by (unfold inside; lia).
    destruct (Hall (Z.of_nat (fst p)) (Z.of_nat (snd p)) a Hin) as [d Hd]; [|congruence].
    rewrite (get_inside h A _ _ Hw0 Hin), !Nat2Z.id. unfold entry.
    replace (fst p, snd p) with p by (destruct p; reflexivity). rewrite (dget_in _ _ _ G1 Hp), Ha. reflexivity.
Qed.
(** A sample: the derivative of [[x, 0], [3, y]] by x, and of a matrix holding f(x), which has no rule. *)
Example C45_case :
  (exists C h', matrix_diff mat_a x heap_ab = (Ok C, h') /\ tolist C h' = Ok [[int 1; int 0]; [int 0; int 0]]) /\
  fst ((let! m <- matrix_new (PRows [PRow [PExpr (tree_call f [x])]]); matrix_diff m x) empty_heap) = Err KeyError /\
  history heap_ab [mat_b; mat_a] /\ In mat_a [mat_b; mat_a].
Proof.
  split; [eexists _, _; split; [vm_compute; reflexivity|vm_compute; reflexivity]|].
  split; [vm_compute; reflexivity|split; [exact history_ab|simpl; auto]].
Qed.
(** Which exception: that of a stored entry, and then nothing has changed. *)
Theorem C45_which_exception h ms A s x h' : history h ms -> In A ms -> matrix_diff A s h = (Err x, h') ->
  h' = h /\ exists i j t, inside A i j /\ stored A i j h /\ get A i j h = Ok t /\ expr_diff t s 1 = Err x.
Proof.
  intros Hh HA E. pose proof (history_wf _ _ Hh _ HA) as Hw.
  assert (Eg : expr_diff (m_graph A) s 1 = (do ds <- mapM (fun e => expr_diff e s 1) (elems h A); Ok (tree_call List_ ds))).
  { destruct Hw as (_ & _ & -> & _). rewrite ProofCasDiff.expr_diff_one, ProofOutcome.diff_outcome. unfold tree_call. cbn [SpecDiff.deriv].
    rewrite (mapM_ext (fun e => expr_diff e s 1) (SpecDiff.deriv cas_diff s)); [reflexivity|].
    intros a _. rewrite ProofCasDiff.expr_diff_one. apply ProofOutcome.diff_outcome. }
  unfold matrix_diff in E. rewrite Eg in E. destruct (mapM (fun e => expr_diff e s 1) (elems h A)) as [ds|y] eqn:Ed.
  - destruct (mdiff_ok A s h ds Hw Ed) as (C0 & h0 & E0 & _). unfold matrix_diff in E0. rewrite Eg in E0. rewrite E0 in E. discriminate.
  - cbn in E. injection E as -> <-. split; [reflexivity|].
    apply mapM_err_in in Ed as (a & Ha & Hx). apply In_nth with (d := zero) in Ha as (n & Hn & Ha).
    pose proof Hw as Hw0. destruct Hw as (W1 & W2 & W3 & G1 & G2 & G3).
    assert (Hn' : In n (map snd (emap h A))) by (rewrite G2; apply in_seq; lia).
    apply in_map_iff in Hn' as ([p n'] & E & Hp). cbn [snd] in E. subst n'.
    pose proof (G3 p (in_map fst _ _ Hp)) as [R1 R2].
    assert (Hin : inside A (Z.of_nat (fst p)) (Z.of_nat (snd p))) by (unfold inside; lia).
    exists (Z.of_nat (fst p)), (Z.of_nat (snd p)), a. split; [exact Hin|].
    split; [unfold stored; rewrite !Nat2Z.id, <- surjective_pairing; apply in_map_iff; exists (p, n); split; [reflexivity|exact Hp]|].
    split; [|exact Hx]. rewrite (get_inside h A _ _ Hw0 Hin), !Nat2Z.id. unfold entry.
    replace (fst p, snd p) with p by (destruct p; reflexivity). rewrite (dget_in _ _ _ G1 Hp), Ha. reflexivity.
Qed.
Example C45_exception_case :
  fst ((let! m <- matrix_new (PRows [PRow [PInt 0; PExpr x]; PRow [PExpr (tree_call sin [x; y]); PExpr (tree_call f [x])]]);
        matrix_diff m x) empty_heap) = Err TypeError /\
  expr_diff (tree_call sin [x; y]) x 1 = Err TypeError.
Proof. split; vm_compute; reflexivity. Qed.
(** The exception: by the expression 0, an entry that is not stored stays 0 though 0.diff(0) is 1. *)
Theorem C45_diff_by_zero_refuted :
  exists h ms A C h' i j, history h ms /\ In A ms /\ matrix_diff A zero h = (Ok C, h') /\ inside A i j /\
    get A i j h = Ok zero /\ expr_diff zero zero 1 = Ok one /\ get C i j h' = Ok zero.
Proof.
  exists heap_ab, [mat_b; mat_a], mat_a. eexists _, _. exists 0%Z, 1%Z. split; [exact history_ab|]. split; [simpl; auto|].
  split; [reflexivity|]. split; [unfold inside; simpl; lia|]. repeat split.
Qed.
Print Assumptions C45_diff_is_entrywise.
Print Assumptions C45_which_exception.
Print Assumptions C45_diff_by_zero_refuted.
