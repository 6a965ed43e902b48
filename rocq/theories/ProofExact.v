(** * Exact integer arithmetic: proofs for C74 *)
From Coq Require Import SpecFloat Reals Lra Psatz.
From Flocq Require Import Core BinarySingleNaN.
From Verif Require Import Py ModelTree SpecTree ProofBase ModelEval SpecEval ProofEval ModelDiff ModelSym ModelCas ProofBin
  ModelLLVM SpecLLVM SpecLambdify ProofFloat ProofSums ProofLLVM ProofF64 SpecExact.
Local Instance Hprec : Prec_gt_0 53. Proof. reflexivity. Qed.
Local Instance Hmax : Prec_lt_emax 53 1024. Proof. reflexivity. Qed.

Lemma rnd_exact n : (Z.abs n <= 2 ^ 53)%Z -> rnd (IZR n) = IZR n.
Proof. intros H. apply round_generic; [apply valid_rnd_N|apply exact_format, H]. Qed.
Lemma small_lt n : (Z.abs n <= 2 ^ 53)%Z -> (Rabs (IZR n) < bpow radix2 1024)%R.
Proof.
  intros H. rewrite <- abs_IZR. change (bpow radix2 1024) with (IZR (2 ^ 1024)). apply IZR_lt.
  assert (2 ^ 53 < 2 ^ 1024)%Z by reflexivity. lia.
Qed.
Lemma constant_is_int n v : (Z.abs n <= 2 ^ 53)%Z -> constant n = Some v -> is_int v n.
Proof. intros H E. apply constant_double in E as (H1 & H2 & H3). rewrite (rnd_exact n H) in H3. repeat split; assumption. Qed.
Lemma constant_some n : (Z.abs n <= 2 ^ 53)%Z -> exists v, constant n = Some v /\ is_int v n.
Proof. intros H. destruct (constant_exact n H) as (v & E & _). exists v. split; [exact E|]. apply constant_is_int; assumption. Qed.
Lemma nearest_int n v : (Z.abs n <= 2 ^ 53)%Z -> nearest (IZR n) v -> is_int v n.
Proof.
  intros H Hv. destruct (constant_some n H) as (w & _ & Hd & Hf & Ew). assert (Hw : nearest (IZR n) w) by (rewrite <- Ew; apply double_nearest; assumption).
  pose proof (nearest_same _ _ _ Hv Hw) as E. destruct Hv as (H1 & H2 & _). split; [exact H1|]. split; [exact H2|]. congruence.
Qed.
Lemma normalize_int n e sz m : F2R (Float radix2 n e) = IZR m -> (Z.abs m <= 2 ^ 53)%Z -> is_int (SpecFloat.binary_normalize 53 1024 n e sz) m.
Proof.
  intros E H. destruct (normalize_cases n e sz) as [(_ & Hd & Hf & Hv)|(Hge & _)].
  - rewrite E, (rnd_exact m H) in Hv. repeat split; assumption.
  - exfalso. rewrite E, (rnd_exact m H) in Hge. pose proof (small_lt m H). lra.
Qed.
Lemma add_int a b n m : is_int a n -> is_int b m -> (Z.abs (n + m) <= 2 ^ 53)%Z -> is_int (SFadd 53 1024 a b) (n + m).
Proof.
  intros (Ha & Fa & Ea) (Hb & Fb & Eb) H.
  assert (E : (double_value a + double_value b = IZR (n + m))%R) by (rewrite plus_IZR; congruence).
  destruct a as [sa|sa| |sa ma ea]; try contradiction; destruct b as [sb|sb| |sb mb eb]; try contradiction; cbn [SFadd].
  - assert (double_value (S754_zero false) = IZR (n + m)) by (rewrite <- E; cbn; ring).
    destruct (Bool.eqb sa sb); repeat split; assumption.
  - split; [exact Hb|]. split; [exact Fb|]. rewrite <- E. cbn [double_value]. ring.
  - split; [exact Ha|]. split; [exact Fa|]. rewrite <- E. cbn [double_value]. ring.
  - cbv zeta. apply normalize_int; [|exact H]. rewrite <- E.
    rewrite <- (align ma ea (Z.min ea eb) sa) by lia. rewrite <- (align mb eb (Z.min ea eb) sb) by lia.
    unfold F2R. cbn [Fnum Fexp]. rewrite plus_IZR. ring.
Qed.
Lemma mul_int a b n m : is_int a n -> is_int b m -> (Z.abs (n * m) <= 2 ^ 53)%Z -> is_int (SFmul 53 1024 a b) (n * m).
Proof.
  intros (Ha & Fa & Ea) (Hb & Fb & Eb) H.
  assert (E : (double_value a * double_value b = IZR (n * m))%R) by (rewrite mult_IZR; congruence).
  destruct a as [sa|sa| |sa ma ea]; try contradiction; destruct b as [sb|sb| |sb mb eb]; try contradiction; cbn [SFmul].
  1-3: split; [exact I|]; split; [exact I|]; rewrite <- E; cbn [double_value]; ring.
  rewrite round_aux_equiv. apply is_double_valid in Ha, Hb.
  destruct (Bmult_correct_aux 53 1024 Hprec Hmax mode_NE sa ma ea Ha sb mb eb Hb) as [Hv Hz].
  assert (Ex : forall s mm ee, F2R (Float radix2 (cond_Zopp s (Zpos mm)) ee) = double_value (S754_finite s mm ee)).
  { intros s mm ee. rewrite double_value_SF2R. reflexivity. }
  rewrite !Ex, E in Hz. change (round_mode mode_NE) with ZnearestE in Hz.
  change (round radix2 (SpecFloat.fexp 53 1024) ZnearestE (IZR (n * m))) with (rnd (IZR (n * m))) in Hz.
  rewrite (rnd_exact _ H) in Hz. rewrite Rlt_bool_true in Hz by (apply small_lt, H). destruct Hz as (Hs & Hf & _).
  split; [apply is_double_valid, Hv|]. split; [|rewrite double_value_SF2R; exact Hs].
  destruct (binary_round_aux _ _ _ _ _ _ _); try discriminate; exact I.
Qed.

Lemma fold_int (f : spec_float -> spec_float -> spec_float) (g : Z -> Z -> Z) :
  (forall a b n m, is_int a n -> is_int b m -> (Z.abs (g n m) <= 2 ^ 53)%Z -> is_int (f a b) (g n m)) ->
  forall vs ms, Forall2 is_int vs ms -> forall a n, is_int a n ->
  (forall k, (Z.abs (fold_left g (firstn k ms) n) <= 2 ^ 53)%Z) -> is_int (fold_left f vs a) (fold_left g ms n).
Proof.
  intros Hf vs ms H. induction H as [|v m vs ms Hv _ IH]; intros a n Ha Hk; [exact Ha|]. cbn [fold_left]. apply IH.
  - apply Hf; [exact Ha|exact Hv|]. exact (Hk 1).
  - intros k. exact (Hk (S k)).
Qed.
Lemma opt_map_firstn {A B} (f : A -> option B) k : forall l vs, opt_map f l = Some vs -> opt_map f (firstn k l) = Some (firstn k vs).
Proof.
  induction k as [|k IH]; intros l vs H; [reflexivity|]. destruct l as [|a l]; cbn [opt_map] in H; [injection H as <-; reflexivity|].
  destruct (f a) as [b|] eqn:E; [|discriminate]. destruct (opt_map f l) as [bs|] eqn:E2; [|discriminate]. injection H as <-.
  cbn [firstn opt_map]. rewrite E, (IH l bs E2). reflexivity.
Qed.
Lemma int_value_node symargs ns h args : int_value symargs ns (Node (h :: args)) =
  match opt_map (int_value symargs ns) args with
  | Some (n :: r) => if tree_eqb h Add then Some (fold_left Z.add r n)
                     else if tree_eqb h Mul then Some (fold_left Z.mul r n) else None
  | _ => None
  end.
Proof. reflexivity. Qed.
Lemma fits_arg symargs ns h args a : fits symargs ns (Node (h :: args)) -> In a args -> fits symargs ns a.
Proof.
  intros [H1 H2] Ha. split.
  - intros s n Hr. apply H1. eapply reach_arg; eauto.
  - intros h' args' k n Hr. apply H2. eapply reach_arg; eauto.
Qed.
(** The values of the arguments of a sum or product, and the partial results. *)
Lemma int_node symargs ns h args n : fits symargs ns (Node (h :: args)) -> int_value symargs ns (Node (h :: args)) = Some n ->
  exists m ms, Forall2 (fun a k => int_value symargs ns a = Some k) args (m :: ms) /\
    ((h = Add /\ n = fold_left Z.add ms m /\ forall k, (Z.abs (fold_left Z.add (firstn k ms) m) <= 2 ^ 53)%Z) \/
     (h = Mul /\ n = fold_left Z.mul ms m /\ forall k, (Z.abs (fold_left Z.mul (firstn k ms) m) <= 2 ^ 53)%Z)).
Proof.
  intros [_ Hf] H. rewrite int_value_node in H. destruct (opt_map (int_value symargs ns) args) as [[|m ms]|] eqn:E; try discriminate.
  exists m, ms. split; [apply opt_map_Forall2, E|].
  assert (Hk : forall k j, int_value symargs ns (Node (h :: firstn (S k) args)) = Some j -> (Z.abs j <= 2 ^ 53)%Z).
  { intros k j Hj. eapply Hf; [apply reach_refl|exact Hj]. }
  assert (Ek : forall k, opt_map (int_value symargs ns) (firstn (S k) args) = Some (m :: firstn k ms)).
  { intros k. apply (opt_map_firstn _ (S k)) in E. exact E. }
  destruct (tree_eqb_spec h Add) as [->|_]; [|destruct (tree_eqb_spec h Mul) as [->|_]; [|discriminate]]; injection H as <-.
  - left. split; [reflexivity|]. split; [reflexivity|]. intros k. apply (Hk k). rewrite int_value_node, Ek. reflexivity.
  - right. split; [reflexivity|]. split; [reflexivity|]. intros k. apply (Hk k). rewrite int_value_node, Ek. reflexivity.
Qed.
Lemma int_argument_spec symargs ns vals t : Forall2 is_int vals ns ->
  match int_argument symargs ns t with
  | Some n => exists v, argument symargs vals t = Some v /\ is_int v n
  | None => argument symargs vals t = None
  end.
Proof.
  intros H. revert symargs. induction H as [|v n vals ns Hv _ IH]; intros [|s ss]; cbn [int_argument argument]; try reflexivity.
  destruct (tree_eqb t s); [exists v; auto|apply IH].
Qed.

Lemma machine_int mc symargs ns vals : ieee_add mc -> ieee_mul mc -> Forall2 is_int vals ns ->
  forall e n, fits symargs ns e -> int_value symargs ns e = Some n -> exists v, machine_value mc symargs vals e = Some v /\ is_int v n.
Proof.
  intros Hadd Hmul Hvals e. induction e as [a|cs IH] using tree_ind_all; intros n Hfit H.
  - pose proof (proj1 Hfit (Atm a) n (reach_refl _) H) as Hn. cbn [int_value] in H. cbn [machine_value machine_leaf].
    pose proof (int_argument_spec symargs ns vals (Atm a) Hvals) as G. destruct (int_argument symargs ns (Atm a)) as [n'|].
    + injection H as ->. destruct G as (v & -> & Hv). eauto.
    + rewrite G. destruct a as [ty [k|s]]; [|discriminate]. destruct (atype_eqb ty T_Integer); [|discriminate]. injection H as ->.
      apply constant_some, Hn.
  - destruct cs as [|h args]; [discriminate|]. destruct (int_node symargs ns h args n Hfit H) as (m & ms & Hargs & Hcase).
    assert (Hvs : exists v vs, opt_map (machine_value mc symargs vals) args = Some (v :: vs) /\ is_int v m /\ Forall2 is_int vs ms).
    { assert (G : exists vs, Forall2 (fun a v => machine_value mc symargs vals a = Some v) args vs /\ Forall2 is_int vs (m :: ms)).
      { assert (IH' : forall a k, In a args -> int_value symargs ns a = Some k -> exists v, machine_value mc symargs vals a = Some v /\ is_int v k).
        { intros a k Ha. apply IH; [right; exact Ha|]. eapply fits_arg; eauto. }
        clear - Hargs IH'. induction Hargs as [|a k args ks Ha _ IHl]; [exists []; split; constructor|].
        destruct (IH' a k (or_introl eq_refl) Ha) as (v & Hv & Hi). destruct IHl as (vs & H1 & H2); [intros; eapply IH'; eauto; right; assumption|].
        exists (v :: vs). split; constructor; assumption. }
      destruct G as (vs & G1 & G2). inversion G2 as [|v ? vs' ? Hv Hvs]; subst. exists v, vs'. split; [apply opt_map_Forall2, G1|]. auto. }
    destruct Hvs as (v & vs & Eo & Hv & Hvs). rewrite machine_value_node, Eo. unfold machine_op.
    destruct Hcase as [(-> & -> & Hk)|(-> & -> & Hk)].
    + change (tree_eqb Add Add) with true. cbv iota. eexists. split; [reflexivity|]. apply fold_int; [|exact Hvs|exact Hv|exact Hk].
      intros a b i j Ha Hb. rewrite Hadd. apply add_int; assumption.
    + change (tree_eqb Mul Add) with false. change (tree_eqb Mul Mul) with true. cbv iota. eexists. split; [reflexivity|].
      apply fold_int; [|exact Hvs|exact Hv|exact Hk]. intros a b i j Ha Hb. rewrite Hmul. apply mul_int; assumption.
Qed.
Lemma get_argument symargs vals t : dict_get tree_eqb (combine symargs vals) t = argument symargs vals t.
Proof. revert vals. induction symargs as [|s ss IH]; intros [|v vals]; cbn [combine dict_get argument]; try reflexivity. destruct (tree_eqb t s); [reflexivity|apply IH]. Qed.
Lemma sum_ints vs ms : Forall2 is_int vs ms -> sum_of vs = IZR (fold_right Z.add 0%Z ms).
Proof.
  unfold sum_of. intros H. induction H as [|v m vs ms (_ & _ & Hv) _ IH]; [reflexivity|]. cbn [map fold_right]. rewrite IH, plus_IZR, Hv. reflexivity.
Qed.
Lemma fold_add ms : forall m, fold_left Z.add ms m = (m + fold_right Z.add 0 ms)%Z.
Proof. induction ms as [|a ms IH]; intros m; cbn [fold_left fold_right]; [lia|]. rewrite IH. lia. Qed.
Lemma f64_int o symargs ns vals : fsum_rounds o -> prod_rounds o -> ints_rounds o -> Forall2 is_int vals ns ->
  forall e n v, fits symargs ns e -> int_value symargs ns e = Some n ->
  meaning (f64_leaf o (combine symargs vals)) (f64_op o) e = Ok v -> is_int v n.
Proof.
  intros Hsum Hprod Hint Hvals e. induction e as [a|cs IH] using tree_ind_all; intros n v Hfit H Hv.
  - pose proof (proj1 Hfit (Atm a) n (reach_refl _) H) as Hn. cbn [int_value] in H. cbn [meaning] in Hv. unfold f64_leaf in Hv.
    rewrite get_argument in Hv.
    pose proof (int_argument_spec symargs ns vals (Atm a) Hvals) as G. destruct (int_argument symargs ns (Atm a)) as [n'|].
    + injection H as ->. destruct G as (w & Ew & Hw). rewrite Ew in Hv. injection Hv as <-. exact Hw.
    + rewrite G in Hv. destruct a as [ty [k|s]]; [|discriminate]. destruct (atype_eqb ty T_Integer); [|discriminate]. injection H as ->.
      apply constant_is_int; [exact Hn|]. apply Hint, Hv.
  - destruct cs as [|h args]; [discriminate|]. destruct (int_node symargs ns h args n Hfit H) as (m & ms & Hargs & Hcase).
    cbn [meaning] in Hv. destruct (mapM (meaning (f64_leaf o (combine symargs vals)) (f64_op o)) args) as [vs|] eqn:E; [|discriminate]. cbn [bind] in Hv.
    apply mapM_Ok_Forall2 in E.
    assert (G : Forall2 is_int vs (m :: ms)).
    { assert (IH' : forall a k w, In a args -> int_value symargs ns a = Some k -> meaning (f64_leaf o (combine symargs vals)) (f64_op o) a = Ok w -> is_int w k).
      { intros a k w Ha. apply IH; [right; exact Ha|]. eapply fits_arg; eauto. }
      clear - Hargs IH' E. revert vs E. induction Hargs as [|a k args ks Ha _ IHl]; intros vs E; inversion E; subst; constructor.
      - eapply IH'; [left; reflexivity|exact Ha|assumption].
      - apply IHl; [intros; eapply IH'; eauto; right; assumption|assumption]. }
    destruct Hcase as [(-> & -> & Hk)|(-> & -> & Hk)].
    + change (f64_op o Add vs) with (fl_fsum o vs) in Hv. pose proof (Hk (length ms)) as Hn. rewrite firstn_all in Hn.
      apply nearest_int; [exact Hn|]. rewrite fold_add. change (m + fold_right Z.add 0 ms)%Z with (fold_right Z.add 0%Z (m :: ms)).
      rewrite <- (sum_ints vs (m :: ms) G). apply Hsum; [|exact Hv]. clear - G. induction G as [|w k l l' (H1 & H2 & _) _ IHl]; [intros a []|].
      intros a [<-|Ha]; [auto|apply IHl, Ha].
    + change (f64_op o Mul vs) with (fl_prod o vs) in Hv. inversion G as [|w ? ws ? Hw Hws]; subst. apply Hprod in Hv. subst v.
      apply fold_int; [exact mul_int|exact Hws|exact Hw|exact Hk].
Qed.
