(** * Rounding errors: proofs for C80 *)
From Coq Require Import SpecFloat Reals Lra Psatz.
From Flocq Require Import Core BinarySingleNaN Relative.
From Verif Require Import Py ModelTree SpecTree ProofBase ModelEval SpecEval ProofEval ModelDiff ModelSym ModelCas ProofBin
  ModelLLVM SpecLLVM SpecLambdify ProofFloat ProofSums ProofLLVM ProofF64 SpecExact ProofExact SpecError.
Local Instance Hprec : Prec_gt_0 53. Proof. reflexivity. Qed.
Local Instance Hmax : Prec_lt_emax 53 1024. Proof. reflexivity. Qed.
Local Open Scope R_scope.

(** ** One rounding *)
Lemma u_pos : 0 < unit_roundoff.
Proof. unfold unit_roundoff. apply Rinv_0_lt_compat. apply pow_lt. lra. Qed.
Lemma u_bpow : unit_roundoff = / 2 * bpow radix2 (-53 + 1).
Proof.
  unfold unit_roundoff. change (-53 + 1)%Z with (-52)%Z. change (bpow radix2 (-52)) with (/ IZR (2 ^ 52)).
  rewrite <- Rinv_mult. f_equal. rewrite pow_IZR, <- mult_IZR. f_equal.
Qed.
Lemma rnd_normal x : / 2 ^ 1022 <= Rabs x -> Rabs (rnd x - x) <= unit_roundoff * Rabs x.
Proof.
  intros H. rewrite u_bpow. apply (relative_error_N_FLT radix2 (-1074) 53 Hprec). change (-1074 + 53 - 1)%Z with (-1022)%Z.
  replace (bpow radix2 (-1022)) with (/ 2 ^ 1022); [exact H|]. change (bpow radix2 (-1022)) with (/ IZR (2 ^ 1022)). f_equal. rewrite pow_IZR. reflexivity.
Qed.
Lemma rnd_zero : rnd 0 = 0. Proof. apply round_0, valid_rnd_N. Qed.
(** Multiples of the least double are rounded without underflow. *)
Lemma rnd_multiple k : let x := IZR k * bpow radix2 (-1074) in Rabs (rnd x - x) <= unit_roundoff * Rabs x.
Proof.
  intros x. destruct (Rle_dec (/ 2 ^ 1022) (Rabs x)) as [H|H]; [apply rnd_normal, H|].
  assert (E : rnd x = x).
  { apply round_generic; [apply valid_rnd_N|]. apply generic_format_FLT with (prec := 53%Z) (emin := (-1074)%Z).
    apply FLT_spec with (Float radix2 k (-1074)); [reflexivity| |cbn; lia]. cbn [Fnum].
    apply lt_IZR. rewrite abs_IZR. apply Rnot_le_lt in H. unfold x in H. rewrite Rabs_mult, (Rabs_pos_eq (bpow radix2 (-1074))) in H by apply bpow_ge_0.
    apply Rmult_lt_reg_r with (bpow radix2 (-1074)); [apply bpow_gt_0|]. apply Rlt_trans with (1 := H).
    change (radix2 ^ 53)%Z with (2 ^ 53)%Z. change (bpow radix2 (-1074)) with (/ IZR (2 ^ 1074)).
    replace (/ 2 ^ 1022) with (IZR (2 ^ 52) * / IZR (2 ^ 1074)).
    - apply Rmult_lt_compat_r; [apply Rinv_0_lt_compat, IZR_lt; reflexivity|apply IZR_lt; reflexivity].
    - rewrite pow_IZR. change (2 ^ Z.of_nat 1022)%Z with (2 ^ 1022)%Z.
      replace (2 ^ 1074)%Z with (2 ^ 52 * 2 ^ 1022)%Z by reflexivity. rewrite mult_IZR, Rinv_mult, <- Rmult_assoc, Rinv_r, Rmult_1_l; [reflexivity|].
      apply not_0_IZR. discriminate. }
  rewrite E. unfold Rminus. rewrite Rplus_opp_r, Rabs_R0. apply Rmult_le_pos; [left; apply u_pos|apply Rabs_pos].
Qed.
Lemma sum_multiple a b : is_double a -> is_double b -> exists k, double_value a + double_value b = IZR k * bpow radix2 (-1074).
Proof. intros Ha Hb. exists (scaled_z a + scaled_z b)%Z. rewrite (value_scaled a Ha), (value_scaled b Hb), plus_IZR. ring. Qed.
Lemma sum_of_multiple vs : (forall a, In a vs -> is_double a) -> exists k, sum_of vs = IZR k * bpow radix2 (-1074).
Proof.
  induction vs as [|a vs IH]; intros H; [exists 0%Z; unfold sum_of; cbn [map fold_right]; ring|].
  destruct IH as (k & E); [intros b Hb; apply H; right; exact Hb|]. exists (scaled_z a + k)%Z. unfold sum_of in *. cbn [map fold_right].
  rewrite E, (value_scaled a), plus_IZR by (apply H; left; reflexivity). ring.
Qed.

(** ** The operations of IEEE 754 *)
Lemma add_value a b : is_double a -> is_double b -> is_double (SFadd 53 1024 a b) /\
  (finite (SFadd 53 1024 a b) -> finite a /\ finite b /\ double_value (SFadd 53 1024 a b) = rnd (double_value a + double_value b)).
Proof.
  intros Ha Hb.
  assert (X : forall c, is_double c -> rnd (double_value c) = double_value c).
  { intros c Hc. apply round_generic; [apply valid_rnd_N|apply double_format, Hc]. }
  destruct a as [sa|sa| |sa ma ea]; destruct b as [sb|sb| |sb mb eb]; cbn [SFadd];
    try match goal with |- context [if Bool.eqb ?p ?q then _ else _] => destruct (Bool.eqb p q) end; try (split; [try exact I; assumption|intros F; try contradiction F]).
  1,2: split; [exact I|]; split; [exact I|]; change (0 = rnd (0 + 0)); rewrite Rplus_0_r, rnd_zero; reflexivity.
  - split; [exact I|]. split; [exact I|]. change (double_value (S754_zero sa)) with 0. rewrite Rplus_0_l, (X _ Hb). reflexivity.
  - split; [exact I|]. split; [exact I|]. change (double_value (S754_zero sb)) with 0. rewrite Rplus_0_r, (X _ Ha). reflexivity.
  - cbv zeta. match goal with |- context [SpecFloat.binary_normalize 53 1024 ?n ?e ?sz] => set (nn := n); set (ee := e) end.
    assert (E : F2R (Float radix2 nn ee) = double_value (S754_finite sa ma ea) + double_value (S754_finite sb mb eb)).
    { unfold nn, ee. rewrite <- (align ma ea (Z.min ea eb) sa) by lia. rewrite <- (align mb eb (Z.min ea eb) sb) by lia.
      unfold F2R. cbn [Fnum Fexp]. rewrite plus_IZR. ring. }
    destruct (normalize_cases nn ee false) as [(_ & Hd & Hf & Hv)|(_ & s & Es)].
    + split; [exact Hd|]. intros _. split; [exact I|]. split; [exact I|]. rewrite Hv, E. reflexivity.
    + rewrite Es. split; [exact I|intros []].
Qed.
Lemma mul_value a b : is_double a -> is_double b -> is_double (SFmul 53 1024 a b) /\
  (finite (SFmul 53 1024 a b) -> finite a /\ finite b /\ double_value (SFmul 53 1024 a b) = rnd (double_value a * double_value b)).
Proof.
  intros Ha Hb. destruct a as [sa|sa| |sa ma ea]; destruct b as [sb|sb| |sb mb eb]; cbn [SFmul];
    try (split; [exact I|intros F; try contradiction F]).
  1-3: split; [exact I|]; split; [exact I|]; cbn [double_value]; rewrite ?Rmult_0_l, ?Rmult_0_r, rnd_zero; reflexivity.
  rewrite round_aux_equiv. apply is_double_valid in Ha, Hb.
  destruct (Bmult_correct_aux 53 1024 Hprec Hmax mode_NE sa ma ea Ha sb mb eb Hb) as [Hv Hz].
  split; [apply is_double_valid, Hv|]. intros F. split; [exact I|]. split; [exact I|].
  assert (Ex : forall s mm ee, F2R (Float radix2 (cond_Zopp s (Zpos mm)) ee) = double_value (S754_finite s mm ee)).
  { intros s mm ee. rewrite double_value_SF2R. reflexivity. }
  rewrite !Ex in Hz. change (round_mode mode_NE) with ZnearestE in Hz.
  match type of Hz with context [Rlt_bool ?x ?y] => destruct (Rlt_bool x y) end.
  - destruct Hz as (Hs & _). rewrite double_value_SF2R. exact Hs.
  - exfalso. rewrite Hz in F. exact F.
Qed.

(** ** Accumulation *)
(** [v] approximates [r], of magnitude [m], with [n] roundings. *)
Definition near (n : nat) (v r m : R) : Prop := Rabs r <= m /\ Rabs (v - r) <= growth n * m.
Lemma growth_S n : growth (S n) = growth n + unit_roundoff * (1 + growth n).
Proof. unfold growth. cbn [pow]. ring. Qed.
Lemma growth_pos n : 0 <= growth n.
Proof. induction n as [|n IH]; [unfold growth; cbn; lra|]. rewrite growth_S. pose proof u_pos. nra. Qed.
Lemma growth_add n k : 1 + growth (n + k) = (1 + growth n) * (1 + growth k).
Proof. unfold growth. rewrite pow_add. ring. Qed.
Lemma growth_mono n k : (n <= k)%nat -> growth n <= growth k.
Proof.
  intros H. replace k with (n + (k - n))%nat by lia. pose proof (growth_add n (k - n)). pose proof (growth_pos n). pose proof (growth_pos (k - n)). nra.
Qed.
Lemma near_mono n k v r m : (n <= k)%nat -> near n v r m -> near k v r m.
Proof.
  intros H [H1 H2]. split; [exact H1|]. apply Rle_trans with (1 := H2). apply Rmult_le_compat_r; [|apply growth_mono, H].
  apply Rle_trans with (2 := H1), Rabs_pos.
Qed.
Lemma near_exact v n : near n v v (Rabs v).
Proof.
  split; [apply Rle_refl|]. unfold Rminus. rewrite Rplus_opp_r, Rabs_R0. apply Rmult_le_pos; [apply growth_pos|apply Rabs_pos].
Qed.
Lemma near_abs n v r m : near n v r m -> 0 <= m /\ Rabs v <= (1 + growth n) * m.
Proof.
  intros [H1 H2]. assert (0 <= m) by (apply Rle_trans with (2 := H1), Rabs_pos). split; [assumption|].
  replace v with ((v - r) + r) by ring. apply Rle_trans with (1 := Rabs_triang _ _). lra.
Qed.
Lemma near_round n v r m w : near n v r m -> Rabs (w - v) <= unit_roundoff * Rabs v -> near (S n) w r m.
Proof.
  intros H Hw. pose proof (near_abs n v r m H) as [Hm Hv]. destruct H as [H1 H2]. split; [exact H1|].
  replace (w - r) with ((w - v) + (v - r)) by ring. apply Rle_trans with (1 := Rabs_triang _ _). rewrite growth_S. pose proof u_pos. nra.
Qed.
Lemma near_plus n v r m v' r' m' : near n v r m -> near n v' r' m' -> near n (v + v') (r + r') (m + m').
Proof.
  intros [H1 H2] [H3 H4]. split; [apply Rle_trans with (1 := Rabs_triang _ _); lra|].
  replace (v + v' - (r + r')) with ((v - r) + (v' - r')) by ring. apply Rle_trans with (1 := Rabs_triang _ _). lra.
Qed.
Lemma near_mult n k v r m v' r' m' : near n v r m -> near k v' r' m' -> near (n + k) (v * v') (r * r') (m * m').
Proof.
  intros H H'. pose proof (near_abs _ _ _ _ H) as [Hm Hv]. pose proof (near_abs _ _ _ _ H') as [Hm' Hv']. destruct H as [H1 H2], H' as [H3 H4].
  split; [rewrite Rabs_mult; apply Rmult_le_compat; try apply Rabs_pos; assumption|].
  replace (v * v' - r * r') with ((v - r) * v' + r * (v' - r')) by ring. apply Rle_trans with (1 := Rabs_triang _ _). rewrite !Rabs_mult.
  assert (E : growth (n + k) = (1 + growth n) * (1 + growth k) - 1) by (rewrite <- growth_add; ring). rewrite E.
  pose proof (growth_pos n). pose proof (growth_pos k).
  assert (A : Rabs (v - r) * Rabs v' <= (growth n * m) * ((1 + growth k) * m')) by (apply Rmult_le_compat; try apply Rabs_pos; assumption).
  assert (B : Rabs r * Rabs (v' - r') <= m * (growth k * m')) by (apply Rmult_le_compat; try apply Rabs_pos; assumption).
  replace (((1 + growth n) * (1 + growth k) - 1) * (m * m')) with (growth n * m * ((1 + growth k) * m') + m * (growth k * m')) by ring. lra.
Qed.

(** The triple of a computed number, the exact one and its magnitude. *)
Definition item : Type := spec_float * (R * R).
Definition good (n : nat) (i : item) : Prop := is_double (fst i) /\ (finite (fst i) -> near n (double_value (fst i)) (fst (snd i)) (snd (snd i))).

Lemma add_items n : forall (l : list (spec_float * (R * R))) a r m k, (k >= n)%nat ->
  is_double a -> (finite a -> near k (double_value a) r m) -> Forall (good n) l ->
  let w := fold_left (SFadd 53 1024) (map fst l) a in
  is_double w /\ (finite w -> finite a /\ Forall (fun i => finite (fst i)) l /\
    near (k + length l) (double_value w) (r + fold_right Rplus 0 (map (fun i => fst (snd i)) l)) (m + fold_right Rplus 0 (map (fun i => snd (snd i)) l))).
Proof.
  induction l as [|[b [rb mb]] l IH]; intros a r m k Hk Ha Hn Hl; cbn [map fold_left fold_right length].
  - split; [exact Ha|]. intros F. split; [exact F|]. split; [constructor|]. rewrite Nat.add_0_r, !Rplus_0_r. auto.
  - inversion Hl as [|? ? Hb Hl']; subst. destruct Hb as [Hb Nb]. cbn [fst snd] in *. destruct (add_value a b Ha Hb) as [Hd Hf].
    destruct (IH (SFadd 53 1024 a b) (r + rb) (m + mb) (S k)) as [H1 H2].
    + lia.
    + exact Hd.
    + intros F. destruct (Hf F) as (Fa & Fb & Ev). apply near_round with (double_value a + double_value b).
      * apply near_plus; [auto|]. apply near_mono with n; auto.
      * rewrite Ev. destruct (sum_multiple a b Ha Hb) as (j & ->). apply rnd_multiple.
    + exact Hl'.
    + split; [exact H1|]. intros F. destruct (H2 F) as (F1 & F2 & F3). destruct (Hf F1) as (Fa & Fb & _). split; [exact Fa|]. split; [constructor; assumption|].
      replace (k + S (length l))%nat with (S k + length l)%nat by lia.
      rewrite <- !Rplus_assoc. exact F3.
Qed.
Lemma mul_items : forall (l : list (spec_float * (R * R))) ns a r m k,
  is_double a -> (finite a -> near k (double_value a) r m) -> Forall2 (fun i n => good n i) l ns ->
  (forall j b, nth_error (map fst l) j = Some b ->
     let p := fold_left (SFmul 53 1024) (firstn j (map fst l)) a in
     double_value p * double_value b = 0 \/ / 2 ^ 1022 <= Rabs (double_value p * double_value b)) ->
  let w := fold_left (SFmul 53 1024) (map fst l) a in
  is_double w /\ (finite w -> finite a /\ Forall (fun i => finite (fst i)) l /\
    near (k + list_sum ns + length l) (double_value w) (r * fold_right Rmult 1 (map (fun i => fst (snd i)) l)) (m * fold_right Rmult 1 (map (fun i => snd (snd i)) l))).
Proof.
  induction l as [|[b [rb mb]] l IH]; intros ns a r m k Ha Hn Hl Hu; inversion Hl as [|? nb ? ns' Hb Hl']; subst; cbn [map fold_left fold_right length list_sum].
  - split; [exact Ha|]. intros F. split; [exact F|]. split; [constructor|]. rewrite !Nat.add_0_r, !Rmult_1_r. auto.
  - destruct Hb as [Hb Nb]. cbn [fst snd] in *. destruct (mul_value a b Ha Hb) as [Hd Hf].
    destruct (IH ns' (SFmul 53 1024 a b) (r * rb) (m * mb) (S (k + nb))) as [H1 H2].
    + exact Hd.
    + intros F. destruct (Hf F) as (Fa & Fb & Ev). apply near_round with (double_value a * double_value b).
      * apply near_mult; auto.
      * rewrite Ev. destruct (Hu 0%nat b eq_refl) as [E|E]; cbn [firstn fold_left] in E.
        -- rewrite E, rnd_zero. unfold Rminus. rewrite Rplus_opp_r, Rabs_R0. lra.
        -- apply rnd_normal, E.
    + exact Hl'.
    + intros j c Hj. exact (Hu (S j) c Hj).
    + split; [exact H1|]. intros F. destruct (H2 F) as (F1 & F2 & F3). destruct (Hf F1) as (Fa & Fb & _). split; [exact Fa|]. split; [constructor; assumption|].
      cbn [list_sum fold_right] in *. fold (list_sum ns') in *. replace (k + (nb + list_sum ns') + S (length l))%nat with (S (k + nb) + list_sum ns' + length l)%nat by lia.
      rewrite <- !Rmult_assoc. exact F3.
Qed.

(** ** Expressions *)
Section Values.
  Context (symargs : list tree) (xs : list R).
  Lemma value_node f h args : value_with f symargs xs (Node (h :: args)) =
    match opt_map (value_with f symargs xs) args with
    | Some (v :: r) => if tree_eqb h Add then Some (fold_right Rplus 0 (v :: r))
                       else if tree_eqb h Mul then Some (fold_right Rmult 1 (v :: r)) else None
    | _ => None
    end.
  Proof. reflexivity. Qed.
  Lemma value_defined f g e : forall v, value_with f symargs xs e = Some v -> exists w, value_with g symargs xs e = Some w.
  Proof.
    induction e as [a|cs IH] using tree_ind_all; intros v H.
    - cbn [value_with] in *. destruct (real_argument symargs xs (Atm a)); [eauto|]. destruct a as [ty [n|s]]; [|discriminate].
      destruct (atype_eqb ty T_Integer); [eauto|discriminate].
    - destruct cs as [|h args]; [discriminate|]. rewrite value_node in H. rewrite value_node.
      destruct (opt_map (value_with f symargs xs) args) as [[|v0 vs]|] eqn:E; try discriminate. apply opt_map_Forall2 in E.
      assert (G : exists ws, Forall2 (fun a w => value_with g symargs xs a = Some w) args ws).
      { assert (IH' : forall a v, In a args -> value_with f symargs xs a = Some v -> exists w, value_with g symargs xs a = Some w) by (intros a v1 Ha; apply IH; right; exact Ha).
        clear - E IH'. induction E as [|a v1 args vs1 Ha _ IHl]; [exists []; constructor|].
        destruct (IH' a v1 (or_introl eq_refl) Ha) as (w & Hw). destruct IHl as (ws & Hws); [intros; eapply IH'; [right|]; eassumption|].
        exists (w :: ws). constructor; assumption. }
      destruct G as (ws & G). apply (proj2 (opt_map_Forall2 _ _ _)) in G as Ew. rewrite Ew.
      destruct ws as [|w ws]; [inversion G; subst; inversion E|].
      destruct (tree_eqb h Add); [eauto|]. destruct (tree_eqb h Mul); [eauto|discriminate].
  Qed.
  (** A sum or product, with all the values of its arguments. *)
  Lemma values_node (value : tree -> option spec_float) h args r m vs :
    exact_value symargs xs (Node (h :: args)) = Some r -> magnitude symargs xs (Node (h :: args)) = Some m -> Forall2 (fun a v => value a = Some v) args vs ->
    exists (l : list item), map fst l = vs /\ l <> [] /\
      Forall2 (fun a (i : item) => value a = Some (fst i) /\ exact_value symargs xs a = Some (fst (snd i)) /\ magnitude symargs xs a = Some (snd (snd i))) args l /\
      ((h = Add /\ r = fold_right Rplus 0 (map (fun i => fst (snd i)) l) /\ m = fold_right Rplus 0 (map (fun i => snd (snd i)) l)) \/
       (h = Mul /\ r = fold_right Rmult 1 (map (fun i => fst (snd i)) l) /\ m = fold_right Rmult 1 (map (fun i => snd (snd i)) l))).
  Proof.
    unfold exact_value, magnitude. rewrite !value_node. intros Hr Hm Hv.
    destruct (opt_map (value_with (fun x => x) symargs xs) args) as [[|r0 rs]|] eqn:Er; try discriminate. apply opt_map_Forall2 in Er.
    destruct (opt_map (value_with Rabs symargs xs) args) as [[|m0 ms]|] eqn:Em; try discriminate. apply opt_map_Forall2 in Em.
    assert (G : exists l : list item, map fst l = vs /\ map (fun i => fst (snd i)) l = r0 :: rs /\ map (fun i => snd (snd i)) l = m0 :: ms /\
      Forall2 (fun a (i : item) => value a = Some (fst i) /\ value_with (fun x => x) symargs xs a = Some (fst (snd i)) /\ value_with Rabs symargs xs a = Some (snd (snd i))) args l).
    { clear Hr Hm. revert Er Em. generalize (r0 :: rs) (m0 :: ms). intros rl ml Er Em. revert rl ml Er Em.
      induction Hv as [|a v args vs Ha _ IH]; intros rl ml Er Em; inversion Er as [|? r1 ? rl' Hr1 Er']; inversion Em as [|? m1 ? ml' Hm1 Em']; subst.
      - exists []. repeat split. constructor.
      - destruct (IH rl' ml' Er' Em') as (l & E1 & E2 & E3 & E4). exists ((v, (r1, m1)) :: l). cbn [map fst snd]. rewrite E1, E2, E3. repeat split. constructor; auto. }
    destruct G as (l & E1 & E2 & E3 & E4). exists l. split; [exact E1|]. split; [destruct l; discriminate|]. split; [exact E4|]. rewrite E2, E3.
    destruct (tree_eqb_spec h Add) as [->|_]; [left; split; [reflexivity|]; split; congruence|].
    destruct (tree_eqb_spec h Mul) as [->|_]; [right; split; [reflexivity|]; split; congruence|discriminate].
  Qed.
End Values.
Lemma real_argument_spec symargs vals t : match argument symargs vals t with
  | Some v => In v vals /\ real_argument symargs (map double_value vals) t = Some (double_value v)
  | None => real_argument symargs (map double_value vals) t = None
  end.
Proof.
  revert vals. induction symargs as [|s ss IH]; intros [|v vals]; cbn [argument real_argument map]; try reflexivity.
  destruct (tree_eqb t s); [split; [left; reflexivity|reflexivity]|]. specialize (IH vals). destruct (argument ss vals t); [|exact IH].
  destruct IH; split; [right|]; assumption.
Qed.
Lemma constant_near n v : constant n = Some v -> is_double v /\ near (if (Z.abs n <=? 2 ^ 53)%Z then 0 else 1) (double_value v) (IZR n) (Rabs (IZR n)).
Proof.
  intros H. destruct (Z.leb_spec (Z.abs n) (2 ^ 53)) as [Hn|Hn].
  - destruct (constant_is_int n v Hn H) as (Hd & _ & E). split; [exact Hd|]. rewrite E. apply near_exact.
  - destruct (constant_double n v H) as (Hd & _ & E). split; [exact Hd|]. rewrite E. apply near_round with (IZR n); [apply near_exact|].
    apply rnd_normal. rewrite <- abs_IZR. apply Rle_trans with 1.
    + rewrite <- Rinv_1. apply Rinv_le_contravar; [lra|]. apply pow_R1_Rle. lra.
    + apply IZR_le. lia.
Qed.
Lemma no_underflow_arg value h args a : no_underflow value (Node (h :: args)) -> In a args -> no_underflow value a.
Proof. intros H Ha args' k b p ps q Hr. apply H. eapply reach_arg; eauto. Qed.
Lemma list_max_in n l : In n l -> (n <= list_max l)%nat.
Proof. intros H. pose proof (proj1 (list_max_le l (list_max l)) (Nat.le_refl _)) as F. rewrite Forall_forall in F. apply F, H. Qed.
Lemma no_underflow_items value args (l : list item) a : Forall2 (fun b (i : item) => value b = Some (fst i)) args (a :: l) -> no_underflow value (Node (Mul :: args)) ->
  forall j b, nth_error (map fst l) j = Some b ->
     let p := fold_left (SFmul 53 1024) (firstn j (map fst l)) (fst a) in
     double_value p * double_value b = 0 \/ / 2 ^ 1022 <= Rabs (double_value p * double_value b).
Proof.
  intros H Hu j b Hj. inversion H as [|a0 ? args' ? Ha Hl]; subst.
  assert (G : exists t, nth_error args' j = Some t /\ value t = Some b).
  { clear - Hl Hj. revert j Hj. induction Hl as [|t i args l Hi _ IH]; intros [|j] Hj; cbn in Hj; try discriminate.
    - injection Hj as <-. exists t. auto.
    - apply IH in Hj. exact Hj. }
  destruct G as (t & Ht & Hb). apply (Hu (a0 :: args') j t (fst a) (firstn j (map fst l)) b (reach_refl _)); [|exact Ht|exact Hb].
  apply opt_map_Forall2. cbn [firstn]. constructor; [exact Ha|]. clear - Hl. revert j. induction Hl as [|t i args l Hi _ IH]; intros [|j]; cbn; constructor; auto.
Qed.

Section Error.
  (** A way to evaluate, by its rules. *)
  Context (value : tree -> option spec_float) (symargs : list tree) (vals : list spec_float) (per_sum : nat -> nat).
  Context (Hvals : Forall is_double vals).
  Context (Hatom : forall a v, value (Atm a) = Some v -> match argument symargs vals (Atm a) with
     | Some w => v = w | None => exists ty n, a = mkAtom ty (VInt n) /\ constant n = Some v end).
  Context (Hargs : forall h args v, value (Node (h :: args)) = Some v -> exists vs, Forall2 (fun a w => value a = Some w) args vs).
  Context (Hadd : forall args (l : list item) v n, value (Node (Add :: args)) = Some v -> Forall2 (fun a (i : item) => value a = Some (fst i)) args l -> l <> [] -> Forall (good n) l ->
     is_double v /\ (finite v -> Forall (fun i => finite (fst i)) l /\
       near (n + per_sum (length l)) (double_value v) (fold_right Rplus 0 (map (fun i => fst (snd i)) l)) (fold_right Rplus 0 (map (fun i => snd (snd i)) l)))).
  Context (Hmul : forall args vs v, value (Node (Mul :: args)) = Some v -> Forall2 (fun a w => value a = Some w) args vs -> vs <> [] ->
     match vs with w :: r => v = fold_left (SFmul 53 1024) r w | [] => False end).
  Lemma value_near e : forall v r m, no_underflow value e -> value e = Some v ->
    exact_value symargs (map double_value vals) e = Some r -> magnitude symargs (map double_value vals) e = Some m ->
    is_double v /\ (finite v -> near (roundings per_sum e) (double_value v) r m).
  Proof.
    induction e as [a|cs IH] using tree_ind_all; intros v r m Hu Hv Hr Hm.
    - apply Hatom in Hv. unfold exact_value, magnitude in *. cbn [value_with] in Hr, Hm. pose proof (real_argument_spec symargs vals (Atm a)) as G.
      destruct (argument symargs vals (Atm a)) as [w|].
      + subst v. destruct G as [Hin E]. rewrite E in Hr, Hm. injection Hr as <-. injection Hm as <-.
        rewrite Forall_forall in Hvals. split; [apply Hvals, Hin|]. intros _. apply near_exact.
      + destruct Hv as (ty & n & -> & Hc). rewrite G in Hr, Hm. destruct (atype_eqb ty T_Integer); [|discriminate]. injection Hr as <-. injection Hm as <-.
        destruct (constant_near n v Hc) as [Hd Hn]. split; [exact Hd|]. intros _. exact Hn.
    - destruct cs as [|h args]; [discriminate|]. destruct (Hargs h args v Hv) as (vs & Hvs).
      destruct (values_node symargs (map double_value vals) value h args r m vs Hr Hm Hvs) as (l & El & Hne & Hl & Hcase).
      assert (Hg : Forall2 (fun (i : item) n => good n i) l (map (roundings per_sum) args)).
      { assert (IH' : forall a w r m, In a args -> value a = Some w -> exact_value symargs (map double_value vals) a = Some r -> magnitude symargs (map double_value vals) a = Some m ->
          is_double w /\ (finite w -> near (roundings per_sum a) (double_value w) r m)).
        { intros a w r0 m0 Ha. apply IH; [right; exact Ha|]. eapply no_underflow_arg; eauto. }
        clear - Hl IH'. induction Hl as [|a i args l (H1 & H2 & H3) _ IHl]; [constructor|]. cbn [map]. constructor.
        - unfold good. eapply IH'; [left; reflexivity|eassumption..].
        - apply IHl. intros; eapply IH'; [right|..]; eassumption. }
      assert (Hi : Forall2 (fun a (i : item) => value a = Some (fst i)) args l).
      { clear - Hl. induction Hl as [|a i args l (H1 & _) _ IHl]; constructor; assumption. }
      assert (Elen : length args = length l) by (clear - Hl; induction Hl; cbn; congruence).
      destruct Hcase as [(-> & -> & ->)|(-> & -> & ->)].
      + destruct (Hadd args l v (list_max (map (roundings per_sum) args)) Hv Hi Hne) as [H1 H2].
        { assert (Hmx : forall n, In n (map (roundings per_sum) args) -> (n <= list_max (map (roundings per_sum) args))%nat) by (intros; apply list_max_in; assumption).
          revert Hmx. generalize (list_max (map (roundings per_sum) args)). intros b Hmx. clear - Hg Hmx. induction Hg as [|i n l ns [Hd Hn] _ IHg]; constructor.
          - split; [exact Hd|]. intros F. apply near_mono with n; [apply Hmx; left; reflexivity|auto].
          - apply IHg. intros; apply Hmx; right; assumption. }
        split; [exact H1|]. intros F. destruct (H2 F) as (_ & Hn). cbn [roundings]. change (tree_eqb Add Add) with true. cbv iota. rewrite Elen. exact Hn.
      + assert (Hm' := Hmul args vs v Hv Hvs). rewrite <- El in Hm'. destruct l as [|i l]; [destruct Hne; reflexivity|]. cbn [map] in Hm'. rewrite Hm' by discriminate.
        destruct args as [|a args]; [inversion Hi|]. cbn [map] in Hg. inversion Hg as [|? n0 ? ns [Hd0 Hn0] Hg']; subst.
        destruct (mul_items l (map (roundings per_sum) args) (fst i) (fst (snd i)) (snd (snd i)) (roundings per_sum a) Hd0 Hn0 Hg') as [H1 H2].
        { apply (no_underflow_items value (a :: args) l i Hi Hu). }
        split; [exact H1|]. intros F. destruct (H2 F) as (_ & _ & Hn). cbn [roundings]. change (tree_eqb Mul Add) with false. cbv iota. cbn [map fold_right length] in *.
        injection Elen as Elen. replace (S (length args) - 1)%nat with (length l) by lia. unfold list_sum in *. cbn [fold_right]. exact Hn.
  Qed.
End Error.

Lemma machine_near mc symargs vals e v r m : ieee_add mc -> ieee_mul mc -> Forall is_double vals ->
  no_underflow (machine_value mc symargs vals) e -> machine_value mc symargs vals e = Some v ->
  exact_value symargs (map double_value vals) e = Some r -> magnitude symargs (map double_value vals) e = Some m ->
  finite v -> near (roundings Nat.pred e) (double_value v) r m.
Proof.
  intros Ha Hm Hvals Hu Hv Hr Hmg F.
  assert (Fadd : forall l a, fold_left (mc_add mc) l a = fold_left (SFadd 53 1024) l a) by (induction l; intros; cbn [fold_left]; [reflexivity|rewrite Ha; auto]).
  assert (Fmul : forall l a, fold_left (mc_mul mc) l a = fold_left (SFmul 53 1024) l a) by (induction l; intros; cbn [fold_left]; [reflexivity|rewrite Hm; auto]).
  refine (proj2 (value_near (machine_value mc symargs vals) symargs vals Nat.pred Hvals _ _ _ _ e v r m Hu Hv Hr Hmg) F).
  - intros a w H. cbn [machine_value machine_leaf] in H. destruct (argument symargs vals (Atm a)); [congruence|].
    destruct a as [ty [n|s]]; [|discriminate]. destruct (atype_eqb ty T_Integer); [|discriminate]. eauto.
  - intros h args w H. rewrite machine_value_node in H. destruct (opt_map _ args) as [vs|] eqn:E; [|discriminate]. exists vs. apply opt_map_Forall2, E.
  - intros args l w n H Hl Hne Hg. rewrite machine_value_node in H.
    assert (E : opt_map (machine_value mc symargs vals) args = Some (map fst l)).
    { apply opt_map_Forall2. clear - Hl. induction Hl; cbn [map]; constructor; assumption. }
    rewrite E in H. unfold machine_op in H. change (tree_eqb Add Add) with true in H. cbv iota in H. destruct l as [|i l]; [destruct Hne; reflexivity|].
    cbn [map] in H. rewrite Fadd in H. injection H as <-. inversion Hg as [|? ? [Hd0 Hn0] Hg']; subst.
    destruct (add_items n l (fst i) (fst (snd i)) (snd (snd i)) n (Nat.le_refl _) Hd0 Hn0 Hg') as [H1 H2].
    split; [exact H1|]. intros F'. destruct (H2 F') as (F1 & F2 & Hn). split; [constructor; assumption|]. exact Hn.
  - intros args vs w H Hvs Hne. rewrite machine_value_node in H. apply opt_map_Forall2 in Hvs. rewrite Hvs in H. unfold machine_op in H.
    change (tree_eqb Mul Add) with false in H. change (tree_eqb Mul Mul) with true in H. cbv iota in H. destruct vs; [destruct Hne; reflexivity|]. rewrite Fmul in H. congruence.
Qed.

(** eval_f64 *)
Lemma big_double_format : generic_format radix2 (SpecFloat.fexp 53 1024) (IZR (2 ^ 1024 - 2 ^ 971)).
Proof.
  apply generic_format_FLT with (prec := 53%Z) (emin := (-1074)%Z). apply FLT_spec with (Float radix2 (2 ^ 53 - 1) 971); [|reflexivity|cbn; lia].
  unfold F2R. cbn [Fnum Fexp]. change (bpow radix2 971) with (IZR (2 ^ 971)). rewrite <- mult_IZR. f_equal.
Qed.
Lemma in_range_rnd x : Rabs x < 2 ^ 1024 - 2 ^ 970 -> Rabs (rnd x) < bpow radix2 1024.
Proof.
  intros Hx. rewrite rnd_abs. set (y := Rabs x) in *. change (bpow radix2 1024) with (IZR (2 ^ 1024)).
  rewrite !pow_IZR in Hx. change (2 ^ Z.of_nat 1024)%Z with (2 ^ 1024)%Z in Hx. change (2 ^ Z.of_nat 970)%Z with (2 ^ 970)%Z in Hx.
  set (M := IZR (2 ^ 1024 - 2 ^ 971)).
  assert (EM : M = IZR (2 ^ 1024) - 2 * IZR (2 ^ 970)) by (unfold M; rewrite minus_IZR, <- mult_IZR; do 2 f_equal).
  assert (Hp : 0 < IZR (2 ^ 970)) by (apply IZR_lt; reflexivity).
  destruct (Rle_dec y M) as [Hle|Hgt].
  - apply rnd_le in Hle. assert (E : rnd M = M) by (apply round_generic; [apply valid_rnd_N|apply big_double_format]). lra.
  - destruct (Rlt_dec (rnd y) (IZR (2 ^ 1024))) as [H|H]; [exact H|exfalso]. destruct (rnd_N y) as [_ Hn]. specialize (Hn M big_double_format).
    rewrite (Rabs_pos_eq (rnd y - y)), (Rabs_left1 (M - y)) in Hn; lra.
Qed.
Lemma nearest_rnd x v : nearest x v -> Rabs x < 2 ^ 1024 - 2 ^ 970 -> double_value v = rnd x.
Proof.
  intros Hv Hx. apply in_range_rnd in Hx as Hlt.
  assert (Hg : generic_format radix2 (SpecFloat.fexp 53 1024) (rnd x)) by (apply generic_format_round; [apply fexp_correct, Hprec|apply valid_rnd_N]).
  assert (Er : rnd (rnd x) = rnd x) by (apply round_generic; [apply valid_rnd_N|exact Hg]).
  unfold generic_format in Hg. set (n := Ztrunc _) in Hg. set (e := cexp _ _ _) in Hg.
  destruct (normalize_cases n e false) as [(_ & Hd & Hf & Ev)|(Hge & _)].
  - rewrite <- Hg, Er in Ev. pose proof (rounded_nearest x _ Hd Hf Ev) as Hw. rewrite <- Ev. apply (nearest_same x); assumption.
  - rewrite <- Hg, Er in Hge. lra.
Qed.
Lemma sum_items n (l : list item) : Forall (good n) l -> Forall (fun i => finite (fst i)) l ->
  near n (sum_of (map fst l)) (fold_right Rplus 0 (map (fun i => fst (snd i)) l)) (fold_right Rplus 0 (map (fun i => snd (snd i)) l)).
Proof.
  unfold sum_of. intros H. induction H as [|i l [Hd Hn] _ IH]; intros F; cbn [map fold_right].
  - pose proof (near_exact 0 n) as H0. rewrite Rabs_R0 in H0. exact H0.
  - inversion F; subst. apply near_plus; auto.
Qed.
Lemma f64_value_meaning o symargs vals t v : f64_value o symargs vals t = Some v <-> meaning (f64_leaf o (combine symargs vals)) (f64_op o) t = Ok v.
Proof.
  unfold f64_value. split.
  - intros H. apply eval_f64_meaning. destruct (eval_f64 o t (Some (combine symargs vals))) eqn:E; [injection H as <-; exact E|discriminate].
  - intros H. apply eval_f64_meaning in H. destruct (eval_f64 o t (Some (combine symargs vals))) eqn:E; [|exfalso]; assert (E' := eq_trans (eq_sym E) H); [injection E' as ->; reflexivity|discriminate].
Qed.
Lemma f64_near o symargs vals e v r m : fsum_correct o -> prod_rounds o -> ints_rounds o -> Forall is_double vals ->
  no_underflow (f64_value o symargs vals) e -> eval_f64 o e (Some (combine symargs vals)) = Ok v ->
  exact_value symargs (map double_value vals) e = Some r -> magnitude symargs (map double_value vals) e = Some m ->
  finite v -> near (roundings (fun _ => 1%nat) e) (double_value v) r m.
Proof.
  intros (Hs1 & Hs2 & Hs3) Hp Hi Hvals Hu Hv Hr Hmg F.
  assert (Hv' : f64_value o symargs vals e = Some v) by (unfold f64_value; rewrite Hv; reflexivity).
  refine (proj2 (value_near (f64_value o symargs vals) symargs vals (fun _ => 1%nat) Hvals _ _ _ _ e v r m Hu Hv' Hr Hmg) F).
  - intros a w H. apply f64_value_meaning in H. cbn [meaning] in H. unfold f64_leaf in H. rewrite get_argument in H.
    destruct (argument symargs vals (Atm a)); [congruence|]. destruct a as [ty [n|s]]; [|destruct (atype_eqb ty T_Integer); discriminate].
    destruct (atype_eqb ty T_Integer); [|discriminate]. exists ty, n. split; [reflexivity|]. apply Hi, H.
  - intros h args w H. apply f64_value_meaning in H. cbn [meaning] in H. destruct (mapM _ args) as [vs|] eqn:E; [|discriminate]. exists vs.
    apply mapM_Ok_Forall2 in E. clear - E. induction E; constructor; [apply f64_value_meaning; assumption|assumption].
  - intros args l w n H Hl Hne Hg. apply f64_value_meaning in H. cbn [meaning] in H.
    assert (E : mapM (meaning (f64_leaf o (combine symargs vals)) (f64_op o)) args = Ok (map fst l)).
    { apply mapM_Ok_Forall2. clear - Hl. induction Hl; cbn [map]; constructor; [apply f64_value_meaning; assumption|assumption]. }
    rewrite E in H. cbn [bind] in H. change (fl_fsum o (map fst l) = Ok w) in H.
    assert (Hd : forall a, In a (map fst l) -> is_double a).
    { intros a Ha. apply in_map_iff in Ha as (i & <- & Hin). rewrite Forall_forall in Hg. apply Hg, Hin. }
    assert (Hfin : (forall a, In a (map fst l) -> finite a) -> is_double w /\ (finite w -> Forall (fun i => finite (fst i)) l /\ near (n + 1) (double_value w) (fold_right Rplus 0 (map (fun i => fst (snd i)) l)) (fold_right Rplus 0 (map (fun i => snd (snd i)) l)))).
    { intros Fa. assert (Fl : Forall (fun i => finite (fst i)) l) by (apply Forall_forall; intros i Hin; apply Fa, in_map, Hin).
      assert (Hdf : forall a, In a (map fst l) -> is_double a /\ finite a) by auto.
      pose proof (Hs1 _ _ Hdf H) as Hw. pose proof (Hs2 _ _ Hdf H) as Hb. pose proof (nearest_rnd _ _ Hw Hb) as Ew.
      split; [apply Hw|]. intros _. split; [exact Fl|]. rewrite Nat.add_1_r. apply near_round with (sum_of (map fst l)); [apply sum_items; assumption|].
      rewrite Ew. destruct (sum_of_multiple (map fst l) Hd) as (k & ->). apply rnd_multiple. }
    destruct (Exists_dec (fun a => ~ finite a) (map fst l)) as [Hex|Hex].
    { intros a. destruct a; cbn; [right|left|left|right]; tauto. }
    + apply Exists_exists in Hex as (a & Ha & Fa). pose proof (Hs3 _ _ _ H Ha Fa) as Fw. split; [destruct w; try exact I; destruct Fw; exact I|intros Fw'; contradiction].
    + apply Hfin. intros a Ha. assert (X : ~ ~ finite a) by (intros X; apply Hex, Exists_exists; eauto). destruct a; cbn in *; tauto.
  - intros args vs w H Hvs Hne. apply f64_value_meaning in H. cbn [meaning] in H.
    assert (E : mapM (meaning (f64_leaf o (combine symargs vals)) (f64_op o)) args = Ok vs).
    { apply mapM_Ok_Forall2. clear - Hvs. induction Hvs; constructor; [apply f64_value_meaning; assumption|assumption]. }
    rewrite E in H. cbn [bind] in H. change (fl_prod o vs = Ok w) in H. destruct vs; [destruct Hne; reflexivity|]. apply Hp, H.
Qed.

(** ** Without signs nothing cancels *)
Lemma magnitude_exact symargs xs e : (forall x, In x xs -> 0 <= x) -> (forall ty n, reach false [] e (Atm (mkAtom ty (VInt n))) -> (0 <= n)%Z) ->
  magnitude symargs xs e = exact_value symargs xs e.
Proof.
  intros Hx. unfold magnitude, exact_value. induction e as [a|cs IH] using tree_ind_all; intros Hn.
  - cbn [value_with]. destruct (real_argument symargs xs (Atm a)) as [x|] eqn:E.
    + rewrite Rabs_pos_eq; [reflexivity|]. apply Hx. clear - E. revert xs E. induction symargs as [|s ss IH]; intros [|y xs] E; cbn [real_argument] in E; try discriminate.
      destruct (tree_eqb (Atm a) s); [injection E as <-; left; reflexivity|right; apply IH, E].
    + destruct a as [ty [n|s]]; [|reflexivity]. rewrite Rabs_pos_eq; [reflexivity|]. apply IZR_le, (Hn ty). apply reach_refl.
  - destruct cs as [|h args]; [reflexivity|]. rewrite !value_node.
    replace (opt_map (value_with Rabs symargs xs) args) with (opt_map (value_with (fun x => x) symargs xs) args); [reflexivity|].
    assert (IH' : forall a, In a args -> value_with Rabs symargs xs a = value_with (fun x => x) symargs xs a).
    { intros a Ha. apply IH; [right; exact Ha|]. intros ty n Hr. apply (Hn ty). eapply reach_arg; eauto. }
    clear - IH'. induction args as [|a args IHl]; [reflexivity|]. cbn [opt_map]. rewrite (IH' a (or_introl eq_refl)), IHl by (intros; apply IH'; right; assumption). reflexivity.
Qed.
Lemma growth_linear n : INR n * unit_roundoff <= / 2 -> growth n <= 2 * INR n * unit_roundoff.
Proof.
  induction n as [|n IH]; intros H; [unfold growth; cbn; lra|]. rewrite growth_S. rewrite S_INR in *. pose proof u_pos. pose proof (pos_INR n).
  assert (G : growth n <= 2 * INR n * unit_roundoff) by (apply IH; nra). nra.
Qed.

(** ** Derivatives *)
From Verif Require Import SpecReal SpecDiff ProofDiff ProofCasDiff.
Section Derivative.
  Context (names : list string) (xs : list R).
  Notation ev := (exact_value (map Symbol names) xs).
  Definition defined (t : tree) : Prop := exists r, ev t = Some r.
  Lemma real_argument_symbol a x : real_argument (map Symbol names) xs (Atm a) = Some x -> exists s, Atm a = Symbol s.
  Proof.
    clear. revert xs. induction names as [|s ss IH]; intros [|y ys] H; cbn [map real_argument] in H; try discriminate.
    destruct (tree_eqb_spec (Atm a) (Symbol s)) as [E|_]; [eauto|eapply IH, H].
  Qed.
  Lemma exact_reval env : Forall2 (fun s x => env s = x) names xs -> forall t r, ev t = Some r -> reval env t = Some r.
  Proof.
    intros Henv t. induction t as [a|cs IH] using tree_ind_all; intros r H.
    - unfold exact_value in H. cbn [value_with] in H. cbn [reval]. destruct (real_argument (map Symbol names) xs (Atm a)) as [x|] eqn:E.
      + injection H as ->. destruct (real_argument_symbol _ _ E) as (s & Es). rewrite Es in E. injection Es as ->. cbn. f_equal.
        clear - Henv E. induction Henv as [|s' x names xs H _ IH]; cbn [map real_argument] in E; [discriminate|].
        destruct (tree_eqb_spec (Symbol s) (Symbol s')) as [Es|_]; [injection Es as ->; congruence|apply IH, E].
      + destruct a as [ty [n|s]]; [|discriminate]. unfold ratom. cbn [atom_value atom_type]. exact H.
    - destruct cs as [|h args]; [discriminate|]. unfold exact_value in H. rewrite value_node in H.
      destruct (opt_map (value_with (fun x => x) (map Symbol names) xs) args) as [[|v vs]|] eqn:E; try discriminate. apply opt_map_Forall2 in E.
      assert (G : all_defined (reval env) args = Some (v :: vs)).
      { assert (IH' : forall a r, In a args -> ev a = Some r -> reval env a = Some r) by (intros a r0 Ha; apply IH; right; exact Ha).
        clear - E IH'. induction E as [|a w args ws Ha _ IHl]; [reflexivity|]. cbn [all_defined]. rewrite (IH' a w (or_introl eq_refl) Ha), IHl; [reflexivity|].
        intros; apply IH'; [right|]; assumption. }
      cbn [reval]. rewrite G. unfold rop. destruct (tree_eqb h Add); [exact H|]. destruct (tree_eqb h Mul); [exact H|discriminate].
  Qed.
  Lemma defined_int n : defined (Integer n).
  Proof.
    unfold defined, exact_value. cbn [value_with Integer Tr]. destruct (real_argument (map Symbol names) xs (Atm (mkAtom T_Integer (VInt n)))); eexists; reflexivity.
  Qed.
  Lemma defined_node h args : defined (Node (h :: args)) <-> (h = Add \/ h = Mul) /\ args <> [] /\ Forall defined args.
  Proof.
    unfold defined at 1, exact_value. rewrite value_node. split.
    - intros (r & H). destruct (opt_map (value_with (fun x => x) (map Symbol names) xs) args) as [[|v vs]|] eqn:E; try discriminate. apply opt_map_Forall2 in E.
      split; [|split].
      + destruct (tree_eqb_spec h Add) as [->|_]; [auto|]. destruct (tree_eqb_spec h Mul) as [->|_]; [auto|discriminate].
      + intros ->. inversion E.
      + clear - E. induction E; constructor; [eexists; eassumption|assumption].
    - intros (Hh & Hne & Hall). assert (E : exists vs, opt_map (value_with (fun x => x) (map Symbol names) xs) args = Some vs).
      { clear - Hall. induction Hall as [|a args (r & Hr) _ (vs & IH)]; [exists []; reflexivity|]. unfold exact_value in Hr. exists (r :: vs). cbn [opt_map]. rewrite Hr, IH. reflexivity. }
      destruct E as (vs & E). rewrite E. destruct vs as [|v vs].
      + apply opt_map_Forall2 in E. inversion E; subst. destruct Hne. reflexivity.
      + destruct Hh as [->| ->]; eexists; reflexivity.
  Qed.
  Lemma defined_total ts : Forall defined ts -> defined (total cas_diff ts).
  Proof.
    intros H. destruct ts as [|t [|u r]]; cbn [total].
    - apply (defined_int 0).
    - inversion H; assumption.
    - apply defined_node. split; [left; reflexivity|]. split; [discriminate|exact H].
  Qed.
  Lemma set_nth_in l i d t : In t (set_nth l i d) -> t = d \/ In t l.
  Proof. revert i. induction l as [|a l IH]; intros [|i]; cbn; intuition. destruct (IH i); intuition. Qed.
  Lemma set_nth_nil l i d : l <> [] -> set_nth l i d <> [].
  Proof. destruct l, i; cbn; congruence. Qed.
  Lemma dependent_in z ds i d : In (i, d) (dependent z ds) -> In d ds.
  Proof. unfold dependent. intros H. apply filter_In in H as [H _]. apply in_combine_r in H. exact H. Qed.
  Lemma deriv_defined s e : defined e -> exists d, deriv cas_diff (Symbol s) e = Ok d /\ defined d.
  Proof.
    induction e as [a|cs IH] using tree_ind_all; intros H.
    - cbn [deriv]. eexists. split; [reflexivity|]. destruct (tree_eqb (Atm a) (Symbol s)); [apply (defined_int 1)|apply (defined_int 0)].
    - destruct cs as [|h args]; [destruct H; discriminate|]. apply defined_node in H as (Hh & Hne & Hall).
      assert (G : exists ds, mapM (deriv cas_diff (Symbol s)) args = Ok ds /\ Forall defined ds).
      { assert (IH' : forall a, In a args -> defined a -> exists d, deriv cas_diff (Symbol s) a = Ok d /\ defined d) by (intros a Ha; apply IH; right; exact Ha).
        clear - Hall IH'. induction Hall as [|a args Ha _ IHl]; [exists []; split; [reflexivity|constructor]|].
        destruct (IH' a (or_introl eq_refl) Ha) as (d & Ed & Hd). destruct IHl as (ds & E & Hds); [intros; apply IH'; [right|]; assumption|].
        exists (d :: ds). cbn [mapM]. rewrite Ed. cbn [bind]. rewrite E. split; [reflexivity|constructor; assumption]. }
      destruct G as (ds & E & Hds). rewrite Forall_forall in Hds, Hall. destruct Hh as [->| ->].
      + rewrite D_add, E. cbn [bind]. eexists. split; [reflexivity|]. apply defined_total, Forall_forall. intros t Ht.
        apply in_map_iff in Ht as ((i & d) & <- & Hi). apply Hds. eapply dependent_in, Hi.
      + rewrite D_mul, E. cbn [bind]. eexists. split; [reflexivity|]. apply defined_total, Forall_forall. intros t Ht.
        apply in_map_iff in Ht as ((i & d) & <- & Hi). apply defined_node. split; [right; reflexivity|]. split; [apply set_nth_nil, Hne|].
        apply Forall_forall. intros u Hu. apply set_nth_in in Hu as [->|Hu]; [apply Hds; eapply dependent_in, Hi|apply Hall, Hu].
  Qed.
End Derivative.
