(** * Derivatives as real functions: proofs for C24 *)
From Coq Require Import Reals Lra.
From Verif Require Import Py ModelTree SpecTree ProofBase ModelDiff SpecDiff ProofDiff ModelSym ModelCas SpecCas
  ProofCasDiff SpecReal.
Local Open Scope R_scope.

(** ** Powers *)
Lemma Int_part_IZR z : Int_part (IZR z) = z.
Proof.
  destruct (base_Int_part (IZR z)) as [H1 H2].
  apply le_IZR in H1. rewrite <- minus_IZR in H2. apply Rgt_lt in H2.
  assert (-1 < Int_part (IZR z) - z)%Z by (apply lt_IZR; exact H2). lia.
Qed.

Lemma rpow_int_pos a z : 0 < a -> rpow a (IZR z) = Some (powerRZ a z).
Proof.
  intros Ha. unfold rpow. destruct (Rlt_dec 0 a) as [_|H]; [|lra]. f_equal. symmetry. apply powerRZ_Rpower, Ha.
Qed.

Lemma rpow_int a z : a <> 0 \/ (0 <= z)%Z -> rpow a (IZR z) = Some (powerRZ a z).
Proof.
  intros H. destruct (Rlt_dec 0 a) as [Ha|Ha]; [apply rpow_int_pos, Ha|].
  unfold rpow. destruct (Rlt_dec 0 a) as [|_]; [contradiction|]. rewrite Int_part_IZR.
  destruct (Req_EM_T (IZR z) (IZR z)) as [_|]; [|lra].
  destruct (Req_EM_T a 0) as [E|_]; [|reflexivity].
  destruct (Z_le_dec 0 z); [reflexivity|]. destruct H; [contradiction|lia].
Qed.

Lemma rpow_cases a b p : rpow a b = Some p ->
  (0 < a /\ p = Rpower a b) \/
  (a <= 0 /\ exists z, b = IZR z /\ p = powerRZ a z /\ (a <> 0 \/ (0 <= z)%Z)).
Proof.
  unfold rpow. destruct (Rlt_dec 0 a) as [Ha|Ha]; [intros [= <-]; auto|].
  destruct (Req_EM_T b (IZR (Int_part b))) as [Eb|]; [|discriminate].
  intros H. right. split; [lra|]. exists (Int_part b). split; [exact Eb|].
  destruct (Req_EM_T a 0) as [E|Hn].
  - destruct (Z_le_dec 0 (Int_part b)); [|discriminate]. injection H as <-. auto.
  - injection H as <-. auto.
Qed.

Lemma derivable_powerRZ a z : a <> 0 \/ (1 <= z)%Z ->
  derivable_pt_lim (fun u => powerRZ u z) a (IZR z * powerRZ a (z - 1)).
Proof.
  intros H. destruct z as [|p|p].
  - simpl (IZR 0). rewrite Rmult_0_l. apply (derivable_pt_lim_const 1).
  - simpl powerRZ at 1. replace (IZR (Z.pos p) * powerRZ a (Z.pos p - 1))
      with (INR (Pos.to_nat p) * a ^ pred (Pos.to_nat p)); [apply derivable_pt_lim_pow|].
    rewrite INR_IZR_INZ, positive_nat_Z. f_equal.
    destruct (Z.pos p - 1)%Z as [|q|q] eqn:E; [|simpl; f_equal; lia|lia].
    replace (pred (Pos.to_nat p)) with 0%nat by lia. reflexivity.
  - destruct H as [Ha|Hz]; [|lia]. simpl powerRZ at 1.
    set (n := Pos.to_nat p). assert (Hn : a ^ n <> 0) by (apply pow_nonzero, Ha).
    pose proof (derivable_pt_lim_div (fct_cte 1) (fun u => u ^ n) a 0 (INR n * a ^ pred n)
      (derivable_pt_lim_const 1 a) (derivable_pt_lim_pow a n) Hn) as Hd.
    eapply derivable_pt_lim_ext in Hd.
    2:{ intros u. unfold div_fct, fct_cte. unfold Rdiv. rewrite Rmult_1_l. reflexivity. }
    replace (IZR (Z.neg p) * powerRZ a (Z.neg p - 1))
      with ((0 * a ^ n - INR n * a ^ pred n * fct_cte 1 a) / (a ^ n)²); [exact Hd|].
    unfold fct_cte. rewrite INR_IZR_INZ. unfold n. rewrite positive_nat_Z.
    change (IZR (Z.neg p)) with (- IZR (Z.pos p)). fold n.
    assert (E : powerRZ a (Z.neg p - 1) = / a ^ (S n)).
    { replace (Z.neg p - 1)%Z with (Z.neg (Pos.succ p)) by lia. simpl powerRZ.
      rewrite Pos2Nat.inj_succ. reflexivity. }
    rewrite E. unfold Rsqr. assert (E2 : a ^ n = a * a ^ pred n).
    { unfold n. destruct (Pos2Nat.is_succ p) as (k & ->). reflexivity. }
    simpl pow. assert (Hp : a ^ pred n <> 0) by (apply pow_nonzero, Ha).
    rewrite E2. field. auto.
Qed.

Lemma rpow_deriv a b p p1 : rpow a b = Some p -> rpow a (b - 1) = Some p1 ->
  exists G delta, 0 < delta /\ (forall w, Rabs (w - a) < delta -> rpow w b = Some (G w)) /\
    derivable_pt_lim G a (b * p1).
Proof.
  intros H0 H1. destruct (rpow_cases _ _ _ H0) as [[Ha _]|[Ha (z & -> & _ & Hz)]].
  - exists (fun w => Rpower w b), a. split; [exact Ha|]. split.
    + intros w Hw. unfold rpow. destruct (Rlt_dec 0 w) as [|Hn]; [reflexivity|].
      apply Rabs_def2 in Hw. lra.
    + unfold rpow in H1. destruct (Rlt_dec 0 a); [|contradiction]. injection H1 as <-.
      apply derivable_pt_lim_power, Ha.
  - replace (IZR z - 1) with (IZR (z - 1)) in H1 by (rewrite minus_IZR; reflexivity).
    destruct (rpow_cases _ _ _ H1) as [[Hc _]|[_ (z' & E & -> & Hz')]]; [lra|].
    apply eq_IZR in E. subst z'.
    assert (Hd : a <> 0 \/ (1 <= z)%Z) by (destruct Hz' as [H|H]; [auto|right; lia]).
    exists (fun w => powerRZ w z). destruct (Req_EM_T a 0) as [E|Hn].
    + exists 1. split; [lra|]. split; [|apply derivable_powerRZ, Hd].
      intros w _. apply rpow_int. right. destruct Hd; [contradiction|lia].
    + exists (- a). split; [lra|]. split; [|apply derivable_powerRZ, Hd].
      intros w Hw. apply rpow_int. left. apply Rabs_def2 in Hw. lra.
Qed.

(** ** reval *)
Lemma all_defined_Forall2 {A B} (f : A -> option B) l vs :
  all_defined f l = Some vs <-> Forall2 (fun a v => f a = Some v) l vs.
Proof.
  revert vs. induction l as [|a l IH]; simpl; intros vs.
  - split; [intros [= <-]; constructor|intros H; inversion H; reflexivity].
  - split.
    + destruct (f a) as [b|] eqn:E; [|discriminate]. destruct (all_defined f l) as [bs|]; [|discriminate].
      intros [= <-]. constructor; [exact E|apply IH; reflexivity].
    + intros H. inversion H as [|? b ? bs Hb Hbs]; subst. rewrite Hb. apply IH in Hbs. rewrite Hbs. reflexivity.
Qed.

Lemma reval_node env h args v : reval env (Node (h :: args)) = Some v <->
  exists vs, Forall2 (fun a w => reval env a = Some w) args vs /\ rop h vs = Some v.
Proof.
  cbn [reval]. split.
  - destruct (all_defined (reval env) args) as [vs|] eqn:E; [|discriminate].
    intros H. exists vs. split; [apply all_defined_Forall2, E|exact H].
  - intros (vs & H1 & H2). apply all_defined_Forall2 in H1. rewrite H1. exact H2.
Qed.

Lemma all_defined_ext {A B} (f g : A -> option B) l :
  (forall a, In a l -> f a = g a) -> all_defined f l = all_defined g l.
Proof.
  induction l as [|a l IH]; simpl; intros H; [reflexivity|].
  rewrite (H a), IH; [reflexivity| |]; auto.
Qed.

Lemma reval_ext env env' e : (forall s, contains e s -> env s = env' s) -> reval env e = reval env' e.
Proof.
  induction e as [a|cs IH] using tree_ind_all; intros H.
  - cbn [reval]. unfold ratom. destruct a as [ty [z|s]]; cbn [atom_value atom_type]; [reflexivity|].
    destruct (atype_eqb ty T_Symbol) eqn:E; [|reflexivity]. rewrite (H s); [reflexivity|].
    assert (ty = T_Symbol) as ->.
    { destruct ty as [i n]. unfold atype_eqb in E. cbn [ty_id ty_name] in E. apply andb_prop in E as [E1 E2].
      apply Nat.eqb_eq in E1. apply String.eqb_eq in E2. subst. reflexivity. }
    apply contains_sym. reflexivity.
  - destruct cs as [|h args]; [reflexivity|]. cbn [reval].
    rewrite (all_defined_ext (reval env) (reval env') args); [reflexivity|].
    intros a Ha. apply IH; [right; exact Ha|]. intros s Hs. apply H, contains_node. eauto.
Qed.

Lemma reval_absent env s e u : ~ contains e s -> reval (upd env s u) e = reval env e.
Proof.
  intros H. apply reval_ext. intros s' Hs. unfold upd. destruct (String.eqb_spec s' s); [subst; contradiction|reflexivity].
Qed.

Lemma reval_upd_same env s e : reval (upd env s (env s)) e = reval env e.
Proof.
  apply reval_ext. intros s' _. unfold upd. destruct (String.eqb_spec s' s); [subst; reflexivity|reflexivity].
Qed.

Lemma upd_here env s u : upd env s u s = u.
Proof. unfold upd. rewrite String.eqb_refl. reflexivity. Qed.

Lemma reval_arith env e v : reval env e = Some v -> arith e.
Proof.
  revert v. induction e as [a|cs IH] using tree_ind_all; intros v H.
  - cbn [reval] in H. unfold ratom in H. destruct a as [[i n] [z|s]]; cbn [atom_value atom_type] in H.
    + destruct (atype_eqb (mkType i n) T_Integer) eqn:E; [|discriminate].
      unfold atype_eqb in E. cbn [ty_id ty_name] in E. apply andb_prop in E as [E1 E2].
      apply Nat.eqb_eq in E1. apply String.eqb_eq in E2. cbn in E1, E2. subst. apply ar_int.
    + destruct (atype_eqb (mkType i n) T_Symbol) eqn:E; [|discriminate].
      unfold atype_eqb in E. cbn [ty_id ty_name] in E. apply andb_prop in E as [E1 E2].
      apply Nat.eqb_eq in E1. apply String.eqb_eq in E2. cbn in E1, E2. subst. apply ar_sym.
  - destruct cs as [|h args]; [discriminate|]. apply reval_node in H as (vs & Hvs & Hop).
    assert (Har : Forall arith args).
    { apply Forall_forall. intros a Ha.
      assert (Hex : exists w, reval env a = Some w).
      { clear -Hvs Ha. induction Hvs as [|b w l l' Hb _ IHv]; [destruct Ha|]. destruct Ha as [<-|Ha]; eauto. }
      destruct Hex as (w & Hw). apply (IH a (or_intror Ha) w Hw). }
    unfold rop in Hop.
    destruct (tree_eqb_spec h Add) as [->|_]; [apply ar_add, Har|].
    destruct (tree_eqb_spec h Mul) as [->|_]; [apply ar_mul, Har|].
    destruct (tree_eqb_spec h Pow) as [->|_].
    { destruct vs as [|v1 [|v2 [|]]]; try discriminate. inversion Hvs as [|? ? ? ? _ Hvs1]; subst.
      inversion Hvs1 as [|? ? ? ? _ Hvs2]; subst. inversion Hvs2; subst.
      inversion Har as [|? ? Ha1 Har1]; subst. inversion Har1; subst. apply ar_pow; assumption. }
    destruct (tree_eqb_spec h sin) as [->|_].
    { destruct vs as [|v1 [|]]; try discriminate. inversion Hvs as [|? ? ? ? _ Hvs1]; subst. inversion Hvs1; subst.
      inversion Har; subst. apply ar_sin; assumption. }
    destruct (tree_eqb_spec h cos) as [->|_]; [|discriminate].
    destruct vs as [|v1 [|]]; try discriminate. inversion Hvs as [|? ? ? ? _ Hvs1]; subst. inversion Hvs1; subst.
    inversion Har; subst. apply ar_cos; assumption.
Qed.

Lemma reval_zero env : reval env zero = Some 0. Proof. reflexivity. Qed.
Lemma reval_one env : reval env one = Some 1. Proof. reflexivity. Qed.

(** ** Sums and products of functions *)
Definition Rsum (l : list R) : R := fold_right Rplus 0 l.
Definition Rprod (l : list R) : R := fold_right Rmult 1 l.
(** The derivative of a product with factors [vs] of derivatives [ds]. *)
Fixpoint prod_deriv (vs ds : list R) : R :=
  match vs, ds with
  | v :: vs', d :: ds' => d * Rprod vs' + v * prod_deriv vs' ds'
  | _, _ => 0
  end.
Definition at_ (u : R) (Fs : list (R -> R)) : list R := map (fun F => F u) Fs.

Lemma derivable_sum x Fs ls : Forall2 (fun F l => derivable_pt_lim F x l) Fs ls ->
  derivable_pt_lim (fun u => Rsum (at_ u Fs)) x (Rsum ls).
Proof.
  induction 1 as [|F l Fs ls HF _ IH]; simpl.
  - apply (derivable_pt_lim_const 0).
  - apply (derivable_pt_lim_plus F (fun u => Rsum (at_ u Fs)) x l (Rsum ls) HF IH).
Qed.

Lemma derivable_prod x Fs ls : Forall2 (fun F l => derivable_pt_lim F x l) Fs ls ->
  derivable_pt_lim (fun u => Rprod (at_ u Fs)) x (prod_deriv (at_ x Fs) ls).
Proof.
  induction 1 as [|F l Fs ls HF _ IH]; simpl.
  - apply (derivable_pt_lim_const 1).
  - apply (derivable_pt_lim_mult F (fun u => Rprod (at_ u Fs)) x l _ HF IH).
Qed.

Lemma derivable_near F x l eps : derivable_pt_lim F x l -> 0 < eps ->
  exists delta, 0 < delta /\ forall u, Rabs (u - x) < delta -> Rabs (F u - F x) < eps.
Proof.
  intros HF Heps.
  assert (Hc : continuity_pt F x) by (apply derivable_continuous_pt; exists l; exact HF).
  destruct (Hc eps Heps) as (delta & Hd & H). exists delta. split; [exact Hd|].
  intros u Hu. destruct (Req_dec u x) as [->|Hne]; [rewrite Rminus_diag_eq by reflexivity; rewrite Rabs_R0; exact Heps|].
  apply (H u). split; [split; [exact I|congruence]|exact Hu].
Qed.

Section Deriv.
  Variables (env : string -> R) (s : string).
  Let x := env s.

  Lemma has_derivative_here e l : has_derivative env e s l -> exists F delta, 0 < delta /\
    (forall u, Rabs (u - x) < delta -> reval (upd env s u) e = Some (F u)) /\
    derivable_pt_lim F x l /\ reval env e = Some (F x).
  Proof.
    intros (F & delta & Hd & He & HF). exists F, delta. repeat split; auto.
    rewrite <- (reval_upd_same env s e). apply He.
    rewrite Rminus_diag_eq by reflexivity. rewrite Rabs_R0. exact Hd.
  Qed.

  (** All arguments differentiable gives one neighbourhood for all. *)
  Lemma args_derivative args ls : Forall2 (fun a l => has_derivative env a s l) args ls ->
    exists Fs delta, 0 < delta /\
      (forall u, Rabs (u - x) < delta -> Forall2 (fun a w => reval (upd env s u) a = Some w) args (at_ u Fs)) /\
      Forall2 (fun F l => derivable_pt_lim F x l) Fs ls /\
      Forall2 (fun a w => reval env a = Some w) args (at_ x Fs).
  Proof.
    induction 1 as [|a l args ls Ha _ (Fs & d2 & Hd2 & H2 & H3 & H4)].
    - exists [], 1. repeat split; [lra|constructor|constructor|constructor].
    - destruct (has_derivative_here _ _ Ha) as (F & d1 & Hd1 & H1 & HF & HFx).
      exists (F :: Fs), (Rmin d1 d2). split; [apply Rmin_glb_lt; assumption|]. split; [|split; constructor; assumption].
      intros u Hu. simpl. constructor.
      + apply H1. eapply Rlt_le_trans; [exact Hu|apply Rmin_l].
      + apply H2. eapply Rlt_le_trans; [exact Hu|apply Rmin_r].
  Qed.

  Lemma has_derivative_op h args ls (G : list R -> R) l :
    Forall2 (fun a l => has_derivative env a s l) args ls ->
    (forall vs, rop h vs = Some (G vs)) ->
    (forall Fs, Forall2 (fun F l => derivable_pt_lim F x l) Fs ls ->
       Forall2 (fun a w => reval env a = Some w) args (at_ x Fs) ->
       derivable_pt_lim (fun u => G (at_ u Fs)) x l) ->
    has_derivative env (Node (h :: args)) s l.
  Proof.
    intros Hargs Hop HG. destruct (args_derivative _ _ Hargs) as (Fs & delta & Hd & H1 & H2 & H3).
    exists (fun u => G (at_ u Fs)), delta. split; [exact Hd|]. split; [|apply HG; assumption].
    intros u Hu. apply reval_node. exists (at_ u Fs). split; [apply H1, Hu|apply Hop].
  Qed.

  Lemma has_derivative_absent e v : ~ contains e s -> reval env e = Some v -> has_derivative env e s 0.
  Proof.
    intros Hn He. exists (fun _ => v), 1. split; [lra|]. split; [|apply (derivable_pt_lim_const v)].
    intros u _. rewrite reval_absent; assumption.
  Qed.

  (** Values of the derivative's parts. *)
  Lemma total_value ts v : reval env (total cas_diff ts) = Some v ->
    exists vs, Forall2 (fun a w => reval env a = Some w) ts vs /\ v = Rsum vs.
  Proof.
    destruct ts as [|t [|t2 ts]]; cbn [total]; intros H.
    - exists []. split; [constructor|]. injection H as <-. reflexivity.
    - exists [v]. split; [repeat constructor; exact H|]. simpl. ring.
    - apply reval_node in H as (vs & H1 & H2). exists vs. split; [exact H1|]. injection H2 as <-. reflexivity.
  Qed.

  Lemma dependent_cons d ds : dependent zero (d :: ds) =
    (if tree_eqb d zero then [] else [(0%nat, d)]) ++ map (fun id => (S (fst id), snd id)) (dependent zero ds).
  Proof.
    unfold dependent. cbn [length seq combine filter snd].
    assert (G : forall n, filter (fun id : nat * tree => negb (tree_eqb (snd id) zero)) (combine (seq (S n) (length ds)) ds) =
                map (fun id => (S (fst id), snd id))
                  (filter (fun id : nat * tree => negb (tree_eqb (snd id) zero)) (combine (seq n (length ds)) ds))).
    { induction ds as [|d' ds IH]; intros n; [reflexivity|]. cbn [length seq combine filter snd].
      rewrite (IH (S n)). destruct (tree_eqb d' zero); reflexivity. }
    rewrite (G 0%nat). destruct (tree_eqb d zero); reflexivity.
  Qed.

  Lemma sum_values ds vs : Forall2 (fun a w => reval env a = Some w) (map snd (dependent zero ds)) vs ->
    exists ls, Forall2 (fun a w => reval env a = Some w) ds ls /\ Rsum vs = Rsum ls.
  Proof.
    revert vs. induction ds as [|d ds IH]; intros vs H.
    - inversion H. exists []. split; [constructor|reflexivity].
    - rewrite dependent_cons, map_app, map_map in H. cbn [snd] in H.
      destruct (tree_eqb_spec d zero) as [->|Hne]; cbn [map app] in H.
      + destruct (IH vs) as (ls & H1 & H2); [exact H|]. exists (0 :: ls).
        split; [constructor; [reflexivity|exact H1]|]. simpl. rewrite H2. ring.
      + inversion H as [|? w ? ws Hw Hws]; subst. destruct (IH ws Hws) as (ls & H1 & H2).
        exists (w :: ls). split; [constructor; assumption|]. simpl. rewrite H2. reflexivity.
  Qed.

  Lemma prod_values args ds vals : length ds = length args ->
    Forall2 (fun a w => reval env a = Some w) args vals ->
    forall vs, Forall2 (fun l w => exists ws, Forall2 (fun a w => reval env a = Some w) l ws /\ w = Rprod ws)
      (map (fun id => set_nth args (fst id) (snd id)) (dependent zero ds)) vs ->
    exists ls, Forall2 (fun a w => reval env a = Some w) ds ls /\ Rsum vs = prod_deriv vals ls.
  Proof.
    intros Hlen Hargs. revert ds Hlen. induction Hargs as [|a v args vals Ha Hargs IH]; intros ds Hlen vs H.
    - destruct ds; [|discriminate]. inversion H. exists []. split; [constructor|reflexivity].
    - destruct ds as [|d ds]; [discriminate|]. injection Hlen as Hlen.
      rewrite dependent_cons, map_app, map_map in H. cbn [fst snd set_nth] in H.
      apply Forall2_app_inv_l in H as (vs1 & vs2 & H1 & H2 & ->).
      assert (Hrest : exists us, Forall2 (fun l w => exists ws, Forall2 (fun a w => reval env a = Some w) l ws /\ w = Rprod ws)
                (map (fun id => set_nth args (fst id) (snd id)) (dependent zero ds)) us /\ Rsum vs2 = v * Rsum us).
      { clear -H2 Ha. revert vs2 H2. generalize (dependent zero ds) as ids.
        induction ids as [|id ids IHi]; intros vs2 H2.
        - inversion H2. exists []. split; [constructor|]. simpl. ring.
        - inversion H2 as [|? w ? ws (us & Hus & ->) Hws]; subst.
          destruct (IHi ws Hws) as (rs & Hrs & E).
          inversion Hus as [|? w1 ? us' Hw1 Hus']; subst. rewrite Ha in Hw1. injection Hw1 as <-.
          exists (Rprod us' :: rs). split; [constructor; [eauto|exact Hrs]|]. simpl. rewrite E. ring. }
      destruct Hrest as (us & Hus & E2). destruct (IH ds Hlen us Hus) as (ls & Hls & E).
      assert (Hsum : Rsum (vs1 ++ vs2) = Rsum vs1 + Rsum vs2).
      { clear. induction vs1; simpl; [ring|rewrite IHvs1; ring]. }
      destruct (tree_eqb_spec d zero) as [->|Hne]; cbn [map] in H1.
      + inversion H1; subst. exists (0 :: ls). split; [constructor; [reflexivity|exact Hls]|].
        simpl. rewrite E2, E. ring.
      + inversion H1 as [|? w ? ws (us1 & Hus1 & ->) Hws]; subst. inversion Hws; subst. clear Hws H1.
        inversion Hus1 as [|? dv ? us' Hdv Hus']; subst.
        assert (us' = vals) as ->.
        { clear -Hus' Hargs. revert us' Hus'. induction Hargs as [|a v args vals Ha _ IH]; intros us' H; inversion H; subst; [reflexivity|].
          f_equal; [congruence|auto]. }
        exists (dv :: ls). split; [constructor; assumption|].
        rewrite Hsum. simpl. rewrite E2, E. ring.
  Qed.

  Lemma times_value r d v : reval env (times r d) = Some v ->
    exists w, reval env d = Some w /\
      ((d = zero /\ w = 0 /\ v = 0) \/ (d <> zero /\ exists k, reval env r = Some k /\ v = k * w)).
  Proof.
    unfold times. destruct (tree_eqb_spec d zero) as [->|Hne].
    - intros H. injection H as <-. exists 0. split; [reflexivity|]. auto.
    - destruct (tree_eqb_spec d one) as [->|H1].
      + intros H. exists 1. split; [reflexivity|]. right. split; [exact Hne|]. exists v. split; [exact H|ring].
      + intros H. apply reval_node in H as (vs & Hvs & Hop).
        inversion Hvs as [|? k ? vs1 Hk Hvs1]; subst. inversion Hvs1 as [|? w ? vs2 Hw Hvs2]; subst.
        inversion Hvs2; subst. injection Hop as <-. exists w. split; [exact Hw|]. right. split; [exact Hne|].
        exists k. split; [exact Hk|]. ring.
  Qed.

  Theorem deriv_is_derivative e : arith e -> forall d, deriv cas_diff (Symbol s) e = Ok d ->
    forall v v', reval env e = Some v -> reval env d = Some v' -> has_derivative env e s v'.
  Proof.
    intros He. induction He as [n|s'|args Har IH|args Har IH|a Ha IH|a Ha IH|a b Ha Hb IHa IHb]
      using arith_ind_all; intros d Hd v v' Hv Hv'.
    - rewrite atom_D in Hd. injection Hd as <-. injection Hv' as <-.
      eapply has_derivative_absent; [apply contains_int|exact Hv].
    - rewrite sym_D in Hd. injection Hd as <-. destruct (String.eqb_spec s' s) as [->|Hne].
      + injection Hv' as <-. exists (fun u => u), 1. split; [lra|]. split; [|apply derivable_pt_lim_id].
        intros u _. cbn. rewrite upd_here. reflexivity.
      + injection Hv' as <-. eapply has_derivative_absent; [|exact Hv]. rewrite contains_sym. exact Hne.
    - rewrite D_add in Hd. destruct (mapM (deriv cas_diff (Symbol s)) args) as [ds|] eqn:E; [|discriminate].
      cbn [bind] in Hd. injection Hd as <-. apply mapM_Ok_Forall2 in E.
      apply total_value in Hv' as (vs & Hvs & ->). apply sum_values in Hvs as (ls & Hls & ->).
      apply reval_node in Hv as (vals & Hvals & _).
      apply (has_derivative_op Add args ls Rsum).
      + clear -IH E Hls Hvals. revert ds ls E Hls. induction Hvals as [|a v args vals Hv _ IHv]; intros ds ls E Hls.
        * inversion E; subst. inversion Hls; constructor.
        * inversion E; subst. inversion Hls; subst. inversion IH; subst. constructor; eauto.
      + intros ws. reflexivity.
      + intros Fs HFs _. apply derivable_sum, HFs.
    - rewrite D_mul in Hd. destruct (mapM (deriv cas_diff (Symbol s)) args) as [ds|] eqn:E; [|discriminate].
      cbn [bind] in Hd. injection Hd as <-. apply mapM_Ok_Forall2 in E.
      apply total_value in Hv' as (vs & Hvs & ->). 
      apply reval_node in Hv as (vals & Hvals & _).
      assert (Hvs' : Forall2 (fun l w => exists ws, Forall2 (fun a w => reval env a = Some w) l ws /\ w = Rprod ws)
        (map (fun id => set_nth args (fst id) (snd id)) (dependent zero ds)) vs).
      { clear -Hvs. revert vs Hvs. generalize (dependent zero ds) as ids. induction ids as [|id ids IHi]; intros vs H.
        - inversion H. constructor.
        - inversion H as [|? w ? ws Hw Hws]; subst. constructor; [|apply IHi, Hws].
          apply reval_node in Hw as (us & Hus & Hop). exists us. split; [exact Hus|]. injection Hop as <-. reflexivity. }
      apply (prod_values args ds vals) in Hvs' as (ls & Hls & ->);
        [|symmetry; clear -E; induction E; simpl; congruence|exact Hvals].
      apply (has_derivative_op Mul args ls Rprod).
      + clear -IH E Hls Hvals. revert ds ls E Hls. induction Hvals as [|a v args vals Hv _ IHv]; intros ds ls E Hls.
        * inversion E; subst. inversion Hls; constructor.
        * inversion E; subst. inversion Hls; subst. inversion IH; subst. constructor; eauto.
      + intros ws. reflexivity.
      + intros Fs HFs Hx. assert (vals = at_ x Fs) as ->.
        { clear -Hx Hvals. revert vals Hvals. induction Hx as [|a v args ws Ha _ IHx]; intros vals H; inversion H; subst; [reflexivity|].
          f_equal; [congruence|auto]. }
        apply derivable_prod, HFs.
    - rewrite D_sin in Hd. destruct (deriv cas_diff (Symbol s) a) as [da|] eqn:E; [|discriminate].
      cbn [bind] in Hd. injection Hd as <-. apply times_value in Hv' as (w & Hw & Hcase).
      apply reval_node in Hv as (vals & Hvals & Hop). inversion Hvals as [|? va ? vr Hva Hvr]; subst.
      inversion Hvr; subst. injection Hop as <-.
      destruct (has_derivative_here _ _ (IH da eq_refl va w Hva Hw)) as (F & delta & Hdel & HF & HF' & HFx).
      exists (fun u => Rtrigo_def.sin (F u)), delta. split; [exact Hdel|]. split.
      + intros u Hu. apply reval_node. exists [F u]. split; [repeat constructor; apply HF, Hu|reflexivity].
      + assert (Hd : derivable_pt_lim (fun u => Rtrigo_def.sin (F u)) x (Rtrigo_def.cos (F x) * w))
          by (apply (derivable_pt_lim_comp F Rtrigo_def.sin x w _ HF'); apply derivable_pt_lim_sin).
        destruct Hcase as [(-> & -> & ->)|(_ & k & Hk & ->)].
        * rewrite Rmult_0_r in Hd. exact Hd.
        * apply reval_node in Hk as (ks & Hks & Hop). inversion Hks as [|? ka ? kr Hka Hkr]; subst.
          inversion Hkr; subst. injection Hop as <-. rewrite HFx in Hka. injection Hka as <-. exact Hd.
    - rewrite D_cos in Hd. destruct (deriv cas_diff (Symbol s) a) as [da|] eqn:E; [|discriminate].
      cbn [bind] in Hd. injection Hd as <-. apply times_value in Hv' as (w & Hw & Hcase).
      apply reval_node in Hv as (vals & Hvals & Hop). inversion Hvals as [|? va ? vr Hva Hvr]; subst.
      inversion Hvr; subst. injection Hop as <-.
      destruct (has_derivative_here _ _ (IH da eq_refl va w Hva Hw)) as (F & delta & Hdel & HF & HF' & HFx).
      exists (fun u => Rtrigo_def.cos (F u)), delta. split; [exact Hdel|]. split.
      + intros u Hu. apply reval_node. exists [F u]. split; [repeat constructor; apply HF, Hu|reflexivity].
      + assert (Hd : derivable_pt_lim (fun u => Rtrigo_def.cos (F u)) x (- Rtrigo_def.sin (F x) * w))
          by (apply (derivable_pt_lim_comp F Rtrigo_def.cos x w _ HF'); apply derivable_pt_lim_cos).
        destruct Hcase as [(-> & -> & ->)|(_ & k & Hk & ->)].
        * rewrite Rmult_0_r in Hd. exact Hd.
        * apply reval_node in Hk as (ks & Hks & Hop). inversion Hks as [|? k1 ? kr Hk1 Hkr]; subst.
          inversion Hkr as [|? k2 ? kr2 Hk2 Hkr2]; subst. inversion Hkr2; subst. injection Hop as <-.
          injection Hk1 as <-. apply reval_node in Hk2 as (ks & Hks2 & Hop).
          inversion Hks2 as [|? ka ? kr Hka Hkr']; subst. inversion Hkr'; subst. injection Hop as <-.
          rewrite HFx in Hka. injection Hka as <-.
          match goal with |- derivable_pt_lim _ _ ?l => replace l with (- Rtrigo_def.sin (F x) * w) by ring end. exact Hd.
    - rewrite D_pow in Hd. destruct (deriv cas_diff (Symbol s) a) as [da|] eqn:E; [|discriminate].
      cbn [bind] in Hd. destruct (deriv cas_diff (Symbol s) b) as [db|] eqn:Eb; [|discriminate].
      cbn [bind] in Hd. destruct (tree_eqb_spec db zero) as [->|]; [|discriminate]. injection Hd as <-.
      assert (Hnb : ~ contains b s) by (apply (deriv_zero_iff s b Hb zero Eb); reflexivity).
      apply times_value in Hv' as (w & Hw & Hcase).
      destruct Hcase as [(-> & -> & ->)|(_ & k & Hk & ->)].
      + assert (Hna : ~ contains a s) by (apply (deriv_zero_iff s a Ha zero E); reflexivity).
        eapply has_derivative_absent; [|exact Hv]. rewrite contains_node.
        intros (? & [<-|[<-|[]]] & Hc); contradiction.
      + apply reval_node in Hv as (vals & Hvals & Hop). inversion Hvals as [|? va ? vr Hva Hvr]; subst.
        inversion Hvr as [|? vb ? vr2 Hvb Hvr2]; subst. inversion Hvr2; subst. change (rpow va vb = Some v) in Hop.
        apply reval_node in Hk as (ks & Hks & Hkop). inversion Hks as [|? k1 ? kr Hk1 Hkr]; subst.
        inversion Hkr as [|? k2 ? kr2 Hk2 Hkr2]; subst. inversion Hkr2; subst. injection Hkop as <-.
        rewrite Hvb in Hk1. injection Hk1 as <-.
        apply reval_node in Hk2 as (ks2 & Hks2 & Hkop). inversion Hks2 as [|? p1 ? kr3 Hp1 Hkr3]; subst.
        inversion Hkr3 as [|? p2 ? kr4 Hp2 Hkr4]; subst. inversion Hkr4; subst. change (rpow p1 p2 = Some k2) in Hkop.
        rewrite Hva in Hp1. injection Hp1 as <-.
        assert (p2 = vb - 1) as ->.
        { apply reval_node in Hp2 as (qs & Hqs & Hqop). inversion Hqs as [|? q1 ? qr Hq1 Hqr]; subst.
          inversion Hqr as [|? q2 ? qr2 Hq2 Hqr2]; subst. inversion Hqr2; subst. injection Hqop as <-.
          injection Hq2 as <-. rewrite Hvb in Hq1. injection Hq1 as <-. ring. }
        destruct (rpow_deriv _ _ _ _ Hop Hkop) as (G & dg & Hdg & HG & HG').
        destruct (has_derivative_here _ _ (IHa da eq_refl va w Hva Hw)) as (F & delta & Hdel & HF & HF' & HFx).
        rewrite Hva in HFx. injection HFx as EF.
        destruct (derivable_near F x w dg HF' Hdg) as (d2 & Hd2 & Hnear).
        exists (fun u => G (F u)), (Rmin delta d2). split; [apply Rmin_glb_lt; assumption|]. split.
        * intros u Hu. apply reval_node. exists [F u; vb]. split.
          -- constructor; [apply HF; eapply Rlt_le_trans; [exact Hu|apply Rmin_l]|].
             constructor; [rewrite reval_absent; assumption|constructor].
          -- apply HG. rewrite EF. apply Hnear. eapply Rlt_le_trans; [exact Hu|apply Rmin_r].
        * match goal with |- derivable_pt_lim _ _ ?l => replace l with (vb * k2 * w) by ring end.
          apply (derivable_pt_lim_comp F G x w _ HF'). rewrite <- EF. exact HG'.
  Qed.
End Deriv.
