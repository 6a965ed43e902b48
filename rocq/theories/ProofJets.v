(** * Dual numbers: evaluation over any algebra, proofs for C64 *)
From Coq Require Import Reals Lra Ring_theory Ring.
From Verif Require Import Py ModelTree SpecTree ProofBase ModelDiff SpecDiff ProofDiff ModelSym ModelCas SpecCas
  ProofCasDiff SpecReal ProofReal.

(** ** Algebras with the operations of simplecas *)
Record alg := mkAlg {
  car : Type; a0 : car; a1 : car; aadd : car -> car -> car; amul : car -> car -> car;
  aint : Z -> car; apow : car -> car -> option car; asin : car -> car; acos : car -> car;
  aeq : forall x y : car, {x = y} + {x <> y};
  asr : semi_ring_theory a0 a1 aadd amul eq; aint0 : aint 0 = a0; aint1 : aint 1 = a1 }.
Definition asum (A : alg) (l : list (car A)) : car A := fold_right (aadd A) (a0 A) l.
Definition aprod (A : alg) (l : list (car A)) : car A := fold_right (amul A) (a1 A) l.
Definition aop (A : alg) (h : tree) (vs : list (car A)) : option (car A) :=
  if tree_eqb h Add then Some (asum A vs)
  else if tree_eqb h Mul then Some (aprod A vs)
  else if tree_eqb h Pow then match vs with [a; b] => apow A a b | _ => None end
  else if tree_eqb h sin then match vs with [a] => Some (asin A a) | _ => None end
  else if tree_eqb h cos then match vs with [a] => Some (acos A a) | _ => None end
  else None.
Definition aatom (A : alg) (env : string -> car A) (a : atom) : option (car A) :=
  match atom_value a with
  | VInt z => if atype_eqb (atom_type a) T_Integer then Some (aint A z) else None
  | VStr s => if atype_eqb (atom_type a) T_Symbol then Some (env s) else None
  end.
Fixpoint aval (A : alg) (env : string -> car A) (t : tree) : option (car A) :=
  match t with
  | Atm a => aatom A env a
  | Node [] => None
  | Node (h :: args) => match all_defined (aval A env) args with Some vs => aop A h vs | None => None end
  end.
Lemma aval_node A env h args v : aval A env (Node (h :: args)) = Some v <->
  exists vs, Forall2 (fun a w => aval A env a = Some w) args vs /\ aop A h vs = Some v.
Proof.
  cbn [aval]. split.
  - destruct (all_defined (aval A env) args) as [vs|] eqn:E; [|discriminate].
    intros H. exists vs. split; [apply all_defined_Forall2, E|exact H].
  - intros (vs & H1 & H2). apply all_defined_Forall2 in H1. rewrite H1. exact H2.
Qed.

(** ** Dual numbers over an algebra *)
Section Dual.
  Variable A : alg.
  Notation "0" := (a0 A). Notation "1" := (a1 A). Infix "+" := (aadd A). Infix "*" := (amul A).
  Add Ring Aring : (asr A).
  Definition d_add (u v : car A * car A) := (fst u + fst v, snd u + snd v).
  Definition d_mul (u v : car A * car A) := (fst u * fst v, snd u * fst v + fst u * snd v).
  Definition d_pow (u b : car A * car A) : option (car A * car A) :=
    if aeq A (snd b) 0 then
      match apow A (fst u) (fst b) with
      | None => None
      | Some p =>
          if aeq A (snd u) 0 then Some (p, 0)
          else match apow A (fst u) (fst b + aint A (-1)) with
               | Some q => Some (p, fst b * q * snd u)
               | None => None
               end
      end
    else None.
  Lemma d_eq (u v : car A * car A) : {u = v} + {u <> v}.
  Proof. decide equality; apply aeq. Qed.
  Lemma d_sr : semi_ring_theory (0, 0) (1, 0) d_add d_mul eq.
  Proof. split; intros; repeat match goal with p : (_ * _)%type |- _ => destruct p end; unfold d_add, d_mul; cbn [fst snd]; f_equal; ring. Qed.
  Definition dual : alg := mkAlg (car A * car A) (0, 0) (1, 0) d_add d_mul (fun n => (aint A n, 0)) d_pow
    (fun u => (asin A (fst u), acos A (fst u) * snd u)) (fun u => (acos A (fst u), aint A (-1) * asin A (fst u) * snd u))
    d_eq d_sr (f_equal (fun v => (v, 0)) (aint0 A)) (f_equal (fun v => (v, 0)) (aint1 A)).

  Context (env : string -> car A) (s : string).
  Definition denv : string -> car dual := fun t => (env t, if String.eqb t s then 1 else 0).
  Lemma aval_zero : aval A env zero = Some 0. Proof. rewrite <- (aint0 A). reflexivity. Qed.
  Lemma aval_one : aval A env one = Some 1. Proof. rewrite <- (aint1 A). reflexivity. Qed.
  Lemma asum_app l l' : asum A (l ++ l') = asum A l + asum A l'.
  Proof. induction l as [|a l IH]; unfold asum in *; cbn [app fold_right]; [ring|rewrite IH; ring]. Qed.
  Lemma a_total ts v : aval A env (total cas_diff ts) = Some v ->
    exists vs, Forall2 (fun a w => aval A env a = Some w) ts vs /\ v = asum A vs.
  Proof.
    destruct ts as [|t [|t2 ts]]; cbn [total]; intros H.
    - exists []. split; [constructor|]. change (dp_zero cas_diff) with zero in H. rewrite aval_zero in H. injection H as <-. reflexivity.
    - exists [v]. split; [repeat constructor; exact H|]. unfold asum. cbn [fold_right]. ring.
    - apply aval_node in H as (vs & H1 & H2). exists vs. split; [exact H1|]. injection H2 as <-. reflexivity.
  Qed.
  Lemma a_sum_values ds vs : Forall2 (fun a w => aval A env a = Some w) (map snd (dependent zero ds)) vs ->
    exists ls, Forall2 (fun a w => aval A env a = Some w) ds ls /\ asum A vs = asum A ls.
  Proof.
    revert vs. induction ds as [|d ds IH]; intros vs H.
    - inversion H. exists []. split; [constructor|reflexivity].
    - rewrite dependent_cons, map_app, map_map in H. cbn [snd] in H.
      destruct (tree_eqb_spec d zero) as [->|Hne]; cbn [map app] in H.
      + destruct (IH vs) as (ls & H1 & H2); [exact H|]. exists (0 :: ls).
        split; [constructor; [exact aval_zero|exact H1]|]. unfold asum in *. cbn [fold_right]. rewrite H2. ring.
      + inversion H as [|? w ? ws Hw Hws]; subst. destruct (IH ws Hws) as (ls & H1 & H2).
        exists (w :: ls). split; [constructor; assumption|]. unfold asum in *. cbn [fold_right]. rewrite H2. reflexivity.
  Qed.
  Fixpoint a_prod_deriv (vs ls : list (car A)) : car A :=
    match vs, ls with
    | v :: vr, l :: lr => l * aprod A vr + v * a_prod_deriv vr lr
    | _, _ => 0
    end.
  Lemma a_prod_values args ds vals : length ds = length args ->
    Forall2 (fun a w => aval A env a = Some w) args vals ->
    forall vs, Forall2 (fun l w => exists ws, Forall2 (fun a w => aval A env a = Some w) l ws /\ w = aprod A ws)
      (map (fun id => set_nth args (fst id) (snd id)) (dependent zero ds)) vs ->
    exists ls, Forall2 (fun a w => aval A env a = Some w) ds ls /\ asum A vs = a_prod_deriv vals ls.
  Proof.
    intros Hlen Hargs. revert ds Hlen. induction Hargs as [|a v args vals Ha Hargs IH]; intros ds Hlen vs H.
    - destruct ds; [|discriminate]. inversion H. exists []. split; [constructor|reflexivity].
    - destruct ds as [|d ds]; [discriminate|]. injection Hlen as Hlen.
      rewrite dependent_cons, map_app, map_map in H. cbn [fst snd set_nth] in H.
      apply Forall2_app_inv_l in H as (vs1 & vs2 & H1 & H2 & ->).
      assert (Hrest : exists us, Forall2 (fun l w => exists ws, Forall2 (fun a w => aval A env a = Some w) l ws /\ w = aprod A ws)
                (map (fun id => set_nth args (fst id) (snd id)) (dependent zero ds)) us /\ asum A vs2 = v * asum A us).
      { clear -H2 Ha. revert vs2 H2. generalize (dependent zero ds) as ids.
        induction ids as [|id ids IHi]; intros vs2 H2.
        - inversion H2. exists []. split; [constructor|]. unfold asum. cbn [fold_right]. ring.
        - inversion H2 as [|? w ? ws (us & Hus & ->) Hws]; subst.
          destruct (IHi ws Hws) as (rs & Hrs & E).
          inversion Hus as [|? w1 ? us' Hw1 Hus']; subst. rewrite Ha in Hw1. injection Hw1 as <-.
          exists (aprod A us' :: rs). split; [constructor; [eauto|exact Hrs]|]. unfold asum, aprod in *. cbn [fold_right]. rewrite E. ring. }
      destruct Hrest as (us & Hus & E2). destruct (IH ds Hlen us Hus) as (ls & Hls & E).
      destruct (tree_eqb_spec d zero) as [->|Hne]; cbn [map] in H1.
      + inversion H1; subst. exists (0 :: ls). split; [constructor; [exact aval_zero|exact Hls]|].
        cbn [app a_prod_deriv]. rewrite E2, E. ring.
      + inversion H1 as [|? w ? ws (us1 & Hus1 & ->) Hws]; subst. inversion Hws; subst. clear Hws H1.
        inversion Hus1 as [|? dv ? us' Hdv Hus']; subst.
        assert (us' = vals) as ->.
        { clear -Hus' Hargs. revert us' Hus'. induction Hargs as [|a v args vals Ha _ IH]; intros us' H; inversion H; subst; [reflexivity|].
          f_equal; [congruence|auto]. }
        exists (dv :: ls). split; [constructor; assumption|].
        rewrite asum_app. cbn [a_prod_deriv]. rewrite E2, E. unfold asum, aprod. cbn [fold_right]. ring.
  Qed.
  Lemma a_times r d v : aval A env (times r d) = Some v ->
    exists w, aval A env d = Some w /\
      ((d = zero /\ w = 0 /\ v = 0) \/ (d <> zero /\ exists k, aval A env r = Some k /\ v = k * w)).
  Proof.
    unfold times. destruct (tree_eqb_spec d zero) as [->|Hne].
    - intros H. rewrite aval_zero in H. injection H as <-. exists 0. split; [exact aval_zero|]. auto.
    - destruct (tree_eqb_spec d one) as [->|H1].
      + intros H. exists 1. split; [exact aval_one|]. right. split; [exact Hne|]. exists v. split; [exact H|ring].
      + intros H. apply aval_node in H as (vs & Hvs & Hop).
        inversion Hvs as [|? k ? vs1 Hk Hvs1]; subst. inversion Hvs1 as [|? w ? vs2 Hw Hvs2]; subst.
        inversion Hvs2; subst. injection Hop as <-. exists w. split; [exact Hw|]. right. split; [exact Hne|].
        exists k. split; [exact Hk|]. unfold aprod. cbn [fold_right]. ring.
  Qed.
  Lemma asum_pair vs ls : length vs = length ls -> asum dual (combine vs ls) = (asum A vs, asum A ls).
  Proof.
    revert ls. induction vs as [|v vs IH]; intros [|l ls] H; try discriminate; [reflexivity|].
    cbn [combine]. unfold asum in *. cbn [fold_right]. rewrite IH by (injection H as H; exact H). reflexivity.
  Qed.
  Lemma aprod_pair vs ls : length vs = length ls -> aprod dual (combine vs ls) = (aprod A vs, a_prod_deriv vs ls).
  Proof.
    revert ls. induction vs as [|v vs IH]; intros [|l ls] H; try discriminate; [reflexivity|].
    cbn [combine]. unfold aprod in *. cbn [fold_right]. rewrite IH by (injection H as H; exact H). reflexivity.
  Qed.
  (** Evaluation with dual numbers gives the value and the value of the derivative. *)
  Theorem dual_value e : arith e -> forall d, deriv cas_diff (Symbol s) e = Ok d ->
    forall v v', aval A env e = Some v -> aval A env d = Some v' -> aval dual denv e = Some (v, v').
  Proof.
    assert (Hargs : forall args ds vals ls, Forall (fun e => forall d, deriv cas_diff (Symbol s) e = Ok d ->
      forall v v', aval A env e = Some v -> aval A env d = Some v' -> aval dual denv e = Some (v, v')) args ->
      Forall2 (fun a d => deriv cas_diff (Symbol s) a = Ok d) args ds ->
      Forall2 (fun a w => aval A env a = Some w) args vals -> Forall2 (fun a w => aval A env a = Some w) ds ls ->
      length vals = length ls /\ Forall2 (fun a w => aval dual denv a = Some w) args (combine vals ls)).
    { intros args ds vals ls IH E Hv Hl. revert ds ls E Hl. induction Hv as [|a v args vals Hv _ IHv]; intros ds ls E Hls.
      - inversion E; subst. inversion Hls; subst. split; [reflexivity|constructor].
      - inversion E; subst. inversion Hls; subst. inversion IH; subst. destruct (IHv H6 _ _ H3 H5) as [Hlen Hf]. cbn [length combine].
        split; [congruence|]. constructor; eauto. }
    intros He. induction He as [n|s'|args Har IH|args Har IH|a Ha IH|a Ha IH|a b Ha Hb IHa IHb]
      using arith_ind_all; intros d Hd v v' Hv Hv'.
    - rewrite atom_D in Hd. injection Hd as <-. rewrite aval_zero in Hv'. injection Hv' as <-. injection Hv as <-. reflexivity.
    - rewrite sym_D in Hd. injection Hd as <-. injection Hv as <-. change (Some (denv s') = Some (env s', v')). unfold denv.
      destruct (String.eqb s' s); [rewrite aval_one in Hv'|rewrite aval_zero in Hv']; injection Hv' as <-; reflexivity.
    - rewrite D_add in Hd. destruct (mapM (deriv cas_diff (Symbol s)) args) as [ds|] eqn:E; [|discriminate].
      cbn [bind] in Hd. injection Hd as <-. apply mapM_Ok_Forall2 in E.
      apply a_total in Hv' as (vs & Hvs & ->). apply a_sum_values in Hvs as (ls & Hls & ->).
      apply aval_node in Hv as (vals & Hvals & Hop). injection Hop as <-.
      destruct (Hargs args ds vals ls IH E Hvals Hls) as [Hlen Hf].
      apply aval_node. exists (combine vals ls). split; [exact Hf|].
      change (Some (asum dual (combine vals ls)) = Some (asum A vals, asum A ls)). rewrite asum_pair by exact Hlen. reflexivity.
    - rewrite D_mul in Hd. destruct (mapM (deriv cas_diff (Symbol s)) args) as [ds|] eqn:E; [|discriminate].
      cbn [bind] in Hd. injection Hd as <-. apply mapM_Ok_Forall2 in E.
      apply a_total in Hv' as (vs & Hvs & ->).
      apply aval_node in Hv as (vals & Hvals & Hop). injection Hop as <-.
      assert (Hvs' : Forall2 (fun l w => exists ws, Forall2 (fun a w => aval A env a = Some w) l ws /\ w = aprod A ws)
        (map (fun id => set_nth args (fst id) (snd id)) (dependent zero ds)) vs).
      { clear -Hvs. revert vs Hvs. generalize (dependent zero ds) as ids. induction ids as [|id ids IHi]; intros vs H.
        - inversion H. constructor.
        - inversion H as [|? w ? ws Hw Hws]; subst. constructor; [|apply IHi, Hws].
          apply aval_node in Hw as (us & Hus & Hop). exists us. split; [exact Hus|]. injection Hop as <-. reflexivity. }
      apply (a_prod_values args ds vals) in Hvs' as (ls & Hls & ->);
        [|symmetry; clear -E; induction E; simpl; congruence|exact Hvals].
      destruct (Hargs args ds vals ls IH E Hvals Hls) as [Hlen Hf].
      apply aval_node. exists (combine vals ls). split; [exact Hf|].
      change (Some (aprod dual (combine vals ls)) = Some (aprod A vals, a_prod_deriv vals ls)). rewrite aprod_pair by exact Hlen. reflexivity.
    - rewrite D_sin in Hd. destruct (deriv cas_diff (Symbol s) a) as [da|] eqn:E; [|discriminate].
      cbn [bind] in Hd. injection Hd as <-. apply a_times in Hv' as (w & Hw & Hcase).
      apply aval_node in Hv as (vals & Hvals & Hop). inversion Hvals as [|? va ? vr Hva Hvr]; subst.
      inversion Hvr; subst. injection Hop as <-.
      apply aval_node. exists [(va, w)]. split; [constructor; [apply (IH da eq_refl); assumption|constructor]|].
      change (Some (asin A va, acos A va * w) = Some (asin A va, v')). do 2 f_equal.
      destruct Hcase as [(_ & -> & ->)|(_ & k & Hk & ->)]; [ring|]. apply aval_node in Hk as (ks & Hks & Hop).
      inversion Hks as [|? ka ? kr Hka Hkr]; subst. inversion Hkr; subst. injection Hop as <-. congruence.
    - rewrite D_cos in Hd. destruct (deriv cas_diff (Symbol s) a) as [da|] eqn:E; [|discriminate].
      cbn [bind] in Hd. injection Hd as <-. apply a_times in Hv' as (w & Hw & Hcase).
      apply aval_node in Hv as (vals & Hvals & Hop). inversion Hvals as [|? va ? vr Hva Hvr]; subst.
      inversion Hvr; subst. injection Hop as <-.
      apply aval_node. exists [(va, w)]. split; [constructor; [apply (IH da eq_refl); assumption|constructor]|].
      change (Some (acos A va, aint A (-1) * asin A va * w) = Some (acos A va, v')). do 2 f_equal.
      destruct Hcase as [(_ & -> & ->)|(_ & k & Hk & ->)]; [ring|]. apply aval_node in Hk as (ks & Hks & Hop).
      inversion Hks as [|? k1 ? kr Hk1 Hkr]; subst. inversion Hkr as [|? k2 ? kr2 Hk2 Hkr2]; subst. inversion Hkr2; subst. injection Hop as <-.
      injection Hk1 as <-. apply aval_node in Hk2 as (ks & Hks2 & Hop).
      inversion Hks2 as [|? ka ? kr Hka Hkr']; subst. inversion Hkr'; subst. injection Hop as <-.
      rewrite Hva in Hka. injection Hka as <-. unfold aprod. cbn [fold_right]. ring.
    - rewrite D_pow in Hd. destruct (deriv cas_diff (Symbol s) a) as [da|] eqn:Ea; [|discriminate].
      destruct (deriv cas_diff (Symbol s) b) as [db|] eqn:Eb; [|discriminate]. cbn [bind] in Hd.
      destruct (tree_eqb_spec db zero) as [->|]; [|discriminate]. injection Hd as <-. apply a_times in Hv' as (w & Hw & Hcase).
      apply aval_node in Hv as (vals & Hvals & Hop). inversion Hvals as [|? va ? vr Hva Hvr]; subst.
      inversion Hvr as [|? vb ? vr2 Hvb Hvr2]; subst. inversion Hvr2; subst. change (apow A va vb = Some v) in Hop.
      apply aval_node. exists [(va, w); (vb, 0)]. split.
      { constructor; [apply (IHa da eq_refl); assumption|]. constructor; [apply (IHb zero eq_refl); [exact Hvb|exact aval_zero]|constructor]. }
      change (d_pow (va, w) (vb, 0) = Some (v, v')). unfold d_pow. cbn [fst snd]. destruct (aeq A 0 0) as [_|]; [|contradiction]. rewrite Hop.
      destruct Hcase as [(_ & -> & ->)|(_ & k & Hk & ->)].
      + destruct (aeq A 0 0) as [_|]; [reflexivity|contradiction].
      + apply aval_node in Hk as (ks & Hks & Hopk). inversion Hks as [|? k1 ? kr Hk1 Hkr]; subst.
        inversion Hkr as [|? k2 ? kr2 Hk2 Hkr2]; subst. inversion Hkr2; subst. injection Hopk as <-.
        assert (k1 = vb) as -> by congruence.
        apply aval_node in Hk2 as (ps & Hps & Hopp). inversion Hps as [|? p1 ? pr Hp1 Hpr]; subst.
        inversion Hpr as [|? p2 ? pr2 Hp2 Hpr2]; subst. inversion Hpr2; subst. assert (p1 = va) as -> by congruence.
        change (apow A va p2 = Some k2) in Hopp.
        apply aval_node in Hp2 as (qs & Hqs & Hopq). inversion Hqs as [|? q1 ? qr Hq1 Hqr]; subst.
        inversion Hqr as [|? q2 ? qr2 Hq2 Hqr2]; subst. inversion Hqr2; subst. assert (q1 = vb) as -> by congruence.
        injection Hq2 as <-. injection Hopq as <-.
        destruct (aeq A w 0) as [->|Hne].
        * do 2 f_equal. unfold aprod. cbn [fold_right]. ring.
        * replace (vb + aint A (-1)) with (vb + (aint A (-1) + 0)) by ring.
          rewrite Hopp. do 2 f_equal. unfold aprod. cbn [fold_right]. ring.
  Qed.
End Dual.

(** ** The reals, and jets of two variables *)
Lemma R_sr : semi_ring_theory 0%R 1%R Rplus Rmult eq.
Proof. split; intros; ring. Qed.
Definition RA : alg := mkAlg R 0%R 1%R Rplus Rmult IZR rpow Rtrigo_def.sin Rtrigo_def.cos Req_EM_T R_sr eq_refl eq_refl.
Lemma aval_real env e : aval RA env e = reval env e.
Proof.
  induction e as [a|cs IH] using tree_ind_all; [reflexivity|]. destruct cs as [|h args]; [reflexivity|].
  cbn [aval reval]. rewrite (all_defined_ext (aval RA env) (reval env) args); [reflexivity|]. intros a Ha. apply IH. right. exact Ha.
Qed.
Definition J : alg := dual (dual RA).
Definition swap (u : (R * R) * (R * R)) : (R * R) * (R * R) := ((fst (fst u), fst (snd u)), (snd (fst u), snd (snd u))).
Local Open Scope R_scope.
Lemma jpow p q r t b w : apow J ((p, q), (r, t)) b = Some w ->
  exists c P P1 P2, b = ((c, 0), (0, 0)) /\ rpow p c = Some P /\
    (q <> 0 \/ r <> 0 \/ t <> 0 -> rpow p (c - 1) = Some P1) /\ (q <> 0 -> r <> 0 -> rpow p (c - 1 - 1) = Some P2) /\
    w = ((P, c * P1 * q), (c * P1 * r, c * P1 * t + c * (c - 1) * P2 * q * r)).
Proof.
  destruct b as [[c cy] [cx cxy]]. cbn [J apow dual]. unfold d_pow at 1. cbn [fst snd].
  change (a0 (dual RA)) with (0, 0). destruct (aeq (dual RA) (cx, cxy) (0, 0)) as [E|]; [|discriminate]. injection E as -> ->.
  cbn [dual apow]. unfold d_pow. cbn [fst snd RA a0 aeq apow aadd dual aint d_add]. change (Req_EM_T cy 0) with (Req_EM_T cy 0).
  destruct (Req_EM_T cy 0) as [->|]; [|discriminate]. destruct (rpow p c) as [P|] eqn:EP; [|discriminate].
  replace (c + -1) with (c - 1) by ring.
  destruct (d_eq RA (r, t) (0, 0)) as [Ert|Ert].
  - injection Ert as -> ->. destruct (Req_EM_T q 0) as [->|Hq].
    + intros [= <-]. exists c, P, 0, 0. split; [reflexivity|]. split; [exact EP|]. split; [intros [?|[?|?]]; lra|]. split; [intros; lra|].
      f_equal; f_equal; ring.
    + destruct (rpow p (c - 1)) as [P1|] eqn:E1; [|discriminate]. intros [= <-]. exists c, P, P1, 0.
      split; [reflexivity|]. split; [exact EP|]. split; [intros _; exact E1|]. split; [intros; lra|]. cbn [RA amul]. f_equal; f_equal; ring.
  - assert (Hrt : r <> 0 \/ t <> 0).
    { destruct (Req_EM_T r 0) as [->|]; [|auto]. destruct (Req_EM_T t 0) as [->|]; [contradiction|auto]. }
    destruct (Req_EM_T (0 + 0) 0) as [_|]; [|lra].
    destruct (Req_EM_T q 0) as [->|Hq].
    + destruct (rpow p (c - 1)) as [P1|] eqn:E1; [|discriminate]. intros [= <-]. exists c, P, P1, 0.
      split; [reflexivity|]. split; [exact EP|]. split; [intros _; exact E1|]. split; [intros; lra|].
      unfold d_mul; cbn [fst snd RA amul aadd a0]; f_equal; f_equal; ring.
    + destruct (rpow p (c - 1)) as [P1|] eqn:E1; [|discriminate]. replace (c - 1 + -1) with (c - 1 - 1) by ring.
      destruct (rpow p (c - 1 - 1)) as [P2|] eqn:E2; [|discriminate]. intros [= <-]. exists c, P, P1, P2.
      split; [reflexivity|]. split; [exact EP|]. split; [intros _; exact E1|]. split; [intros _ _; exact E2|].
      unfold d_mul; cbn [fst snd RA amul aadd a0]; f_equal; f_equal; ring.
Qed.
Lemma jpow_swap u b w w' : apow J u b = Some w -> apow J (swap u) (swap b) = Some w' -> w' = swap w.
Proof.
  destruct u as [[p q] [r t]]. intros H H'. unfold swap in H'. cbn [fst snd] in H'.
  destruct (jpow _ _ _ _ _ _ H) as (c & P & P1 & P2 & -> & HP & H1 & H2 & ->).
  destruct (jpow _ _ _ _ _ _ H') as (c' & P' & P1' & P2' & E & HP' & H1' & H2' & ->).
  cbn [fst snd] in E. injection E as <-. rewrite HP in HP'. injection HP' as <-. unfold swap. cbn [fst snd].
  assert (E1 : P1 = P1' \/ (q = 0 /\ r = 0 /\ t = 0)).
  { assert (K : q <> 0 \/ r <> 0 \/ t <> 0 -> r <> 0 \/ q <> 0 \/ t <> 0 -> P1 = P1') by (intros K1 K2; specialize (H1 K1); specialize (H1' K2); congruence).
    destruct (Req_EM_T q 0) as [Eq|Nq]; [|left; apply K; auto]. destruct (Req_EM_T r 0) as [Er|Nr]; [|left; apply K; auto].
    destruct (Req_EM_T t 0) as [Et|Nt]; [auto|left; apply K; auto]. }
  assert (E2 : P2 * q * r = P2' * r * q).
  { destruct (Req_EM_T q 0) as [->|Nq]; [ring|]. destruct (Req_EM_T r 0) as [->|Nr]; [ring|].
    rewrite (H2 Nq Nr) in H2'. specialize (H2' Nr Nq). injection H2' as <-. ring. }
  assert (E3 : c * (c - 1) * P2' * r * q = c * (c - 1) * P2 * q * r).
  { replace (c * (c - 1) * P2' * r * q) with (c * (c - 1) * (P2' * r * q)) by ring. rewrite <- E2. ring. }
  destruct E1 as [<-|(-> & -> & ->)]; f_equal; f_equal; try ring. rewrite E3. ring.
Qed.
Lemma jets_swap (E E' : string -> car J) e : (forall s, E' s = swap (E s)) -> forall u u',
  aval J E e = Some u -> aval J E' e = Some u' -> u' = swap u.
Proof.
  intros HE. induction e as [a|cs IH] using tree_ind_all; intros u u' H H'.
  - cbn [aval] in *. unfold aatom in *. destruct a as [ty [z|s]]; cbn [atom_value atom_type] in *.
    + destruct (atype_eqb ty T_Integer); [|discriminate]. injection H as <-. injection H' as <-. reflexivity.
    + destruct (atype_eqb ty T_Symbol); [|discriminate]. injection H as <-. injection H' as <-. apply HE.
  - destruct cs as [|h args]; [discriminate|]. apply aval_node in H as (vs & Hvs & Hop). apply aval_node in H' as (vs' & Hvs' & Hop').
    assert (Es : vs' = map swap vs).
    { assert (IH' : forall a, In a args -> forall u u', aval J E a = Some u -> aval J E' a = Some u' -> u' = swap u) by (intros a Ha; apply IH; right; exact Ha).
      clear - Hvs Hvs' IH'. revert vs' Hvs'. induction Hvs as [|a v args vs Hv _ IHl]; intros vs' H'; inversion H'; subst; [reflexivity|].
      cbn [map]. f_equal; [apply (IH' a (or_introl eq_refl)); assumption|]. apply IHl; [|assumption]. intros b Hb. apply IH'. right. exact Hb. }
    subst vs'. clear - Hop Hop'. unfold aop in *.
    destruct (tree_eqb h Add).
    { injection Hop as <-. injection Hop' as <-. induction vs as [|v vs IH]; [reflexivity|]. unfold asum in *. cbn [map fold_right]. rewrite IH.
      destruct v as [[? ?] [? ?]]. reflexivity. }
    destruct (tree_eqb h Mul).
    { injection Hop as <-. injection Hop' as <-. induction vs as [|v vs IH]; [reflexivity|]. unfold aprod in *. cbn [map fold_right]. rewrite IH.
      destruct v as [[? ?] [? ?]]. match goal with |- context [fold_right ?f ?z vs] => destruct (fold_right f z vs) as [[? ?] [? ?]] end.
      cbn [J dual amul d_mul]. unfold swap, d_mul. cbn [fst snd dual aadd amul]. unfold d_add, d_mul. cbn [fst snd RA aadd amul]. f_equal; f_equal; ring. }
    destruct (tree_eqb h Pow).
    { destruct vs as [|a [|b [|]]]; try discriminate. exact (jpow_swap a b u u' Hop Hop'). }
    destruct (tree_eqb h sin).
    { destruct vs as [|[[? ?] [? ?]] [|]]; try discriminate. cbn [map] in Hop'. injection Hop as <-. injection Hop' as <-.
      unfold swap. cbn [fst snd J dual asin acos amul]. unfold d_mul. cbn [fst snd RA asin acos amul aadd aint]. f_equal; f_equal; ring. }
    destruct (tree_eqb h cos); [|discriminate].
    destruct vs as [|[[? ?] [? ?]] [|]]; try discriminate. cbn [map] in Hop'. injection Hop as <-. injection Hop' as <-.
    unfold swap. cbn [fst snd J dual asin acos amul aint]. unfold d_mul. cbn [fst snd RA asin acos amul aadd aint a0]. f_equal; f_equal; ring.
Qed.
