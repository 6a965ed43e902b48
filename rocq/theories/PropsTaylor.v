(** * C101: repeated derivatives are the repeated derivatives of analysis; Taylor's formula *)
From Coq Require Import Reals Lra Lia.
From Coquelicot Require Import Hierarchy Derive.
From Verif Require Import Py ModelTree SpecTree ProofBase ModelDiff SpecDiff ProofDiff ModelSym ModelCas SpecCas
  ProofCasDiff SpecReal ProofReal PropsReal Samples.
From Verif Require Import ProofBin.
Local Open Scope R_scope.

(** ** Families of functions each the derivative of the one before *)
Section Family.
  Context (F : nat -> R -> R) (ok : nat -> R -> Prop).
  Context (Hopen : forall j t, ok j t -> ok (S j) t -> locally t (ok j)).
  Context (Hder : forall j t, ok j t -> ok (S j) t -> derivable_pt_lim (F j) t (F (S j) t)).
  Lemma ok_near k t : (forall j, (j <= S k)%nat -> ok j t) -> locally t (fun u => forall j, (j <= k)%nat -> ok j u).
  Proof.
    induction k as [|k IH]; intros H.
    - apply (filter_imp (ok 0%nat)); [intros u Hu j Hj; replace j with 0%nat by lia; exact Hu|]. apply Hopen; apply H; lia.
    - apply (filter_imp (fun u => (forall j, (j <= k)%nat -> ok j u) /\ ok (S k) u)).
      + intros u [H1 H2] j Hj. destruct (Nat.eq_dec j (S k)) as [->|]; [exact H2|apply H1; lia].
      + apply filter_and; [apply IH; intros; apply H; lia|apply Hopen; apply H; lia].
  Qed.
  Lemma family_derive k : forall t, (forall j, (j <= k)%nat -> ok j t) -> is_derive_n (F 0) k t (F k t).
  Proof.
    induction k as [|k IH]; intros t H; [reflexivity|]. cbn [is_derive_n].
    apply (is_derive_ext_loc (F k)); [|apply is_derive_Reals, Hder; apply H; lia].
    apply (filter_imp (fun u => forall j, (j <= k)%nat -> ok j u)); [|apply ok_near; exact H].
    intros u Hu. symmetry. apply is_derive_n_unique, IH, Hu.
  Qed.
  Lemma family_taylor n a b : a < b -> (forall t, a <= t <= b -> forall j, (j <= S n)%nat -> ok j t) ->
    exists c, a < c < b /\
      F 0 b = sum_f_R0 (fun j => (b - a) ^ j / INR (fact j) * F j a) n + (b - a) ^ S n / INR (fact (S n)) * F (S n) c.
  Proof.
    intros Hab H. destruct (Taylor_Lagrange (F 0%nat) n a b Hab) as (c & Hc & E).
    - intros t Ht k Hk. pose proof (family_derive k t (fun j Hj => H t Ht j ltac:(lia))) as Hd. destruct k as [|k]; [exact I|].
      exists (F (S k) t). exact Hd.
    - exists c. split; [exact Hc|]. rewrite E. f_equal.
      + apply sum_eq. intros j Hj. f_equal. apply is_derive_n_unique, family_derive. intros i Hi. apply H; [lra|lia].
      + f_equal. apply is_derive_n_unique, family_derive. intros i Hi. apply H; [lra|lia].
  Qed.
End Family.

Lemma family_taylor_both F (ok : nat -> R -> Prop) n a b :
  (forall j t, ok j t -> ok (S j) t -> locally t (ok j)) ->
  (forall j t, ok j t -> ok (S j) t -> derivable_pt_lim (F j) t (F (S j) t)) -> a <> b ->
  (forall t, Rmin a b <= t <= Rmax a b -> forall j, (j <= S n)%nat -> ok j t) ->
  exists c, Rmin a b < c < Rmax a b /\
    F 0%nat b = sum_f_R0 (fun j => (b - a) ^ j / INR (fact j) * F j a) n + (b - a) ^ S n / INR (fact (S n)) * F (S n) c.
Proof.
  intros Hopen Hder Hne H. destruct (Rtotal_order a b) as [Hlt|[?|Hgt]]; [|contradiction|].
  - rewrite Rmin_left, Rmax_right in * by lra. apply (family_taylor F ok); assumption.
  - rewrite Rmin_right, Rmax_left in * by lra.
    assert (Hinv : forall j : nat, (-1) ^ j * (-1) ^ j = 1) by (intros j; rewrite <- Rpow_mult_distr; replace (-1 * -1) with 1 by ring; apply pow1).
    destruct (family_taylor (fun j t => (-1) ^ j * F j (- t)) (fun j t => ok j (- t))) with (n := n) (a := - a) (b := - b) as (c & Hc & E).
    + intros j t H1 H2. destruct (Hopen j (- t) H1 H2) as (eps & He). exists eps. intros u Hu. apply He.
      unfold ball in *. cbn in *. unfold AbsRing_ball, abs, minus, plus, opp in *. cbn in *.
      replace (- u + - - t) with (- (u + - t)) by ring. rewrite Rabs_Ropp. exact Hu.
    + intros j t H1 H2. replace ((-1) ^ S j * F (S j) (- t)) with ((-1) ^ j * (F (S j) (- t) * -1)) by (cbn [pow]; ring).
      apply derivable_pt_lim_scal. apply (derivable_pt_lim_comp (fun u => - u) (F j)).
      * replace (-1) with (- (1)) by ring. apply (derivable_pt_lim_opp id), derivable_pt_lim_id.
      * apply Hder; assumption.
    + lra.
    + intros t Ht j Hj. apply H; [lra|exact Hj].
    + exists (- c). split; [lra|]. rewrite !Ropp_involutive in E. cbn [pow] in E. rewrite Rmult_1_l in E. rewrite E.
      assert (Hp : forall j, (- b - - a) ^ j = (-1) ^ j * (b - a) ^ j) by (intros j; rewrite <- Rpow_mult_distr; f_equal; ring).
      f_equal.
      * apply sum_eq. intros j Hj. rewrite Hp. unfold Rdiv.
        replace ((-1) ^ j * (b - a) ^ j * / INR (fact j) * ((-1) ^ j * F j a)) with ((-1) ^ j * (-1) ^ j * ((b - a) ^ j * / INR (fact j) * F j a)) by ring.
        rewrite Hinv. ring.
      * change ((- b - - a) * (- b - - a) ^ n) with ((- b - - a) ^ S n). rewrite Hp. unfold Rdiv.
        change (-1 * (-1) ^ n) with ((-1) ^ S n).
        replace ((-1) ^ S n * (b - a) ^ S n * / INR (fact (S n)) * ((-1) ^ S n * F (S n) (- c)))
          with ((-1) ^ S n * (-1) ^ S n * ((b - a) ^ S n * / INR (fact (S n)) * F (S n) (- c))) by ring.
        rewrite Hinv. ring.
Qed.

(** ** Expressions *)
(** The function of one symbol that an expression describes, the other symbols having fixed values. *)
Definition function_of (env : string -> R) (s : string) (e : tree) (u : R) : R :=
  match reval (upd env s u) e with Some v => v | None => 0 end.
Definition defined_at (env : string -> R) (s : string) (e : tree) (u : R) : Prop := reval (upd env s u) e <> None.

Lemma upd_upd env s u v : forall t, upd (upd env s u) s v t = upd env s v t.
Proof. intros t. unfold upd. destruct (String.eqb t s); reflexivity. Qed.
Lemma expr_diff_step e s j d d' : expr_diff e (Symbol s) (Z.of_nat j) = Ok d -> expr_diff e (Symbol s) (Z.of_nat (S j)) = Ok d' ->
  expr_diff d (Symbol s) 1 = Ok d'.
Proof.
  unfold expr_diff. rewrite !Nat2Z.id. change (Z.to_nat 1) with 1%nat. revert e. induction j as [|j IH]; intros e H H1.
  - injection H as <-. exact H1.
  - cbn [repeatM] in H, H1. destruct (sym_diff_call cas_diff e (Symbol s) 1) as [e1|]; [|discriminate]. cbn [bind] in H, H1. exact (IH e1 H H1).
Qed.
Lemma step_near env s d d' t : expr_diff d (Symbol s) 1 = Ok d' -> defined_at env s d t -> defined_at env s d' t ->
  locally t (defined_at env s d) /\ derivable_pt_lim (function_of env s d) t (function_of env s d' t).
Proof.
  unfold defined_at, function_of. intros Hd H1 H2. destruct (reval (upd env s t) d) as [v|] eqn:Ev; [|contradiction].
  destruct (reval (upd env s t) d') as [v'|] eqn:Ev'; [|contradiction].
  destruct (C24_diff_is_the_derivative (upd env s t) d s d' v v' Hd Ev Ev') as (G & delta & Hp & HG & Hl). rewrite upd_here in *.
  assert (Hnear : forall u, Rabs (u - t) < delta -> reval (upd env s u) d = Some (G u)).
  { intros u Hu. rewrite <- (HG u Hu). apply reval_ext. intros r _. symmetry. apply upd_upd. }
  split.
  - exists (mkposreal delta Hp). intros u Hu. rewrite (Hnear u); [discriminate|]. exact Hu.
  - intros eps He. destruct (Hl eps He) as (d0 & Hd0). exists (mkposreal (Rmin d0 delta) (Rmin_glb_lt _ _ _ (cond_pos d0) Hp)). intros h Hh Hlt. cbn [pos] in Hlt.
    rewrite Hnear; [|replace (t + h - t) with h by ring; eapply Rlt_le_trans; [exact Hlt|apply Rmin_r]].
    rewrite (Hnear t) by (rewrite Rminus_diag_eq by reflexivity; rewrite Rabs_R0; exact Hp).
    apply Hd0; [exact Hh|]. eapply Rlt_le_trans; [exact Hlt|apply Rmin_l].
Qed.

(** C101. Where e and its derivatives up to the [k]-th are defined, e.diff(x, k) has the value of the k-th derivative
    ([is_derive_n] of the library Coquelicot) of the function that e describes. *)
Theorem C101_kth_derivative env s e ds k u v :
  (forall j, (j <= k)%nat -> expr_diff e (Symbol s) (Z.of_nat j) = Ok (ds j) /\ defined_at env s (ds j) u) ->
  reval (upd env s u) (ds k) = Some v ->
  is_derive_n (function_of env s e) k u v.
Proof.
  intros H Hv. assert (E0 : ds 0%nat = e) by (destruct (H 0%nat ltac:(lia)) as [H0 _]; injection H0 as ->; reflexivity).
  pose (ds' := fun j => if Nat.leb j k then ds j else ds k).
  assert (Hok : forall j t, (j < k)%nat -> defined_at env s (ds j) t -> defined_at env s (ds (S j)) t ->
    locally t (defined_at env s (ds j)) /\ derivable_pt_lim (function_of env s (ds j)) t (function_of env s (ds (S j)) t)).
  { intros j t Hj. apply step_near. destruct (H j ltac:(lia)) as [A _], (H (S j) ltac:(lia)) as [B _]. exact (expr_diff_step e s j _ _ A B). }
  replace v with (function_of env s (ds k) u) by (unfold function_of; rewrite Hv; reflexivity).
  replace (function_of env s e) with ((fun j => function_of env s (ds j)) 0%nat) by (rewrite E0; reflexivity).
  apply (family_derive (fun j => function_of env s (ds j)) (fun j t => (j <= k)%nat /\ defined_at env s (ds j) t)).
  - intros j t [Hj H1] [Hj' H2]. apply (filter_imp (defined_at env s (ds j))); [auto|]. apply Hok; [lia|exact H1|exact H2].
  - intros j t [Hj H1] [Hj' H2]. apply Hok; [lia|exact H1|exact H2].
  - intros j Hj. split; [exact Hj|apply H, Hj].
Qed.

(** Taylor's formula: between any two points where, and between which, e and its derivatives are defined there is a
    point c with e(b) = sum of (b - a)**j / j! * e.diff(x, j)(a) for j = 0..n, plus (b - a)**(n+1) / (n+1)! * e.diff(x, n+1)(c). *)
Theorem C101_taylor env s e ds n a b :
  (forall j, (j <= S n)%nat -> expr_diff e (Symbol s) (Z.of_nat j) = Ok (ds j)) -> a <> b ->
  (forall u j, Rmin a b <= u <= Rmax a b -> (j <= S n)%nat -> defined_at env s (ds j) u) ->
  exists c vb va r, Rmin a b < c < Rmax a b /\
    reval (upd env s b) e = Some vb /\ (forall j, (j <= n)%nat -> reval (upd env s a) (ds j) = Some (va j)) /\
    reval (upd env s c) (ds (S n)) = Some r /\
    vb = sum_f_R0 (fun j => (b - a) ^ j / INR (fact j) * va j) n + (b - a) ^ S n / INR (fact (S n)) * r.
Proof.
  intros Hds Hne Hdef. assert (E0 : ds 0%nat = e) by (pose proof (Hds 0%nat ltac:(lia)) as H0; injection H0 as ->; reflexivity).
  assert (Hok : forall j t, (j < S n)%nat -> defined_at env s (ds j) t -> defined_at env s (ds (S j)) t ->
    locally t (defined_at env s (ds j)) /\ derivable_pt_lim (function_of env s (ds j)) t (function_of env s (ds (S j)) t)).
  { intros j t Hj. apply step_near. exact (expr_diff_step e s j _ _ (Hds j ltac:(lia)) (Hds (S j) ltac:(lia))). }
  assert (Hin : forall d t, defined_at env s d t -> reval (upd env s t) d = Some (function_of env s d t)).
  { intros d t Hd. unfold function_of, defined_at in *. destruct (reval (upd env s t) d); [reflexivity|contradiction]. }
  destruct (family_taylor_both (fun j => function_of env s (ds j)) (fun j t => (j <= S n)%nat /\ defined_at env s (ds j) t) n a b) as (c & Hc & E).
  - intros j t [Hj H1] [Hj' H2]. apply (filter_imp (defined_at env s (ds j))); [auto|]. apply Hok; [lia|exact H1|exact H2].
  - intros j t [Hj H1] [Hj' H2]. apply Hok; [lia|exact H1|exact H2].
  - exact Hne.
  - intros t Ht j Hj. split; [exact Hj|apply Hdef; assumption].
  - assert (Ha : Rmin a b <= a <= Rmax a b) by (split; [apply Rmin_l|apply Rmax_l]). assert (Hb : Rmin a b <= b <= Rmax a b) by (split; [apply Rmin_r|apply Rmax_r]).
    exists c, (function_of env s (ds 0%nat) b), (fun j => function_of env s (ds j) a), (function_of env s (ds (S n)) c).
    split; [exact Hc|]. split; [rewrite <- E0; apply Hin, Hdef; [exact Hb|lia]|]. split; [intros j Hj; apply Hin, Hdef; [exact Ha|lia]|].
    split; [apply Hin, Hdef; [lra|lia]|exact E].
Qed.

(** If e.diff(x) is nowhere negative between two points, e does not decrease; if it is zero, e does not change. *)
Theorem C101_monotone env s e d a b va vb : expr_diff e (Symbol s) 1 = Ok d -> a < b ->
  (forall u, a <= u <= b -> defined_at env s e u /\ exists v, reval (upd env s u) d = Some v /\ 0 <= v) ->
  reval (upd env s a) e = Some va -> reval (upd env s b) e = Some vb -> va <= vb.
Proof.
  intros Hd Hab Hu Ha Hb. destruct (C101_taylor env s e (fun j => match j with O => e | S _ => d end) 0 a b) as (c & vb' & va' & r & Hc & H1 & H2 & H3 & E).
  - intros j Hj. destruct j as [|[|j]]; [reflexivity|exact Hd|lia].
  - lra.
  - rewrite Rmin_left, Rmax_right by lra. intros u j Hr Hj. destruct (Hu u Hr) as (H1 & v & H2 & _). destruct j; [exact H1|]. unfold defined_at. congruence.
  - rewrite Rmin_left, Rmax_right in Hc by lra. destruct (Hu c ltac:(lra)) as (_ & v & Hv & Hpos). rewrite (H2 0%nat) in Ha by lia.
    assert (r = v) as -> by congruence. assert (vb' = vb) as -> by congruence. injection Ha as <-. rewrite E. cbn [sum_f_R0].
    assert (Hm : 0 <= (b - a) * v) by (apply Rmult_le_pos; lra). change (fact 0) with 1%nat. change (fact 1) with 1%nat. cbn [pow INR].
    replace (1 / 1 * va' 0%nat + (b - a) * 1 / 1 * v) with (va' 0%nat + (b - a) * v) by field. lra.
Qed.
Theorem C101_zero_derivative env s e d a b va vb : expr_diff e (Symbol s) 1 = Ok d ->
  (forall u, Rmin a b <= u <= Rmax a b -> defined_at env s e u /\ reval (upd env s u) d = Some 0) ->
  reval (upd env s a) e = Some va -> reval (upd env s b) e = Some vb -> va = vb.
Proof.
  intros Hd Hu Ha Hb. destruct (Req_dec a b) as [->|Hne]; [congruence|].
  destruct (C101_taylor env s e (fun j => match j with O => e | S _ => d end) 0 a b) as (c & vb' & va' & r & Hc & H1 & H2 & H3 & E).
  - intros j Hj. destruct j as [|[|j]]; [reflexivity|exact Hd|lia].
  - exact Hne.
  - intros u j Hr Hj. destruct (Hu u Hr) as (H1 & H2). destruct j; [exact H1|]. unfold defined_at. congruence.
  - destruct (Hu c ltac:(lra)) as (_ & Hv). rewrite (H2 0%nat) in Ha by lia.
    assert (r = 0) as -> by congruence. assert (vb' = vb) as -> by congruence. injection Ha as <-. rewrite E. cbn [sum_f_R0].
    change (fact 0) with 1%nat. change (fact 1) with 1%nat. cbn [pow INR]. field.
Qed.

(** ** Expressions without powers: everything is defined everywhere *)
Definition no_powers (e : tree) : Prop := forall args, ~ reach false [] e (Node (Pow :: args)).
Lemma no_powers_arg h args a : no_powers (Node (h :: args)) -> In a args -> no_powers a.
Proof. intros H Ha r Hr. apply (H r). apply (reach_arg h args a _ Ha Hr). Qed.
Lemma no_powers_node h args : h <> Pow -> (forall a, In a args -> no_powers a) -> no_powers (Node (h :: args)).
Proof.
  intros Hh H r Hr. apply reach_node_inv in Hr as [E|(a & Ha & Hr)]; [injection E as E _; congruence|]. exact (H a Ha r Hr).
Qed.
Lemma no_powers_atom a : no_powers (Atm a).
Proof. intros r Hr. apply reach_leaf in Hr; [discriminate|reflexivity]. Qed.
Lemma no_powers_defined env e : arith e -> no_powers e -> reval env e <> None.
Proof.
  assert (Hl : forall args, (forall h, no_powers (Node (h :: args)) -> Forall (fun e => no_powers e -> reval env e <> None) args ->
     exists vs, all_defined (reval env) args = Some vs)).
  { intros args h Hn IH. assert (Hn' : forall a, In a args -> no_powers a) by (intros a Ha; exact (no_powers_arg h args a Hn Ha)). clear Hn.
    induction IH as [|a args Ha _ IHr]; [exists []; reflexivity|]. cbn [all_defined].
    specialize (Ha (Hn' a (or_introl eq_refl))). destruct (reval env a) as [v|]; [|contradiction].
    destruct IHr as (vs & ->); [intros; apply Hn'; right; assumption|]. eauto. }
  intros He. induction He as [n|s'|args Har IH|args Har IH|a Ha IH|a Ha IH|a b Ha Hb IHa IHb] using arith_ind_all; intros Hn.
  - discriminate.
  - discriminate.
  - cbn [reval]. destruct (Hl args Add Hn IH) as (vs & ->). discriminate.
  - cbn [reval]. destruct (Hl args Mul Hn IH) as (vs & ->). discriminate.
  - cbn [reval all_defined]. specialize (IH (no_powers_arg _ _ a Hn (or_introl eq_refl))). destruct (reval env a); [discriminate|contradiction].
  - cbn [reval all_defined]. specialize (IH (no_powers_arg _ _ a Hn (or_introl eq_refl))). destruct (reval env a); [discriminate|contradiction].
  - destruct (Hn [a; b]). constructor. intros [].
Qed.

Lemma deriv_no_powers s e : arith e -> no_powers e -> exists d, deriv cas_diff (Symbol s) e = Ok d /\ arith d /\ no_powers d.
Proof.
  intros Ha Hn.
  assert (Hv : ~ has_variable_exponent e s).
  { intros (a & b & Hr & _). exact (Hn [a; b] Hr). }
  destruct (deriv_cases s e Ha) as [(d & Hd & Had & _)|[_ Hc]]; [|contradiction]. exists d. split; [exact Hd|]. split; [exact Had|].
  clear Had Hv. revert d Hd. revert Hn.
  assert (Htot : forall ts, (forall t, In t ts -> no_powers t) -> no_powers (total cas_diff ts)).
  { intros [|t [|t2 ts]] H; cbn [total]; [apply no_powers_atom|apply H; left; reflexivity|]. apply no_powers_node; [discriminate|exact H]. }
  assert (Hdep : forall ds id, (forall d, In d ds -> no_powers d) -> In id (dependent zero ds) -> no_powers (snd id)).
  { intros ds [i d] H Hin. unfold dependent in Hin. apply filter_In in Hin as [Hin _]. apply in_combine_r in Hin. apply H, Hin. }
  assert (Htim : forall r d, no_powers r -> no_powers d -> no_powers (times r d)).
  { intros r d Hr Hd. unfold times. destruct (tree_eqb d zero); [apply no_powers_atom|]. destruct (tree_eqb d one); [exact Hr|].
    apply no_powers_node; [discriminate|]. intros a [<-|[<-|[]]]; assumption. }
  assert (Hl : forall h args ds, Forall (fun e => no_powers e -> forall d, deriv cas_diff (Symbol s) e = Ok d -> no_powers d) args ->
     no_powers (Node (h :: args)) -> mapM (deriv cas_diff (Symbol s)) args = Ok ds -> forall d, In d ds -> no_powers d).
  { intros h args ds IH Hn E. assert (Hn' : forall a, In a args -> no_powers a) by (intros a Ha'; exact (no_powers_arg h args a Hn Ha')). clear Hn.
    apply mapM_Ok_Forall2 in E. induction E as [|a d args ds Hd _ IHE]; [intros ? []|]. inversion IH as [|? ? IHa IHr]; subst.
    intros d' [<-|Hin]; [exact (IHa (Hn' a (or_introl eq_refl)) d Hd)|]. apply (IHE IHr); [intros; apply Hn'; right; assumption|exact Hin]. }
  induction Ha as [n|s'|args Har IH|args Har IH|a Ha IH|a Ha IH|a b Ha Hb IHa IHb] using arith_ind_all; intros Hn d Hd.
  - rewrite atom_D in Hd. injection Hd as <-. apply no_powers_atom.
  - rewrite sym_D in Hd. injection Hd as <-. destruct (String.eqb s' s); apply no_powers_atom.
  - rewrite D_add in Hd. destruct (mapM (deriv cas_diff (Symbol s)) args) as [ds|] eqn:E; [|discriminate]. cbn [bind] in Hd. injection Hd as <-.
    apply Htot. intros t Ht. apply in_map_iff in Ht as (id & <- & Hid). apply (Hdep ds); [|exact Hid]. exact (Hl Add args ds IH Hn E).
  - rewrite D_mul in Hd. destruct (mapM (deriv cas_diff (Symbol s)) args) as [ds|] eqn:E; [|discriminate]. cbn [bind] in Hd. injection Hd as <-.
    apply Htot. intros t Ht. apply in_map_iff in Ht as ([i dt] & <- & Hid). cbn [fst snd].
    pose proof (Hdep ds _ (Hl Mul args ds IH Hn E) Hid) as Hdt. cbn [snd] in Hdt. apply no_powers_node; [discriminate|].
    assert (Hn' : forall a, In a args -> no_powers a) by (intros a Ha'; exact (no_powers_arg Mul args a Hn Ha')). clear -Hn' Hdt. revert i.
    induction args as [|a args IH]; intros i c Hc; [destruct i; destruct Hc|]. destruct i; cbn [set_nth] in Hc.
    + destruct Hc as [<-|Hc]; [exact Hdt|apply Hn'; right; exact Hc].
    + destruct Hc as [<-|Hc]; [apply Hn'; left; reflexivity|]. apply (IH (fun a Ha => Hn' a (or_intror Ha)) i c Hc).
  - rewrite D_sin in Hd. destruct (deriv cas_diff (Symbol s) a) as [da|] eqn:E; [|discriminate]. cbn [bind] in Hd. injection Hd as <-.
    pose proof (no_powers_arg _ _ a Hn (or_introl eq_refl)) as Hna. apply Htim; [|exact (IH Hna da eq_refl)].
    apply no_powers_node; [discriminate|]. intros c [<-|[]]. exact Hna.
  - rewrite D_cos in Hd. destruct (deriv cas_diff (Symbol s) a) as [da|] eqn:E; [|discriminate]. cbn [bind] in Hd. injection Hd as <-.
    pose proof (no_powers_arg _ _ a Hn (or_introl eq_refl)) as Hna. apply Htim; [|exact (IH Hna da eq_refl)].
    apply no_powers_node; [discriminate|]. intros c [<-|[<-|[]]]; [apply no_powers_atom|]. apply no_powers_node; [discriminate|]. intros c [<-|[]]. exact Hna.
  - destruct (Hn [a; b]). constructor. intros [].
Qed.
Lemma diff_no_powers s k : forall e, arith e -> no_powers e -> exists d, expr_diff e (Symbol s) (Z.of_nat k) = Ok d /\ arith d /\ no_powers d.
Proof.
  unfold expr_diff. induction k as [|k IH]; intros e Ha Hn; rewrite Nat2Z.id in *; [exists e; auto|]. cbn [repeatM]. rewrite sym_diff_call_one.
  destruct (deriv_no_powers s e Ha Hn) as (d & Hd & Had & Hnd). apply diff_forward_deriv in Hd. rewrite Hd. cbn [bind]. 
  destruct (IH d Had Hnd) as (d' & H). exists d'. exact H.
Qed.
(** Without powers, all derivatives exist and are defined everywhere, so Taylor's formula holds for any order and any two points. *)
Theorem C101_without_powers env s e : arith e -> no_powers e ->
  exists ds, (forall j, expr_diff e (Symbol s) (Z.of_nat j) = Ok (ds j)) /\
    (forall j u, exists v, reval (upd env s u) (ds j) = Some v /\ is_derive_n (function_of env s e) j u v) /\
    forall n a b, a <> b -> exists c vb va r, Rmin a b < c < Rmax a b /\
      reval (upd env s b) e = Some vb /\ (forall j, (j <= n)%nat -> reval (upd env s a) (ds j) = Some (va j)) /\
      reval (upd env s c) (ds (S n)) = Some r /\
      vb = sum_f_R0 (fun j => (b - a) ^ j / INR (fact j) * va j) n + (b - a) ^ S n / INR (fact (S n)) * r.
Proof.
  intros Ha Hn. pose (ds := fun j => match expr_diff e (Symbol s) (Z.of_nat j) with Ok d => d | Err _ => e end). exists ds.
  assert (Hds : forall j, expr_diff e (Symbol s) (Z.of_nat j) = Ok (ds j) /\ arith (ds j) /\ no_powers (ds j)).
  { intros j. unfold ds. destruct (diff_no_powers s j e Ha Hn) as (d & -> & H). auto. }
  assert (Hdef : forall j u, defined_at env s (ds j) u) by (intros j u; apply no_powers_defined; apply Hds).
  split; [apply Hds|]. split.
  - intros j u. pose proof (Hdef j u) as Hj. unfold defined_at in Hj. destruct (reval (upd env s u) (ds j)) as [v|] eqn:Ev; [|contradiction].
    exists v. split; [reflexivity|]. apply (C101_kth_derivative env s e ds j u v); [|exact Ev]. intros i _. split; [apply Hds|apply Hdef].
  - intros n a b Hne. apply C101_taylor; [intros; apply Hds|exact Hne|intros; apply Hdef].
Qed.

(** The third derivative of x * sin(x) + y, and 1/x between 1 and 2, where all is defined though not everywhere. *)
Example C101_case :
  (let e := m_add (m_mul x (call1 sin x)) y in arith e /\ no_powers e /\ exists d, expr_diff e x 3 = Ok d) /\
  let e := m_pow x (int (-1)) in
  exists ds, (forall j, (j <= 2)%nat -> expr_diff e x (Z.of_nat j) = Ok (ds j)) /\
    (forall u j, Rmin 1 2 <= u <= Rmax 1 2 -> (j <= 2)%nat -> defined_at (fun _ => 0) "x" (ds j) u) /\
    ~ defined_at (fun _ => 0) "x" e 0.
Proof.
  split.
  - intros e. split; [repeat constructor|]. split; [|eexists; vm_compute; reflexivity].
    repeat first [apply no_powers_atom | apply no_powers_node; [discriminate|]; intros ? Hin; cbn in Hin; repeat destruct Hin as [<-|Hin]; try contradiction].
  - intros e. pose (ds := fun j => match expr_diff e x (Z.of_nat j) with Ok d => d | Err _ => e end). exists ds.
    rewrite Rmin_left, Rmax_right by lra. split; [|split].
    + intros [|[|[|j]]] Hj; try reflexivity. lia.
    + assert (P : forall u z, 1 <= u <= 2 -> rpow u (IZR z) = Some (powerRZ u z)) by (intros u z Hu; apply rpow_int_pos; lra).
      intros u j Hu Hj. destruct j as [|[|[|j]]]; [| | |exfalso; lia].
      * unfold defined_at. change (rpow u (IZR (-1)) <> None). rewrite P by exact Hu. discriminate.
      * let r := eval vm_compute in (ds 1%nat) in change (ds 1%nat) with r. unfold defined_at. cbn.
        change (upd (fun _ => 0) "x" u "x") with u. rewrite ?Rplus_0_r, <- ?plus_IZR, ?P by exact Hu. discriminate.
      * let r := eval vm_compute in (ds 2%nat) in change (ds 2%nat) with r. unfold defined_at. cbn.
        change (upd (fun _ => 0) "x" u "x") with u. rewrite ?Rplus_0_r, <- ?plus_IZR, ?P by exact Hu. discriminate.
    + unfold defined_at. intros H. apply H. change (rpow 0 (IZR (-1)) = None). unfold rpow. rewrite Int_part_IZR.
      destruct (Rlt_dec 0 0) as [?|_]; [lra|]. destruct (Req_EM_T (IZR (-1)) (IZR (-1))); [|reflexivity].
      destruct (Req_EM_T 0 0); [|lra]. destruct (Z_le_dec 0 (-1)); [lia|reflexivity].
Qed.
Print Assumptions C101_kth_derivative.
Print Assumptions C101_taylor.
Print Assumptions C101_monotone.
Print Assumptions C101_zero_derivative.
Print Assumptions C101_without_powers.
