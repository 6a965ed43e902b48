(** * C121: differentiating a polynomial often enough gives exactly 0. *)
From Verif Require Import Py ModelTree SpecTree ProofBase ModelDiff SpecDiff ProofDiff ModelSym ModelCas SpecCas ProofCasDiff ProofTopo ProofEval ProofCas ProofBin ProofSwell SpecPolynomial Samples.
From Verif Require PropsPowers SpecReal.

Lemma combine_split {A} (ds : list A) i d : forall k, In (i, d) (combine (seq k (length ds)) ds) -> exists pre post, ds = pre ++ d :: post /\ i = k + length pre.
Proof.
  induction ds as [|a ds IH]; intros k H; [destruct H|]. cbn [length seq combine] in H. destruct H as [[= <- <-]|H].
  - exists [], ds. split; [reflexivity|cbn; lia].
  - destruct (IH (S k) H) as (pre & post & -> & ->). exists (a :: pre), post. split; [reflexivity|cbn; lia].
Qed.
Lemma dependent_split ds id : In id (dependent zero ds) -> snd id <> zero /\ exists pre post, ds = pre ++ snd id :: post /\ fst id = length pre.
Proof.
  unfold dependent. rewrite filter_In. destruct id as [i d]. cbn [fst snd]. intros [H Hd]. split.
  - intros ->. destruct (tree_eqb_spec zero zero) as [_|E]; [discriminate|contradiction].
  - apply (combine_split ds i d 0 H).
Qed.
Lemma dependent_none ds : (forall d, In d ds -> d = zero) -> dependent zero ds = [].
Proof.
  intros H. destruct (dependent zero ds) as [|id l] eqn:E; [reflexivity|]. exfalso. destruct (dependent_split ds id) as [Hn (pre & post & Hd & _)]; [rewrite E; left; reflexivity|].
  apply Hn, H. rewrite Hd. apply in_or_app. right. left. reflexivity.
Qed.
Lemma F2_len {A B} (R : A -> B -> Prop) l l' : Forall2 R l l' -> length l = length l'.
Proof. induction 1; cbn; congruence. Qed.
Lemma set_nth_mid pre a post d : set_nth (pre ++ a :: post) (length pre) d = pre ++ d :: post.
Proof. induction pre as [|p pre IH]; [reflexivity|]. cbn [length app set_nth]. rewrite IH. reflexivity. Qed.
Lemma zero_no_symbol s : ~ contains zero s.
Proof. intros H. apply reach_leaf in H; [discriminate|reflexivity]. Qed.
Lemma atom_no_list a args : ~ reach false [] (Atm a) (Node (List_ :: args)).
Proof. intros H. apply reach_leaf in H; [discriminate|reflexivity]. Qed.

Section Poly.
  Variable s : string.
  Let D := deriv cas_diff (Symbol s).
  Lemma poly_zero n : polynomial s zero n.
  Proof. apply poly_const; [apply zero_no_symbol|intros args; apply atom_no_list]. Qed.
  Lemma poly_one n : polynomial s one n.
  Proof. apply poly_const; [intros H; apply reach_leaf in H; [discriminate|reflexivity]|intros args; apply atom_no_list]. Qed.
  Lemma poly_total l n : (forall t, In t l -> polynomial s t n) -> polynomial s (total cas_diff l) n.
  Proof. intros H. destruct l as [|t [|t' l]]; [apply poly_zero|apply H; left; reflexivity|]. apply poly_add, H. Qed.
  Definition good (e : tree) := forall n, polynomial s e n -> exists d, D e = Ok d /\ polynomial s d (pred n) /\ (n = 0 -> d = zero).

  Lemma const_good e n : ~ contains e s -> (forall args, ~ reach false [] e (Node (List_ :: args))) -> exists d, D e = Ok d /\ polynomial s d (pred n) /\ (n = 0 -> d = zero).
  Proof.
    intros H1 H2. exists zero. split; [|split; [apply poly_zero|reflexivity]]. apply (deriv_absent cas_diff).
    - intros [_ H]. exact (H1 H).
    - intros h args H [<-|[]]. exact (H2 args H).
  Qed.
  Lemma sum_args args n : Forall good args -> (forall a, In a args -> polynomial s a n) ->
    exists ds, mapM D args = Ok ds /\ forall d, In d ds -> polynomial s d (pred n) /\ (n = 0 -> d = zero).
  Proof.
    induction 1 as [|a args Ha _ IH]; intros Hp; [exists []; split; [reflexivity|intros d []]|].
    destruct (Ha n (Hp a (or_introl eq_refl))) as (d & Hd & H1). destruct (IH (fun b Hb => Hp b (or_intror Hb))) as (ds & Hds & H2).
    exists (d :: ds). cbn [mapM]. rewrite Hd, Hds. split; [reflexivity|]. intros d' [<-|Hd']; [exact H1|exact (H2 d' Hd')].
  Qed.
  Lemma product_args args ns : Forall good args -> Forall2 (polynomial s) args ns ->
    exists ds, mapM D args = Ok ds /\ Forall2 (fun d n => polynomial s d (pred n) /\ (n = 0 -> d = zero)) ds ns.
  Proof.
    intros H. revert ns. induction H as [|a args Ha _ IH]; intros ns Hp; inversion Hp as [|? n ? ns' H1 H2]; subst; [exists []; split; [reflexivity|constructor]|].
    destruct (Ha n H1) as (d & Hd & K1). destruct (IH ns' H2) as (ds & Hds & K2). exists (d :: ds). cbn [mapM]. rewrite Hd, Hds. split; [reflexivity|constructor; assumption].
  Qed.
  Lemma poly_good e : good e.
  Proof.
    induction e as [a|cs IH] using tree_ind_all; intros n Hp.
    - inversion Hp as [? ? H1 H2|? H1| |]; subst; [apply const_good; assumption|]. exists one. split; [|split; [apply poly_one|lia]]. change (Atm _) with (Symbol s). unfold D. rewrite sym_D, String.eqb_refl. reflexivity.
    - inversion Hp as [? ? H1 H2| |args ? H1|args ns ? H1 H2]; subst; [apply const_good; assumption| |].
      + assert (Hg : Forall good args) by (apply Forall_forall; intros a Ha; apply IH; right; exact Ha).
        destruct (sum_args args n Hg H1) as (ds & Hds & K). unfold D in *. rewrite D_add, Hds. cbn [bind].
        exists (total cas_diff (map snd (dependent zero ds))). split; [reflexivity|]. split.
        * apply poly_total. intros t Ht. apply in_map_iff in Ht as (id & <- & Hid). apply dependent_split in Hid as [_ (pre & post & -> & _)].
          apply (K (snd id)), in_or_app. right. left. reflexivity.
        * intros Hn. rewrite dependent_none; [reflexivity|]. intros d Hd. apply (K d Hd), Hn.
      + assert (Hg : Forall good args) by (apply Forall_forall; intros a Ha; apply IH; right; exact Ha).
        destruct (product_args args ns Hg H1) as (ds & Hds & K). unfold D in *. rewrite D_mul, Hds. cbn [bind].
        exists (total cas_diff (map (fun id => Node (Mul :: set_nth args (fst id) (snd id))) (dependent zero ds))). split; [reflexivity|]. split.
        * apply poly_total. intros t Ht. apply in_map_iff in Ht as (id & <- & Hid). apply dependent_split in Hid as [Hz (pre & post & -> & ->)].
          apply Forall2_app_inv_l in K as (npre & nrest & Kpre & K & ->). inversion K as [|? m ? npost [Km Kz] Kpost]; subst.
          apply Forall2_app_inv_r in H1 as (apre & arest & Hpre & Hrest & ->). inversion Hrest as [|a ? apost ? Ha Hpost]; subst.
          assert (El : length pre = length apre) by (rewrite (F2_len _ _ _ Kpre), (F2_len _ _ _ Hpre); reflexivity). rewrite El, set_nth_mid.
          apply (poly_mul s _ (npre ++ pred m :: npost)).
          { apply Forall2_app; [exact Hpre|constructor; assumption]. }
          rewrite list_sum_app in *. cbn [list_sum fold_right] in *. fold (list_sum npost) in *. assert (m <> 0) by (intros Hm; apply Hz, Kz, Hm). lia.
        * intros ->. rewrite dependent_none; [reflexivity|]. intros d Hd. apply (In_nth _ _ zero) in Hd as (i & Hi & <-).
          assert (Hall : Forall (fun m => m = 0) ns). { clear - H2. induction ns as [|m ns IHn]; constructor; cbn [list_sum fold_right] in H2; fold (list_sum ns) in H2; [lia|apply IHn; lia]. }
          clear - K Hi Hall. revert i Hi. induction K as [|d m ds ns [_ Hz] _ IHk]; intros i Hi; [cbn in Hi; lia|]. inversion Hall; subst. destruct i as [|i]; [apply Hz; reflexivity|]. apply IHk; [assumption|cbn in Hi; lia].
  Qed.
End Poly.

(** C121. *)
Theorem C121_derivatives s e n k : polynomial s e n -> exists d, expr_diff e (Symbol s) (Z.of_nat k) = Ok d /\ polynomial s d (n - k) /\ (n < k -> d = zero).
Proof.
  unfold expr_diff. rewrite Nat2Z.id. revert e n. induction k as [|k IH]; intros e n H; [exists e; rewrite Nat.sub_0_r; split; [reflexivity|split; [exact H|lia]]|].
  cbn [repeatM]. rewrite sym_diff_call_one. destruct (poly_good s e n H) as (d & Hd & Hp & Hz).
  rewrite (proj2 (diff_forward_deriv cas_diff (Symbol s) e d) Hd). cbn [bind]. destruct (IH d (pred n) Hp) as (d' & E & H1 & H2). exists d'. split; [exact E|].
  replace (n - S k) with (pred n - k) by lia. split; [exact H1|]. intros Hk. destruct n as [|n]; [|apply H2; lia].
  rewrite (Hz eq_refl) in *. destruct k as [|k]; [injection E as <-; reflexivity|apply H2; lia].
Qed.
Theorem C121_zero s e n k : polynomial s e n -> n < k -> expr_diff e (Symbol s) (Z.of_nat k) = Ok zero.
Proof. intros H Hk. destruct (C121_derivatives s e n k H) as (d & E & _ & Hd). rewrite E, (Hd Hk). reflexivity. Qed.
(** The n-th derivative does not contain the symbol any more. *)
Lemma poly_0 s e : polynomial s e 0 -> ~ contains e s.
Proof.
  induction e as [a|cs IH] using tree_ind_all; intros Hp.
  - inversion Hp; subst; [assumption|lia].
  - inversion Hp as [? ? H1 H2| |args ? H1|args ns ? H1 H2]; subst; [assumption| |]; intros Hc; apply reach_node_inv in Hc as [Hc|(a & Ha & Hc)]; try discriminate.
    + exact (IH a (or_intror Ha) (H1 a Ha) Hc).
    + assert (Hall : forall m, In m ns -> m = 0). { clear - H2. induction ns as [|m ns IHn]; intros m' Hm; [destruct Hm|]. cbn [list_sum fold_right] in H2. fold (list_sum ns) in H2. destruct Hm as [<-|Hm]; [lia|apply IHn; [lia|exact Hm]]. }
      assert (exists m, In m ns /\ polynomial s a m) as (m & Hm & Hpa). { clear - H1 Ha. induction H1 as [|b m bs ms Hb _ IHb]; [destruct Ha|]. destruct Ha as [<-|Ha]; [exists m; split; [left; reflexivity|exact Hb]|]. destruct (IHb Ha) as (m' & Hm' & K). exists m'. split; [right; exact Hm'|exact K]. }
      rewrite (Hall m Hm) in Hpa. exact (IH a (or_intror Ha) Hpa Hc).
Qed.
Theorem C121_constant s e n : polynomial s e n -> exists d, expr_diff e (Symbol s) (Z.of_nat n) = Ok d /\ ~ contains d s.
Proof. intros H. destruct (C121_derivatives s e n n H) as (d & E & Hp & _). rewrite Nat.sub_diag in Hp. exists d. split; [exact E|apply poly_0, Hp]. Qed.
(** Finding: with s**n in place of the product of n factors no derivative is the expression 0, though from the (n+1)-th on their value is 0 (C119). *)
Theorem C121_powers_refuted s n k : expr_diff (m_pow (Symbol s) (Integer n)) (Symbol s) (Z.of_nat k) <> Ok zero.
Proof. rewrite PropsPowers.tower_diff. destruct k; discriminate. Qed.
(** A case: x*x*y + sin(y) has degree 2 in x; its second derivative is 1*1*y + 1*1*y, its third 0. *)
Example C121_case : let e := m_add (m_mul (m_mul x x) y) (Node [sin; y]) in
  polynomial "x" e 2 /\ expr_diff e x 2 = Ok (Node [Mul; Node [Add; Node [Mul; int 1; int 1]; Node [Mul; int 1; int 1]]; y]) /\ expr_diff e x 3 = Ok zero.
Proof.
  cbv zeta. split; [|split; vm_compute; reflexivity].
  assert (Hy : forall n, polynomial "x" y n) by (intros n; apply poly_const; [intros H; apply reach_leaf in H; [discriminate|reflexivity]|intros args; apply atom_no_list]).
  assert (Hx : polynomial "x" x 1) by (apply poly_sym; lia).
  apply poly_add. intros a [<-|[<-|[]]].
  - apply (poly_mul _ _ [2; 0]); [|cbn; lia]. apply Forall2_cons; [|apply Forall2_cons; [apply Hy|apply Forall2_nil]].
    apply (poly_mul _ _ [1; 1]); [|cbn; lia]. apply Forall2_cons; [exact Hx|apply Forall2_cons; [exact Hx|apply Forall2_nil]].
  - apply poly_const; [intros H; apply reach_node_inv in H as [H|(a & [<-|[]] & H)]; [discriminate|apply reach_leaf in H; [discriminate|reflexivity]]|].
    intros args H. apply reach_node_inv in H as [H|(a & [<-|[]] & H)]; [discriminate|apply reach_leaf in H; [discriminate|reflexivity]].
Qed.
