(** * Differentiation in simplecas: proofs for C26 *)
From Verif Require Import Py ModelTree SpecTree ProofBase ModelDiff SpecDiff ProofDiff ModelSym ModelCas SpecCas.

Lemma arith_ind_all (P : tree -> Prop) :
  (forall n, P (Integer n)) -> (forall s, P (Symbol s)) ->
  (forall args, Forall arith args -> Forall P args -> P (Node (Add :: args))) ->
  (forall args, Forall arith args -> Forall P args -> P (Node (Mul :: args))) ->
  (forall a, arith a -> P a -> P (Node [sin; a])) ->
  (forall a, arith a -> P a -> P (Node [cos; a])) ->
  (forall a b, arith a -> arith b -> P a -> P b -> P (Node [Pow; a; b])) ->
  forall t, arith t -> P t.
Proof.
  intros Hi Hs Ha Hm Hsin Hcos Hp. fix IH 2. intros t [n|s|args H|args H|a H|a H|a b H1 H2].
  - apply Hi.
  - apply Hs.
  - apply Ha; [exact H|]. revert args H. fix IHl 2. intros l [|u r Hu Hr]; constructor; [apply IH, Hu|apply IHl, Hr].
  - apply Hm; [exact H|]. revert args H. fix IHl 2. intros l [|u r Hu Hr]; constructor; [apply IH, Hu|apply IHl, Hr].
  - apply Hsin; [exact H|apply IH, H].
  - apply Hcos; [exact H|apply IH, H].
  - apply Hp; [exact H1|exact H2|apply IH, H1|apply IH, H2].
Qed.

(** ** The derivative of each operation *)
Section Cas.
  Variable s : tree.
  Let D := deriv cas_diff s.

  Lemma D_add args : D (Node (Add :: args)) =
    do ds <- mapM D args; Ok (total cas_diff (map snd (dependent zero ds))).
  Proof. reflexivity. Qed.

  Lemma D_mul args : D (Node (Mul :: args)) =
    do ds <- mapM D args;
    Ok (total cas_diff (map (fun id => Node (Mul :: set_nth args (fst id) (snd id))) (dependent zero ds))).
  Proof. reflexivity. Qed.

  (** An outer derivative times the inner one. *)
  Definition times (r d : tree) : tree :=
    if tree_eqb d zero then zero else if tree_eqb d one then r else Node [Mul; r; d].

  Lemma D_sin a : D (Node [sin; a]) = do d <- D a; Ok (times (Node [cos; a]) d).
  Proof.
    unfold D. cbn [deriv mapM]. destruct (deriv cas_diff s a) as [d|x]; [|reflexivity]. cbn [bind].
    unfold times, dependent. cbn [length seq combine filter snd]. change (dp_zero cas_diff) with zero.
    destruct (tree_eqb d zero); cbn [negb]; [reflexivity|].
    vm_compute. reflexivity.
  Qed.

  Lemma D_cos a : D (Node [cos; a]) = do d <- D a; Ok (times (Node [Mul; negone; Node [sin; a]]) d).
  Proof.
    unfold D. cbn [deriv mapM]. destruct (deriv cas_diff s a) as [d|x]; [|reflexivity]. cbn [bind].
    unfold times, dependent. cbn [length seq combine filter snd]. change (dp_zero cas_diff) with zero.
    destruct (tree_eqb d zero); cbn [negb]; [reflexivity|].
    vm_compute. reflexivity.
  Qed.

  Lemma D_pow a b : D (Node [Pow; a; b]) =
    do d <- D a; do d' <- D b;
    if tree_eqb d' zero
    then Ok (times (Node [Mul; b; Node [Pow; a; Node [Add; b; negone]]]) d)
    else Err KeyError.
  Proof.
    unfold D. cbn [deriv mapM]. destruct (deriv cas_diff s a) as [d|x]; [|reflexivity]. cbn [bind].
    destruct (deriv cas_diff s b) as [d'|x]; [|reflexivity]. cbn [bind].
    unfold times, dependent. cbn [length seq combine filter snd]. change (dp_zero cas_diff) with zero.
    destruct (tree_eqb d zero), (tree_eqb d' zero); cbn [negb]; vm_compute; reflexivity.
  Qed.
End Cas.

Lemma atom_D s n : deriv cas_diff (Symbol s) (Integer n) = Ok zero.
Proof. reflexivity. Qed.
Lemma sym_D s s' : deriv cas_diff (Symbol s) (Symbol s') = Ok (if String.eqb s' s then one else zero).
Proof. reflexivity. Qed.

(** ** When the derivative is (syntactically) zero *)
Lemma contains_node h args s : contains (Node (h :: args)) s <-> exists a, In a args /\ contains a s.
Proof.
  split.
  - intros H. inversion H as [t Hn He|t c s' Hn Hc Hr]; subst. exists c. split; [exact Hc|exact Hr].
  - intros (a & Ha & H). eapply reach_child; [intros []|exact Ha|exact H].
Qed.

Lemma contains_int n s : ~ contains (Integer n) s.
Proof. intros H. inversion H as [|t c s' _ Hc]; subst. destruct Hc. Qed.

Lemma contains_sym s' s : contains (Symbol s') s <-> s' = s.
Proof.
  split.
  - intros H. inversion H as [|t c s0 _ Hc]; subst; [reflexivity|destruct Hc].
  - intros ->. constructor. intros [].
Qed.

Lemma times_zero r d : r <> zero -> times r d = zero <-> d = zero.
Proof.
  intros Hr. unfold times. destruct (tree_eqb_spec d zero) as [->|H]; [tauto|].
  destruct (tree_eqb_spec d one); split; intros; try discriminate; contradiction.
Qed.

Lemma total_zero ts : (forall t, In t ts -> t <> zero) -> total cas_diff ts = zero <-> ts = [].
Proof.
  intros H. destruct ts as [|t [|u r]]; simpl; split; intros E; try reflexivity; try discriminate.
  exfalso. apply (H t); [left; reflexivity|exact E].
Qed.

Lemma dependent_nil ds : dependent zero ds = [] <-> forall d, In d ds -> d = zero.
Proof.
  split; [|apply dependent_zeros]. unfold dependent. generalize 0 as n.
  induction ds as [|d ds IH]; intros n; simpl; [intros _ ? []|].
  destruct (tree_eqb_spec d zero) as [->|Hne]; simpl; [|discriminate].
  intros H d' [<-|H']; [reflexivity|]. eapply IH; eauto.
Qed.

Lemma dependent_nonzero ds id : In id (dependent zero ds) -> snd id <> zero.
Proof.
  unfold dependent. rewrite filter_In. intros [_ H] E. rewrite E, tree_eqb_refl in H. discriminate.
Qed.

Lemma contains_dec e s : arith e -> contains e s \/ ~ contains e s.
Proof.
  intros _. induction e as [a|cs IH] using tree_ind_all.
  - destruct (tree_eq_dec (Atm a) (Symbol s)) as [->|H]; [left; constructor; intros []|right].
    intros Hr. inversion Hr as [|t c s' _ Hc]; subst; [apply H; reflexivity|destruct Hc].
  - destruct cs as [|h args]; [right; intros Hr; inversion Hr as [|t c s' _ Hc]; subst; destruct Hc|].
    assert (G : (exists a, In a args /\ contains a s) \/ ~ (exists a, In a args /\ contains a s)).
    { assert (IH' : forall a, In a args -> contains a s \/ ~ contains a s) by (intros; apply IH; right; assumption).
      clear IH. induction args as [|a args IHa]; [right; intros (? & [] & _)|].
      destruct (IH' a (or_introl eq_refl)) as [H|H]; [left; exists a; split; [left; reflexivity|exact H]|].
      destruct IHa as [(a' & Ha & Hc)|Hn]; [intros; apply IH'; right; assumption| |].
      - left. exists a'. split; [right; exact Ha|exact Hc].
      - right. intros (a' & [<-|Ha] & Hc); [contradiction|]. apply Hn. eauto. }
    destruct G as [G|G]; [left|right]; rewrite contains_node; exact G.
Qed.

(** The derivative of an arithmetic expression is the tree zero exactly if the symbol is absent. *)
Lemma deriv_zero_iff s e : arith e -> forall d, deriv cas_diff (Symbol s) e = Ok d ->
  (d = zero <-> ~ contains e s).
Proof.
  intros He. induction He as [n|s'|args Har IH|args Har IH|a Ha IH|a Ha IH|a b Ha Hb IHa IHb]
    using arith_ind_all; intros d Hd.
  - rewrite atom_D in Hd. injection Hd as <-. split; [intros _; apply contains_int|reflexivity].
  - rewrite sym_D in Hd. injection Hd as <-. rewrite contains_sym.
    destruct (String.eqb_spec s' s); split; intros H; try discriminate; try reflexivity; tauto.
  - rewrite D_add in Hd. destruct (mapM (deriv cas_diff (Symbol s)) args) as [ds|x] eqn:E; [|discriminate].
    cbn [bind] in Hd. injection Hd as <-. rewrite total_zero.
    2:{ intros t Ht. apply in_map_iff in Ht as (id & <- & Hid). apply (dependent_nonzero _ _ Hid). }
    rewrite contains_node. apply mapM_Ok_Forall2 in E.
    transitivity (forall d, In d ds -> d = zero).
    { rewrite <- dependent_nil. destruct (dependent zero ds); simpl; split; intros; try reflexivity; discriminate. }
    clear Har. induction E as [|a d args ds Had E IHE]; [split; [intros _ (? & [] & _)|intros _ ? []]|].
    inversion IH as [|? ? Ia Ir]; subst. specialize (IHE Ir). specialize (Ia d Had).
    split.
    + intros H (a' & [<-|Ha'] & Hc); [apply Ia in Hc; [exact Hc|apply H; left; reflexivity]|].
      revert Hc. assert (Hn : ~ (exists a, In a args /\ contains a s)) by (apply IHE; intros; apply H; right; assumption).
      intros Hc. apply Hn. eauto.
    + intros H d' [<-|Hd']; [apply Ia; intros Hc; apply H; exists a; split; [left; reflexivity|exact Hc]|].
      revert d' Hd'. apply IHE. intros (a' & Ha' & Hc). apply H. exists a'. split; [right; exact Ha'|exact Hc].
  - rewrite D_mul in Hd. destruct (mapM (deriv cas_diff (Symbol s)) args) as [ds|x] eqn:E; [|discriminate].
    cbn [bind] in Hd. injection Hd as <-. rewrite total_zero.
    2:{ intros t Ht. apply in_map_iff in Ht as (id & <- & Hid). discriminate. }
    rewrite contains_node. apply mapM_Ok_Forall2 in E.
    transitivity (forall d, In d ds -> d = zero).
    { rewrite <- dependent_nil. destruct (dependent zero ds); simpl; split; intros; try reflexivity; discriminate. }
    clear Har. induction E as [|a d args ds Had E IHE]; [split; [intros _ (? & [] & _)|intros _ ? []]|].
    inversion IH as [|? ? Ia Ir]; subst. specialize (IHE Ir). specialize (Ia d Had).
    split.
    + intros H (a' & [<-|Ha'] & Hc); [apply Ia in Hc; [exact Hc|apply H; left; reflexivity]|].
      revert Hc. assert (Hn : ~ (exists a, In a args /\ contains a s)) by (apply IHE; intros; apply H; right; assumption).
      intros Hc. apply Hn. eauto.
    + intros H d' [<-|Hd']; [apply Ia; intros Hc; apply H; exists a; split; [left; reflexivity|exact Hc]|].
      revert d' Hd'. apply IHE. intros (a' & Ha' & Hc). apply H. exists a'. split; [right; exact Ha'|exact Hc].
  - rewrite D_sin in Hd. destruct (deriv cas_diff (Symbol s) a) as [da|x] eqn:E; [|discriminate].
    cbn [bind] in Hd. injection Hd as <-. rewrite times_zero by discriminate. rewrite (IH da eq_refl).
    rewrite contains_node. split; intros H H'; apply H; [destruct H' as (? & [<-|[]] & ?); assumption|].
    exists a. split; [left; reflexivity|exact H'].
  - rewrite D_cos in Hd. destruct (deriv cas_diff (Symbol s) a) as [da|x] eqn:E; [|discriminate].
    cbn [bind] in Hd. injection Hd as <-. rewrite times_zero by discriminate. rewrite (IH da eq_refl).
    rewrite contains_node. split; intros H H'; apply H; [destruct H' as (? & [<-|[]] & ?); assumption|].
    exists a. split; [left; reflexivity|exact H'].
  - rewrite D_pow in Hd. destruct (deriv cas_diff (Symbol s) a) as [da|x] eqn:E; [|discriminate].
    cbn [bind] in Hd. destruct (deriv cas_diff (Symbol s) b) as [db|x] eqn:Eb; [|discriminate].
    cbn [bind] in Hd. destruct (tree_eqb_spec db zero) as [->|]; [|discriminate].
    injection Hd as <-. rewrite times_zero by discriminate. rewrite (IHa da eq_refl).
    assert (Hnb : ~ contains b s) by (apply (IHb zero); reflexivity).
    rewrite contains_node. split; intros H H'.
    + destruct H' as (? & [<-|[<-|[]]] & ?); contradiction.
    + apply H. exists a. split; [left; reflexivity|exact H'].
Qed.

(** ** C26 *)
Lemma hve_node h args s : h <> Pow ->
  has_variable_exponent (Node (h :: args)) s <-> exists a, In a args /\ has_variable_exponent a s.
Proof.
  intros Hh. split.
  - intros (a & b & Hr & Hc). inversion Hr as [t Hn He|t c s' Hn Hin Hr']; subst; [congruence|].
    exists c. split; [exact Hin|]. exists a, b. auto.
  - intros (c & Hin & a & b & Hr & Hc). exists a, b. split; [|exact Hc].
    eapply reach_child; [intros []|exact Hin|exact Hr].
Qed.

Lemma hve_pow a b s :
  has_variable_exponent (Node [Pow; a; b]) s <->
  contains b s \/ has_variable_exponent a s \/ has_variable_exponent b s.
Proof.
  split.
  - intros (a' & b' & Hr & Hc). inversion Hr as [t Hn He|t c s' Hn Hin Hr']; subst; [auto|].
    right. destruct Hin as [<-|[<-|[]]]; [left|right]; exists a', b'; auto.
  - intros [H|[(a' & b' & Hr & Hc)|(a' & b' & Hr & Hc)]].
    + exists a, b. split; [constructor; intros []|exact H].
    + exists a', b'. split; [|exact Hc]. eapply reach_child; [intros []|left; reflexivity|exact Hr].
    + exists a', b'. split; [|exact Hc]. eapply reach_child; [intros []|right; left; reflexivity|exact Hr].
Qed.

Lemma hve_leaf t s : children t = [] -> ~ has_variable_exponent t s.
Proof.
  intros Ht (a & b & Hr & _). inversion Hr as [t' Hn He|t' c s' Hn Hin Hr']; subst; [discriminate|].
  unfold kids in Hin. rewrite Ht in Hin. destruct Hin.
Qed.

Lemma deriv_cases s e : arith e ->
  (exists d, deriv cas_diff (Symbol s) e = Ok d /\ arith d /\ ~ has_variable_exponent e s) \/
  (deriv cas_diff (Symbol s) e = Err KeyError /\ has_variable_exponent e s).
Proof.
  assert (Hlist : forall args, Forall arith args ->
    Forall (fun e => (exists d, deriv cas_diff (Symbol s) e = Ok d /\ arith d /\ ~ has_variable_exponent e s) \/
      (deriv cas_diff (Symbol s) e = Err KeyError /\ has_variable_exponent e s)) args ->
    (exists ds, mapM (deriv cas_diff (Symbol s)) args = Ok ds /\ Forall arith ds /\
       ~ exists a, In a args /\ has_variable_exponent a s) \/
    (mapM (deriv cas_diff (Symbol s)) args = Err KeyError /\
       exists a, In a args /\ has_variable_exponent a s)).
  { intros args _ H. induction H as [|a args Ha _ IH].
    - left. exists []. repeat split; [constructor|]. intros (? & [] & _).
    - simpl. destruct Ha as [(d & -> & Hd & Hn)|[-> Hv]]; cbn [bind].
      + destruct IH as [(ds & -> & Hds & Hns)|[-> (a' & Ha' & Hv)]]; cbn [bind].
        * left. exists (d :: ds). repeat split; [constructor; assumption|].
          intros (a' & [<-|Ha'] & Hv); [contradiction|]. apply Hns. eauto.
        * right. split; [reflexivity|]. exists a'. split; [right; exact Ha'|exact Hv].
      + right. split; [reflexivity|]. exists a. split; [left; reflexivity|exact Hv]. }
  assert (Htotal : forall ts, Forall arith ts -> arith (total cas_diff ts)).
  { intros [|t [|u r]] H; simpl; [apply ar_int|inversion H; assumption|apply ar_add, H]. }
  assert (Hdep : forall ds id, Forall arith ds -> In id (dependent zero ds) -> arith (snd id)).
  { intros ds [i d] H Hin. unfold dependent in Hin. apply filter_In in Hin as [Hin _].
    apply in_combine_r in Hin. rewrite Forall_forall in H. apply H, Hin. }
  assert (Htimes : forall r d, arith r -> arith d -> arith (times r d)).
  { intros r d Hr Hd. unfold times. destruct (tree_eqb d zero); [apply ar_int|].
    destruct (tree_eqb d one); [exact Hr|]. apply ar_mul. repeat constructor; assumption. }
  intros He. induction He as [n|s'|args Har IH|args Har IH|a Ha IH|a Ha IH|a b Ha Hb IHa IHb]
    using arith_ind_all.
  - left. exists zero. split; [reflexivity|]. split; [apply ar_int|]. apply hve_leaf. reflexivity.
  - left. eexists. split; [apply sym_D|]. split; [destruct (String.eqb s' s); apply ar_int|].
    apply hve_leaf. reflexivity.
  - rewrite D_add, hve_node by discriminate.
    destruct (Hlist args Har IH) as [(ds & -> & Hds & Hn)|[-> Hv]]; cbn [bind]; [left|right; auto].
    eexists. split; [reflexivity|]. split; [|rewrite hve_node by discriminate; exact Hn]. apply Htotal, Forall_forall. intros t Ht.
    apply in_map_iff in Ht as (id & <- & Hid). apply (Hdep ds id Hds Hid).
  - rewrite D_mul, hve_node by discriminate.
    destruct (Hlist args Har IH) as [(ds & -> & Hds & Hn)|[-> Hv]]; cbn [bind]; [left|right; auto].
    eexists. split; [reflexivity|]. split; [|rewrite hve_node by discriminate; exact Hn]. apply Htotal, Forall_forall. intros t Ht.
    apply in_map_iff in Ht as (id & <- & Hid). pose proof (Hdep ds id Hds Hid) as Hd.
    apply ar_mul. clear -Har Hd. revert id Hd. intros [i d]. simpl. revert i.
    induction Har as [|a args Ha Har IH]; intros i Hd; simpl; [constructor|].
    destruct i; constructor; auto.
  - rewrite D_sin, hve_node by discriminate.
    destruct IH as [(d & -> & Hd & Hn)|[-> Hv]]; cbn [bind].
    + left. eexists. split; [reflexivity|]. split; [apply Htimes; [apply ar_cos, Ha|exact Hd]|].
      rewrite hve_node by discriminate. intros (? & [<-|[]] & ?). contradiction.
    + right. split; [reflexivity|]. exists a. split; [left; reflexivity|exact Hv].
  - rewrite D_cos, hve_node by discriminate.
    destruct IH as [(d & -> & Hd & Hn)|[-> Hv]]; cbn [bind].
    + left. eexists. split; [reflexivity|]. split.
      * apply Htimes; [|exact Hd]. apply ar_mul. constructor; [apply ar_int|]. constructor; [apply ar_sin, Ha|constructor].
      * rewrite hve_node by discriminate. intros (? & [<-|[]] & ?). contradiction.
    + right. split; [reflexivity|]. exists a. split; [left; reflexivity|exact Hv].
  - rewrite D_pow, hve_pow.
    destruct IHa as [(d & -> & Hd & Hn)|[-> Hv]]; cbn [bind]; [|right; auto].
    destruct IHb as [(d' & E & Hd' & Hn')|[-> Hv]]; [|right; cbn [bind]; auto].
    rewrite E. cbn [bind]. pose proof (deriv_zero_iff s b Hb d' E) as Hz.
    destruct (tree_eqb_spec d' zero) as [Ez|Hnz].
    + left. eexists. split; [reflexivity|]. split.
      * apply Htimes; [|exact Hd]. apply ar_mul. constructor; [exact Hb|]. constructor; [|constructor].
        apply ar_pow; [exact Ha|]. apply ar_add. constructor; [exact Hb|]. constructor; [apply ar_int|constructor].
      * rewrite hve_pow. apply Hz in Ez. tauto.
    + right. split; [reflexivity|]. left. destruct (contains_dec b s Hb); tauto.
Qed.

Lemma expr_diff_one e s : expr_diff e s 1 = diff_forward e s cas_diff.
Proof.
  unfold expr_diff. change (Z.to_nat 1) with 1%nat. cbn [repeatM]. rewrite sym_diff_call_one.
  destruct (diff_forward e s cas_diff); reflexivity.
Qed.

Lemma expr_diff_call e s n : expr_diff e s n = sym_diff_call cas_diff e s n.
Proof. unfold expr_diff, sym_diff_call. apply repeatM_ext. intros d. apply sym_diff_call_one. Qed.

Lemma diff_succeeds s e : arith e ->
  (exists d, diff_forward e (Symbol s) cas_diff = Ok d /\ arith d /\ ~ has_variable_exponent e s) \/
  (diff_forward e (Symbol s) cas_diff = Err KeyError /\ has_variable_exponent e s).
Proof.
  intros He. destruct (deriv_cases s e He) as [(d & E & Hd & Hn)|[E Hv]].
  - left. exists d. rewrite diff_forward_deriv. auto.
  - right. split; [|exact Hv]. destruct (diff_forward e (Symbol s) cas_diff) as [d|x] eqn:E2.
    + apply diff_forward_deriv in E2. congruence.
    + apply diff_forward_Err in E2 as (t & Ht & Ex). f_equal.
      assert (Hat : arith t).
      { clear -He Ht. induction Ht as [u _|u c t _ Hc Hr IH]; [exact He|]. apply IH. clear -He Hc.
        unfold kids in Hc. inversion He; subst; simpl in Hc; try tauto;
          try (rewrite Forall_forall in H; auto); destruct Hc as [<-|Hc]; try assumption; try tauto.
        destruct Hc as [<-|[]]. assumption. }
      destruct (deriv_cases s t Hat) as [(d & E' & _)|[E' _]]; congruence.
Qed.
