(** * C96: repeated derivatives stay small as graphs *)
From Coq Require Import FMapPositive.
From Verif Require Import Py ModelTree SpecTree ProofBase ModelEval ModelDiff ModelCas SpecEval SpecDiff SpecCas SpecPrint SpecGrowth ProofTree ProofCasDiff
  ProofCas ProofDiff ProofLLVM ProofSwell ProofCodeSize PropsCost ProofPoly ProofDag PropsGrowth Samples.
From Verif Require ProofBin.

Lemma made_all s L e : arith e -> binary e -> forall m u, m <= L -> reach false [] (it s m e) u -> made s L e u.
Proof.
  intros He. induction He as [n|s'|args Har IH|args Har IH|a Ha IH|a Ha IH|a b Ha Hb IHa IHb] using arith_ind_all; intros Hbin m u Hm Hu.
  - destruct m as [|m].
    + apply ProofBin.reach_leaf in Hu; [|reflexivity]. subst u. apply made_here, (g_self s L (Integer n) 0). lia.
    + cbn [it] in Hu. change (dv s (Integer n)) with zero in Hu. rewrite it_zero in Hu. apply R_zero in Hu. left. exact Hu.
  - destruct m as [|m].
    + apply ProofBin.reach_leaf in Hu; [|reflexivity]. subst u. apply made_here, (g_self s L (Symbol s') 0). lia.
    + cbn [it] in Hu. unfold dv in Hu. rewrite sym_D in Hu. destruct (String.eqb s' s).
      * destruct m as [|m].
        -- apply ProofBin.reach_leaf in Hu; [|reflexivity]. right. left. exact Hu.
        -- cbn [it] in Hu. change (dv s one) with zero in Hu. rewrite it_zero in Hu. apply R_zero in Hu. left. exact Hu.
      * rewrite it_zero in Hu. apply R_zero in Hu. left. exact Hu.
  - assert (Hl : length args = 2) by (apply (Hbin Add args (ProofBin.reach_refl _)); auto). destruct args as [|p [|q [|]]]; try discriminate Hl.
    rewrite Forall_forall in IH. assert (Bp : binary p) by (eapply binary_arg; [exact Hbin|left; reflexivity]). assert (Bq : binary q) by (eapply binary_arg; [exact Hbin|right; left; reflexivity]).
    apply it_add in Hu as [->|[Hu|[Hu| ->]]].
    + apply made_here, (g_self s L). exact Hm.
    + eapply made_arg; [left; reflexivity|]. apply (IH p (or_introl eq_refl) Bp m); assumption.
    + eapply made_arg; [right; left; reflexivity|]. apply (IH q (or_intror (or_introl eq_refl)) Bq m); assumption.
    + left. reflexivity.
  - assert (Hl : length args = 2) by (apply (Hbin Mul args (ProofBin.reach_refl _)); auto). destruct args as [|p [|q [|]]]; try discriminate Hl.
    rewrite Forall_forall in IH. assert (Bp : binary p) by (eapply binary_arg; [exact Hbin|left; reflexivity]). assert (Bq : binary q) by (eapply binary_arg; [exact Hbin|right; left; reflexivity]).
    apply (it_family s p q m 0 0) in Hu as [->|[(i' & j' & m' & W1 & W2 & W3 & ->)|[(i' & W1 & Hu)|(j' & W1 & Hu)]]].
    + left. reflexivity.
    + apply made_here, g_mul; lia.
    + eapply made_arg; [left; reflexivity|]. apply (IH p (or_introl eq_refl) Bp i'); [lia|assumption].
    + eapply made_arg; [right; left; reflexivity|]. apply (IH q (or_intror (or_introl eq_refl)) Bq j'); [lia|assumption].
  - assert (Ba : binary a) by (eapply binary_arg; [exact Hbin|left; reflexivity]).
    assert (G : forall m' v, m' <= L -> reach false [] (it s m' a) v -> made s L (Node [sin; a]) v)
      by (intros m' v Hm' Hv; eapply made_arg; [left; reflexivity|]; apply (IH Ba m'); assumption).
    exact (proj1 (trig_made s L a (Node [sin; a]) (trig_sin s L a) G m Hm) u Hu).
  - assert (Ba : binary a) by (eapply binary_arg; [exact Hbin|left; reflexivity]).
    assert (G : forall m' v, m' <= L -> reach false [] (it s m' a) v -> made s L (Node [cos; a]) v)
      by (intros m' v Hm' Hv; eapply made_arg; [left; reflexivity|]; apply (IH Ba m'); assumption).
    exact (proj2 (trig_made s L a (Node [cos; a]) (trig_cos s L a) G m Hm) u Hu).
  - assert (Ba : binary a) by (eapply binary_arg; [exact Hbin|left; reflexivity]). assert (Bb : binary b) by (eapply binary_arg; [exact Hbin|right; left; reflexivity]).
    apply (pow_made s L a b) with (m := m) (n := 0); [| |lia|auto|exact Hu].
    + intros m' v Hm' Hv. eapply made_arg; [left; reflexivity|]. apply (IHa Ba m'); assumption.
    + intros v Hv. eapply made_arg; [right; left; reflexivity|]. apply (IHb Bb 0); [lia|assumption].
Qed.

(** ** Counting *)
Definition idx (L : nat) : list nat := seq 0 (S L).
Lemma in_idx L m : m <= L -> In m (idx L). Proof. intros. apply in_seq. lia. Qed.
Definition each (L : nat) (f : nat -> tree) : list tree := map f (idx L).
Definition all (L : nat) (f : nat -> list tree) : list tree := flat_map f (idx L).
Lemma in_each L f m : m <= L -> In (f m) (each L f). Proof. intros. apply in_map, in_idx. assumption. Qed.
Lemma in_all L f m u : m <= L -> In u (f m) -> In u (all L f). Proof. intros H Hu. apply in_flat_map. exists m. split; [apply in_idx, H|exact Hu]. Qed.
Lemma len_each L f : length (each L f) = S L. Proof. unfold each, idx. rewrite map_length, seq_length. reflexivity. Qed.
Lemma len_all L f n : (forall m, length (f m) = n) -> length (all L f) = S L * n.
Proof.
  intros H. unfold all, idx. generalize 0 as k. generalize (S L) as N. induction N as [|N IH]; intros k; [reflexivity|]. cbn [seq flat_map]. rewrite app_length, IH, H. lia.
Qed.

Section Count.
  Context (s : string).
  Definition trig_list (L : nat) (a : tree) : list tree :=
    each L (fun m => it s m (Node [sin; a])) ++ each L (fun m => it s m (Node [cos; a])) ++ each L (fun m => it s m (Node [Mul; negone; Node [sin; a]])) ++
    all L (fun i => all L (fun j => each L (fun m => it s m (Node [Mul; it s i (Node [cos; a]); it s j a])))) ++
    all L (fun i => all L (fun j => each L (fun m => it s m (Node [Mul; it s i (Node [Mul; negone; Node [sin; a]]); it s j a])))).
  Definition pow_list (L : nat) (a b : tree) : list tree :=
    each L (expo b) ++ all L (fun n => each L (fun m => it s m (pw a b n))) ++ all L (fun n => each L (fun m => it s m (pz a b n))) ++
    all L (fun n => all L (fun i => all L (fun j => each L (fun m => it s m (Node [Mul; it s i (pz a b n); it s j a]))))).
  Definition mul_list (L : nat) (a b : tree) : list tree :=
    all L (fun i => all L (fun j => each L (fun m => it s m (Node [Mul; it s i a; it s j b])))).
  Definition gen_list (L : nat) (t : tree) : list tree :=
    match t with
    | Node [h; a] => if tree_eqb h sin || tree_eqb h cos then trig_list L a else each L (fun m => it s m t)
    | Node [h; a; b] => if tree_eqb h Mul then mul_list L a b else if tree_eqb h Pow then pow_list L a b else each L (fun m => it s m t)
    | _ => each L (fun m => it s m t)
    end.
  Lemma in_mul L a b i j m : i <= L -> j <= L -> m <= L -> In (it s m (Node [Mul; it s i a; it s j b])) (mul_list L a b).
  Proof.
    intros Hi Hj Hm. eapply in_all; [exact Hi|]. cbn beta. eapply in_all; [exact Hj|]. cbn beta. apply (in_each L (fun m => it s m (Node [Mul; it s i a; it s j b])) m Hm).
  Qed.
  Lemma in_trig L a u :
    (exists m, m <= L /\ u = it s m (Node [sin; a])) \/ (exists m, m <= L /\ u = it s m (Node [cos; a])) \/ (exists m, m <= L /\ u = it s m (Node [Mul; negone; Node [sin; a]])) \/
    (exists i j m, i <= L /\ j <= L /\ m <= L /\ u = it s m (Node [Mul; it s i (Node [cos; a]); it s j a])) \/
    (exists i j m, i <= L /\ j <= L /\ m <= L /\ u = it s m (Node [Mul; it s i (Node [Mul; negone; Node [sin; a]]); it s j a])) -> In u (trig_list L a).
  Proof.
    unfold trig_list. rewrite !in_app_iff. intros [(m & Hm & ->)|[(m & Hm & ->)|[(m & Hm & ->)|[(i & j & m & Hi & Hj & Hm & ->)|(i & j & m & Hi & Hj & Hm & ->)]]]].
    - left. apply (in_each L (fun m => it s m _)), Hm.
    - right. left. apply (in_each L (fun m => it s m _)), Hm.
    - right. right. left. apply (in_each L (fun m => it s m _)), Hm.
    - right. right. right. left. apply in_mul; assumption.
    - right. right. right. right. apply in_mul; assumption.
  Qed.
  Lemma in_pow L a b u :
    (exists n, n <= L /\ u = expo b n) \/ (exists n m, n <= L /\ m <= L /\ u = it s m (pw a b n)) \/ (exists n m, n <= L /\ m <= L /\ u = it s m (pz a b n)) \/
    (exists n i j m, n <= L /\ i <= L /\ j <= L /\ m <= L /\ u = it s m (Node [Mul; it s i (pz a b n); it s j a])) -> In u (pow_list L a b).
  Proof.
    unfold pow_list. rewrite !in_app_iff. intros [(n & Hn & ->)|[(n & m & Hn & Hm & ->)|[(n & m & Hn & Hm & ->)|(n & i & j & m & Hn & Hi & Hj & Hm & ->)]]].
    - left. apply in_each, Hn.
    - right. left. eapply in_all; [exact Hn|]. apply (in_each L (fun m => it s m _)), Hm.
    - right. right. left. eapply in_all; [exact Hn|]. apply (in_each L (fun m => it s m _)), Hm.
    - right. right. right. eapply in_all; [exact Hn|]. apply (in_mul L (pz a b n) a i j m); assumption.
  Qed.
  Lemma gen_in L t u : gen s L t u -> In u (gen_list L t).
  Proof.
    intros H. destruct H; try (change (In ?u (gen_list L (Node [sin; a]))) with (In u (trig_list L a)); apply in_trig; eauto 20; fail);
      try (change (In ?u (gen_list L (Node [cos; a]))) with (In u (trig_list L a)); apply in_trig; eauto 20; fail);
      try (change (In ?u (gen_list L (Node [Pow; a; b]))) with (In u (pow_list L a b)); apply in_pow; eauto 20; fail).
    - assert (G : In (it s m t) (each L (fun m => it s m t))) by (apply (in_each L (fun m => it s m t)), H).
      unfold gen_list. destruct t as [|[|h [|a [|b [|]]]]]; try exact G.
      + destruct (tree_eqb_spec h sin) as [->|]; [apply in_trig; eauto|]. destruct (tree_eqb_spec h cos) as [->|]; [apply in_trig; eauto|]. exact G.
      + destruct (tree_eqb_spec h Mul) as [->|]; [apply (in_mul L a b 0 0 m); lia|]. destruct (tree_eqb_spec h Pow) as [->|]; [|exact G].
        apply in_pow. right. left. exists 0, m. repeat split; [lia|exact H].
    - apply in_mul; assumption.
  Qed.
  Lemma len_mul L a b : length (mul_list L a b) = S L * (S L * S L).
  Proof. unfold mul_list. apply len_all. intros i. apply len_all. intros j. apply len_each. Qed.
  Lemma len_trig L a : length (trig_list L a) = 3 * S L + 2 * (S L * (S L * S L)).
  Proof. unfold trig_list. rewrite !app_length, !len_each. fold (mul_list L (Node [cos; a]) a). fold (mul_list L (Node [Mul; negone; Node [sin; a]]) a). rewrite !len_mul. lia. Qed.
  Lemma len_pow L a b : length (pow_list L a b) = S L + 2 * (S L * S L) + S L * (S L * (S L * S L)).
  Proof.
    unfold pow_list. rewrite !app_length, !len_each. rewrite (len_all L (fun n => each L (fun m => it s m (pw a b n))) (S L)) by (intros; apply len_each).
    rewrite (len_all L (fun n => each L (fun m => it s m (pz a b n))) (S L)) by (intros; apply len_each).
    rewrite (len_all L _ (S L * (S L * S L))) by (intros; apply (len_mul L (pz a b _) a)). lia.
  Qed.
  Lemma len_gen3 L t : (forall a b, t <> Node [Pow; a; b]) -> length (gen_list L t) <= 5 * (S L * (S L * S L)).
  Proof.
    intros Hp. assert (1 <= S L * S L) by nia. assert (S L <= S L * (S L * S L)) by nia. unfold gen_list. destruct t as [|[|h [|a [|b [|]]]]]; try (rewrite len_each; lia).
    - destruct (tree_eqb h sin || tree_eqb h cos); [rewrite len_trig; lia|rewrite len_each; lia].
    - destruct (tree_eqb h Mul); [rewrite len_mul; lia|]. destruct (tree_eqb_spec h Pow) as [->|]; [elim (Hp a b); reflexivity|rewrite len_each; lia].
  Qed.
  Lemma len_gen4 L t : length (gen_list L t) <= 5 * (S L * (S L * (S L * S L))).
  Proof.
    destruct (tree_eq_dec (match t with Node [h; a; b] => h | _ => Add end) Pow) as [E|E].
    - destruct t as [|[|h [|a [|b [|]]]]]; try discriminate E. subst h. change (gen_list L (Node [Pow; a; b])) with (pow_list L a b). rewrite len_pow.
      set (N := S L). assert (1 <= N) by (unfold N; lia). assert (N <= N * N) by nia. assert (N * N <= N * (N * (N * N))) by nia. lia.
    - assert (Hp : forall a b, t <> Node [Pow; a; b]) by (intros a b ->; apply E; reflexivity). pose proof (len_gen3 L t Hp). nia.
  Qed.
End Count.

Lemma expr_diff_it s k : forall e d, expr_diff e (Symbol s) (Z.of_nat k) = Ok d -> d = it s k e.
Proof.
  unfold expr_diff. rewrite Nat2Z.id. induction k as [|k IH]; intros e d H; [injection H as <-; reflexivity|].
  cbn [repeatM] in H. destruct (sym_diff_call cas_diff e (Symbol s) 1) as [e1|] eqn:E1; [|discriminate]. cbn [bind] in H.
  cbn [it]. unfold dv. rewrite sym_diff_call_one in E1. apply diff_forward_deriv in E1. rewrite E1. apply IH, H.
Qed.

Lemma poly_bound s e k d n m B : arith e -> binary e -> expr_diff e (Symbol s) (Z.of_nat k) = Ok d -> count_ops_graph e = Ok n -> count_ops_graph d = Ok m ->
  (forall t, reach false [] e t -> length (gen_list s k t) <= B) -> (m <= n * Z.of_nat B + 3)%Z.
Proof.
  intros Ha Hb Hd Hn Hm HB. apply expr_diff_it in Hd. subst d. apply graph_size in Hn as (ln & -> & _ & Hrn & _). apply graph_size in Hm as (lm & -> & Hnd & Hrm & _).
  assert (H : length lm <= length [zero; one; negone] + list_sum (map (@length tree) (map (gen_list s k) ln))).
  { apply union_bound; [exact Hnd|]. intros u Hu. apply Hrm in Hu. apply (made_all s k e Ha Hb k u (le_n k)) in Hu as [->|[->|[->|(t & Ht & Hg)]]]; cbn; auto.
    right. exists (gen_list s k t). split; [apply in_map, Hrn, Ht|apply gen_in, Hg]. }
  assert (G : list_sum (map (@length tree) (map (gen_list s k) ln)) <= length ln * B).
  { assert (HB' : forall t, In t ln -> length (gen_list s k t) <= B) by (intros; apply HB, Hrn; assumption). clear -HB'. induction ln as [|t l IH]; [cbn; lia|].
    cbn [map list_sum fold_right length]. change (fold_right Nat.add 0) with list_sum. specialize (HB' t (or_introl eq_refl)) as H1. assert (H2 := IH (fun t Ht => HB' t (or_intror Ht))). lia. }
  cbn [length] in H. nia.
Qed.

(** C96. The [k]-th derivative of a binary expression with [n] distinct subexpressions has at most 5 n (k+1)^4 + 3 of them. *)
Theorem C96_repeated_derivative s e k d n m : arith e -> binary e -> expr_diff e (Symbol s) (Z.of_nat k) = Ok d ->
  count_ops_graph e = Ok n -> count_ops_graph d = Ok m -> (m <= 5 * n * (Z.of_nat k + 1) ^ 4 + 3)%Z.
Proof.
  intros Ha Hb Hd Hn Hm. pose proof (poly_bound s e k d n m _ Ha Hb Hd Hn Hm (fun t _ => len_gen4 s k t)) as H. 
  replace (5 * n * (Z.of_nat k + 1) ^ 4)%Z with (n * Z.of_nat (5 * (S k * (S k * (S k * S k)))))%Z; [exact H|].
  rewrite !Nat2Z.inj_mul. change (Z.of_nat 5) with 5%Z. rewrite Nat2Z.inj_succ. unfold Z.succ. ring.
Qed.
(** Without powers the exponent is three. *)
Theorem C96_without_powers s e k d n m : arith e -> binary e -> (forall args, ~ reach false [] e (Node (Pow :: args))) -> expr_diff e (Symbol s) (Z.of_nat k) = Ok d ->
  count_ops_graph e = Ok n -> count_ops_graph d = Ok m -> (m <= 5 * n * (Z.of_nat k + 1) ^ 3 + 3)%Z.
Proof.
  intros Ha Hb Hp Hd Hn Hm. assert (HB : forall t, reach false [] e t -> length (gen_list s k t) <= 5 * (S k * (S k * S k))).
  { intros t Ht. apply len_gen3. intros a b ->. exact (Hp _ Ht). }
  pose proof (poly_bound s e k d n m _ Ha Hb Hd Hn Hm HB) as H.
  replace (5 * n * (Z.of_nat k + 1) ^ 3)%Z with (n * Z.of_nat (5 * (S k * (S k * S k))))%Z; [exact H|].
  rewrite !Nat2Z.inj_mul. change (Z.of_nat 5) with 5%Z. rewrite Nat2Z.inj_succ. unfold Z.succ. ring.
Qed.

(** ** Without sharing it would be exponential *)
Lemma reach_arith e u : arith e -> reach false [] e u -> arith u.
Proof.
  intros He. induction He as [n|s'|args Har IH|args Har IH|a Ha IH|a Ha IH|a b Ha Hb IHa IHb] using arith_ind_all; intros Hu.
  - apply ProofBin.reach_leaf in Hu; [subst u; constructor|reflexivity].
  - apply ProofBin.reach_leaf in Hu; [subst u; constructor|reflexivity].
  - rewrite Forall_forall in IH. apply ProofBin.reach_node_inv in Hu as [->|(c & Hc & Hu)]; [constructor; exact Har|exact (IH c Hc Hu)].
  - rewrite Forall_forall in IH. apply ProofBin.reach_node_inv in Hu as [->|(c & Hc & Hu)]; [constructor; exact Har|exact (IH c Hc Hu)].
  - apply R1 in Hu as [->|Hu]; [constructor; exact Ha|exact (IH Hu)].
  - apply R1 in Hu as [->|Hu]; [constructor; exact Ha|exact (IH Hu)].
  - apply R2 in Hu as [->|[Hu|Hu]]; [constructor; assumption|exact (IHa Hu)|exact (IHb Hu)].
Qed.
Lemma arith_proper e : arith e -> proper e.
Proof. intros He Hr. apply (reach_arith e _ He) in Hr. inversion Hr. Qed.

Section Exponential.
  Context (s : string).
  Lemma dv_ok t : dv s t <> zero -> deriv cas_diff (Symbol s) t = Ok (dv s t).
  Proof. unfold dv. destruct (deriv cas_diff (Symbol s) t); [reflexivity|intros H; elim H; reflexivity]. Qed.
  Lemma dv_add_both p q : dv s p <> zero -> dv s q <> zero -> dv s (Node [Add; p; q]) = Node [Add; dv s p; dv s q].
  Proof.
    intros Hp Hq. unfold dv at 1. rewrite D_add. cbn [mapM]. rewrite (dv_ok p Hp), (dv_ok q Hq). cbn [bind]. unfold dependent. cbn [length seq combine filter snd].
    destruct (tree_eqb_spec (dv s p) zero); [contradiction|]. destruct (tree_eqb_spec (dv s q) zero); [contradiction|]. reflexivity.
  Qed.
  Lemma dv_mul_both p q : dv s p <> zero -> dv s q <> zero -> dv s (Node [Mul; p; q]) = Node [Add; Node [Mul; dv s p; q]; Node [Mul; p; dv s q]].
  Proof.
    intros Hp Hq. unfold dv at 1. rewrite D_mul. cbn [mapM]. rewrite (dv_ok p Hp), (dv_ok q Hq). cbn [bind]. unfold dependent. cbn [length seq combine filter snd].
    destruct (tree_eqb_spec (dv s p) zero); [contradiction|]. destruct (tree_eqb_spec (dv s q) zero); [contradiction|]. reflexivity.
  Qed.
  Lemma dv_neg q : dv s q <> zero -> dv s (Node [Mul; negone; q]) = Node [Mul; negone; dv s q].
  Proof.
    intros Hq. unfold dv at 1. rewrite D_mul. cbn [mapM]. change (deriv cas_diff (Symbol s) negone) with (Ok (A := tree) zero). rewrite (dv_ok q Hq). cbn [bind]. unfold dependent.
    cbn [length seq combine filter snd]. rewrite tree_eqb_refl. destruct (tree_eqb_spec (dv s q) zero); [contradiction|]. reflexivity.
  Qed.
  Lemma it_add_both m : forall p q, (forall j, j <= m -> it s j p <> zero /\ it s j q <> zero) -> it s m (Node [Add; p; q]) = Node [Add; it s m p; it s m q].
  Proof.
    induction m as [|m IH]; intros p q H; [reflexivity|]. cbn [it]. rewrite dv_add_both by apply (H 1 ltac:(lia)). apply IH. intros j Hj. apply (H (S j)). lia.
  Qed.
  Lemma it_neg m : forall q, (forall j, j <= m -> it s j q <> zero) -> it s m (Node [Mul; negone; q]) = Node [Mul; negone; it s m q].
  Proof.
    induction m as [|m IH]; intros q H; [reflexivity|]. cbn [it]. rewrite dv_neg by apply (H 1 ltac:(lia)). apply IH. intros j Hj. apply (H (S j)). lia.
  Qed.
  Let X (i : nat) : tree := it s i (Node [sin; Symbol s]).
  Lemma X_SS n : (forall j, j <= n -> X j <> zero) -> X (S (S n)) = Node [Mul; negone; X n].
  Proof.
    intros H. unfold X. cbn [it]. assert (E1 : dv s (Node [sin; Symbol s]) = Node [cos; Symbol s]) by (unfold dv; rewrite D_sin, sym_D, String.eqb_refl; reflexivity).
    assert (E2 : dv s (Node [cos; Symbol s]) = Node [Mul; negone; Node [sin; Symbol s]]) by (unfold dv; rewrite D_cos, sym_D, String.eqb_refl; reflexivity).
    rewrite E1, E2. apply it_neg, H.
  Qed.
  Lemma X_nonzero n : X n <> zero.
  Proof.
    induction n as [[|[|n]] IH] using lt_wf_ind.
    - discriminate.
    - unfold X. cbn [it]. unfold dv. rewrite D_sin, sym_D, String.eqb_refl. discriminate.
    - rewrite X_SS; [discriminate|]. intros j Hj. apply IH. lia.
  Qed.
  Lemma XX_step m i j : it s (S m) (Node [Mul; X i; X j]) = it s m (Node [Add; Node [Mul; X (S i); X j]; Node [Mul; X i; X (S j)]]).
  Proof.
    cbn [it]. f_equal. unfold X at 1 2. rewrite dv_mul_both; rewrite !dv_it; [reflexivity| |]; apply X_nonzero.
  Qed.
  Lemma XX_nonzero m : forall i j, it s m (Node [Mul; X i; X j]) <> zero.
  Proof.
    induction m as [[|m] IH] using lt_wf_ind; intros i j; [discriminate|]. rewrite XX_step, it_add_both; [discriminate|]. intros l Hl. split; apply IH; lia.
  Qed.
  Lemma XX_size m : forall i j, 2 ^ m <= tree_size (it s m (Node [Mul; X i; X j])).
  Proof.
    induction m as [|m IH]; intros i j; [cbn; lia|]. rewrite XX_step, it_add_both by (intros l Hl; split; apply XX_nonzero).
    cbn [tree_size map list_sum fold_right Nat.pow]. pose proof (IH (S i) j). pose proof (IH i (S j)). lia.
  Qed.
  Lemma XX_diff k : forall e, (forall j, it s j e <> zero) -> expr_diff e (Symbol s) (Z.of_nat k) = Ok (it s k e).
  Proof.
    unfold expr_diff. rewrite Nat2Z.id. induction k as [|k IH]; intros e H; [reflexivity|]. cbn [repeatM it]. rewrite sym_diff_call_one.
    assert (E : diff_forward e (Symbol s) cas_diff = Ok (dv s e)) by (apply diff_forward_deriv, dv_ok, (H 1)).
    rewrite E. cbn [bind]. apply IH. intros j. apply (H (S j)).
  Qed.
End Exponential.

(** The [k]-th derivative of sin(x)*sin(x) as a tree and as a graph. *)
Theorem C96_tree_is_exponential s k : exists d n m, expr_diff (Node [Mul; Node [sin; Symbol s]; Node [sin; Symbol s]]) (Symbol s) (Z.of_nat k) = Ok d /\
  count_ops_tree d = Ok n /\ (2 ^ Z.of_nat k <= n)%Z /\ count_ops_graph d = Ok m /\ (m <= 15 * (Z.of_nat k + 1) ^ 3 + 3)%Z.
Proof.
  set (e := Node [Mul; Node [sin; Symbol s]; Node [sin; Symbol s]]).
  assert (Ha : arith e) by (repeat constructor).
  assert (Hb : binary e).
  { apply binary_node; [reflexivity|]. intros c [<-|[<-|[]]]; (apply binary_node; [intros [H|H]; discriminate H|]); intros c [<-|[]]; apply binary_leaf; reflexivity. }
  assert (Hd : expr_diff e (Symbol s) (Z.of_nat k) = Ok (it s k e)) by (apply XX_diff; intros j; exact (XX_nonzero s j 0 0)).
  destruct (graph_total (it s k e)) as [m Hm]. assert (Hn : count_ops_graph e = Ok 3%Z).
  { destruct (graph_total e) as [n Hn]. rewrite Hn. apply graph_size in Hn as (l & -> & Hnd & Hr & _). f_equal. change 3%Z with (Z.of_nat (length [e; Node [sin; Symbol s]; Symbol s])). f_equal.
    assert (Hi : forall u, In u l <-> In u [e; Node [sin; Symbol s]; Symbol s]).
    { intros u. rewrite Hr. split.
      - intros H. apply R2 in H as [->|[H|H]]; [left; reflexivity| |]; (apply R1 in H as [->|H]; [right; left; reflexivity|]); apply ProofBin.reach_leaf in H; try reflexivity; right; right; left; symmetry; exact H.
      - assert (H1 : reach false [] e (Node [sin; Symbol s])) by (eapply ProofBin.reach_arg; [left; reflexivity|apply ProofBin.reach_refl]).
        intros [<-|[<-|[<-|[]]]]; [apply ProofBin.reach_refl|exact H1|]. eapply ProofBin.reach_arg; [left; reflexivity|]. eapply ProofBin.reach_arg; [left; reflexivity|apply ProofBin.reach_refl]. }
    assert (N3 : NoDup [e; Node [sin; Symbol s]; Symbol s]) by (repeat constructor; cbn; intuition discriminate).
    apply Nat.le_antisymm; [apply (NoDup_incl_length Hnd)|apply (NoDup_incl_length N3)]; intros u Hu; apply Hi, Hu. }
  exists (it s k e), (Z.of_nat (tree_size (it s k e))), m. split; [exact Hd|]. split.
  { apply count_ops_tree_spec, arith_proper. destruct (graph_total (it s k e)) as [m' Hm']. exact (proj1 (C95_repeated_derivative s e k _ 3 m' Ha Hb Hd Hn Hm')). }
  split. { pose proof (XX_size s k 0 0) as H. change (2 ^ Z.of_nat k)%Z with (Z.of_nat 2 ^ Z.of_nat k)%Z. rewrite <- Nat2Z.inj_pow. apply Nat2Z.inj_le. exact H. }
  split; [exact Hm|]. apply (C96_without_powers s e k (it s k e) 3 m Ha Hb); try assumption.
  intros args H. apply R2 in H as [H|[H|H]]; [discriminate| |]; (apply R1 in H as [H|H]; [discriminate|]); apply ProofBin.reach_leaf in H; try reflexivity; discriminate H.
Qed.
Print Assumptions C96_repeated_derivative.
Print Assumptions C96_without_powers.
Print Assumptions C96_tree_is_exponential.

(** ** The documented example: a graph of 1552 nodes, standing for a tree of 893621974 *)
Section Build.
  (** A graph with the derivatives found so far, and the next free number. Nothing is assumed about this program: its result is checked below. *)
  Record dstate := mkD { d_nodes : PositiveMap.t dnode; d_ders : PositiveMap.t positive; d_next : positive }.
  Definition dmake (n : dnode) (st : dstate) : positive * dstate :=
    match find (fun p => dnode_eqb (snd p) n) (PositiveMap.elements (d_nodes st)) with
    | Some (i, _) => (i, st)
    | None => (d_next st, mkD (PositiveMap.add (d_next st) n (d_nodes st)) (d_ders st) (Pos.succ (d_next st)))
    end.
  Definition dzero (st : dstate) (i : positive) : bool := is_node (PositiveMap.find i (d_nodes st)) (dI 0).
  Definition done_ (st : dstate) (i : positive) : bool := is_node (PositiveMap.find i (d_nodes st)) (dI 1).
  Fixpoint dder (fuel : nat) (i : positive) (st : dstate) : positive * dstate :=
    match fuel with
    | O => (i, st)
    | S fuel =>
        match PositiveMap.find i (d_ders st) with
        | Some j => (j, st)
        | None =>
            let (j, st) :=
              match PositiveMap.find i (d_nodes st) with
              | None | Some (dI _) => dmake (dI 0) st
              | Some dX => dmake (dI 1) st
              | Some (dU c a) =>
                  let (da, st) := dder fuel a st in
                  if dzero st da then dmake (dI 0) st else
                  let (r, st) := if c then dmake (dU false a) st else let (m, st) := dmake (dI (-1)) st in let (r, st) := dmake (dU true a) st in dmake (dB false m r) st in
                  if done_ st da then (r, st) else dmake (dB false r da) st
              | Some (dB c a b) =>
                  let (da, st) := dder fuel a st in let (db, st) := dder fuel b st in
                  if dzero st da then if dzero st db then dmake (dI 0) st else if c then (db, st) else dmake (dB false a db) st
                  else if dzero st db then if c then (da, st) else dmake (dB false da b) st
                  else if c then dmake (dB true da db) st
                  else let (u, st) := dmake (dB false da b) st in let (v, st) := dmake (dB false a db) st in dmake (dB true u v) st
              end in
            (j, mkD (d_nodes st) (PositiveMap.add i j (d_ders st)) (d_next st))
        end
    end.
  Fixpoint dders (k : nat) (i : positive) (st : dstate) : positive * dstate :=
    match k with O => (i, st) | S k => let (j, st) := dder 200 i st in dders k j st end.
  Fixpoint dsins (k : nat) (i : positive) (st : dstate) : positive * dstate :=
    match k with O => (i, st) | S k => let (j, st) := dmake (dU true i) st in dsins k j st end.
  Definition dstart : positive * dstate := let (i, st) := dmake dX (mkD (PositiveMap.empty _) (PositiveMap.empty _) 1%positive) in dsins 5 i st.
  Definition dfinal : positive * dstate := let (i, st) := dstart in dders 10 i st.
  Definition dsizes (g : PositiveMap.t dnode) : PositiveMap.t N :=
    fold_left (fun sz i => match PositiveMap.find i g with Some n => PositiveMap.add i (1 + fold_right N.add 0 (map (size_at sz) (args_of n)))%N sz | None => sz end)
      (map Pos.of_nat (seq 1 (length (PositiveMap.elements g)))) (PositiveMap.empty _).
  Definition dreached (g : PositiveMap.t dnode) (root : positive) : PositiveMap.t positive :=
    fold_left (fun rs i => match PositiveMap.find i rs, PositiveMap.find i g with Some _, Some n => fold_left (fun rs a => PositiveMap.add a i rs) (args_of n) rs | _, _ => rs end)
      (rev (map Pos.of_nat (seq 1 (length (PositiveMap.elements g))))) (PositiveMap.add root root (PositiveMap.empty _)).
End Build.

(** The checks, and the answers. *)
Definition in_graph (g : PositiveMap.t dnode) (i : positive) : bool := match PositiveMap.find i g with Some _ => true | None => false end.
Fixpoint dchain (g : PositiveMap.t dnode) (dt : PositiveMap.t positive) (k : nat) (i j : positive) : bool :=
  match k with
  | O => Pos.eqb i j
  | S k => match PositiveMap.find i dt with Some i' => in_graph g i' && dchain g dt k i' j | None => false end
  end.
Fixpoint sin_chain (g : PositiveMap.t dnode) (k : nat) (i : positive) : bool :=
  match k with
  | O => is_node (PositiveMap.find i g) dX
  | S k => match PositiveMap.find i g with Some (dU true a) => sin_chain g k a | _ => false end
  end.
Definition dcheck (depth k graph : nat) (tree : N) (start : positive) (final : positive * dstate) : bool :=
  let (root, st) := final in
  let g := d_nodes st in let sz := dsizes g in let rs := dreached g root in
  listed_once g && ordered g && derivatives_ok g (d_ders st) && sizes_ok g sz && reached_ok g rs root &&
  sin_chain g depth start && dchain g (d_ders st) k start root && Nat.eqb (length (PositiveMap.elements rs)) graph && N.eqb (size_at sz root) tree.
Lemma dcheck_true : dcheck 5 10 1552 893621974 (fst dstart) dfinal = true.
Proof. vm_cast_no_check (eq_refl true). Qed.

Lemma rep_arith s g i t : rep s g i t -> arith t.
Proof. induction 1 as [i E|i z E|i c a t E H IH|i c a b t u E H1 IH1 H2 IH2]; [constructor|constructor| |]; destruct c; constructor; auto. Qed.
Lemma sin_chain_rep s g k : forall i, sin_chain g k i = true -> rep s g i (Nat.iter k (fun a => Node [sin; a]) (Symbol s)).
Proof.
  induction k as [|k IH]; intros i H; cbn [sin_chain] in H.
  - apply is_node_spec in H. apply rep_x, H.
  - destruct (PositiveMap.find i g) as [[| |[|] a|]|] eqn:E; try discriminate H. cbn [Nat.iter nat_rect]. apply (rep_un s g i true a); [exact E|apply IH, H].
Qed.
Lemma dchain_diff s g dt k : ordered g = true -> derivatives_ok g dt = true -> forall i j t, dchain g dt k i j = true -> rep s g i t ->
  exists d, expr_diff t (Symbol s) (Z.of_nat k) = Ok d /\ rep s g j d.
Proof.
  intros Hord Hok. unfold expr_diff. rewrite Nat2Z.id. induction k as [|k IH]; intros i j t H Ht; cbn [dchain] in H.
  - apply Pos.eqb_eq in H. subst j. exists t. split; [reflexivity|exact Ht].
  - destruct (PositiveMap.find i dt) as [i'|] eqn:E; [|discriminate]. apply andb_true_iff in H as [Hg H]. unfold in_graph in Hg.
    destruct (PositiveMap.find i' g) as [n|] eqn:En; [|discriminate]. destruct (rep_total s g Hord i' n En) as [t' Ht'].
    destruct (IH i' j t' H Ht') as (d & Hd & Hr). exists d. split; [|exact Hr]. cbn [repeatM]. rewrite sym_diff_call_one.
    assert (E1 : diff_forward t (Symbol s) cas_diff = Ok t') by (apply diff_forward_deriv; exact (deriv_rep s g dt Hok i t Ht i' t' E Ht')).
    rewrite E1. exact Hd.
Qed.
Lemma dcheck_sound s depth k graph size start final : dcheck depth k graph size start final = true ->
  exists d, expr_diff (Nat.iter depth (fun a => Node [sin; a]) (Symbol s)) (Symbol s) (Z.of_nat k) = Ok d /\
    count_ops_graph d = Ok (Z.of_nat graph) /\ count_ops_tree d = Ok (Z.of_N size).
Proof.
  destruct final as [root st]. unfold dcheck. rewrite !andb_true_iff. intros [[[[[[[[H1 H2] H3] H4] H5] H6] H7] H8] H9]. apply Nat.eqb_eq in H8. apply N.eqb_eq in H9.
  destruct (dchain_diff s _ _ k H2 H3 start root _ H7 (sin_chain_rep s _ depth start H6)) as (d & Hd & Hr). exists d. split; [exact Hd|]. split.
  - destruct (graph_total d) as [m Hm]. rewrite Hm. apply graph_size in Hm as (l & -> & Hnd & Hl & _). rewrite <- H8.
    rewrite (reached_count s _ _ root d l H1 H2 H5 Hr Hnd Hl). reflexivity.
  - rewrite (count_ops_tree_spec d (arith_proper d (rep_arith s _ _ _ Hr))). rewrite <- H9, (size_rep s _ _ H4 root d Hr). f_equal. symmetry. apply nat_N_Z.
Qed.
(** The example in the documentation of Expr.diff: sin(sin(sin(sin(sin(x))))).diff(x, 10). *)
Theorem C96_documented_example s : exists d,
  expr_diff (Node [sin; Node [sin; Node [sin; Node [sin; Node [sin; Symbol s]]]]]) (Symbol s) 10 = Ok d /\
  count_ops_graph d = Ok 1552%Z /\ count_ops_tree d = Ok 893621974%Z.
Proof. exact (dcheck_sound s _ _ _ _ _ _ dcheck_true). Qed.
Print Assumptions C96_documented_example.

(** The bounds apply to the documented example. *)
Example C96_case : let e := Node [sin; Node [sin; Node [sin; Node [sin; Node [sin; x]]]]] in
  tidy e /\ (forall args, ~ reach false [] e (Node (Pow :: args))) /\ tidy grow_sample /\ reach false [] grow_sample (Node [Pow; x; int 2]) /\
  count_ops_graph e = Ok 6%Z /\ (do d <- expr_diff e x 3; count_ops_graph d) = Ok 75%Z /\ (do d <- expr_diff e x 3; count_ops_tree d) = Ok 820%Z /\
  (do d <- expr_diff grow_sample x 4; count_ops_graph d) = Ok 25%Z.
Proof.
  cbn zeta. assert (Hx : forall s, tidy (Symbol s)) by (intros s; split; [constructor|apply binary_leaf; reflexivity]).
  assert (Hsin : forall a, tidy a -> tidy (Node [sin; a])).
  { intros a [A B]. split; [constructor; exact A|]. apply binary_node; [intros [H|H]; discriminate H|]. intros c [<-|[]]. exact B. }
  split; [repeat apply Hsin; apply Hx|].
  split; [intros args H; do 5 (apply R1 in H as [H|H]; [discriminate|]); apply ProofBin.reach_leaf in H; [discriminate|reflexivity]|].
  split; [apply C95_case|]. split; [apply ProofTopo.post_reach; cbn; auto 10|].
  repeat split; vm_compute; reflexivity.
Qed.
