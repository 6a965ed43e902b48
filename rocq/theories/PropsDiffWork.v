(** * C97: the work of differentiation *)
From Verif Require Import Py ModelTree SpecTree ProofBase ModelEval ModelDiff ModelCas ModelDiffWork SpecEval SpecDiff SpecCas SpecPrint SpecCost ProofTopo ProofGraph ProofTree ProofCasDiff
  ProofCas ProofDiff ProofLLVM ProofSwell ProofCodeSize PropsCost ProofPoly PropsGrowth PropsPoly Samples.
From Verif Require ProofBin.

(** ** The same results *)
Lemma snd_bind {A B} (m : built A) (k : A -> built B) : snd (b_bind m k) = do a <- snd m; snd (k a).
Proof. unfold b_bind. destruct (snd m); reflexivity. Qed.
Lemma snd_fold {A S} (f : S -> A -> built S) (g : S -> A -> res S) l : (forall s a, snd (f s a) = g s a) -> forall s, snd (b_fold f l s) = foldM g l s.
Proof. intros H. induction l as [|a l IH]; intros s; [reflexivity|]. cbn [b_fold foldM]. rewrite snd_bind, H. destruct (g s a); [apply IH|reflexivity]. Qed.
Lemma foldM_pure {A S} (f : S -> A -> S) l : forall s, foldM (fun s a => Ok (f s a)) l s = Ok (fold_left f l s).
Proof. induction l as [|a l IH]; intros s; [reflexivity|]. cbn [foldM fold_left bind]. apply IH. Qed.
Lemma snd_subs sf args : snd (b_subs_call sf args) = subs_call sf args.
Proof.
  unfold b_subs_call, subs_call. destruct (negb _); [reflexivity|]. rewrite snd_bind.
  rewrite (snd_fold _ (fun stack indices => do cs <- mapM (getitem stack) indices; Ok (stack ++ [Node cs]))); [reflexivity|].
  intros s a. rewrite snd_bind. cbn [b_lift snd]. destruct (mapM (getitem s) a); reflexivity.
Qed.
Lemma snd_product args ds zero mul : snd (b_product_rule args ds zero mul) = Ok (product_rule_forward args ds zero mul).
Proof.
  unfold b_product_rule, product_rule_forward. rewrite (snd_fold _ (fun terms p => Ok (product_step args zero mul terms p))); [apply foldM_pure|].
  intros s [n d]. cbn [fst snd]. unfold product_step. destruct (negb (tree_eqb d zero)); reflexivity.
Qed.
Lemma snd_chain func args ds zero one mul rules : snd (b_chain_rule func args ds zero one mul rules) = chain_rule_forward func args ds zero one mul rules.
Proof.
  unfold b_chain_rule, chain_rule_forward. apply snd_fold. intros s [n d]. cbn [fst snd]. unfold chain_step. destruct (negb (tree_eqb d zero)); [|reflexivity].
  rewrite snd_bind. cbn [b_lift snd]. destruct (dict_getitem rule_key_eqb rules (func, n)) as [sf|]; [|reflexivity]. cbn [bind].
  rewrite snd_bind, snd_subs. destruct (subs_call sf args) as [r|]; [|reflexivity]. cbn [bind]. rewrite snd_bind. destruct (negb (tree_eqb d one)); reflexivity.
Qed.
Lemma snd_terms p func args ds : snd (b_diff_terms p func args ds) = diff_terms_of p func args ds.
Proof.
  unfold b_diff_terms, diff_terms_of. destruct (mem func (dp_distributive p)); [reflexivity|]. destruct (all_zero ds (dp_zero p)); [reflexivity|].
  destruct (tree_eqb func (dp_add p)); [reflexivity|]. destruct (tree_eqb func (dp_mul p)); [apply snd_product|apply snd_chain].
Qed.
Lemma snd_sum p terms : snd (b_sum_terms p terms) = Ok (sum_terms p terms).
Proof. destruct terms as [|t [|t2 l]]; reflexivity. Qed.
Lemma snd_step p acc op : snd (b_diff_step p acc op) = diff_step p acc op.
Proof.
  destruct acc as [stack dstack], op as [func indices]. unfold b_diff_step, diff_step. cbn [fst snd]. rewrite snd_bind. cbn [b_lift snd].
  destruct (mapM (getitem stack) indices) as [args|]; [|reflexivity]. cbn [bind]. rewrite snd_bind. cbn [b_lift snd].
  destruct (mapM (getitem dstack) indices) as [ds|]; [|reflexivity]. cbn [bind]. rewrite snd_bind. cbn [b_call b_tree snd bind]. rewrite snd_bind, snd_terms.
  destruct (diff_terms_of p func args ds) as [terms|]; [|reflexivity]. cbn [bind]. rewrite snd_bind, snd_sum. reflexivity.
Qed.
Lemma snd_diff_forward e s p : snd (b_diff_forward e s p) = diff_forward e s p.
Proof.
  unfold b_diff_forward, diff_forward. rewrite snd_bind. cbn [b_lift snd]. destruct (forward_graph e) as [g|]; [|reflexivity]. cbn [bind]. rewrite snd_bind.
  rewrite (snd_fold _ (diff_step p)) by apply snd_step. destruct (foldM _ _ _) as [[st dst]|]; reflexivity.
Qed.
Lemma repeatM_last {A} (f : A -> res A) n : forall a, repeatM f (S n) a = do b <- repeatM f n a; f b.
Proof.
  induction n as [|n IH]; intros a; [cbn; destruct (f a); reflexivity|]. change (repeatM f (S (S n)) a) with (do b <- f a; repeatM f (S n) b). cbn [repeatM] in *.
  destruct (f a) as [b|]; [|reflexivity]. cbn [bind]. rewrite IH. reflexivity.
Qed.
(** C97. Recording the work changes nothing. *)
Theorem C97_same_derivative e s n : snd (b_expr_diff e s n) = expr_diff e s n.
Proof.
  unfold b_expr_diff, expr_diff. induction (Z.to_nat n) as [|k IH]; [reflexivity|]. cbn [Nat.iter nat_rect]. rewrite snd_bind. change (nat_rect _ _ _ _) with (Nat.iter k (fun m => b_bind m (fun deriv => b_diff_forward deriv s cas_diff)) (b_ret e)).
  rewrite IH, repeatM_last. destruct (repeatM _ k e) as [d|]; [|reflexivity]. cbn [bind]. rewrite snd_diff_forward, sym_diff_call_one. reflexivity.
Qed.

(** ** How many trees are made *)
Notation made_by m := (length (fst m)).
Lemma len_bind {A B} (m : built A) (k : A -> built B) N : (forall a, snd m = Ok a -> made_by (k a) <= N) -> made_by (b_bind m k) <= made_by m + N.
Proof. unfold b_bind. intros H. destruct (snd m) as [a|]; cbn; [rewrite app_length; specialize (H a eq_refl); lia|lia]. Qed.
Lemma len_fold {A S} (f : S -> A -> built S) (c : A -> nat) l : (forall s a, In a l -> made_by (f s a) <= c a) -> forall s, made_by (b_fold f l s) <= list_sum (map c l).
Proof.
  induction l as [|a l IH]; intros H s; [cbn; lia|]. cbn [b_fold map list_sum fold_right]. change (fold_right Nat.add 0) with list_sum.
  pose proof (len_bind (f s a) (b_fold f l) (list_sum (map c l)) (fun s' _ => IH (fun s a Ha => H s a (or_intror Ha)) s')). specialize (H s a (or_introl eq_refl)). lia.
Qed.
Lemma sum_const {A} (c : A -> nat) (k : nat) l : (forall a, In a l -> c a <= k) -> list_sum (map c l) <= k * length l.
Proof. induction l as [|a l IH]; intros H; [cbn; lia|]. cbn [map list_sum fold_right length]. change (fold_right Nat.add 0) with list_sum. specialize (IH (fun b Hb => H b (or_intror Hb))). specialize (H a (or_introl eq_refl)). nia. Qed.
Lemma len_subs sf args : made_by (b_subs_call sf args) <= length (sf_operations sf).
Proof.
  unfold b_subs_call. destruct (negb _); [cbn; lia|]. etransitivity; [apply (len_bind _ _ 0); intros; cbn; lia|]. rewrite Nat.add_0_r.
  etransitivity; [apply (len_fold _ (fun _ => 1))|].
  - intros s a _. etransitivity; [apply (len_bind _ _ 1); intros cs _; cbn; lia|]. cbn. lia.
  - etransitivity; [apply (sum_const _ 1); intros; lia|]. lia.
Qed.
Lemma enumerate_length {A} (l : list A) n : length (enumerate_from n l) = length l.
Proof. revert n. induction l as [|a l IH]; intros n; [reflexivity|]. cbn. rewrite IH. reflexivity. Qed.
Lemma len_product args ds zero mul : made_by (b_product_rule args ds zero mul) <= length ds.
Proof.
  unfold b_product_rule. etransitivity; [apply (len_fold _ (fun _ => 1))|].
  - intros s p _. destruct (negb _); cbn; lia.
  - etransitivity; [apply (sum_const _ 1); intros; lia|]. rewrite enumerate_length. lia.
Qed.
(** The rules of simplecas build at most three trees. *)
Lemma cas_rules func n sf : dict_getitem rule_key_eqb (dp_rules cas_diff) (func, n) = Ok sf -> n = 0 /\ length (sf_operations sf) <= 3.
Proof.
  set (r := dp_rules cas_diff). assert (E : exists a b c, r = [((sin, 0), a); ((cos, 0), b); ((Pow, 0), c)] /\ length (sf_operations a) = 1 /\ length (sf_operations b) = 2 /\ length (sf_operations c) = 3).
  { vm_compute. do 3 eexists. split; [reflexivity|]. repeat split. }
  destruct E as (a & b & c & -> & Ha & Hb & Hc). unfold dict_getitem. cbn [dict_get]. unfold rule_key_eqb. cbn [fst snd].
  destruct n as [|n]; [|rewrite !andb_false_r; discriminate]. rewrite !andb_true_r. intros H. split; [reflexivity|].
  destruct (tree_eqb func sin); [injection H as <-; lia|]. destruct (tree_eqb func cos); [injection H as <-; lia|]. destruct (tree_eqb func Pow); [injection H as <-; lia|]. discriminate H.
Qed.
Definition chain_cost (p : nat * tree) : nat := match fst p with O => 4 | _ => 0 end.
Lemma chain_costs (ds : list tree) : list_sum (map chain_cost (enumerate_from 0 ds)) <= 4.
Proof.
  assert (H : forall (l : list tree) n, list_sum (map chain_cost (enumerate_from (S n) l)) = 0).
  { induction l as [|d l IH]; intros n; [reflexivity|]. cbn [enumerate_from map list_sum fold_right]. change (fold_right Nat.add 0) with list_sum. rewrite IH. reflexivity. }
  destruct ds as [|d ds]; [cbn; lia|]. cbn [enumerate_from map list_sum fold_right]. change (fold_right Nat.add 0) with list_sum. rewrite H. cbn. lia.
Qed.
Lemma len_chain func args ds : made_by (b_chain_rule func args ds zero one Mul (dp_rules cas_diff)) <= 4.
Proof.
  unfold b_chain_rule. etransitivity; [apply (len_fold _ chain_cost)|apply chain_costs].
  intros s [n d] _. cbn [fst snd]. destruct (negb _); [|cbn; lia]. etransitivity; [apply (len_bind _ _ (chain_cost (n, d)))|cbn; lia].
  intros sf Hsf. apply cas_rules in Hsf as [-> Hl]. cbn [chain_cost fst].
  etransitivity; [apply (len_bind _ _ 1)|pose proof (len_subs sf args); lia].
  intros r _. etransitivity; [apply (len_bind _ _ 0); intros; cbn; lia|]. destruct (negb _); cbn; lia.
Qed.
Lemma chain_one_term func args ds terms : chain_rule_forward func args ds zero one Mul (dp_rules cas_diff) = Ok terms -> length terms <= 1.
Proof.
  unfold chain_rule_forward. intros H. assert (G : forall l n acc terms, foldM (chain_step func args zero one Mul (dp_rules cas_diff)) (enumerate_from (S n) l) acc = Ok terms -> terms = acc).
  { induction l as [|d l IH]; intros n acc terms' H'; cbn [enumerate_from foldM] in H'; [congruence|]. unfold chain_step at 1 in H'. destruct (negb (tree_eqb d zero)).
    - destruct (dict_getitem rule_key_eqb (dp_rules cas_diff) (func, S n)) as [sf|] eqn:E; [|discriminate H']. apply cas_rules in E as [E _]. discriminate E.
    - cbn [bind] in H'. exact (IH _ _ _ H'). }
  destruct ds as [|d ds]; cbn [enumerate_from foldM] in H; [injection H as <-; cbn; lia|]. unfold chain_step at 1 in H. destruct (negb (tree_eqb d zero)).
  - destruct (dict_getitem rule_key_eqb (dp_rules cas_diff) (func, 0)) as [sf|]; [|discriminate H]. cbn [bind] in H. destruct (subs_call sf args) as [r|]; [|discriminate H]. cbn [bind] in H. apply G in H. subst. cbn. lia.
  - cbn [bind] in H. apply G in H. subst. cbn. lia.
Qed.
(** Trees made for one operation. *)
Definition op_cost (s : tree) : nat := if tree_eqb (head_of s) Mul then 2 + length (kids false s) else 5.
Lemma len_sum p terms : made_by (b_sum_terms p terms) <= 1 /\ (length terms <= 1 -> made_by (b_sum_terms p terms) = 0).
Proof. destruct terms as [|t [|t2 l]]; cbn; split; intros; lia. Qed.
Lemma len_step acc func indices : made_by (b_diff_step cas_diff acc (func, indices)) <= if tree_eqb func Mul then 2 + length indices else 5.
Proof.
  unfold b_diff_step. cbn [fst snd]. set (C := if tree_eqb func Mul then 2 + length indices else 5).
  assert (G : forall args ds, length ds = length indices ->
    made_by (b_bind (b_call func args) (fun expr => b_bind (b_diff_terms cas_diff func args ds) (fun terms => b_bind (b_sum_terms cas_diff terms) (fun derivative => b_ret (fst acc ++ [expr], snd acc ++ [derivative]))))) <= C).
  { intros args ds Hl. etransitivity; [apply (len_bind _ _ (C - 1))|unfold C; destruct (tree_eqb func Mul); cbn; lia]. intros t _.
    assert (G : forall m, made_by m + (match snd m with Ok terms => made_by (b_sum_terms cas_diff terms) | Err _ => 0 end) <= C - 1 ->
      made_by (b_bind m (fun terms => b_bind (b_sum_terms cas_diff terms) (fun derivative => b_ret (fst acc ++ [t], snd acc ++ [derivative])))) <= C - 1).
    { intros m Hm. etransitivity; [apply (len_bind _ _ (match snd m with Ok terms => made_by (b_sum_terms cas_diff terms) | Err _ => 0 end))|exact Hm].
      intros terms ->. etransitivity; [apply (len_bind _ _ 0); intros; cbn; lia|]. lia. }
    apply G. rewrite snd_terms. unfold b_diff_terms, diff_terms_of, C. change (dp_distributive cas_diff) with [List_]. change (dp_add cas_diff) with Add. change (dp_mul cas_diff) with Mul.
    change (dp_zero cas_diff) with zero. change (dp_one cas_diff) with one.
    destruct (mem func [List_]) eqn:Em.
    { assert (func = List_) by (cbn in Em; destruct (tree_eqb_spec func List_); [assumption|discriminate]). subst. cbn. lia. }
    destruct (all_zero ds zero); [destruct (tree_eqb func Mul); cbn; lia|].
    destruct (tree_eqb_spec func Add) as [->|]; [pose proof (proj1 (len_sum cas_diff (filter (fun da => negb (tree_eqb da zero)) ds))); change (tree_eqb Add Mul) with false; cbn [b_ret fst length]; lia|].
    destruct (tree_eqb func Mul).
    - pose proof (len_product args ds zero Mul). pose proof (proj1 (len_sum cas_diff (product_rule_forward args ds zero Mul))). lia.
    - pose proof (len_chain func args ds). destruct (chain_rule_forward func args ds zero one Mul (dp_rules cas_diff)) as [terms|] eqn:E; [|lia].
      apply chain_one_term in E. rewrite (proj2 (len_sum cas_diff terms) E). lia. }
  change (made_by (b_bind ?m ?k) <= C) with (made_by (b_bind m k) <= C).
  unfold b_bind at 1. cbn [b_lift fst snd]. destruct (mapM (getitem (fst acc)) indices) as [args|] eqn:Ea; [|cbn; unfold C; destruct (tree_eqb func Mul); lia]. cbn [fst app].
  unfold b_bind at 1. cbn [b_lift fst snd]. destruct (mapM (getitem (snd acc)) indices) as [ds|] eqn:Ed; [|cbn; unfold C; destruct (tree_eqb func Mul); lia]. cbn [fst app].
  apply G. apply mapM_Ok_Forall2 in Ed. symmetry. exact (Forall2_len _ _ _ Ed).
Qed.
Lemma len_diff_forward e s l : topological_sort e false [] = Ok l -> made_by (b_diff_forward e s cas_diff) <= list_sum (map op_cost l).
Proof.
  intros Hl. destruct (forward_graph_spec e) as (hs & E & _). unfold b_diff_forward, b_bind at 1. rewrite E. cbn [b_lift fst snd app].
  etransitivity; [apply (len_bind _ _ 0); intros; cbn; lia|]. rewrite Nat.add_0_r. cbn [g_operations g_atoms].
  etransitivity; [apply (len_fold _ (fun op => if tree_eqb (fst op) Mul then 2 + length (snd op) else 5))|].
  - intros acc [func indices] _. apply len_step.
  - rewrite map_map. rewrite topological_sort_spec in Hl. fold (tsort e []) in Hl. injection Hl as <-. clear E. induction (tsort e []) as [|t ts IH]; [cbn; lia|].
    cbn [filter map list_sum fold_right]. change (fold_right Nat.add 0) with list_sum. destruct (compound t); [|etransitivity; [exact IH|apply Nat.le_add_l]]. cbn [map list_sum fold_right]. change (fold_right Nat.add 0) with list_sum.
    apply Nat.add_le_mono; [|exact IH]. unfold op_cost, op_of. cbn [fst snd]. rewrite map_length. change (kids false t) with (args_of t). lia.
Qed.

Lemma len_one e s : made_by (b_expr_diff e s 1) = made_by (b_diff_forward e s cas_diff).
Proof. unfold b_expr_diff. change (Z.to_nat 1) with 1. cbn [Nat.iter nat_rect]. unfold b_bind. cbn [b_ret fst snd app]. reflexivity. Qed.
Lemma op_costs l : list_sum (map op_cost l) <= 5 * length l + links l.
Proof.
  unfold links. induction l as [|t l IH]; [cbn; lia|]. cbn [map list_sum fold_right length]. change (fold_right Nat.add 0) with list_sum.
  unfold op_cost at 1. destruct (tree_eqb _ _); lia.
Qed.
(** One derivative of any expression, also when it raises: at most five trees for each distinct subexpression and one for each link between them. *)
Theorem C97_linear_work e s l : topological_sort e false [] = Ok l -> length (fst (b_expr_diff e s 1)) <= 5 * length l + links l.
Proof. intros Hl. rewrite len_one. etransitivity; [apply len_diff_forward, Hl|apply op_costs]. Qed.
Lemma binary_work e s n : binary e -> count_ops_graph e = Ok n -> (Z.of_nat (made_by (b_diff_forward e s cas_diff)) <= 5 * n)%Z.
Proof.
  intros Hb Hn. pose proof Hn as Hn'. unfold count_ops_graph in Hn'. destruct (topological_sort e false []) as [l|] eqn:El; [|discriminate]. cbn [bind] in Hn'. injection Hn' as <-.
  pose proof (len_diff_forward e s l El) as H. assert (G : list_sum (map op_cost l) <= 5 * length l); [|lia].
  apply sum_const. intros t Ht. unfold op_cost. destruct (tree_eqb_spec (head_of t) Mul) as [E|]; [|lia].
  rewrite topological_sort_spec in El. injection El as <-. apply keep_first_In, post_reach in Ht. destruct t as [|[|h args]]; [cbn; lia|cbn; lia|].
  cbn in E. subst h. pose proof (Hb Mul args Ht (or_intror eq_refl)) as L. change (kids false (Node (Mul :: args))) with args. lia.
Qed.
(** With binary sums and products: at most five trees for each distinct subexpression. *)
Theorem C97_binary_work e s n : binary e -> count_ops_graph e = Ok n -> (Z.of_nat (length (fst (b_expr_diff e s 1))) <= 5 * n)%Z.
Proof. intros. rewrite len_one. apply binary_work; assumption. Qed.

(** Repeated differentiation of a binary expression with [n] distinct subexpressions, also when it raises: [k] derivatives make a polynomial number of trees. *)
Theorem C97_repeated_work s e k n : arith e -> binary e -> count_ops_graph e = Ok n ->
  (Z.of_nat (length (fst (b_expr_diff e (Symbol s) (Z.of_nat k)))) <= Z.of_nat k * (5 * (5 * n * Z.of_nat k ^ 4 + 3)))%Z.
Proof.
  intros Ha Hb Hn. assert (Hn0 : (0 <= n)%Z).
  { unfold count_ops_graph in Hn. destruct (topological_sort e false []); [|discriminate]. injection Hn as <-. lia. }
  assert (G : forall j, j <= k -> (Z.of_nat (made_by (b_expr_diff e (Symbol s) (Z.of_nat j))) <= Z.of_nat j * (5 * (5 * n * Z.of_nat k ^ 4 + 3)))%Z); [|apply G; lia].
  induction j as [|j IH]; intros Hj; [cbn; lia|].
  assert (E : made_by (b_expr_diff e (Symbol s) (Z.of_nat (S j))) = made_by (b_bind (b_expr_diff e (Symbol s) (Z.of_nat j)) (fun deriv => b_diff_forward deriv (Symbol s) cas_diff))).
  { unfold b_expr_diff. rewrite !Nat2Z.id. reflexivity. }
  rewrite E. clear E. set (B := (5 * (5 * n * Z.of_nat k ^ 4 + 3))%Z) in *. assert (HB : (0 <= B)%Z) by (unfold B; nia).
  assert (K : made_by (b_bind (b_expr_diff e (Symbol s) (Z.of_nat j)) (fun deriv => b_diff_forward deriv (Symbol s) cas_diff)) <= made_by (b_expr_diff e (Symbol s) (Z.of_nat j)) + Z.to_nat B); [|specialize (IH ltac:(lia)); nia].
  apply len_bind. intros d Hd. rewrite C97_same_derivative in Hd. destruct (graph_total d) as [m Hm].
  destruct (C95_repeated_derivative s e j d n m Ha Hb Hd Hn Hm) as (_ & Bd & _). pose proof (C96_repeated_derivative s e j d n m Ha Hb Hd Hn Hm) as Hp.
  pose proof (binary_work d (Symbol s) m Bd Hm) as W. apply Nat2Z.inj_le. rewrite Z2Nat.id by exact HB. etransitivity; [exact W|]. unfold B.
  assert ((Z.of_nat j + 1) ^ 4 <= Z.of_nat k ^ 4)%Z by (apply Z.pow_le_mono_l; lia). nia.
Qed.

(** ** The record is complete *)
Definition kept (L : list (list tree)) (t : tree) : Prop := forall cs, cs <> [] -> reach false [] t (Node cs) -> In cs L.
Lemma kept_more L L' t : kept L t -> incl L L' -> kept L' t. Proof. intros H Hi cs Hc Hr. apply Hi, H; assumption. Qed.
Lemma kept_leaf L t : children t = [] -> kept L t.
Proof. intros H cs Hc Hr. apply ProofBin.reach_leaf in Hr; [|exact H]. subst t. cbn in H. contradiction. Qed.
Lemma kept_node L cs : Forall (kept L) (tl cs) -> kept (L ++ [cs]) (Node cs).
Proof.
  intros H cs' Hc Hr. destruct cs as [|h args].
  - apply ProofBin.reach_leaf in Hr; [|reflexivity]. injection Hr as ->. contradiction.
  - apply ProofBin.reach_node_inv in Hr as [E|(a & Ha & Hr)]; [injection E as ->; apply in_or_app; right; left; reflexivity|].
    rewrite Forall_forall in H. apply in_or_app. left. exact (H a Ha cs' Hc Hr).
Qed.
Lemma kepts_more L L' l : Forall (kept L) l -> incl L L' -> Forall (kept L') l.
Proof. intros H Hi. eapply Forall_impl; [|exact H]. intros t Ht. exact (kept_more L L' t Ht Hi). Qed.
(** [m], started with record [L], ends with a record and result related by [P]. *)
Definition ends {A} (L : list (list tree)) (m : built A) (P : list (list tree) -> A -> Prop) : Prop := forall a, snd m = Ok a -> P (L ++ fst m) a.
Lemma ends_bind {A B} L (m : built A) (k : A -> built B) Q P : ends L m Q -> (forall L' a, incl L L' -> Q L' a -> ends L' (k a) P) -> ends L (b_bind m k) P.
Proof.
  intros Hm Hk b Hb. unfold b_bind in *. destruct (snd m) as [a|] eqn:E; [|discriminate Hb]. cbn [fst snd] in *.
  rewrite app_assoc. apply (Hk (L ++ fst m) a); [apply incl_appl, incl_refl|apply Hm, E|exact Hb].
Qed.
Lemma ends_ret {A} L (a : A) (P : list (list tree) -> A -> Prop) : P L a -> ends L (b_ret a) P.
Proof. intros H b Hb. cbn in *. injection Hb as <-. rewrite app_nil_r. exact H. Qed.
Lemma ends_lift {A} L (r : res A) (P : list (list tree) -> A -> Prop) : (forall a, r = Ok a -> P L a) -> ends L (b_lift r) P.
Proof. intros H b Hb. cbn in *. rewrite app_nil_r. exact (H b Hb). Qed.
Lemma ends_tree L cs : Forall (kept L) (tl cs) -> ends L (b_tree cs) kept.
Proof. intros H t Ht. cbn in *. injection Ht as <-. apply kept_node, H. Qed.
Lemma ends_call L h args : Forall (kept L) args -> ends L (b_call h args) kept.
Proof. intros Ha. apply ends_tree. exact Ha. Qed.
Lemma ends_fold {A S} (f : S -> A -> built S) (P : list (list tree) -> S -> Prop) l : (forall L s a, In a l -> P L s -> ends L (f s a) P) -> forall L s, P L s -> ends L (b_fold f l s) P.
Proof.
  induction l as [|a l IH]; intros H L s Hs; [apply ends_ret, Hs|]. cbn [b_fold].
  apply (ends_bind _ _ _ P); [apply H; [left; reflexivity|exact Hs]|]. intros L' s' _ Hs'. apply IH; [|exact Hs']. intros L'' s'' a' Ha. apply H. right. exact Ha.
Qed.
Lemma getitems_In {A} (l : list A) is xs : mapM (getitem l) is = Ok xs -> incl xs l.
Proof.
  intros H. apply mapM_Ok_Forall2 in H. induction H as [|i x is xs Hx _ IH]; [intros y []|]. intros y [<-|Hy]; [|exact (IH y Hy)].
  unfold getitem in Hx. destruct (nth_error l i) eqn:E; [|discriminate]. injection Hx as <-. exact (nth_error_In _ _ E).
Qed.
Lemma Forall_incl_l {A} (P : A -> Prop) l l' : Forall P l -> incl l' l -> Forall P l'.
Proof. rewrite !Forall_forall. auto. Qed.
Lemma last_In {A} (l : list A) x : last_item l = Ok x -> In x l.
Proof. unfold last_item. destruct (rev l) as [|y r] eqn:E; [discriminate|]. intros H. injection H as <-. apply in_rev. rewrite E. left. reflexivity. Qed.
Lemma ends_subs L sf args : Forall (kept L) args -> Forall (fun t => children t = []) (sf_atoms sf) -> ends L (b_subs_call sf args) kept.
Proof.
  intros Ha Hs. unfold b_subs_call. destruct (negb _); [apply ends_lift; discriminate|].
  apply (ends_bind _ _ _ (fun L st => Forall (kept L) st)).
  - apply ends_fold.
    + intros L' st is _ Hst. apply (ends_bind _ _ _ (fun L cs => incl L' L /\ Forall (kept L) cs)).
      { apply ends_lift. intros cs Hcs. split; [apply incl_refl|]. exact (Forall_incl_l _ _ _ Hst (getitems_In _ _ _ Hcs)). }
      intros L2 cs _ [Hi Hcs]. apply (ends_bind _ _ _ kept); [apply ends_tree; eapply Forall_incl_l; [exact Hcs|]; intros y Hy; destruct cs; [destruct Hy|right; exact Hy]|]. intros L3 t Hi3 Ht. apply ends_ret. apply Forall_app. split; [|repeat constructor; exact Ht].
      eapply kepts_more; [exact Hst|]. exact (incl_tran Hi Hi3).
    + apply Forall_app. split; [exact Ha|]. eapply Forall_impl; [|exact Hs]. intros t Ht. apply kept_leaf, Ht.
  - intros L' st _ Hst. apply ends_lift. intros t Ht. rewrite Forall_forall in Hst. apply Hst, last_In, Ht.
Qed.
Lemma cas_rule_atoms func n sf : dict_getitem rule_key_eqb (dp_rules cas_diff) (func, n) = Ok sf -> Forall (fun t => children t = []) (sf_atoms sf).
Proof.
  set (r := dp_rules cas_diff). assert (E : Forall (fun p => Forall (fun t => children t = []) (sf_atoms (snd p))) r) by (vm_compute; repeat constructor).
  clearbody r. unfold dict_getitem. induction E as [|[k v] r Hv _ IH]; [discriminate|]. cbn [dict_get]. destruct (rule_key_eqb (func, n) k); [intros H; injection H as <-; exact Hv|exact IH].
Qed.
Lemma ends_product L args ds : Forall (kept L) args -> Forall (kept L) ds -> ends L (b_product_rule args ds zero Mul) (fun L ts => Forall (kept L) ts).
Proof.
  intros Ha Hd. unfold b_product_rule. assert (G : forall n, ends L (b_fold (fun (terms : list tree) (p : nat * tree) => if negb (tree_eqb (snd p) zero) then b_bind (b_call Mul (firstn (fst p) args ++ [snd p] ++ skipn (fst p + 1) args)) (fun term => b_ret (terms ++ [term])) else b_ret terms) (enumerate_from n ds) []) (fun L' ts => incl L L' /\ Forall (kept L') ts)).
  { intros n. apply ends_fold; [|split; [apply incl_refl|constructor]]. intros L' ts [i d] Hin [Hi Hts]. cbn [fst snd]. destruct (negb _); [|apply ends_ret; auto].
    assert (Hdd : In d ds).
    { clear -Hin. revert n Hin. induction ds as [|a l IH]; intros n Hin; [destruct Hin|]. cbn in Hin. destruct Hin as [E|Hin]; [injection E as _ ->; left; reflexivity|right; exact (IH _ Hin)]. }
    apply (ends_bind _ _ _ kept).
    - apply ends_call. rewrite !Forall_app. assert (Ha' := kepts_more _ _ _ Ha Hi). assert (Hd' := kepts_more _ _ _ Hd Hi). rewrite Forall_forall in Hd'.
      split; [|split; [repeat constructor; exact (Hd' d Hdd)|]]; eapply Forall_incl_l; try exact Ha'; intros y Hy.
      + rewrite <- (firstn_skipn i args). apply in_or_app. left. exact Hy.
      + rewrite <- (firstn_skipn (i + 1) args). apply in_or_app. right. exact Hy.
    - intros L2 t Hi2 Ht. apply ends_ret. split; [exact (incl_tran Hi Hi2)|]. apply Forall_app. split; [exact (kepts_more _ _ _ Hts Hi2)|repeat constructor; exact Ht]. }
  intros ts Hts. exact (proj2 (G 0 ts Hts)).
Qed.
Lemma ends_chain L func args ds : Forall (kept L) args -> Forall (kept L) ds -> ends L (b_chain_rule func args ds zero one Mul (dp_rules cas_diff)) (fun L ts => Forall (kept L) ts).
Proof.
  intros Ha Hd. unfold b_chain_rule. set (f := fun (terms : list tree) (p : nat * tree) => _). assert (G : forall n, ends L (b_fold f (enumerate_from n ds) []) (fun L' ts => incl L L' /\ Forall (kept L') ts)).
  { intros n. apply ends_fold; [|split; [apply incl_refl|constructor]]. intros L' ts [i d] Hin [Hi Hts]. unfold f. cbn [fst snd]. destruct (negb _); [|apply ends_ret; auto].
    assert (Hdd : kept L d).
    { rewrite Forall_forall in Hd. apply Hd. clear -Hin. revert n Hin. induction ds as [|a l IH]; intros n Hin; [destruct Hin|]. cbn in Hin. destruct Hin as [E|Hin]; [injection E as _ ->; left; reflexivity|right; exact (IH _ Hin)]. }
    apply (ends_bind _ _ _ (fun L2 sf => Forall (fun t => children t = []) (sf_atoms sf))).
    { apply ends_lift. intros sf Hsf. exact (cas_rule_atoms _ _ _ Hsf). }
    intros L2 sf Hi2 Hsf. apply (ends_bind _ _ _ kept); [apply ends_subs; [exact (kepts_more _ _ _ Ha (incl_tran Hi Hi2))|exact Hsf]|].
    intros L3 t Hi3 Ht. apply (ends_bind _ _ _ kept).
    { destruct (negb _); [|apply ends_ret, Ht]. apply ends_call. repeat constructor; [exact Ht|]. exact (kept_more _ _ _ Hdd (incl_tran (incl_tran Hi Hi2) Hi3)). }
    intros L4 t' Hi4 Ht'. apply ends_ret. assert (I : incl L' L4) by exact (incl_tran (incl_tran Hi2 Hi3) Hi4). split; [exact (incl_tran Hi I)|]. apply Forall_app. split; [exact (kepts_more _ _ _ Hts I)|repeat constructor; exact Ht']. }
  intros ts Hts. exact (proj2 (G 0 ts Hts)).
Qed.
Lemma ends_terms L func args ds : Forall (kept L) args -> Forall (kept L) ds -> ends L (b_diff_terms cas_diff func args ds) (fun L ts => Forall (kept L) ts).
Proof.
  intros Ha Hd. unfold b_diff_terms. destruct (mem _ _).
  { apply (ends_bind _ _ _ kept); [apply ends_call; assumption|]. intros L' t _ Ht. apply ends_ret. repeat constructor. exact Ht. }
  destruct (all_zero _ _); [apply ends_ret; constructor|]. destruct (tree_eqb _ _).
  { apply ends_ret. eapply Forall_incl_l; [exact Hd|]. intros y Hy. apply filter_In in Hy. tauto. }
  destruct (tree_eqb _ _); [apply ends_product|apply ends_chain]; assumption.
Qed.
Lemma ends_sum L ts : Forall (kept L) ts -> ends L (b_sum_terms cas_diff ts) kept.
Proof.
  intros H. destruct ts as [|t [|t2 l]]; [apply ends_ret, kept_leaf; reflexivity|apply ends_ret; inversion H; assumption|]. apply ends_call. exact H.
Qed.
Lemma ends_step L acc op : Forall (kept L) (fst acc) -> Forall (kept L) (snd acc) ->
  ends L (b_diff_step cas_diff acc op) (fun L acc => Forall (kept L) (fst acc) /\ Forall (kept L) (snd acc)).
Proof.
  intros H1 H2. unfold b_diff_step. apply (ends_bind _ _ _ (fun L args => Forall (kept L) args)).
  { apply ends_lift. intros args E. exact (Forall_incl_l _ _ _ H1 (getitems_In _ _ _ E)). }
  intros L1 args I1 Ha. apply (ends_bind _ _ _ (fun L ds => Forall (kept L) ds)).
  { apply ends_lift. intros ds E. apply (kepts_more L); [|exact I1]. exact (Forall_incl_l _ _ _ H2 (getitems_In _ _ _ E)). }
  intros L2 ds I2 Hd. apply (ends_bind _ _ _ kept); [apply ends_call; exact (kepts_more _ _ _ Ha I2)|].
  intros L3 t I3 Ht. apply (ends_bind _ _ _ (fun L ts => Forall (kept L) ts)); [apply ends_terms; [exact (kepts_more _ _ _ Ha (incl_tran I2 I3))|exact (kepts_more _ _ _ Hd I3)]|].
  intros L4 ts I4 Hts. apply (ends_bind _ _ _ kept); [apply ends_sum, Hts|].
  intros L5 d I5 Hd5. apply ends_ret. assert (I : incl L L5) by exact (incl_tran (incl_tran (incl_tran (incl_tran I1 I2) I3) I4) I5). cbn [fst snd]. rewrite !Forall_app.
  split; (split; [eapply kepts_more; [eassumption|exact I]|repeat constructor]); [exact (kept_more _ _ _ Ht (incl_tran I4 I5))|exact Hd5].
Qed.
Lemma ends_diff_forward L e s : ends L (b_diff_forward e s cas_diff) kept.
Proof.
  destruct (forward_graph_spec e) as (hs & E & _). unfold b_diff_forward. apply (ends_bind _ _ _ (fun L g => Forall (fun t => children t = []) (g_atoms g))).
  { apply ends_lift. intros g Hg. rewrite E in Hg. injection Hg as <-. cbn [g_atoms]. apply Forall_forall. intros t Ht. apply filter_In in Ht as [_ Ht]. unfold childless in Ht. destruct (children t); [reflexivity|discriminate]. }
  intros L1 g _ Hg. apply (ends_bind _ _ _ (fun L acc => Forall (kept L) (fst acc) /\ Forall (kept L) (snd acc))).
  - apply ends_fold; [intros L2 acc op _ [H1 H2]; apply ends_step; assumption|]. cbn [fst snd]. split.
    + eapply Forall_impl; [|exact Hg]. intros t Ht. apply kept_leaf, Ht.
    + apply Forall_map. eapply Forall_impl; [|exact Hg]. intros t Ht. apply kept_leaf. destruct (tree_eqb _ _); reflexivity.
  - intros L2 acc _ [_ H2]. apply ends_lift. intros t Ht. rewrite Forall_forall in H2. apply H2, last_In, Ht.
Qed.
(** Every operation in a derivative was made by one of the recorded calls. *)
Theorem C97_record_is_complete e s n d cs : (0 < n)%Z -> expr_diff e s n = Ok d -> cs <> [] -> reach false [] d (Node cs) -> In cs (fst (b_expr_diff e s n)).
Proof.
  intros Hn Hd. rewrite <- C97_same_derivative in Hd. revert cs. change (kept ([] ++ fst (b_expr_diff e s n)) d). revert d Hd. change (ends [] (b_expr_diff e s n) kept).
  unfold b_expr_diff. destruct (Z.to_nat n) as [|k] eqn:E; [lia|]. cbn [Nat.iter nat_rect].
  apply (ends_bind _ _ _ (fun _ _ => True)); [intros ? _; exact I|]. intros L' a _ _. apply ends_diff_forward.
Qed.
Print Assumptions C97_record_is_complete.
Print Assumptions C97_same_derivative.
Print Assumptions C97_linear_work.
Print Assumptions C97_binary_work.
Print Assumptions C97_repeated_work.

(** x*sin(x) + x**2, and sin(sin(sin(sin(sin(x))))) differentiated six times. *)
Definition work_sample : tree := m_add (m_mul x (tree_call sin [x])) (m_pow x (int 2)).
Definition work_sines : tree := Nat.iter 5 (fun t => tree_call sin [t]) x.
Example C97_case :
  tidy work_sample /\ count_ops_graph work_sample = Ok 6%Z /\ (do l <- topological_sort work_sample false []; Ok (length l, links l)) = Ok (6, 7) /\
  map (fun k => length (fst (b_expr_diff work_sample x k))) [0; 1; 2; 3; 4]%Z = [0; 12; 34; 63; 99] /\
  firstn 5 (fst (b_expr_diff work_sample x 1)) = [[sin; x]; [cos; x]; [Mul; x; tree_call sin [x]]; [Mul; one; tree_call sin [x]]; [Mul; x; tree_call cos [x]]] /\
  (exists d, expr_diff work_sample x 1 = Ok d /\ reach false [] d (tree_call Mul [x; tree_call cos [x]])) /\
  count_ops_graph work_sines = Ok 6%Z /\ map (fun k => length (fst (b_expr_diff work_sines x k))) [1; 2; 3; 4; 5; 6]%Z = [14; 60; 171; 398; 811; 1496] /\
  (* a derivative that raises *)
  (exists ex, expr_diff (m_pow (int 2) x) x 1 = Err ex) /\ length (fst (b_expr_diff (m_pow (int 2) x) x 1)) = 1.
Proof.
  assert (Hx : forall s, tidy (Symbol s)) by (intros s; split; [constructor|apply binary_leaf; reflexivity]).
  split.
  { split; [unfold work_sample; repeat constructor|]. unfold work_sample. apply binary_node; [reflexivity|]. intros c [<-|[<-|[]]].
    - apply binary_node; [reflexivity|]. intros c [<-|[<-|[]]]; [apply binary_leaf; reflexivity|]. apply binary_node; [intros [H|H]; discriminate H|]. intros c [<-|[]]. apply binary_leaf; reflexivity.
    - apply binary_node; [intros [H|H]; discriminate H|]. intros c [<-|[<-|[]]]; apply binary_leaf; reflexivity. }
  split; [vm_compute; reflexivity|]. split; [vm_compute; reflexivity|]. split; [vm_compute; reflexivity|]. split; [vm_compute; reflexivity|]. split.
  { eexists. split; [vm_compute; reflexivity|]. apply ProofTopo.post_reach. vm_compute. tauto. }
  split; [vm_compute; reflexivity|]. split; [vm_compute; reflexivity|]. split; [eexists|]; vm_compute; reflexivity.
Qed.
