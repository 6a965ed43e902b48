(** * C98: wide products, and bin_expand before differentiating *)
From Coq Require Import Reals Lra.
From Verif Require Import Py ModelTree SpecTree ProofBase ModelEval ModelDiff ModelCas SpecEval SpecDiff SpecCas SpecPrint SpecCost SpecReal ProofTopo ProofTree ProofCasDiff
  ProofCas ProofDiff ProofReal ProofLLVM ProofSwell ProofCodeSize PropsCost ProofPoly PropsGrowth PropsPoly PropsCas PropsReal Samples.
From Verif Require Import ProofBin.

(** ** Products of many factors *)
Section Wide.
  Context (s : string).
  Notation X i := (it s i (Node [sin; Symbol s])).
  Definition P (idxs : list nat) : tree := Node (Mul :: map (fun i => X i) idxs).
  Fixpoint bump (i : nat) (l : list nat) : list nat :=
    match l, i with [], _ => [] | a :: r, O => S a :: r | a :: r, S i' => a :: bump i' r end.
  Lemma bump_len i : forall l, length (bump i l) = length l.
  Proof. induction i as [|i IH]; intros [|a l]; cbn; auto. Qed.
  Lemma mapM_dv l : (forall t, In t l -> dv s t <> zero) -> mapM (deriv cas_diff (Symbol s)) l = Ok (map (dv s) l).
  Proof.
    induction l as [|t l IH]; intros H; [reflexivity|]. cbn [mapM map]. rewrite (dv_ok s t (H t (or_introl eq_refl))). cbn [bind]. rewrite IH by (intros u Hu; apply H; right; exact Hu). reflexivity.
  Qed.
  Lemma dependent_all l : (forall t, In t l -> t <> zero) -> dependent zero l = combine (seq 0 (length l)) l.
  Proof.
    unfold dependent. generalize 0 as n. induction l as [|t l IH]; intros n H; [reflexivity|]. cbn [length seq combine filter snd].
    destruct (tree_eqb_spec t zero) as [E|_]; [elim (H t (or_introl eq_refl) E)|]. cbn [negb]. rewrite IH by (intros u Hu; apply H; right; exact Hu). reflexivity.
  Qed.
  Lemma total_many l : 2 <= length l -> total cas_diff l = Node (Add :: l).
  Proof. destruct l as [|a [|b l]]; cbn [length]; intros; [lia|lia|reflexivity]. Qed.
  Lemma dv_add_all ts : 2 <= length ts -> (forall t, In t ts -> dv s t <> zero) -> dv s (Node (Add :: ts)) = Node (Add :: map (dv s) ts).
  Proof.
    intros Hl H. unfold dv at 1. rewrite D_add, mapM_dv by exact H. cbn [bind]. rewrite dependent_all by (intros t Ht; apply in_map_iff in Ht as (u & <- & Hu); apply H, Hu).
    rewrite map_length. assert (E : forall n, map snd (combine (seq n (length ts)) (map (dv s) ts)) = map (dv s) ts).
    { clear. induction ts as [|t ts IH]; intros n; [reflexivity|]. cbn [length seq map combine snd]. rewrite IH. reflexivity. }
    rewrite E, total_many by (rewrite map_length; exact Hl). reflexivity.
  Qed.
  Lemma it_add_all m : forall ts, 2 <= length ts -> (forall t j, In t ts -> j <= m -> it s j t <> zero) -> it s m (Node (Add :: ts)) = Node (Add :: map (it s m) ts).
  Proof.
    induction m as [|m IH]; intros ts Hl H.
    - cbn [it]. do 2 f_equal. clear. induction ts as [|t ts IH]; [reflexivity|]. cbn [map it]. rewrite <- IH. reflexivity.
    - cbn [it]. rewrite dv_add_all by (try exact Hl; intros t Ht; apply (H t 1 Ht); lia). rewrite IH.
      + rewrite map_map. reflexivity.
      + rewrite map_length. exact Hl.
      + intros t j Ht Hj. apply in_map_iff in Ht as (u & <- & Hu). apply (H u (S j) Hu). lia.
  Qed.
  Lemma dv_P idxs : 2 <= length idxs -> dv s (P idxs) = Node (Add :: map (fun i => P (bump i idxs)) (seq 0 (length idxs))).
  Proof.
    intros Hl. unfold dv, P. rewrite D_mul, mapM_dv; [|intros t Ht; apply in_map_iff in Ht as (i & <- & _); rewrite dv_it; apply X_nonzero].
    cbn [bind]. rewrite map_map. rewrite (map_ext (fun i => dv s (X i)) (fun i => X (S i)) (fun i => dv_it s i _)).
    rewrite dependent_all by (intros t Ht; apply in_map_iff in Ht as (i & <- & _); apply X_nonzero). rewrite map_length.
    assert (E : forall (l : list nat) n pre, length pre = n ->
      map (fun id => Node (Mul :: set_nth (map (fun i => X i) (pre ++ l)) (fst id) (snd id))) (combine (seq n (length l)) (map (fun i => X (S i)) l)) =
      map (fun i => Node (Mul :: map (fun i => X i) (bump i (pre ++ l)))) (seq n (length l))).
    { induction l as [|a l IH]; intros n pre Hn; [reflexivity|]. cbn [length seq map combine fst snd]. f_equal.
      - do 2 f_equal. subst n. clear. induction pre as [|b pre IH]; [reflexivity|]. cbn [app map length set_nth bump]. rewrite IH. reflexivity.
      - specialize (IH (S n) (pre ++ [a])). rewrite <- app_assoc in IH. apply IH. rewrite app_length. cbn. lia. }
    specialize (E idxs 0 [] eq_refl). cbn [app] in E. rewrite E. apply total_many. rewrite map_length, seq_length. exact Hl.
  Qed.
  Lemma P_nonzero m : forall idxs, 2 <= length idxs -> it s m (P idxs) <> zero.
  Proof.
    induction m as [[|m] IH] using lt_wf_ind; intros idxs Hl; [discriminate|]. cbn [it]. rewrite dv_P by exact Hl. rewrite it_add_all; [discriminate|rewrite map_length, seq_length; exact Hl|].
    intros t j Ht Hj. apply in_map_iff in Ht as (i & <- & _). apply IH; [lia|]. rewrite bump_len. exact Hl.
  Qed.
  Lemma it_P m idxs : 2 <= length idxs -> it s (S m) (P idxs) = Node (Add :: map (fun i => it s m (P (bump i idxs))) (seq 0 (length idxs))).
  Proof.
    intros Hl. cbn [it]. rewrite dv_P by exact Hl. rewrite it_add_all, map_map; [reflexivity|rewrite map_length, seq_length; exact Hl|].
    intros t j Ht Hj. apply in_map_iff in Ht as (i & <- & _). apply P_nonzero. rewrite bump_len. exact Hl.
  Qed.
  (** Each way of distributing [k] differentiations over the factors gives a term. *)
  Lemma below_bump l l' : Forall2 le l l' -> list_sum l < list_sum l' -> exists i, i < length l /\ Forall2 le (bump i l) l' /\ list_sum (bump i l) = S (list_sum l).
  Proof.
    intros H. induction H as [|a b l l' Hab H IH]; intros Hs; [cbn in Hs; lia|]. unfold list_sum in *. cbn [fold_right] in *. destruct (Nat.eq_dec a b) as [->|Hne].
    - destruct IH as (i & Hi & Hb & He); [lia|]. exists (S i). cbn [length bump fold_right]. split; [lia|]. split; [constructor; [lia|exact Hb]|]. rewrite He. lia.
    - exists 0. cbn [length bump fold_right]. split; [lia|]. split; [constructor; [lia|exact H]|lia].
  Qed.
  Lemma below_same l l' : Forall2 le l l' -> list_sum l = list_sum l' -> l = l'.
  Proof.
    intros H. assert (G : list_sum l <= list_sum l' /\ (list_sum l = list_sum l' -> l = l')); [|apply G].
    induction H as [|a b l l' Hab H [IH1 IH2]]; [split; [lia|reflexivity]|]. unfold list_sum in *. cbn [fold_right]. split; [lia|]. intros E. f_equal; [lia|apply IH2; lia].
  Qed.
  Lemma reach_P k : forall idxs idxs', 2 <= length idxs -> Forall2 le idxs idxs' -> list_sum idxs' = list_sum idxs + k -> reach false [] (it s k (P idxs)) (P idxs').
  Proof.
    induction k as [|k IH]; intros idxs idxs' Hl Hle Hs.
    - rewrite (below_same idxs idxs' Hle) by lia. apply reach_refl.
    - destruct (below_bump idxs idxs' Hle ltac:(lia)) as (i & Hi & Hb & He). rewrite it_P by exact Hl.
      apply (reach_arg Add _ (it s k (P (bump i idxs)))); [apply (in_map (fun i => it s k (P (bump i idxs)))), in_seq; lia|].
      apply IH; [rewrite bump_len; exact Hl|exact Hb|lia].
  Qed.
  (** One of each pair of factors differentiated. *)
  Fixpoint code (b : list bool) : list nat := match b with [] => [] | true :: r => 1 :: 0 :: code r | false :: r => 0 :: 1 :: code r end.
  Fixpoint bits (m : nat) : list (list bool) := match m with O => [[]] | S m => map (cons true) (bits m) ++ map (cons false) (bits m) end.
  Lemma bits_len m : length (bits m) = 2 ^ m.
  Proof. induction m as [|m IH]; [reflexivity|]. cbn [bits Nat.pow]. rewrite app_length, !map_length, IH. lia. Qed.
  Lemma bits_in m : forall b, In b (bits m) -> length b = m.
  Proof.
    induction m as [|m IH]; cbn [bits]; intros b Hb; [destruct Hb as [<-|[]]; reflexivity|].
    apply in_app_or in Hb as [Hb|Hb]; apply in_map_iff in Hb as (b' & <- & Hb); cbn; rewrite (IH b' Hb); reflexivity.
  Qed.
  Lemma bits_NoDup m : NoDup (bits m).
  Proof.
    induction m as [|m IH]; cbn [bits]; [repeat constructor; intros []|].
    assert (G : forall b, NoDup (map (cons b) (bits m))) by (intros b; apply FinFun.Injective_map_NoDup; [intros u v E; injection E; auto|exact IH]).
    assert (H : forall u, In u (map (cons true) (bits m)) -> ~ In u (map (cons false) (bits m))).
    { intros u Hu Hu'. apply in_map_iff in Hu as (v & <- & _). apply in_map_iff in Hu' as (w & E & _). discriminate E. }
    clear IH. revert H. specialize (G true) as G1. specialize (G false) as G2. clear G. induction G1 as [|u l Hu _ IH]; intros H; [exact G2|]. cbn [app]. constructor.
    - rewrite in_app_iff. intros [K|K]; [exact (Hu K)|exact (H u (or_introl eq_refl) K)].
    - apply IH. intros v Hv. apply H. right. exact Hv.
  Qed.
  Lemma code_spec b : length (code b) = 2 * length b /\ Forall2 le (repeat 0 (2 * length b)) (code b) /\ list_sum (code b) = length b.
  Proof.
    induction b as [|[|] b (IH1 & IH2 & IH3)]; [repeat constructor| |]; unfold list_sum in *; cbn [code length fold_right]; replace (2 * S (length b)) with (S (S (2 * length b))) by lia; cbn [repeat];
      repeat split; try lia; repeat (constructor; [lia|]); exact IH2.
  Qed.
  Lemma X01 : X 0 <> X 1.
  Proof. cbn [it]. unfold dv. rewrite D_sin, sym_D, String.eqb_refl. discriminate. Qed.
  Lemma code_inj b : forall b', P (code b) = P (code b') -> b = b'.
  Proof.
    assert (G : forall b b', map (fun i => X i) (code b) = map (fun i => X i) (code b') -> b = b'); [|intros b' E; injection E as E; exact (G b b' E)].
    clear b. induction b as [|[|] b IH]; intros [|[|] b'] E; try discriminate E; [reflexivity| | | |]; cbn [code map] in E; pose proof X01 as N.
    - f_equal. apply IH. exact (f_equal (skipn 2) E).
    - assert (E1 := f_equal (hd zero) E). cbn [hd] in E1. elim N. symmetry. exact E1.
    - assert (E1 := f_equal (hd zero) E). cbn [hd] in E1. elim N. exact E1.
    - f_equal. apply IH. exact (f_equal (skipn 2) E).
  Qed.
End Wide.

(** [2 m] factors sin(x): the expression has three distinct parts, its [m]-th derivative at least 2^m. *)
Lemma wide_P s n : Node (Mul :: repeat (Node [sin; Symbol s]) n) = P s (repeat 0 n).
Proof. unfold P. do 2 f_equal. induction n as [|n IH]; [reflexivity|]. cbn [repeat map]. rewrite <- IH. reflexivity. Qed.
Theorem C98_wide_products_refuted s m : 1 <= m -> let e := Node (Mul :: repeat (Node [sin; Symbol s]) (2 * m)) in
  arith e /\ count_ops_graph e = Ok 3%Z /\
  exists d n, expr_diff e (Symbol s) (Z.of_nat m) = Ok d /\ count_ops_graph d = Ok n /\ (2 ^ Z.of_nat m <= n)%Z.
Proof.
  intros Hm e. assert (Hl : 2 <= length (repeat 0 (2 * m))) by (rewrite repeat_length; lia).
  assert (Ha : arith e) by (constructor; apply Forall_forall; intros t Ht; apply repeat_spec in Ht; subst t; repeat constructor).
  split; [exact Ha|]. split.
  { destruct (graph_total e) as [n Hn]. rewrite Hn. apply graph_size in Hn as (l & -> & Hnd & Hr & _). f_equal. change 3%Z with (Z.of_nat (length [e; Node [sin; Symbol s]; Symbol s])). f_equal.
    assert (Hi : forall u, In u l <-> In u [e; Node [sin; Symbol s]; Symbol s]).
    { intros u. rewrite Hr. split.
      - intros H. apply reach_node_inv in H as [->|(c & Hc & H)]; [left; reflexivity|]. apply repeat_spec in Hc. subst c. apply R1 in H as [->|H]; [right; left; reflexivity|]. apply reach_leaf in H; [|reflexivity]. right. right. left. symmetry. exact H.
      - assert (Hin : In (Node [sin; Symbol s]) (repeat (Node [sin; Symbol s]) (2 * m))) by (destruct (2 * m) eqn:E; [lia|left; reflexivity]).
        intros [<-|[<-|[<-|[]]]]; [apply reach_refl|eapply reach_arg; [exact Hin|apply reach_refl]|]. eapply reach_arg; [exact Hin|]. eapply reach_arg; [left; reflexivity|apply reach_refl]. }
    assert (N3 : NoDup [e; Node [sin; Symbol s]; Symbol s]).
    { constructor; [|repeat constructor; cbn; intuition discriminate]. intros [H|[H|[]]]; discriminate H. }
    apply Nat.le_antisymm; [apply (NoDup_incl_length Hnd)|apply (NoDup_incl_length N3)]; intros u Hu; apply Hi, Hu. }
  destruct (graph_total (it s m e)) as [n Hn]. exists (it s m e), n. split.
  { apply XX_diff. intros j. unfold e. rewrite wide_P. apply P_nonzero, Hl. }
  split; [exact Hn|]. apply graph_size in Hn as (l & -> & Hnd & Hr & _).
  assert (H : length (map (fun b => P s (code b)) (bits m)) <= length l).
  { apply NoDup_incl_length.
    - apply FinFun.Injective_map_NoDup; [intros b b' E; exact (code_inj s b b' E)|apply bits_NoDup].
    - intros t Ht. apply in_map_iff in Ht as (b & <- & Hb). apply Hr. unfold e. rewrite wide_P. apply bits_in in Hb. destruct (code_spec b) as (_ & H2 & H3). rewrite Hb in H2, H3.
      apply reach_P; [exact Hl|exact H2|]. rewrite H3. clear. induction (2 * m) as [|k IH]; [reflexivity|exact IH]. }
  rewrite map_length, bits_len in H. change 2%Z with (Z.of_nat 2). rewrite <- Nat2Z.inj_pow. apply Nat2Z.inj_le. exact H.
Qed.

(** ** bin_expand first *)
Lemma leaf_covers e : forall e', meaning bin_leaf bin_op e = Ok e' -> forall u, reach false [] e' u -> children u = [] -> reach false [] e u.
Proof.
  induction e as [a|cs IH] using tree_ind_all; intros e' H u Hr Hs.
  - injection H as <-. exact Hr.
  - destruct cs as [|h args]; [discriminate|]. cbn [meaning] in H.
    destruct (mapM (meaning bin_leaf bin_op) args) as [vs|x] eqn:E; [|discriminate]. cbn [bind] in H.
    assert (G : exists v, In v vs /\ reach false [] v u).
    { assert (K : forall h' : tree, reduce (call2 h') vs = Ok e' -> exists v, In v vs /\ reach false [] v u).
      { intros h' H'. apply (reduce_reach _ _ _ _ H') in Hr as [Hr|Hr]; [|exact Hr]. exfalso. destruct vs as [|v r]; [destruct Hr|]. clear -Hr Hs. revert v Hr.
        induction r as [|a r IHr]; intros v Hr; [destruct Hr|]. destruct Hr as [<-|Hr]; [discriminate Hs|exact (IHr _ Hr)]. }
      unfold bin_op in H. destruct (tree_eqb h Add); [exact (K _ H)|]. destruct (tree_eqb h Mul); [exact (K _ H)|].
      injection H as <-. apply reach_node_inv in Hr as [->|Hr]; [discriminate Hs|exact Hr]. }
    destruct G as (v & Hv & G). apply mapM_Ok_Forall2 in E. assert (Ha : exists a, In a args /\ meaning bin_leaf bin_op a = Ok v).
    { clear - E Hv. induction E as [|a w l l' Haw _ IH]; [destruct Hv|]. destruct Hv as [->|Hv]; [exists a; split; [left; reflexivity|exact Haw]|].
      destruct (IH Hv) as (b & Hb & Hbv). exists b. split; [right; exact Hb|exact Hbv]. }
    destruct Ha as (a & Ha & Hav). exact (reach_arg h args a u Ha (IH a (or_intror Ha) v Hav u G Hs)).
Qed.
(** The expanded expression has at most as many distinct parts as the original has parts and links. *)
Theorem C98_bin_expand_size e e' l m : bin_expand e = Ok e' -> topological_sort e false [] = Ok l -> count_ops_graph e' = Ok m ->
  (m <= Z.of_nat (length l + links l))%Z.
Proof.
  intros H Hl Hm. apply bin_expand_meaning in H. apply graph_size in Hm as (l' & -> & Hnd & Hr' & _). apply Nat2Z.inj_le.
  destruct (topological_sort_full e false) as (l1 & E1 & _ & Hr & _). rewrite Hl in E1. injection E1 as ->.
  set (own := fun t : tree => match children t with [] => [t] | _ => news t end).
  assert (Hi : incl l' (flat_map own (l1 ++ [e]))).
  { intros u Hu. apply Hr' in Hu. apply in_flat_map. destruct (children u) eqn:E.
    - exists u. split; [apply Hr, (leaf_covers e e' H u Hu E)|]. unfold own. rewrite E. left. reflexivity.
    - destruct (news_covers e e' H u Hu) as (t1 & Ht & Hin); [rewrite E; discriminate|]. exists t1. split; [apply Hr, Ht|]. unfold own. destruct t1 as [a|[|h args]]; [destruct Hin|destruct Hin|exact Hin]. }
  apply (NoDup_incl_length Hnd) in Hi. etransitivity; [exact Hi|]. rewrite flat_map_len. unfold links. generalize (l1 ++ [e]) as ts. clear.
  induction ts as [|t ts IH]; [cbn; lia|]. unfold list_sum in *. cbn [map fold_right length].
  assert (length (own t) <= 1 + length (kids false t)); [|lia]. unfold own. destruct t as [a|[|h args]]; [cbn; lia|cbn; lia|]. cbn [children].
  destruct args as [|a args]; [|pose proof (news_length (Node (h :: a :: args)) ltac:(discriminate)); lia].
  cbn [news mapM]. destruct (tree_eqb h Add); [cbn; lia|]. destruct (tree_eqb h Mul); cbn; lia.
Qed.
Lemma nest_arith h r : h = Add \/ h = Mul -> Forall arith r -> forall v, arith v -> arith (fold_left (call2 h) r v).
Proof.
  intros Hh Hr. induction Hr as [|a r Ha _ IH]; intros v Hv; [exact Hv|]. cbn [fold_left]. apply IH. unfold call2, tree_call. destruct Hh as [->| ->]; constructor; repeat constructor; assumption.
Qed.
Lemma bin_arith e : arith e -> forall e', meaning bin_leaf bin_op e = Ok e' -> arith e'.
Proof.
  intros He. induction He as [n|t|args Har IH|args Har IH|a Ha IH|a Ha IH|a b Ha Hb IHa IHb] using arith_ind_all; intros e' H.
  - injection H as <-. constructor.
  - injection H as <-. constructor.
  - cbn [meaning] in H. destruct (mapM (meaning bin_leaf bin_op) args) as [vs|] eqn:E; [|discriminate]. cbn [bind] in H. apply mapM_Ok_Forall2 in E.
    assert (G : Forall arith vs). { clear H Har. induction E as [|a v args vs Hv _ IHE]; [constructor|]. inversion IH; subst. constructor; [auto|apply IHE; assumption]. }
    change (bin_op Add vs) with (reduce (call2 Add) vs) in H. destruct vs as [|v r]; [discriminate|]. injection H as <-. inversion G; subst. apply nest_arith; auto.
  - cbn [meaning] in H. destruct (mapM (meaning bin_leaf bin_op) args) as [vs|] eqn:E; [|discriminate]. cbn [bind] in H. apply mapM_Ok_Forall2 in E.
    assert (G : Forall arith vs). { clear H Har. induction E as [|a v args vs Hv _ IHE]; [constructor|]. inversion IH; subst. constructor; [auto|apply IHE; assumption]. }
    change (bin_op Mul vs) with (reduce (call2 Mul) vs) in H. destruct vs as [|v r]; [discriminate|]. injection H as <-. inversion G; subst. apply nest_arith; auto.
  - cbn [meaning mapM] in H. destruct (meaning bin_leaf bin_op a) as [v|]; [|discriminate]. injection H as <-. constructor. apply IH. reflexivity.
  - cbn [meaning mapM] in H. destruct (meaning bin_leaf bin_op a) as [v|]; [|discriminate]. injection H as <-. constructor. apply IH. reflexivity.
  - cbn [meaning mapM] in H. destruct (meaning bin_leaf bin_op a) as [v|]; [|discriminate]. cbn [bind] in H. destruct (meaning bin_leaf bin_op b) as [w|]; [|discriminate]. injection H as <-. constructor; [apply IHa|apply IHb]; reflexivity.
Qed.
(** Any expression, expanded first: repeated derivatives stay polynomial. *)
Theorem C98_expand_then_differentiate s e e' k d l m : arith e -> bin_expand e = Ok e' -> expr_diff e' (Symbol s) (Z.of_nat k) = Ok d ->
  topological_sort e false [] = Ok l -> count_ops_graph d = Ok m -> (m <= 5 * Z.of_nat (length l + links l) * (Z.of_nat k + 1) ^ 4 + 3)%Z.
Proof.
  intros Ha He Hd Hl Hm. destruct (graph_total e') as [n Hn]. pose proof (C98_bin_expand_size e e' l n He Hl Hn) as Hs.
  destruct (C39_bin_expand e e' He) as (Hb & _ & _). assert (Ha' : arith e') by (apply (bin_arith e Ha), bin_expand_meaning, He).
  pose proof (C96_repeated_derivative s e' k d n m Ha' Hb Hd Hn Hm). assert (0 <= (Z.of_nat k + 1) ^ 4)%Z by (apply Z.pow_nonneg; lia). nia.
Qed.

(** ** Expressions with the same values have derivatives with the same values *)
Local Open Scope R_scope.
Lemma near_all (a : R) (Q : nat -> R -> Prop) k : (forall j, (j < k)%nat -> exists delta, 0 < delta /\ forall u, Rabs (u - a) < delta -> Q j u) ->
  exists delta, 0 < delta /\ forall u, Rabs (u - a) < delta -> forall j, (j < k)%nat -> Q j u.
Proof.
  induction k as [|k IH]; intros H; [exists 1; split; [lra|]; intros; lia|]. destruct IH as (d1 & H1 & G1); [intros j Hj; apply H; lia|]. destruct (H k ltac:(lia)) as (d2 & H2 & G2).
  exists (Rmin d1 d2). split; [apply Rmin_glb_lt; assumption|]. intros u Hu j Hj. destruct (Nat.eq_dec j k) as [->|]; [apply G2|apply G1; [|lia]].
  - eapply Rlt_le_trans; [exact Hu|apply Rmin_r].
  - eapply Rlt_le_trans; [exact Hu|apply Rmin_l].
Qed.
Lemma derivative_local F G a l delta : 0 < delta -> (forall u, Rabs (u - a) < delta -> F u = G u) -> derivable_pt_lim F a l -> derivable_pt_lim G a l.
Proof.
  intros Hd HFG HF eps He. destruct (HF eps He) as (d & Hd'). exists (mkposreal (Rmin d delta) (Rmin_glb_lt _ _ _ (cond_pos d) Hd)). intros h Hh Hlt. cbn [pos] in Hlt.
  rewrite <- !HFG.
  - apply Hd'; [exact Hh|]. eapply Rlt_le_trans; [exact Hlt|apply Rmin_l].
  - replace (a - a) with 0 by ring. rewrite Rabs_R0. exact Hd.
  - replace (a + h - a) with h by ring. eapply Rlt_le_trans; [exact Hlt|apply Rmin_r].
Qed.
Lemma expr_diff_next e s j d d1 : expr_diff e (Symbol s) (Z.of_nat j) = Ok d -> expr_diff e (Symbol s) (Z.of_nat (S j)) = Ok d1 -> expr_diff d (Symbol s) 1 = Ok d1.
Proof.
  unfold expr_diff. rewrite !Nat2Z.id. change (Z.to_nat 1) with 1%nat. revert e. induction j as [|j IH]; intros e H H1.
  - injection H as <-. exact H1.
  - cbn [repeatM] in H, H1. destruct (sym_diff_call cas_diff e (Symbol s) 1) as [e1|]; [|discriminate]. cbn [bind] in H, H1. exact (IH e1 H H1).
Qed.
Lemma defined_near env e s d v v' : expr_diff e (Symbol s) 1 = Ok d -> reval env e = Some v -> reval env d = Some v' ->
  exists delta, 0 < delta /\ forall u, Rabs (u - env s) < delta -> reval (upd env s u) e <> None.
Proof. intros Hd Hv Hv'. destruct (C24_diff_is_the_derivative env e s d v v' Hd Hv Hv') as (F & delta & Hp & HF & _). exists delta. split; [exact Hp|]. intros u Hu. rewrite (HF u Hu). discriminate. Qed.
(** Wherever the derivatives up to the [k]-th are defined, they are equal. *)
Theorem C98_same_values s e e' ds ds' k : (forall env, reval env e = reval env e') ->
  (forall j, (j <= k)%nat -> expr_diff e (Symbol s) (Z.of_nat j) = Ok (ds j) /\ expr_diff e' (Symbol s) (Z.of_nat j) = Ok (ds' j)) ->
  forall env, (forall j, (j <= k)%nat -> reval env (ds j) <> None /\ reval env (ds' j) <> None) -> reval env (ds k) = reval env (ds' k).
Proof.
  intros Hee. induction k as [|k IH]; intros Hds env Hdef.
  - destruct (Hds 0%nat ltac:(lia)) as [H H']. injection H as <-. injection H' as <-. apply Hee.
  - assert (Hds' : forall j, (j <= k)%nat -> expr_diff e (Symbol s) (Z.of_nat j) = Ok (ds j) /\ expr_diff e' (Symbol s) (Z.of_nat j) = Ok (ds' j)) by (intros; apply Hds; lia).
    assert (Hnext : forall j, (j < S k)%nat -> expr_diff (ds j) (Symbol s) 1 = Ok (ds (S j)) /\ expr_diff (ds' j) (Symbol s) 1 = Ok (ds' (S j))).
    { intros j Hj. destruct (Hds j ltac:(lia)) as [A A'], (Hds (S j) ltac:(lia)) as [B B']. split; eapply expr_diff_next; eassumption. }
    assert (Hnear : exists delta, 0 < delta /\ forall u, Rabs (u - env s) < delta -> forall j, (j < S k)%nat -> reval (upd env s u) (ds j) <> None /\ reval (upd env s u) (ds' j) <> None).
    { apply (near_all (env s) (fun j u => reval (upd env s u) (ds j) <> None /\ reval (upd env s u) (ds' j) <> None)). intros j Hj. destruct (Hnext j Hj) as [A A'].
      destruct (Hdef j ltac:(lia)) as [D0 D0'], (Hdef (S j) ltac:(lia)) as [D1 D1'].
      destruct (reval env (ds j)) as [v|] eqn:Ev; [|elim D0; reflexivity]. destruct (reval env (ds (S j))) as [v1|] eqn:Ev1; [|elim D1; reflexivity].
      destruct (reval env (ds' j)) as [w|] eqn:Ew; [|elim D0'; reflexivity]. destruct (reval env (ds' (S j))) as [w1|] eqn:Ew1; [|elim D1'; reflexivity].
      destruct (defined_near env _ s _ _ _ A Ev Ev1) as (d1 & P1 & G1). destruct (defined_near env _ s _ _ _ A' Ew Ew1) as (d2 & P2 & G2).
      exists (Rmin d1 d2). split; [apply Rmin_glb_lt; assumption|]. intros u Hu. split; [apply G1|apply G2]; eapply Rlt_le_trans; try exact Hu; [apply Rmin_l|apply Rmin_r]. }
    destruct Hnear as (delta & Hp & Hnear). destruct (Hnext k ltac:(lia)) as [A A']. destruct (Hdef k ltac:(lia)) as [D0 D0'], (Hdef (S k) ltac:(lia)) as [D1 D1'].
    destruct (reval env (ds k)) as [v|] eqn:Ev; [|elim D0; reflexivity]. destruct (reval env (ds (S k))) as [v1|] eqn:Ev1; [|elim D1; reflexivity].
    destruct (reval env (ds' k)) as [w|] eqn:Ew; [|elim D0'; reflexivity]. destruct (reval env (ds' (S k))) as [w1|] eqn:Ew1; [|elim D1'; reflexivity].
    destruct (C24_diff_is_the_derivative env _ s _ _ _ A Ev Ev1) as (F & d1 & P1 & G1 & L1). destruct (C24_diff_is_the_derivative env _ s _ _ _ A' Ew Ew1) as (F' & d2 & P2 & G2 & L2).
    f_equal. apply (uniqueness_limite F' (env s)); [|exact L2]. apply (derivative_local F F' _ _ (Rmin delta (Rmin d1 d2))); [repeat apply Rmin_glb_lt; assumption| |exact L1].
    intros u Hu. assert (Hu0 : Rabs (u - env s) < delta) by (eapply Rlt_le_trans; [exact Hu|apply Rmin_l]).
    assert (Hu1 : Rabs (u - env s) < d1) by (eapply Rlt_le_trans; [exact Hu|]; eapply Rle_trans; [apply Rmin_r|apply Rmin_l]).
    assert (Hu2 : Rabs (u - env s) < d2) by (eapply Rlt_le_trans; [exact Hu|]; eapply Rle_trans; [apply Rmin_r|apply Rmin_r]).
    assert (E : reval (upd env s u) (ds k) = reval (upd env s u) (ds' k)) by (apply IH; [exact Hds'|]; intros j Hj; apply Hnear; [exact Hu0|lia]).
    rewrite (G1 u Hu1), (G2 u Hu2) in E. injection E as E. exact E.
Qed.
Local Close Scope R_scope.
Print Assumptions C98_wide_products_refuted.
Print Assumptions C98_bin_expand_size.
Print Assumptions C98_expand_then_differentiate.
Print Assumptions C98_same_values.

(** bin_expand gives such an expression. *)
Theorem C98_expanded_derivatives s e e' ds ds' k : bin_expand e = Ok e' ->
  (forall j, j <= k -> expr_diff e (Symbol s) (Z.of_nat j) = Ok (ds j) /\ expr_diff e' (Symbol s) (Z.of_nat j) = Ok (ds' j)) ->
  forall env, (forall j, j <= k -> reval env (ds j) <> None /\ reval env (ds' j) <> None) -> reval env (ds k) = reval env (ds' k).
Proof. intros He. apply C98_same_values. intros env. symmetry. apply (C39_bin_expand e e' He). Qed.
Print Assumptions C98_expanded_derivatives.

Definition wide_sample : tree := tree_call Mul (repeat (tree_call sin [x]) 6).
Definition wide_binary : tree := Nat.iter 5 (fun t => m_mul t (tree_call sin [x])) (tree_call sin [x]).
Example C98_case :
  arith wide_sample /\ count_ops_graph wide_sample = Ok 3%Z /\ (do d <- expr_diff wide_sample x 3; count_ops_graph d) = Ok 90%Z /\
  bin_expand wide_sample = Ok wide_binary /\ count_ops_graph wide_binary = Ok 7%Z /\
  (do l <- topological_sort wide_sample false []; Ok (length l, links l)) = Ok (3, 7) /\
  (do d <- expr_diff wide_binary x 3; count_ops_graph d) = Ok 96%Z /\
  (* different expressions, both defined everywhere *)
  (exists d d', expr_diff wide_sample x 1 = Ok d /\ expr_diff wide_binary x 1 = Ok d' /\ d <> d' /\
     forall env, reval env wide_sample <> None /\ reval env wide_binary <> None /\ reval env d <> None /\ reval env d' <> None).
Proof.
  split; [unfold wide_sample, tree_call; constructor; repeat constructor|].
  repeat (split; [vm_compute; reflexivity|]).
  destruct (expr_diff wide_sample x 1) as [d|] eqn:E; [|vm_compute in E; discriminate E]. destruct (expr_diff wide_binary x 1) as [d'|] eqn:E'; [|vm_compute in E'; discriminate E'].
  exists d, d'. vm_compute in E, E'. injection E as <-. injection E' as <-. split; [reflexivity|]. split; [reflexivity|]. split; [discriminate|].
  intros env. repeat split; cbn; discriminate.
Qed.
