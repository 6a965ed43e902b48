(** * Basic lemmas: tree induction, decidable equality, dicts, monadic maps. *)
From Verif Require Import Py ModelTree SpecTree.

(** Induction over trees with the hypothesis for all children. *)
Lemma tree_ind_all (P : tree -> Prop)
  (Hatm : forall a, P (Atm a))
  (Hnode : forall cs, (forall c, In c cs -> P c) -> P (Node cs)) :
  forall t, P t.
Proof.
  fix IH 1. intros [a|cs].
  - apply Hatm.
  - apply Hnode. induction cs as [|c cs IHcs]; intros d Hd.
    + destruct Hd.
    + destruct Hd as [<-|Hd]; [apply IH | apply IHcs, Hd].
Qed.

Fixpoint tsize (t : tree) : nat :=
  match t with Atm _ => 1 | Node cs => S (list_sum (map tsize cs)) end.

Lemma list_sum_in (n : nat) l : In n l -> n <= list_sum l.
Proof.
  induction l as [|m l IH]; intros Hin; [destruct Hin|].
  destruct Hin as [->|Hin]; simpl; [lia|]. specialize (IH Hin). lia.
Qed.

Lemma tsize_child c t : In c (children t) -> tsize c < tsize t.
Proof.
  destruct t as [a|cs]; simpl; [intros []|].
  intros H. apply (in_map tsize) in H. apply list_sum_in in H. lia.
Qed.

Lemma tsize_pos t : 0 < tsize t.
Proof. destruct t; simpl; lia. Qed.

(** ** equality *)
Lemma atype_eqb_spec s t : reflect (s = t) (atype_eqb s t).
Proof.
  destruct s as [i n], t as [j m]; unfold atype_eqb; simpl.
  destruct (Nat.eqb_spec i j) as [->|Hn]; simpl.
  - destruct (String.eqb_spec n m) as [->|Hm]; constructor; congruence.
  - constructor; congruence.
Qed.

Lemma pyval_eqb_spec s t : reflect (s = t) (pyval_eqb s t).
Proof.
  destruct s as [i|n], t as [j|m]; simpl; try (constructor; congruence).
  - destruct (Z.eqb_spec i j) as [->|Hn]; constructor; congruence.
  - destruct (String.eqb_spec n m) as [->|Hm]; constructor; congruence.
Qed.

Lemma atom_eqb_spec s t : reflect (s = t) (atom_eqb s t).
Proof.
  destruct s as [i n], t as [j m]; unfold atom_eqb; simpl.
  destruct (atype_eqb_spec i j) as [->|Hn]; simpl.
  - destruct (pyval_eqb_spec n m) as [->|Hm]; constructor; congruence.
  - constructor; congruence.
Qed.

Lemma tree_eqb_iff s : forall t, tree_eqb s t = true <-> s = t.
Proof.
  induction s as [a|cs IH] using tree_ind_all; intros [b|ds]; simpl;
    try (split; congruence).
  - destruct (atom_eqb_spec a b) as [->|H]; split; congruence.
  - revert ds. induction cs as [|c cs IHcs]; intros [|d ds]; try (split; congruence).
    rewrite andb_true_iff, IH by (left; reflexivity).
    assert (IHcs' : forall ds, (fix go (l m : list tree) : bool :=
         match l, m with
         | [], [] => true
         | x :: l', y :: m' => tree_eqb x y && go l' m'
         | _, _ => false
         end) cs ds = true <-> Node cs = Node ds).
    { apply IHcs. intros e He. apply IH. right; exact He. }
    rewrite IHcs'. split; [intros [-> H2]; congruence | intros [= -> ->]; auto].
Qed.

Lemma tree_eqb_spec s t : reflect (s = t) (tree_eqb s t).
Proof. apply iff_reflect. symmetry. apply tree_eqb_iff. Qed.

Lemma tree_eqb_refl t : tree_eqb t t = true.
Proof. apply tree_eqb_iff; reflexivity. Qed.

Lemma tree_eqb_sym s t : tree_eqb s t = tree_eqb t s.
Proof. destruct (tree_eqb_spec s t), (tree_eqb_spec t s); congruence. Qed.

Lemma tree_eq_dec (s t : tree) : {s = t} + {s <> t}.
Proof. destruct (tree_eqb_spec s t); [left|right]; assumption. Qed.

Lemma mem_spec t S : reflect (In t S) (mem t S).
Proof.
  apply iff_reflect. unfold mem. rewrite existsb_exists. split.
  - intros H. exists t. split; [exact H | apply tree_eqb_refl].
  - intros (x & Hx & He). apply tree_eqb_iff in He. congruence.
Qed.

Lemma mem_true t S : mem t S = true <-> In t S.
Proof. destruct (mem_spec t S); split; intros; auto; congruence. Qed.
Lemma mem_false t S : mem t S = false <-> ~ In t S.
Proof. destruct (mem_spec t S); split; intros; auto; try congruence; contradiction. Qed.

Lemma intersects_spec A B : intersects A B = true <-> exists t, In t A /\ In t B.
Proof.
  unfold intersects. rewrite existsb_exists.
  split; intros (x & H1 & H2); exists x; split; auto; apply mem_true; auto.
Qed.

(** ** pop / rev *)
Lemma pop_rev {A} (x : A) l : pop (rev (x :: l)) = Some (x, rev l).
Proof. unfold pop. rewrite rev_involutive. reflexivity. Qed.
Lemma pop_nil {A} : pop (@nil A) = None.
Proof. reflexivity. Qed.

Lemma last_item_app {A} (l : list A) x : last_item (l ++ [x]) = Ok x.
Proof. unfold last_item. rewrite rev_app_distr. reflexivity. Qed.

(** ** dicts *)
Section DictLemmas.
  Context {K V : Type} (eqb : K -> K -> bool) (eqb_spec : forall a b, reflect (a = b) (eqb a b)).

  Lemma dict_get_set_same (d : dict K V) k v : dict_get eqb (dict_set eqb d k v) k = Some v.
  Proof.
    induction d as [|[k' v'] d IH]; simpl.
    - destruct (eqb_spec k k); congruence.
    - destruct (eqb_spec k k') as [->|Hn]; simpl.
      + destruct (eqb_spec k' k'); congruence.
      + destruct (eqb_spec k k'); [contradiction | exact IH].
  Qed.

  Lemma dict_get_set_other (d : dict K V) k v k2 :
    k2 <> k -> dict_get eqb (dict_set eqb d k v) k2 = dict_get eqb d k2.
  Proof.
    intros Hne. induction d as [|[k' v'] d IH]; simpl.
    - destruct (eqb_spec k2 k); congruence.
    - destruct (eqb_spec k k') as [->|Hn]; simpl.
      + destruct (eqb_spec k2 k'); congruence.
      + destruct (eqb_spec k2 k'); [reflexivity | exact IH].
  Qed.

  Lemma dict_get_set (d : dict K V) k v k2 :
    dict_get eqb (dict_set eqb d k v) k2 = if eqb k2 k then Some v else dict_get eqb d k2.
  Proof.
    destruct (eqb_spec k2 k) as [->|Hn].
    - apply dict_get_set_same.
    - apply dict_get_set_other, Hn.
  Qed.

  Lemma dict_get_app (d1 d2 : dict K V) k :
    dict_get eqb (d1 ++ d2) k =
    match dict_get eqb d1 k with Some v => Some v | None => dict_get eqb d2 k end.
  Proof.
    induction d1 as [|[k' v'] d IH]; simpl; [reflexivity|].
    destruct (eqb k k'); auto.
  Qed.

  Lemma dict_update_get (pairs : list (K * V)) : forall d k,
    dict_get eqb (dict_update eqb d pairs) k =
    match dict_get eqb (rev pairs) k with Some v => Some v | None => dict_get eqb d k end.
  Proof.
    induction pairs as [|[k' v'] r IH]; intros d k; simpl; [reflexivity|].
    unfold dict_update in *. simpl. rewrite IH, dict_get_app. simpl.
    destruct (dict_get eqb (rev r) k); [reflexivity|].
    rewrite dict_get_set. destruct (eqb k k'); reflexivity.
  Qed.

  Lemma dict_get_In (d : dict K V) k v : dict_get eqb d k = Some v -> In (k, v) d.
  Proof.
    induction d as [|[k' v'] d IH]; simpl; [congruence|].
    destruct (eqb_spec k k') as [->|Hn]; intros H.
    - left; congruence.
    - right; auto.
  Qed.

  Lemma dict_get_None (d : dict K V) k : dict_get eqb d k = None <-> ~ In k (map fst d).
  Proof.
    induction d as [|[k' v'] d IH]; simpl; [intuition|].
    destruct (eqb_spec k k') as [->|Hn].
    - split; [congruence | intros H; exfalso; auto].
    - rewrite IH. intuition.
  Qed.

  Lemma dict_get_NoDup (d : dict K V) k v :
    NoDup (map fst d) -> In (k, v) d -> dict_get eqb d k = Some v.
  Proof.
    induction d as [|[k' v'] d IH]; simpl; intros Hnd Hin; [destruct Hin|].
    inversion Hnd as [|? ? Hni Hnd']; subst.
    destruct Hin as [[= -> ->]|Hin].
    - destruct (eqb_spec k k); congruence.
    - destruct (eqb_spec k k') as [->|Hn]; [|auto].
      exfalso. apply Hni. apply (in_map fst) in Hin. exact Hin.
  Qed.

  Lemma dict_set_new (d : dict K V) k v :
    ~ In k (map fst d) -> dict_set eqb d k v = d ++ [(k, v)].
  Proof.
    induction d as [|[k' v'] d IH]; simpl; intros Hni; [reflexivity|].
    destruct (eqb_spec k k') as [->|Hn]; [exfalso; auto|].
    rewrite IH; auto.
  Qed.

  Lemma dict_set_keys (d : dict K V) k v k2 :
    In k2 (map fst (dict_set eqb d k v)) <-> k2 = k \/ In k2 (map fst d).
  Proof.
    induction d as [|[k' v'] d IH]; simpl; [intuition|].
    destruct (eqb_spec k k') as [->|Hn]; simpl; [intuition|].
    rewrite IH. intuition.
  Qed.

  Lemma dict_set_NoDup (d : dict K V) k v :
    NoDup (map fst d) -> NoDup (map fst (dict_set eqb d k v)).
  Proof.
    induction d as [|[k' v'] d IH]; simpl; intros Hnd.
    - constructor; [intros []|constructor].
    - inversion Hnd as [|? ? Hni Hnd']; subst.
      destruct (eqb_spec k k') as [->|Hn]; simpl; constructor; auto.
      rewrite dict_set_keys. intros [->|H]; auto.
  Qed.

  Lemma dict_mem_spec (d : dict K V) k : dict_mem eqb d k = true <-> In k (map fst d).
  Proof.
    unfold dict_mem. destruct (dict_get eqb d k) eqn:E.
    - split; [intros _|reflexivity]. apply dict_get_In in E. apply (in_map fst) in E. exact E.
    - apply dict_get_None in E. split; [congruence|contradiction].
  Qed.
End DictLemmas.

(** ** monadic maps *)
Lemma mapM_ok_map {A B} (f : A -> res B) (g : A -> B) l :
  (forall x, In x l -> f x = Ok (g x)) -> mapM f l = Ok (map g l).
Proof.
  induction l as [|x l IH]; simpl; intros H; [reflexivity|].
  rewrite H by (left; reflexivity). simpl.
  rewrite IH by (intros y Hy; apply H; right; exact Hy). reflexivity.
Qed.

Lemma mapM_ext {A B} (f g : A -> res B) l :
  (forall x, In x l -> f x = g x) -> mapM f l = mapM g l.
Proof.
  induction l as [|x l IH]; simpl; intros H; [reflexivity|].
  rewrite H by (left; reflexivity).
  destruct (g x); simpl; [|reflexivity].
  rewrite IH by (intros y Hy; apply H; right; exact Hy). reflexivity.
Qed.

Lemma mapM_Ok_Forall2 {A B} (f : A -> res B) l ys :
  mapM f l = Ok ys <-> Forall2 (fun x y => f x = Ok y) l ys.
Proof.
  revert ys; induction l as [|x l IH]; intros ys; simpl.
  - split; [intros [= <-]; constructor | intros H; inversion H; reflexivity].
  - split.
    + destruct (f x) as [y|e] eqn:E; simpl; [|congruence].
      destruct (mapM f l) as [ys'|e] eqn:E2; simpl; [|congruence].
      intros [= <-]. constructor; [exact E|]. apply IH. reflexivity.
    + intros H; inversion H as [|? y ? ys' Hy Hys]; subst.
      rewrite Hy; simpl. apply IH in Hys. rewrite Hys. reflexivity.
Qed.

Lemma mapM_app {A B} (f : A -> res B) l1 l2 :
  mapM f (l1 ++ l2) = do a <- mapM f l1; do b <- mapM f l2; Ok (a ++ b).
Proof.
  induction l1 as [|x l IH]; simpl.
  - destruct (mapM f l2); reflexivity.
  - destruct (f x); simpl; [|reflexivity]. rewrite IH.
    destruct (mapM f l); simpl; [|reflexivity].
    destruct (mapM f l2); reflexivity.
Qed.

Lemma mapM_map {A B C} (f : B -> res C) (g : A -> B) l :
  mapM f (map g l) = mapM (fun x => f (g x)) l.
Proof. induction l as [|x l IH]; simpl; [reflexivity|]. rewrite IH. reflexivity. Qed.

Lemma mapM_length {A B} (f : A -> res B) l ys : mapM f l = Ok ys -> length ys = length l.
Proof. intros H. apply mapM_Ok_Forall2 in H. induction H; simpl; auto. Qed.

Lemma foldM_app {A S} (f : S -> A -> res S) l1 l2 s :
  foldM f (l1 ++ l2) s = do s' <- foldM f l1 s; foldM f l2 s'.
Proof.
  revert s; induction l1 as [|x l IH]; intros s; simpl; [reflexivity|].
  destruct (f s x); simpl; [apply IH|reflexivity].
Qed.

Lemma getitem_nth {A} (l : list A) i x : nth_error l i = Some x -> getitem l i = Ok x.
Proof. unfold getitem. intros ->. reflexivity. Qed.

Lemma nth_error_app_l {A} (l l' : list A) i x :
  nth_error l i = Some x -> nth_error (l ++ l') i = Some x.
Proof.
  intros H. rewrite nth_error_app1; [exact H|]. apply nth_error_Some. congruence.
Qed.

Lemma nth_error_app_len {A} (l : list A) x r : nth_error (l ++ x :: r) (length l) = Some x.
Proof. rewrite nth_error_app2 by lia. rewrite Nat.sub_diag. reflexivity. Qed.
