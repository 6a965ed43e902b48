(** * Laws of xreplace, and how it commutes with differentiation: C60, C61. *)
From Coq Require Import Permutation.
From Verif Require Import Py ModelTree SpecTree ProofBase ModelDiff ModelCas SpecCas SpecAlg ProofAlg Samples.

(** C60. Replacing things by themselves changes nothing. *)
Theorem C60_identity (e : tree) (keys : list tree) : ~ In e keys ->
  xreplace e (items (map (fun k => (k, k)) keys)) = Ok e.
Proof.
  intros H. assert (E1 : map fst (map (fun k : tree => (k, k)) keys) = keys) by (rewrite map_map; apply map_id).
  assert (E2 : map snd (map (fun k : tree => (k, k)) keys) = keys) by (rewrite map_map; apply map_id).
  rewrite xreplace_subst by (rewrite E1; exact H). rewrite E1, E2, subst_same. reflexivity.
Qed.
(** Replacing what does not occur changes nothing. *)
Theorem C60_absent (e : tree) (reps : list (tree * tree)) :
  (forall k, In k (map fst reps) -> ~ occurs k e) -> xreplace e (items reps) = Ok e.
Proof.
  intros H. rewrite xreplace_subst; [rewrite subst_absent by exact H; reflexivity|].
  intros Hin. apply (H e Hin). constructor.
Qed.
(** The order of the dict's items does not matter, unless [e] itself is to be replaced (see C14). *)
Theorem C60_order_irrelevant (e : tree) (reps reps' : list (tree * tree)) :
  NoDup (map fst reps) -> Permutation reps reps' -> ~ In e (map fst reps) ->
  xreplace e (items reps) = xreplace e (items reps').
Proof.
  intros Hn Hp He. rewrite !xreplace_subst; [f_equal; apply subst_perm; assumption| |exact He].
  intros H. apply He. eapply Permutation_in; [apply Permutation_sym, Permutation_map, Hp|exact H].
Qed.
(** Two replacements one after the other are one simultaneous replacement. *)
Theorem C60_sequence (e x r y s : tree) : x <> y -> children y = [] -> e <> x ->
  (do e1 <- xreplace e (items [(x, r)]); xreplace e1 (items [(y, s)])) =
  (do r1 <- xreplace r (items [(y, s)]); xreplace e (items [(x, r1); (y, s)])).
Proof.
  intros Hne Hy He. rewrite !xreplace_one. cbn [bind]. rewrite xreplace_one, (subst_sequence x r y s e Hne Hy).
  destruct (tree_eq_dec e y) as [->|Hey].
  - rewrite xreplace_items. rewrite ProofTree.subs_of_root by (simpl; auto). rewrite subst_two by exact Hne.
    destruct (tree_eqb_spec y x); [congruence|]. rewrite tree_eqb_refl. reflexivity.
  - rewrite xreplace_subst; [reflexivity|]. simpl. intuition.
Qed.
(** Independent replacements commute. *)
Theorem C60_commute (e x r y s : tree) : x <> y -> children x = [] -> children y = [] ->
  ~ occurs y r -> ~ occurs x s ->
  (do e1 <- xreplace e (items [(x, r)]); xreplace e1 (items [(y, s)])) =
  (do e1 <- xreplace e (items [(y, s)]); xreplace e1 (items [(x, r)])).
Proof.
  intros Hne Hx Hy Hyr Hxs. rewrite !xreplace_one. cbn [bind]. rewrite !xreplace_one.
  rewrite (subst_sequence x r y s e Hne Hy), (subst_sequence y s x r e (not_eq_sym Hne) Hx).
  rewrite (subst_absent [y] [s] r) by (intros k [<-|[]]; exact Hyr).
  rewrite (subst_absent [x] [r] s) by (intros k [<-|[]]; exact Hxs).
  f_equal. apply (subst_perm [(x, r); (y, s)] [(y, s); (x, r)]).
  - repeat constructor; simpl; intuition.
  - apply perm_swap.
Qed.
(** Replacing something by a fresh atom can be undone. *)
Theorem C60_undo (e x y : tree) : children y = [] -> ~ occurs y e ->
  (do e1 <- xreplace e (items [(x, y)]); xreplace e1 (items [(y, x)])) = Ok e.
Proof.
  intros Hy Ho. rewrite xreplace_one. cbn [bind]. rewrite xreplace_one, subst_undo by assumption. reflexivity.
Qed.
Example C60_case :
  let e := Node [f; Node [g; x]; x; y] in
  xreplace e (items [(Node [g; x], z); (f, f)]) = Ok (Node [f; z; x; y]) /\
  (do e1 <- xreplace e (items [(x, y)]); xreplace e1 (items [(y, int 2)])) = Ok (Node [f; Node [g; int 2]; int 2; int 2]) /\
  (do e1 <- xreplace e (items [(Node [g; x], z)]); xreplace e1 (items [(z, Node [g; x])])) = Ok e /\
  e <> x /\ x <> y /\ ~ In e [x; y].
Proof. repeat split; try reflexivity; try discriminate. simpl. intuition discriminate. Qed.
(** The side conditions matter: with an atom that is not fresh the undo fails; with a compound second key
    the first replacement can create it. *)
Example C60_case_conditions :
  (do e1 <- xreplace (Node [f; x; y]) (items [(x, y)]); xreplace e1 (items [(y, x)])) = Ok (Node [f; x; x]) /\
  (do e1 <- xreplace (Node [f; Node [g; x]]) (items [(x, z)]); xreplace e1 (items [(Node [g; z], y)])) = Ok (Node [f; y]) /\
  xreplace (Node [f; Node [g; x]]) (items [(x, z); (Node [g; z], y)]) = Ok (Node [f; Node [g; z]]).
Proof. repeat split. Qed.
Print Assumptions C60_identity.
Print Assumptions C60_absent.
Print Assumptions C60_order_irrelevant.
Print Assumptions C60_sequence.
Print Assumptions C60_commute.
Print Assumptions C60_undo.

(** C61. Substituting for another symbol an expression that does not involve the variable, and
    differentiating, commute - the resulting trees are identical, and one fails iff the other does. *)
Theorem C61_diff_commutes_with_xreplace (x y : string) (r e : tree) :
  arith e -> arith r -> x <> y -> ~ contains r x ->
  (do e1 <- xreplace e (items [(Symbol y, r)]); expr_diff e1 (Symbol x) 1) =
  (do d <- expr_diff e (Symbol x) 1; xreplace d (items [(Symbol y, r)])).
Proof. exact (diff_subst x y r e). Qed.
(** The name of the variable does not matter. *)
Theorem C61_diff_commutes_with_renaming (x z : string) (e : tree) : arith e -> ~ contains e z ->
  (do e1 <- xreplace e (items [(Symbol x, Symbol z)]); expr_diff e1 (Symbol z) 1) =
  (do d <- expr_diff e (Symbol x) 1; xreplace d (items [(Symbol x, Symbol z)])).
Proof. exact (diff_rename x z e). Qed.
Definition e_c61 : tree := m_add (m_mul (call1 sin y) (m_pow x (int 3))) (call1 cos (m_mul x y)).
Example C61_case : arith e_c61 /\ arith (int 0) /\ ~ contains (int 0) "x" /\ ~ contains e_c61 "z" /\
  (do d <- expr_diff e_c61 x 1; xreplace d (items [(y, int 0)])) =
  (do e1 <- xreplace e_c61 (items [(y, int 0)]); expr_diff e1 x 1) /\
  (do d <- expr_diff e_c61 x 1; xreplace d (items [(y, int 0)])) <> (do d <- expr_diff e_c61 x 1; Ok d).
Proof.
  assert (Hno : forall e s, forallb (fun t => negb (tree_eqb t (Symbol s)))
            (match topological_sort e false [] with Ok l => l | Err _ => [Symbol s] end) = true -> ~ contains e s).
  { intros e s H Hc. destruct (ProofTree.topological_sort_full e false) as (l & E & _ & Hl & _). rewrite E in H.
    rewrite forallb_forall in H. apply Hl, H in Hc. rewrite tree_eqb_refl in Hc. discriminate. }
  split; [repeat constructor|]. split; [constructor|]. split; [apply Hno; reflexivity|]. split; [apply Hno; reflexivity|].
  split; [vm_compute; reflexivity|]. vm_compute. discriminate.
Qed.
Print Assumptions C61_diff_commutes_with_xreplace.
Print Assumptions C61_diff_commutes_with_renaming.
