(** * C71. Evaluation, transformation and differentiation on shared objects, with threads and a collector. *)
From Verif Require Import Py ModelTree SpecTree ModelIntern SpecIntern ModelEval ModelDiff SpecEval SpecDiff ProofBase ProofTopo ProofGraph ModelObjects SpecObjects
  ModelObjEval SpecObjEval ProofObjects ProofObjTree ProofObjEval.
From Verif Require PropsIntern PropsTree PropsObjects PropsEval PropsDiff ProofDiff ProofOutcome.
Import ProofOutcome.

Lemma graph_atoms u g : forward_graph u = Ok g -> Forall (fun v => children v = []) (g_atoms g).
Proof.
  destruct (forward_graph_spec u) as (hs & -> & _). intros [= <-]. cbn [g_atoms]. apply Forall_forall. intros v Hv.
  apply filter_In in Hv as [_ Hv]. unfold childless in Hv. destruct (children v); [reflexivity|discriminate].
Qed.

Section Props.
  Context (names : nat -> string) (atomic : bool) (who : nat -> Prop) (t : nat).
  Context (Hsafe : safe atomic who) (Hwho : who t).
  Notation has_tree := (has_tree names t).
  Notation ready := (ready atomic who t).
  Notation always := (always atomic who t).
  Notation computes := (computes atomic who t).
  Implicit Types (s : state pyval).

  (** Evaluation on objects, with callbacks that are programs themselves, computes what evaluation of trees computes. *)
  Theorem C71_evaluation {A B} (R : state pyval -> A -> B -> Prop) none none' s a u oe ev d e : stable names t R -> (forall s1 v w, R s1 v w -> none v = none' w) ->
    ready s -> has_tree s a u -> same_rules names atomic who t R s oe ev -> same_values names t R s d e ->
    exists n, forall fuel, n <= fuel -> computes s (o_evaluate none fuel oe a d) (evaluate none' ev u (Some e)) R.
  Proof.
    intros HR Hn Hr Ha Hru Hv. exists (S (topo_weight u)). intros fuel Hf.
    apply (evaluate_ref names atomic who t Hsafe Hwho R none none' HR Hn s fuel oe ev a u d e Hr Hru Ha Hv Hf). intros g. apply graph_atoms.
  Qed.

  (** Rules and values that are no programs: the result is the value of the expression. *)
  Theorem C71_values {V} (none : V -> bool) s a u (atoms : list (nat * (pyval -> res V))) hs us (fs : list (callable V * bool)) keys ks vals :
    ready s -> has_tree s a u -> Forall2 (has_tree s) hs us -> Forall2 (has_tree s) keys ks ->
    exists n, forall fuel, n <= fuel -> always
      (o_evaluate none fuel
         (mkOEval (map (fun r => (fst r, fun v => Ret (snd r v))) atoms) (combine hs (map (fun f => (fun args => Ret (fst f args), snd f)) fs))
            (fun _ _ => Ret (Err NoEvaluationRuleError)) (fun _ => Ret (Err NoEvaluationRuleError))) a (combine keys vals)) s
      (fun _ r => r = evaluate none
         (mkEval (map (fun r => (mkType (fst r) (names (fst r)), snd r)) atoms) (combine us fs)
            (fun _ _ => Err NoEvaluationRuleError) (fun _ => Err NoEvaluationRuleError)) u (Some (combine ks vals))).
  Proof.
    intros Hr Ha Hh Hk.
    assert (PURE : forall s1 (r : res V), ready s1 -> computes s1 (Ret r) r (fun _ v w => v = w)).
    { intros s1 r Hr1. apply (ref_ret atomic who t); [exact Hr1|intros s2 s3 v w _ E; exact E|]. destruct r; reflexivity. }
    assert (ARGS : forall s1 l m, Forall2 (same_args (fun (_ : state pyval) (v w : V) => v = w) s1) l m -> l = m).
    { intros s1. induction 1 as [|x y l m Hxy _ ->]; [reflexivity|]. f_equal. destruct x, y; cbn [same_args] in Hxy; try contradiction; [f_equal; exact Hxy|].
      f_equal. clear - Hxy. induction Hxy; congruence. }
    destruct (C71_evaluation (fun _ v w => v = w) none none s a u
      (mkOEval (map (fun r => (fst r, fun v => Ret (snd r v))) atoms) (combine hs (map (fun f => (fun args => Ret (fst f args), snd f)) fs))
            (fun _ _ => Ret (Err NoEvaluationRuleError)) (fun _ => Ret (Err NoEvaluationRuleError)))
      (mkEval (map (fun r => (mkType (fst r) (names (fst r)), snd r)) atoms) (combine us fs)
            (fun _ _ => Err NoEvaluationRuleError) (fun _ => Err NoEvaluationRuleError)) (combine keys vals) (combine ks vals)) as (n & H).
    - intros s1 s2 v w _ E. exact E.
    - intros _ v w ->. reflexivity.
    - exact Hr.
    - exact Ha.
    - constructor; cbn [oe_atoms oe_operations oe_generic_operation oe_generic_atom ev_atoms ev_operations ev_generic_operation ev_generic_atom].
      + clear - PURE. induction atoms as [|[ty f] l IH]; [constructor|]. cbn [map]. constructor; [|exact IH]. split; [reflexivity|]. intros s1 v R1 _. apply PURE, R1.
      + clear - Hh PURE ARGS. revert fs. induction Hh as [|h v l m Hhv _ IH]; intros [|[f b] fs]; try constructor; [|apply IH].
        split; [exact Hhv|]. split; [reflexivity|]. cbn [fst snd]. intros s1 l1 m1 R1 _ Hl. apply ARGS in Hl as ->. apply PURE, R1.
      + intros s1 h v l m R1 _ _ _. apply PURE, R1.
      + intros s1 b v R1 _ _. apply PURE, R1.
    - clear - Hk. revert vals. induction Hk as [|k v l m Hkv _ IH]; intros [|w vals]; try constructor; [|apply IH]. split; [exact Hkv|reflexivity].
    - exists n. intros fuel Hf. destruct (H fuel Hf) as [H1 H2]. split; [exact H1|]. intros s' r Hrun. specialize (H2 s' r Hrun).
      destruct r, (evaluate _ _ _ _); try contradiction; subst; reflexivity.
  Qed.

  (** A Transformer whose rules do not match returns the very same object. *)
  Theorem C71_transformer_identity s a u atoms ops ev : ready s -> has_tree s a u ->
    same_rules names atomic who t has_tree s (o_transformer atoms ops) ev ->
    ev_generic_operation ev = ev_generic_operation new_transformer -> ev_generic_atom ev = ev_generic_atom new_transformer ->
    (forall h args, reach false [] u (Node (h :: args)) -> dict_get tree_eqb (ev_operations ev) h = None) ->
    (forall x, reach false [] u (Atm x) -> dict_get atype_eqb (ev_atoms ev) (atom_type x) = None) -> proper u ->
    exists n, forall fuel, n <= fuel -> always (o_evaluate (fun _ => false) fuel (o_transformer atoms ops) a []) s (fun _ r => r = Ok a).
  Proof.
    intros Hr Ha Hru E1 E2 E3 E4 Hp.
    destruct (C71_evaluation has_tree (fun _ => false) (fun _ => false) s a u (o_transformer atoms ops) ev [] []) as (n & H); try assumption.
    - intros s1 s2 b v L. apply L.
    - reflexivity.
    - constructor.
    - exists n. intros fuel Hf. destruct (H fuel Hf) as [H1 H2]. split; [exact H1|]. intros s' r Hrun. specialize (H2 s' r Hrun).
      change (evaluate (fun _ : tree => false) ev u (Some [])) with (evaluate (fun _ : tree => false) ev u None) in H2.
      rewrite (PropsEval.C21_transformer_identity ev u E1 E2 E3 E4 Hp) in H2. destruct r as [b|]; [|contradiction].
      pose proof (runs_ok atomic who t Hwho _ s s' _ Hrun Hr) as [W' L'].
      pose proof (identity names atomic who t Hsafe s' b u a u W' H2 (has_tree_le names t s s' a u L' Ha)) as X. rewrite tree_eqb_refl in X.
      apply Nat.eqb_eq in X as ->. reflexivity.
  Qed.
  (** The rules of a Transformer without rules. *)
  Lemma no_rules s : same_rules names atomic who t has_tree s (o_transformer [] []) new_transformer.
  Proof.
    constructor; [constructor|constructor|..].
    - intros s1 h u l m R1 _ Hh Hl. exact (call_ref names atomic who t Hsafe Hwho s1 h u l m R1 Hh Hl).
    - intros s1 b u R1 _ Hb. apply (ref_ret atomic who t); [exact R1|apply mono_tree|exact Hb].
  Qed.
  Theorem C71_new_transformer s a u : ready s -> has_tree s a u -> proper u ->
    exists n, forall fuel, n <= fuel -> always (o_evaluate (fun _ => false) fuel (o_transformer [] []) a []) s (fun _ r => r = Ok a).
  Proof.
    intros Hr Ha Hp. apply (C71_transformer_identity s a u [] [] new_transformer); try assumption; try reflexivity. apply no_rules.
  Qed.

  (** Differentiation on objects: the result represents the derivative by the recursion; if the recursion raises, it raises the same exception. *)
  Theorem C71_diff_forward s a u x v p q : ready s -> has_tree s a u -> has_tree s x v -> same_props names t s p q ->
    exists n, forall fuel, n <= fuel -> always (o_diff_forward fuel a x p) s (fun s' r =>
      match r with
      | Ok b => exists d, deriv q v u = Ok d /\ has_tree s' b d
      | Err err => deriv q v u = Err err
      end).
  Proof.
    intros Hr Ha Hx Hp. exists (S (topo_weight u)). intros fuel Hf.
    destruct (diff_forward_ref names atomic who t Hsafe Hwho s fuel a u x v p q Hr Ha Hx Hp Hf) as [H1 H2]. split; [exact H1|].
    intros s' r Hrun. specialize (H2 s' r Hrun). rewrite diff_outcome in H2.
    destruct r as [b|err], (deriv q v u) as [d|err']; try contradiction; [eauto|congruence].
  Qed.
  (** Differentiating twice gives the same object, whatever happens meanwhile. *)
  Theorem C71_diff_again s a u x v p q : ready s -> has_tree s a u -> has_tree s x v -> same_props names t s p q ->
    exists n, forall fuel, n <= fuel -> always
      (run b <- o_diff_forward fuel a x p; run c <- o_diff_forward fuel a x p; ret (Nat.eqb b c)) s
      (fun _ r => match deriv q v u with Ok _ => r = Ok true | Err err => r = Err err end).
  Proof.
    intros Hr Ha Hx Hp. exists (S (topo_weight u)). intros fuel Hf.
    assert (G : refines atomic who t s (run b <- o_diff_forward fuel a x p; run c <- o_diff_forward fuel a x p; ret (Nat.eqb b c))
      (do d <- diff_forward u v q; do d' <- diff_forward u v q; Ok (tree_eqb d d')) (fun _ b c => b = c)).
    { eapply (ref_bind atomic who t Hwho _ _ _ _ _ has_tree); [exact Hr|apply (diff_forward_ref names atomic who t Hsafe Hwho); eassumption|].
      intros s1 b d W1 L1 Hb. pose proof (le_later names t _ _ L1) as L.
      eapply (ref_bind atomic who t Hwho _ _ _ _ _ has_tree); [exact W1|apply (diff_forward_ref names atomic who t Hsafe Hwho); try assumption|].
      - apply L, Ha.
      - apply L, Hx.
      - eapply props_later; eassumption.
      - intros s2 c d' W2 L2 Hc. apply (ref_ret atomic who t); [exact W2|intros s3 s4 b1 b2 _ E; exact E|].
        exact (identity names atomic who t Hsafe s2 b d c d' W2 (has_tree_le names t _ _ _ _ L2 Hb) Hc). }
    destruct G as [G1 G2]. split; [exact G1|]. intros s' r Hrun. specialize (G2 s' r Hrun). rewrite diff_outcome in G2.
    destruct (deriv q v u) as [d|err] eqn:E; cbn [bind] in G2.
    - rewrite tree_eqb_refl in G2. destruct r; [congruence|contradiction].
    - destruct r; [contradiction|congruence].
  Qed.
End Props.

(** ** A case: x*f(x) is at 13; f has the derivative f. Thread 0 has everything, thread 1 is storing another object for f(x, x). *)
Definition ec_names (n : nat) : string := if Nat.eqb n 0 then "Symbol" else if Nat.eqb n 1 then "Function" else "Integer".
Definition ec_atom ty n v := Atm (mkAtom (mkType ty n) v).
Definition ec_x := ec_atom 0 "Symbol" (VStr "x").
Definition ec_f := ec_atom 1 "Function" (VStr "f").
Definition ec_zero := ec_atom 2 "Integer" (VInt 0).
Definition ec_one := ec_atom 2 "Integer" (VInt 1).
Definition ec_add := ec_atom 1 "Function" (VStr "Add").
Definition ec_mul := ec_atom 1 "Function" (VStr "Mul").
Definition ec_top := Node [ec_mul; ec_x; Node [ec_f; ec_x]].
Definition ec_run : list (PropsIntern.action pyval) :=
  PropsIntern.whole 0 (KAtom 0 (VStr "x")) 0 4 ++ PropsIntern.whole 0 (KLeaf 0) 1 4 ++ PropsIntern.whole 0 (KAtom 1 (VStr "f")) 2 4 ++
  PropsIntern.whole 0 (KLeaf 2) 3 4 ++ PropsIntern.whole 0 (KNode [3; 1]) 4 4 ++
  PropsIntern.whole 0 (KAtom 2 (VInt 0)) 5 4 ++ PropsIntern.whole 0 (KLeaf 5) 6 4 ++ PropsIntern.whole 0 (KAtom 2 (VInt 1)) 7 4 ++ PropsIntern.whole 0 (KLeaf 7) 8 4 ++
  PropsIntern.whole 0 (KAtom 1 (VStr "Add")) 9 4 ++ PropsIntern.whole 0 (KLeaf 9) 10 4 ++ PropsIntern.whole 0 (KAtom 1 (VStr "Mul")) 11 4 ++ PropsIntern.whole 0 (KLeaf 11) 12 4 ++
  PropsIntern.whole 0 (KNode [12; 1; 4]) 13 4 ++
  PropsIntern.whole 1 (KAtom 0 (VStr "x")) 14 3 ++ PropsIntern.whole 1 (KLeaf 0) 14 3 ++
  [PropsIntern.ACall 1 (KNode [1; 1]); PropsIntern.AMove 1 14; PropsIntern.AMove 1 14].
Definition ec_rule : subs_func := mkSubs 1 [ec_f] [[1; 0]].
Definition ec_props : o_diff_props := mkODiff 6 8 10 12 [] [((3, 0), (1, [3], [[1; 0]]))].
Definition ec_pure : diff_props := mkDiff ec_zero ec_one ec_add ec_mul [] [((ec_f, 0), ec_rule)].
Example C71_case : exists s, ready true (fun _ => True) 0 s /\ has_tree ec_names 0 s 13 ec_top /\ has_tree ec_names 0 s 1 ec_x /\ has_tree ec_names 0 s 12 ec_mul /\
  same_props ec_names 0 s ec_props ec_pure /\ proper ec_top /\ at_ (threads s 1) = Made (KNode [1; 1]) 14 /\
  subs_new (Node [ec_f; ec_x]) [ec_x] = Ok ec_rule /\
  deriv ec_pure ec_x ec_top = Ok (Node [ec_add; Node [ec_mul; ec_one; Node [ec_f; ec_x]]; Node [ec_mul; ec_x; Node [ec_f; ec_x]]]).
Proof.
  destruct (PropsIntern.run_case pyval_eqb true (fun _ => True) ec_run (fun s => held (threads s 0) = [13; 12; 11; 10; 9; 8; 7; 6; 5; 4; 3; 2; 1; 0] /\ at_ (threads s 0) = Idle /\
    at_ (threads s 1) = Made (KNode [1; 1]) 14 /\ heap s 0 = Some (OAtom 0 (VStr "x")) /\ heap s 1 = Some (OLeaf 0) /\ heap s 2 = Some (OAtom 1 (VStr "f")) /\
    heap s 3 = Some (OLeaf 2) /\ heap s 4 = Some (ONode [3; 1]) /\ heap s 5 = Some (OAtom 2 (VInt 0)) /\ heap s 6 = Some (OLeaf 5) /\
    heap s 7 = Some (OAtom 2 (VInt 1)) /\ heap s 8 = Some (OLeaf 7) /\ heap s 9 = Some (OAtom 1 (VStr "Add")) /\ heap s 10 = Some (OLeaf 9) /\
    heap s 11 = Some (OAtom 1 (VStr "Mul")) /\ heap s 12 = Some (OLeaf 11) /\ heap s 13 = Some (ONode [12; 1; 4])))
    as (s & R & Hh & Hi & H1 & O0 & O1 & O2 & O3 & O4 & O5 & O6 & O7 & O8 & O9 & O10 & O11 & O12 & O13); [PropsIntern.all_may|vm_compute; tauto|].
  exists s.
  assert (A : forall b a ty v, heap s a = Some (OAtom ty v) -> heap s b = Some (OLeaf a) -> In b (held (threads s 0)) ->
    has_tree ec_names 0 s b (Atm (mkAtom (mkType ty (ec_names ty)) v))).
  { intros b a ty v Ea Eb Hb. split; [exact Hb|]. econstructor; [exact Eb|]. constructor. exact Ea. }
  assert (HH : forall b, In b [13; 12; 11; 10; 9; 8; 7; 6; 5; 4; 3; 2; 1; 0] -> In b (held (threads s 0))) by (intros b Hb; rewrite Hh; exact Hb).
  assert (Tx : has_tree ec_names 0 s 1 ec_x) by (apply (A 1 0 0 _ O0 O1), HH; cbn [In]; tauto).
  assert (Tf : has_tree ec_names 0 s 3 ec_f) by (apply (A 3 2 1 _ O2 O3), HH; cbn [In]; tauto).
  assert (Tz : has_tree ec_names 0 s 6 ec_zero) by (apply (A 6 5 2 _ O5 O6), HH; cbn [In]; tauto).
  assert (To : has_tree ec_names 0 s 8 ec_one) by (apply (A 8 7 2 _ O7 O8), HH; cbn [In]; tauto).
  assert (Ta : has_tree ec_names 0 s 10 ec_add) by (apply (A 10 9 1 _ O9 O10), HH; cbn [In]; tauto).
  assert (Tm : has_tree ec_names 0 s 12 ec_mul) by (apply (A 12 11 1 _ O11 O12), HH; cbn [In]; tauto).
  assert (T4 : is_tree_obj ec_names (heap s) 4 (Node [ec_f; ec_x])) by (econstructor; [exact O4|]; constructor; [apply Tf|]; constructor; [apply Tx|constructor]).
  split; [split; assumption|]. split.
  { split; [apply HH; cbn [In]; tauto|]. econstructor; [exact O13|]. constructor; [apply Tm|]. constructor; [apply Tx|]. constructor; [exact T4|constructor]. }
  split; [exact Tx|]. split; [exact Tm|]. split.
  { constructor; try assumption; [constructor|]. cbn [od_rules ec_props dp_rules ec_pure]. constructor; [|constructor]. cbn [fst snd].
    split; [exact Tf|]. split; [reflexivity|]. split; [reflexivity|]. split; [|reflexivity]. constructor; [exact Tf|constructor]. }
  split.
  { unfold proper. intros H. destruct (PropsTree.C07_topological_sort_is_topological ec_top false) as (ts & E & _ & M & _).
    apply M in H. assert (F : topological_sort ec_top false [] = Ok [ec_x; Node [ec_f; ec_x]; ec_top]) by (vm_compute; reflexivity).
    rewrite F in E. injection E as E. rewrite <- E in H. cbn [In] in H. unfold ec_x, ec_top, ec_atom in H. intuition discriminate. }
  split; [exact H1|]. split; vm_compute; reflexivity.
Qed.
(** The same case for evaluation: with x = 5 and rules for * and f, the value is 5 * (5 + 1). *)
Example C71_values_case :
  evaluate (fun _ : Z => false) (mkEval [] (combine [ec_mul; ec_f]
      [(fun l => match l with [AVal a; AVal b] => Ok (a * b)%Z | _ => Err TypeError end, true); (fun l => match l with [AVal a] => Ok (a + 1)%Z | _ => Err TypeError end, true)])
      (fun _ _ => Err NoEvaluationRuleError) (fun _ => Err NoEvaluationRuleError)) ec_top (Some (combine [ec_x] [5%Z])) = Ok 30%Z.
Proof. vm_compute. reflexivity. Qed.
Print Assumptions C71_evaluation.
Print Assumptions C71_values.
Print Assumptions C71_transformer_identity.
Print Assumptions C71_new_transformer.
Print Assumptions C71_diff_forward.
Print Assumptions C71_diff_again.
