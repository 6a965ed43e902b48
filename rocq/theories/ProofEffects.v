(** * Evaluation with side effects: proofs for C81 *)
From Verif Require Import Py ModelTree SpecTree ModelEval SpecEval ModelEffects SpecEffects ProofBase ProofTopo ProofGraph ProofTree ProofEval.

Section Effects.
  Context {V W : Type} (is_none : V -> bool) (call : nat -> argument V -> effect V W V).
  Notation turn := (turn is_none call).
  Notation turns := (turns is_none call).

  Definition snds (r : res (known V)) : res (list V) := match r with Ok env => Ok (map snd env) | Err x => Err x end.

  Lemma turns_app l1 l2 env w r w' : turns l1 env w r w' ->
    match r with
    | Ok env' => forall r2 w2, turns l2 env' w' r2 w2 -> turns (l1 ++ l2) env w r2 w2
    | Err x => turns (l1 ++ l2) env w (Err x) w'
    end.
  Proof.
    induction 1 as [env w|s l env w v w' r w'' Hs Hl IH|s l env w x w' Hs].
    - intros r2 w2 H. exact H.
    - destruct r as [env'|x]; [intros r2 w2 H2|]; cbn [app]; (eapply turns_next; [exact Hs|]); auto.
    - cbn [app]. apply turns_raise, Hs.
  Qed.
  Lemma turns_keys l env w env' w' : turns l env w (Ok env') w' -> map fst env' = map fst env ++ l.
  Proof.
    remember (Ok env') as r eqn:Er. intros H. revert env' Er. induction H as [env w|s l env w v w' r w'' _ _ IH|s l env w x w' _]; intros env' Er.
    - injection Er as <-. rewrite app_nil_r. reflexivity.
    - rewrite (IH _ Er), map_app, <- app_assoc. reflexivity.
    - discriminate.
  Qed.

  Lemma leaf_turn env s w : children s = [] -> turn env w s (fst (e_eval_leaf is_none call s w)) (snd (e_eval_leaf is_none call s w)).
  Proof.
    intros Hs. unfold e_eval_leaf. destruct (dict_get tree_eqb (w_values w) s) as [v|] eqn:Ev; [destruct (is_none v) eqn:En|].
    2: { cbn [fst snd]. apply turn_given; assumption. }
    all: assert (Hn : forall v, dict_get tree_eqb (w_values w) s = Some v -> is_none v = true) by (intros v' Hv'; congruence).
    all: unfold e_eval_atom; destruct s as [a|[|? ?]]; [|clear Ev|discriminate].
    1,3: cbn [tree_value]; destruct (dict_get atype_eqb (tb_atoms (w_tables w)) (atom_type a)) as [f|] eqn:Ef;
      [eapply turn_atom|eapply turn_atom_generic]; try eassumption; apply surjective_pairing.
    all: cbn [tree_value fst snd]; apply turn_empty; exact Hn.
  Qed.
  Lemma leaves_turns : forall atoms env w, Forall (fun s => children s = []) atoms ->
    exists renv, turns atoms env w renv (snd (e_leaves is_none call atoms (map snd env) w)) /\
      fst (e_leaves is_none call atoms (map snd env) w) = snds renv.
  Proof.
    induction atoms as [|s atoms IH]; intros env w H.
    - exists (Ok env). split; [constructor|reflexivity].
    - inversion H as [|? ? Hs Hl]; subst. cbn [e_leaves]. unfold ebind. pose proof (leaf_turn env s w Hs) as Hv.
      destruct (e_eval_leaf is_none call s w) as [[v|x] w1]; cbn [fst snd] in Hv |- *.
      + destruct (IH (env ++ [(s, v)]) w1 Hl) as (renv & H1 & H2). rewrite map_app in H1, H2. exists renv. split; [|exact H2].
        eapply turns_next; eassumption.
      + exists (Err x). split; [apply turns_raise, Hv|reflexivity].
  Qed.
  Lemma op_turn env h args vs w : Forall2 (value_of env) args vs ->
    turn env w (Node (h :: args)) (fst (e_eval_operation call h vs w)) (snd (e_eval_operation call h vs w)).
  Proof.
    intros Hvs. unfold e_eval_operation. destruct (dict_get tree_eqb (tb_operations (w_tables w)) h) as [[f [|]]|] eqn:E.
    - eapply turn_op; try eassumption. apply surjective_pairing.
    - eapply turn_opn; try eassumption. apply surjective_pairing.
    - eapply turn_op_generic; try eassumption. apply surjective_pairing.
  Qed.
  (** Reading the stack at the positions of the arguments gives their values. *)
  Lemma lookup_env (env : known V) l : (forall c, In c l -> In c (map fst env)) ->
    exists vs, mapM (getitem (map snd env)) (map (index_of (map fst env)) l) = Ok vs /\ Forall2 (value_of env) l vs.
  Proof.
    induction l as [|c l IH]; intros H; [exists []; split; [reflexivity|constructor]|].
    destruct IH as (vs & E & Hvs); [intros; apply H; right; assumption|].
    assert (Hc : nth_error (map fst env) (index_of (map fst env) c) = Some c) by (apply index_of_nth, H; left; reflexivity).
    rewrite nth_error_map in Hc. destruct (nth_error env (index_of (map fst env) c)) as [[c' v]|] eqn:En; [|discriminate]. injection Hc as ->.
    exists (v :: vs). cbn [map mapM]. unfold getitem at 1. rewrite nth_error_map, En. cbn [option_map snd of_option bind]. rewrite E. split; [reflexivity|].
    constructor; [apply nth_error_In in En; exact En|exact Hvs].
  Qed.
  Lemma operations_turns e : forall q p env w, filter compound (tsort e []) = p ++ q -> map fst env = filter childless (tsort e []) ++ p ->
    exists renv, turns q env w renv (snd (e_operations call (map (op_of (forder e)) q) (map snd env) w)) /\
      fst (e_operations call (map (op_of (forder e)) q) (map snd env) w) = snds renv.
  Proof.
    induction q as [|s q IH]; intros p env w E Henv.
    - exists (Ok env). split; [constructor|reflexivity].
    - cbn [map e_operations]. change (op_of (forder e) s) with (head_of s, map (index_of (forder e)) (args_of s)). cbn iota.
      assert (Hin : forall c, In c (args_of s) -> In c (map fst env)).
      { intros c Hc. rewrite Henv. eapply forder_args_before; eauto. }
      assert (Hidx : map (index_of (forder e)) (args_of s) = map (index_of (map fst env)) (args_of s)).
      { apply map_ext_in. intros c Hc. unfold forder. rewrite E, app_assoc, <- Henv. apply index_of_app_l, Hin, Hc. }
      destruct (lookup_env env (args_of s) Hin) as (vs & Evs & Hvs). rewrite Hidx.
      rewrite Evs. unfold ebind, elift. cbn iota beta.
      assert (Hs : compound s = true).
      { assert (H : In s (filter compound (tsort e []))) by (rewrite E; apply in_or_app; right; left; reflexivity). apply filter_In in H; tauto. }
      destruct s as [a|[|h args]]; [discriminate|discriminate|]. cbn [args_of head_of children tl hd] in *.
      pose proof (op_turn env h args vs w Hvs) as Hv.
      destruct (e_eval_operation call h vs w) as [[v|x] w1]; cbn [fst snd] in Hv |- *.
      + destruct (IH (p ++ [Node (h :: args)]) (env ++ [(Node (h :: args), v)]) w1) as (renv & H1 & H2).
        { rewrite <- app_assoc. exact E. }
        { rewrite map_app, Henv, <- app_assoc. reflexivity. }
        rewrite map_app in H1, H2. exists renv. split; [|exact H2]. eapply turns_next; eassumption.
      + exists (Err x). split; [apply turns_raise, Hv|reflexivity].
  Qed.

  Lemma e_evaluate_eq e g w : forward_graph e = Ok g -> e_evaluate is_none call e w =
    match e_leaves is_none call (g_atoms g) [] w with
    | (Ok stack0, w1) => match e_operations call (g_operations g) stack0 w1 with (Ok stack, w2) => (last_item stack, w2) | (Err x, w2) => (Err x, w2) end
    | (Err x, w1) => (Err x, w1)
    end.
  Proof. intros E. unfold e_evaluate. rewrite E. reflexivity. Qed.
  Lemma evaluate_turns e w : exists renv, turns (forder e) [] w renv (snd (e_evaluate is_none call e w)) /\
    match renv with
    | Ok env => exists v, fst (e_evaluate is_none call e w) = Ok v /\ value_of env e v
    | Err x => fst (e_evaluate is_none call e w) = Err x
    end.
  Proof.
    destruct (forward_graph_spec e) as (hs & Eg & _). rewrite (e_evaluate_eq _ _ _ Eg). cbn [g_atoms g_operations].
    destruct (leaves_turns (filter childless (tsort e [])) [] w) as (r1 & V1 & E1).
    { apply Forall_forall. intros s Hs. apply filter_In in Hs as [_ Hs]. unfold childless in Hs. destruct (children s); [reflexivity|discriminate]. }
    cbn [map] in V1, E1. destruct (e_leaves is_none call (filter childless (tsort e [])) [] w) as [r w1]. cbn [fst snd] in V1, E1. subst r.
    apply turns_app with (l2 := filter compound (tsort e [])) in V1 as V2. destruct r1 as [env|x]; cbn [snds].
    2: { exists (Err x). split; [exact V2|reflexivity]. }
    assert (Hk : map fst env = filter childless (tsort e []) ++ []) by (rewrite app_nil_r; apply (turns_keys _ _ _ _ _ V1)).
    destruct (operations_turns e (filter compound (tsort e [])) [] env w1 eq_refl Hk) as (r2 & V3 & E3).
    destruct (e_operations call (map (op_of (forder e)) (filter compound (tsort e []))) (map snd env) w1) as [r w2]. cbn [fst snd] in V3, E3. subst r.
    specialize (V2 _ _ V3). exists r2. destruct r2 as [env'|x]; cbn [snds]; [|split; [exact V2|reflexivity]].
    cbn [fst snd]. split; [exact V2|].
    pose proof (turns_keys _ _ _ _ _ V2) as Hk2. change (map fst (@nil (tree * V)) ++ filter childless (tsort e []) ++ filter compound (tsort e [])) with (forder e) in Hk2.
    destruct (forder_last e) as (l & Hl). rewrite Hl in Hk2.
    destruct (exists_last (l := env')) as (env'' & [e' v] & ->). { intros ->. destruct l; discriminate. }
    rewrite map_app in Hk2. apply app_inj_tail in Hk2 as [_ Hk2]. cbn [fst] in Hk2. subst e'. exists v. split.
    - rewrite map_app. cbn [map snd]. unfold last_item. rewrite rev_app_distr. reflexivity.
    - apply in_or_app. right. left. reflexivity.
  Qed.
  Lemma forder_atoms_first e : atoms_first (forder e).
  Proof.
    exists (filter childless (tsort e [])), (filter compound (tsort e [])). split; [reflexivity|].
    split; apply Forall_forall; intros s Hs; apply filter_In in Hs as [_ Hs]; unfold compound, childless in Hs; destruct (children s); (reflexivity || discriminate).
  Qed.
  (** ** Counting *)
  Lemma turn_count (n : world V W -> nat) (calls : forall f a w, n (snd (call f a w)) <= S (n w)) env w s r w' : turn env w s r w' -> n w' <= S (n w).
  Proof.
    intros H. inversion H; subst; try lia;
      match goal with E : call ?f ?a w = _ |- _ => specialize (calls f a w); rewrite E in calls; exact calls end.
  Qed.
  Lemma turns_count (n : world V W -> nat) (calls : forall f a w, n (snd (call f a w)) <= S (n w)) l env w r w' : turns l env w r w' -> n w' <= n w + length l.
  Proof.
    induction 1 as [env w|s l env w v w' r w'' Hs Hl IH|s l env w x w' Hs]; cbn [length].
    - lia.
    - apply (turn_count n calls) in Hs. lia.
    - apply (turn_count n calls) in Hs. lia.
  Qed.
  (** Deterministic: what is turn depends only on the world. *)
End Effects.
