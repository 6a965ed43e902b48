(** * Rules with side effects: C81. *)
From Verif Require Import Py ModelTree SpecTree ModelEval SpecEval ModelEffects SpecEffects ProofBase ProofTopo ProofGraph ProofTree ProofEval ProofEffects Samples.
Local Open Scope string_scope.

Section Any.
  Context {V W : Type} (is_none : V -> bool) (call : nat -> argument V -> effect V W V).

  (** C81. Whatever the functions of the rules do: one after the other, in an order that depends only on the expression,
      every distinct subexpression has one turn, atoms before compound expressions and arguments before what they are
      arguments of. In its turn the rule that is registered at that time is called, once, with the values that the
      arguments got in their turns. If a function raises, nothing more is called, and the effects so far stay. *)
  Theorem C81_side_effects e : exists order, is_topological_order false [] e order /\ atoms_first order /\
    forall w r w', e_evaluate is_none call e w = (r, w') ->
      exists all, turns is_none call order [] w all w' /\
        match all with
        | Ok env => exists v, r = Ok v /\ value_of env e v
        | Err x => r = Err x
        end.
  Proof.
    exists (forder e). split; [apply forder_order|]. split; [apply forder_atoms_first|]. intros w r w' H.
    destruct (evaluate_turns is_none call e w) as (all & H1 & H2). rewrite H in H1, H2. cbn [fst snd] in H1, H2. exists all. split; [exact H1|].
    destruct all; exact H2.
  Qed.
  (** The number of calls: any count of the world that a call raises by at most one is raised by at most the number of
      distinct subexpressions. *)
  Theorem C81_number_of_calls (count : world V W -> nat) e w r w' subexpressions :
    (forall f a w, (count (snd (call f a w)) <= S (count w))%nat) ->
    e_evaluate is_none call e w = (r, w') ->
    NoDup subexpressions -> (forall s, In s subexpressions <-> reach false [] e s) ->
    (count w' <= count w + length subexpressions)%nat.
  Proof.
    intros Hc H Hn Hs. destruct (evaluate_turns is_none call e w) as (all & H1 & _). rewrite H in H1. cbn [snd] in H1.
    apply (turns_count is_none call count Hc) in H1.
    assert (length (forder e) <= length subexpressions)%nat; [|lia].
    apply NoDup_incl_length; [apply forder_NoDup|]. intros s Hin. apply Hs, forder_In, Hin.
  Qed.
End Any.

(** Functions without side effects whose results depend on their arguments alone: evaluation is the one of C16 to C20, and
    changes nothing. *)
Section Pure.
  Context {V W : Type} (is_none : V -> bool) (result : nat -> argument V -> res V).
  Definition pure_call : nat -> argument V -> effect V W V := fun f a w => (result f a, w).
  Definition pure_rules (t : tables) : evaluator V := mkEval
    (map (fun p => (fst p, fun v => result (snd p) (ByValue v))) (tb_atoms t))
    (map (fun p => (fst p, (fun args => result (fst (snd p)) (ByArgs args), snd (snd p)))) (tb_operations t))
    (fun h vs => result (tb_generic_operation t) (ByHead h vs)) (fun a => result (tb_generic_atom t) (ByTree a)).
  Lemma dict_get_map {K A B} (eqb : K -> K -> bool) (g : A -> B) (d : dict K A) k :
    dict_get eqb (map (fun p => (fst p, g (snd p))) d) k = option_map g (dict_get eqb d k).
  Proof. induction d as [|[k' a] d IH]; [reflexivity|]. cbn [map fst snd]. cbn [dict_get]. destruct (eqb k k'); [reflexivity|exact IH]. Qed.
  Lemma pure_leaf t w : e_eval_leaf is_none pure_call t w = (eval_leaf is_none (pure_rules (w_tables w)) (w_values w) t, w).
  Proof.
    unfold e_eval_leaf, eval_leaf.
    assert (E : e_eval_atom pure_call t w = (eval_atom (pure_rules (w_tables w)) t, w)).
    { unfold e_eval_atom, eval_atom. destruct (tree_value t) as [a|x]; [|reflexivity]. cbn [bind pure_rules ev_atoms].
      rewrite (dict_get_map atype_eqb (fun n v => result n (ByValue v))).
      destruct (dict_get atype_eqb (tb_atoms (w_tables w)) (atom_type a)); reflexivity. }
    destruct (dict_get tree_eqb (w_values w) t) as [v|]; [destruct (is_none v)|]; try exact E. reflexivity.
  Qed.
  Lemma pure_operation h vs w : e_eval_operation pure_call h vs w = (eval_operation (pure_rules (w_tables w)) h vs, w).
  Proof.
    unfold e_eval_operation, eval_operation. cbn [pure_rules ev_operations].
    rewrite (dict_get_map tree_eqb (fun n : nat * bool => (fun args => result (fst n) (ByArgs args), snd n))).
    destruct (dict_get tree_eqb (tb_operations (w_tables w)) h) as [[f [|]]|]; reflexivity.
  Qed.
  Theorem C81_without_effects e (w : world V W) :
    e_evaluate is_none pure_call e w = (evaluate is_none (pure_rules (w_tables w)) e (Some (w_values w)), w).
  Proof.
    unfold evaluate, eval_forward. destruct (forward_graph_spec e) as (hs & Eg & _). rewrite (e_evaluate_eq is_none pure_call _ _ w Eg), Eg. cbn [bind].
    set (g := mkGraph _ _ _). clearbody g. clear Eg.
    assert (L : forall atoms stack, e_leaves is_none pure_call atoms stack w =
      ((do vs <- mapM (eval_leaf is_none (pure_rules (w_tables w)) (w_values w)) atoms; Ok (stack ++ vs)%list), w)).
    { induction atoms as [|t atoms IH]; intros stack; cbn [e_leaves mapM bind]; [rewrite app_nil_r; reflexivity|]. unfold ebind. rewrite pure_leaf.
      destruct (eval_leaf is_none (pure_rules (w_tables w)) (w_values w) t) as [v|x]; [|reflexivity]. rewrite IH. cbn [bind].
      destruct (mapM _ atoms) as [vs|x]; [|reflexivity]. cbn [bind]. rewrite <- app_assoc. reflexivity. }
    rewrite L. destruct (mapM _ (g_atoms g)) as [vs|x]; [|reflexivity]. cbn [bind app].
    assert (O : forall ops stack, e_operations pure_call ops stack w = (foldM (run_op (eval_operation (pure_rules (w_tables w)))) ops stack, w)).
    { induction ops as [|[h is] ops IH]; intros stack; [reflexivity|]. cbn [e_operations foldM]. unfold ebind, elift, run_op at 1. cbn [fst snd].
      destruct (mapM (getitem stack) is) as [args|x]; [|reflexivity]. cbn [bind]. rewrite pure_operation.
      destruct (eval_operation (pure_rules (w_tables w)) h args) as [v|x]; [|reflexivity]. cbn [bind]. apply IH. }
    rewrite O. destruct (foldM _ (g_operations g) vs); reflexivity.
  Qed.
End Pure.

(** What happens is determined by the world at the start. *)
Section Determined.
  Context {V W : Type} (is_none : V -> bool) (call : nat -> argument V -> effect V W V).
  Lemma value_unique (env : known V) t v v' : NoDup (map fst env) -> value_of env t v -> value_of env t v' -> v = v'.
  Proof.
    unfold value_of. induction env as [|[u w] env IH]; intros Hn H H'; [destruct H|]. cbn [map fst] in Hn. inversion Hn as [|? ? Hu Hn']; subst.
    destruct H as [H|H], H' as [H'|H'].
    - congruence.
    - exfalso. injection H as -> ->. apply Hu. apply in_map_iff. exists (t, v'). auto.
    - exfalso. injection H' as -> ->. apply Hu. apply in_map_iff. exists (t, v). auto.
    - apply IH; assumption.
  Qed.
  Lemma values_unique (env : known V) args vs vs' : NoDup (map fst env) -> Forall2 (value_of env) args vs -> Forall2 (value_of env) args vs' -> vs = vs'.
  Proof.
    intros Hn H. revert vs'. induction H as [|t v args vs Hv _ IH]; intros vs' H'; inversion H'; subst; [reflexivity|].
    f_equal; [eapply value_unique; eassumption|apply IH; assumption].
  Qed.
  Lemma turn_unique env w s r w' r' w'' : NoDup (map fst env) -> turn is_none call env w s r w' -> turn is_none call env w s r' w'' -> r = r' /\ w' = w''.
  Proof.
    intros Hn H H'. inversion H; subst; inversion H'; subst; try discriminate;
      try match goal with A : Forall2 _ ?args ?a, B : Forall2 _ ?args ?b |- _ => assert (a = b) by (eapply values_unique; eassumption); subst b end;
      try match goal with A : forall v, _ = Some v -> is_none v = true, B : _ = Some ?v, C : is_none ?v = false |- _ => rewrite (A _ B) in C; discriminate end;
      split; congruence.
  Qed.
  Lemma NoDup_left {A} (l l' : list A) : NoDup (l ++ l') -> NoDup l.
  Proof.
    induction l as [|a l IH]; intros H; [constructor|]. cbn [app] in H. inversion H as [|? ? Ha Hl]; subst. constructor; [|apply IH, Hl].
    intros Hin. apply Ha, in_or_app. left. exact Hin.
  Qed.
  Theorem C81_determined order env w all w' all' w'' : NoDup (map fst env ++ order) ->
    turns is_none call order env w all w' -> turns is_none call order env w all' w'' -> all = all' /\ w' = w''.
  Proof.
    intros Hn H. revert all' w'' Hn. induction H as [env w|s l env w v w' r w2 Hs Hl IH|s l env w x w' Hs]; intros all' w'' Hn H'; inversion H'; subst.
    - split; reflexivity.
    - assert (Hn1 : NoDup (map fst env)) by (apply NoDup_left in Hn; exact Hn).
      match goal with A : turn _ _ env w s _ _, B : turn _ _ env w s _ _ |- _ => destruct (turn_unique _ _ _ _ _ _ _ Hn1 A B) as [E1 E2] end. injection E1 as ->. subst.
      apply IH; [|assumption]. rewrite map_app, <- app_assoc. exact Hn.
    - assert (Hn1 : NoDup (map fst env)) by (apply NoDup_left in Hn; exact Hn).
      match goal with A : turn _ _ env w s _ _, B : turn _ _ env w s _ _ |- _ => destruct (turn_unique _ _ _ _ _ _ _ Hn1 A B) as [E1 E2] end. discriminate.
    - assert (Hn1 : NoDup (map fst env)) by (apply NoDup_left in Hn; exact Hn).
      match goal with A : turn _ _ env w s _ _, B : turn _ _ env w s _ _ |- _ => destruct (turn_unique _ _ _ _ _ _ _ Hn1 A B) as [E1 E2] end. discriminate.
    - assert (Hn1 : NoDup (map fst env)) by (apply NoDup_left in Hn; exact Hn).
      match goal with A : turn _ _ env w s _ _, B : turn _ _ env w s _ _ |- _ => destruct (turn_unique _ _ _ _ _ _ _ Hn1 A B) as [E1 E2] end. split; congruence.
  Qed.
End Determined.

(** f(g(x), g(x), y) with x given. The rule of g is called once; it counts, and registers the rule of f, which is not there
    at the start. The rule for atoms changes [values], for nothing. Function 2 returns the number of calls so far. *)
Definition e_effects := tree_call f [tree_call g [x]; tree_call g [x]; y].
Definition counted {A} (p : effect Z nat A) : effect Z nat A := fun w => p (mkWorld (w_tables w) (w_values w) (S (w_rest w))).
Definition sample_call (k : nat) (a : argument Z) : effect Z nat Z :=
  match k, a with
  | 0, ByTree t => counted (fun w => (Ok 7%Z, mkWorld (w_tables w) [] (w_rest w)))
  | 1, ByArgs [AVal v] => counted (ebind (e_add_op f 2 false) (fun _ => eret (v + 1)%Z))
  | 2, ByArgs [ASeq vs] => counted (fun w => (Ok (fold_right Z.add (Z.of_nat (100 * w_rest w)) vs), w))
  | _, _ => elift (Err NoEvaluationRuleError)
  end.
Definition sample_world := mkWorld (mkTables [] [(g, (1, true))] 9 0) [(x, 10%Z)] 0.
Definition no_none : Z -> bool := fun _ => false.
Example C81_case :
  e_evaluate no_none sample_call e_effects sample_world =
    (Ok (300 + 11 + 11 + 7)%Z, mkWorld (mkTables [] [(g, (1, true)); (f, (2, false))] 9 0) [] 3) /\
  fst (e_evaluate no_none sample_call (tree_call f [x]) sample_world) = Err NoEvaluationRuleError /\
  (forall f a w, (w_rest (snd (sample_call f a w)) <= S (w_rest w))%nat).
Proof.
  split; [vm_compute; reflexivity|]. split; [vm_compute; reflexivity|].
  intros [|[|[|k]]] [v|t|[|[v|vs] [|? ?]]|h vs] w; cbn; lia.
Qed.
(** Adding a rule, which functions may do as well, never raises; it changes that rule, at once, and nothing else. *)
Theorem C81_adding_rules {V W} (w : world V W) f :
  (forall ty, exists w', e_add_atom ty f w = (Ok tt, w') /\ w_values w' = w_values w /\ w_rest w' = w_rest w /\
     (forall ty', dict_get atype_eqb (tb_atoms (w_tables w')) ty' = if atype_eqb ty' ty then Some f else dict_get atype_eqb (tb_atoms (w_tables w)) ty') /\
     tb_operations (w_tables w') = tb_operations (w_tables w) /\
     tb_generic_operation (w_tables w') = tb_generic_operation (w_tables w) /\ tb_generic_atom (w_tables w') = tb_generic_atom (w_tables w)) /\
  (forall head star, exists w', e_add_op head f star w = (Ok tt, w') /\ w_values w' = w_values w /\ w_rest w' = w_rest w /\
     (forall h, dict_get tree_eqb (tb_operations (w_tables w')) h = if tree_eqb h head then Some (f, star) else dict_get tree_eqb (tb_operations (w_tables w)) h) /\
     tb_atoms (w_tables w') = tb_atoms (w_tables w) /\
     tb_generic_operation (w_tables w') = tb_generic_operation (w_tables w) /\ tb_generic_atom (w_tables w') = tb_generic_atom (w_tables w)) /\
  (exists w', e_add_atom_generic f w = (Ok tt, w') /\ w_values w' = w_values w /\ w_rest w' = w_rest w /\
     tb_atoms (w_tables w') = tb_atoms (w_tables w) /\ tb_operations (w_tables w') = tb_operations (w_tables w) /\
     tb_generic_operation (w_tables w') = tb_generic_operation (w_tables w) /\ tb_generic_atom (w_tables w') = f) /\
  (exists w', e_add_op_generic f w = (Ok tt, w') /\ w_values w' = w_values w /\ w_rest w' = w_rest w /\
     tb_atoms (w_tables w') = tb_atoms (w_tables w) /\ tb_operations (w_tables w') = tb_operations (w_tables w) /\
     tb_generic_operation (w_tables w') = f /\ tb_generic_atom (w_tables w') = tb_generic_atom (w_tables w)).
Proof.
  split; [|split; [|split]].
  - intros ty. eexists. split; [reflexivity|]. cbn. repeat split. intros ty'. apply (dict_get_set _ ProofEval.atype_eqb_spec').
  - intros h star. eexists. split; [reflexivity|]. cbn. repeat split. intros h'. apply (dict_get_set _ tree_eqb_spec).
  - eexists. split; [reflexivity|]. cbn. repeat split.
  - eexists. split; [reflexivity|]. cbn. repeat split.
Qed.
Print Assumptions C81_adding_rules.
Print Assumptions C81_side_effects.
Print Assumptions C81_number_of_calls.
Print Assumptions C81_without_effects.
Print Assumptions C81_determined.
