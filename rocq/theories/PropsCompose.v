(** * C103: substituting before compiling or evaluating is composing the functions, to the last bit *)
From Coq Require Import SpecFloat.
From Verif Require Import Py ModelTree ModelEval ModelSym ModelCas ModelMatrix ModelLLVM ModelApi
  SpecTree SpecEval SpecCas SpecMatrix SpecLLVM SpecLambdify SpecApi
  ProofBase ProofTree ProofCasDiff ProofLLVM ProofF64 ProofAlg PropsReal PropsLLVM ProofApi PropsMatrix PropsApi Samples.
Local Open Scope string_scope.

Lemma good_names_nodup ss : good_names (map Symbol ss) -> NoDup ss.
Proof.
  intros (names & Hn & Hd & _). replace ss with names; [exact Hd|]. clear Hd. revert names Hn.
  induction ss as [|s ss IH]; intros names Hn; [injection Hn as <-; reflexivity|]. cbn [map mapM] in Hn.
  change (tree_str (Symbol s)) with (@Ok string s) in Hn. cbn [bind] in Hn.
  destruct (mapM tree_str (map Symbol ss)) as [ns|] eqn:E; [|discriminate]. injection Hn as <-. f_equal. apply IH. reflexivity.
Qed.
Lemma argument_int {F} names (vals : list F) ty n : dict_get tree_eqb (combine (map Symbol names) vals) (Atm (mkAtom ty (VInt n))) = None.
Proof.
  revert vals. induction names as [|s ss IH]; intros [|v vals]; cbn [map combine dict_get]; try reflexivity.
  destruct (tree_eqb_spec (Atm (mkAtom ty (VInt n))) (Symbol s)) as [E|_]; [discriminate|apply IH].
Qed.
Lemma argument_get symargs vals t : dict_get tree_eqb (combine symargs vals) t = argument symargs vals t.
Proof. revert vals. induction symargs as [|s ss IH]; intros [|v vals]; cbn [combine dict_get argument]; try reflexivity. destruct (tree_eqb t s); [reflexivity|apply IH]. Qed.

(** What replaces an argument has the argument's value. *)
Lemma replaced_value {F} (P : tree -> F -> Prop) ss ts vs : NoDup ss -> Forall2 P ts vs -> length ss = length ts ->
  forall t v, dict_get tree_eqb (combine (map Symbol ss) vs) t = Some v ->
  exists r, replacement (map Symbol ss) ts t = Some r /\ P r v.
Proof.
  intros Hnd. revert ts vs. induction Hnd as [|s ss Hs Hnd IH]; intros ts vs H Hlen t v Hv; [discriminate|].
  destruct H as [|r w ts vs Hr H]; [discriminate|]. injection Hlen as Hlen. cbn [map combine dict_get replacement] in *.
  destruct (tree_eqb_spec t (Symbol s)) as [->|Hne].
  - injection Hv as ->. destruct (replacement (map Symbol ss) ts (Symbol s)) as [q|] eqn:E.
    + apply replacement_sym in E as (s' & Hs' & E'). injection E' as <-. contradiction.
    + eauto.
  - destruct (IH ts vs H Hlen t v Hv) as (q & -> & Hq). eauto.
Qed.
Lemma not_replaced ss ts t : (forall s, t <> Symbol s) -> replacement (map Symbol ss) ts t = None.
Proof.
  intros H. destruct (replacement (map Symbol ss) ts t) as [q|] eqn:E; [|reflexivity].
  apply replacement_sym in E as (s & _ & E). destruct (H s E).
Qed.
Lemma subst_known_head ss ts h : (exists f, h = Function f) -> subst (map Symbol ss) ts h = h.
Proof. intros (f & ->). rewrite ProofAlg.subst_unfold, not_replaced by (intros s E; discriminate). reflexivity. Qed.

Lemma machine_subst mc names vals ss ts vs : NoDup ss -> length ss = length ts ->
  Forall2 (fun t v => machine_value mc (map Symbol names) vals t = Some v) ts vs ->
  forall e v, machine_value mc (map Symbol ss) vs e = Some v ->
  machine_value mc (map Symbol names) vals (subst (map Symbol ss) ts e) = Some v.
Proof.
  intros Hnd Hlen Hts. induction e as [a|cs IH] using tree_ind_all; intros v Hv.
  - cbn [machine_value machine_leaf] in Hv. rewrite ProofAlg.subst_unfold.
    destruct (argument (map Symbol ss) vs (Atm a)) as [w|] eqn:E.
    + injection Hv as ->. rewrite <- argument_get in E. destruct (replaced_value _ ss ts vs Hnd Hts Hlen _ _ E) as (r & -> & Hr). exact Hr.
    + destruct a as [ty [n|s]]; [|discriminate]. rewrite not_replaced by (intros s; discriminate). cbn [machine_value machine_leaf].
      rewrite <- argument_get, argument_int. exact Hv.
  - destruct cs as [|h args]; [discriminate|]. rewrite machine_value_node in Hv.
    destruct (opt_map (machine_value mc (map Symbol ss) vs) args) as [ws|] eqn:E; [|discriminate].
    rewrite ProofAlg.subst_unfold, not_replaced by (intros s; discriminate). cbn [map]. rewrite machine_value_node.
    assert (E' : opt_map (machine_value mc (map Symbol names) vals) (map (subst (map Symbol ss) ts) args) = Some ws).
    { apply opt_map_Forall2. apply opt_map_Forall2 in E.
      assert (IH' : forall a v, In a args -> machine_value mc (map Symbol ss) vs a = Some v ->
        machine_value mc (map Symbol names) vals (subst (map Symbol ss) ts a) = Some v) by (intros a w Ha; apply IH; right; exact Ha).
      clear -E IH'. induction E as [|a w args ws Ha _ IHE]; [constructor|]. cbn [map]. constructor; [apply IH'; [left; reflexivity|exact Ha]|].
      apply IHE. intros; apply IH'; [right|]; assumption. }
    rewrite E', subst_known_head; [exact Hv|]. clear -Hv. unfold machine_op, Add, Mul, Pow, sin, cos in Hv.
    repeat match type of Hv with (if tree_eqb h ?g then _ else _) = _ => destruct (tree_eqb_spec h g) as [->|_]; [eexists; reflexivity|] end. discriminate.
Qed.

Lemma f64_subst {F} (o : float_ops F) names (vals : list F) ss ts vs : NoDup ss -> length ss = length ts ->
  Forall2 (fun t v => meaning (f64_leaf o (combine (map Symbol names) vals)) (f64_op o) t = Ok v) ts vs ->
  forall e v, meaning (f64_leaf o (combine (map Symbol ss) vs)) (f64_op o) e = Ok v ->
  meaning (f64_leaf o (combine (map Symbol names) vals)) (f64_op o) (subst (map Symbol ss) ts e) = Ok v.
Proof.
  intros Hnd Hlen Hts. induction e as [a|cs IH] using tree_ind_all; intros v Hv.
  - cbn [meaning] in Hv. unfold f64_leaf in Hv. rewrite ProofAlg.subst_unfold.
    destruct (dict_get tree_eqb (combine (map Symbol ss) vs) (Atm a)) as [w|] eqn:E.
    + injection Hv as ->. destruct (replaced_value _ ss ts vs Hnd Hts Hlen _ _ E) as (r & -> & Hr). exact Hr.
    + destruct a as [ty [n|s]]; [|destruct (atype_eqb ty T_Integer); discriminate]. rewrite not_replaced by (intros s; discriminate). cbn [meaning]. unfold f64_leaf.
      rewrite argument_int. exact Hv.
  - destruct cs as [|h args].
    { cbn [meaning] in Hv. unfold f64_leaf in Hv. destruct (dict_get tree_eqb (combine (map Symbol ss) vs) (Node [])) as [w|] eqn:E; [|discriminate].
      destruct (replaced_value _ ss ts vs Hnd Hts Hlen _ _ E) as (r & E' & _). rewrite not_replaced in E' by (intros s; discriminate). discriminate. }
    cbn [meaning] in Hv. destruct (mapM (meaning (f64_leaf o (combine (map Symbol ss) vs)) (f64_op o)) args) as [ws|] eqn:E; [|discriminate].
    rewrite ProofAlg.subst_unfold, not_replaced by (intros s; discriminate). cbn [map meaning]. cbn [bind] in Hv.
    assert (E' : mapM (meaning (f64_leaf o (combine (map Symbol names) vals)) (f64_op o)) (map (subst (map Symbol ss) ts) args) = Ok ws).
    { apply mapM_Ok_Forall2. apply mapM_Ok_Forall2 in E.
      assert (IH' : forall a v, In a args -> meaning (f64_leaf o (combine (map Symbol ss) vs)) (f64_op o) a = Ok v ->
        meaning (f64_leaf o (combine (map Symbol names) vals)) (f64_op o) (subst (map Symbol ss) ts a) = Ok v) by (intros a w Ha; apply IH; right; exact Ha).
      clear -E IH'. induction E as [|a w args ws Ha _ IHE]; [constructor|]. cbn [map]. constructor; [apply IH'; [left; reflexivity|exact Ha]|].
      apply IHE. intros; apply IH'; [right|]; assumption. }
    rewrite E'. cbn [bind]. rewrite subst_known_head; [exact Hv|]. clear -Hv. unfold f64_op, Add, Mul, Pow, sin, cos in Hv.
    repeat match type of Hv with (if tree_eqb h ?g then _ else _) = _ => destruct (tree_eqb_spec h g) as [->|_]; [eexists; reflexivity|] end.
    destruct (repr_raises h); discriminate.
Qed.

(** The two calls agree on the values of the symbols of [e]. *)
Lemma machine_agree mc args vals args' vals' e :
  (forall a, reach false [] e (Atm a) -> argument args vals (Atm a) = argument args' vals' (Atm a)) ->
  machine_value mc args vals e = machine_value mc args' vals' e.
Proof.
  induction e as [a|cs IH] using tree_ind_all; intros H.
  - cbn [machine_value machine_leaf]. rewrite (H a); [reflexivity|]. constructor. intros [].
  - destruct cs as [|h l]; [reflexivity|]. rewrite !machine_value_node.
    replace (opt_map (machine_value mc args vals) l) with (opt_map (machine_value mc args' vals') l); [reflexivity|].
    assert (IH' : forall a, In a l -> machine_value mc args' vals' a = machine_value mc args vals a).
    { intros a Ha. symmetry. apply IH; [right; exact Ha|]. intros b Hb. apply H. eapply reach_child; [intros []|exact Ha|exact Hb]. }
    clear -IH'. induction l as [|a l IHl]; [reflexivity|]. cbn [opt_map]. rewrite (IH' a) by (left; reflexivity). rewrite IHl; [reflexivity|]. intros; apply IH'; right; assumption.
Qed.

Section Platform.
  Context (mc : machine) {code : Type} (load : string -> res code)
    (call_f64 : code -> list spec_float -> spec_float) (call_fill : code -> nat -> list spec_float -> list spec_float).
  Context (Hplatform : faithful mc load call_f64 call_fill).
  Notation call := (call_compiled call_f64 call_fill).
  Notation lam names e := (lambdify load (map OExpr (map Symbol names)) (OExpr e)).

  (** C103. Let f = lambdify(ss, e) and f_i = lambdify(names, r_i). Then lambdify(names, e.xreplace({s_i: r_i})) succeeds
      and returns on every input exactly the double f(f_1(...), ..., f_n(...)). *)
  Theorem C103_compile_after_substitution names ss e rs ts f fs h :
    good_names (map Symbol names) -> good_names (map Symbol ss) ->
    length ss = length rs -> mapM expressify rs = Ok ts ->
    (forall s, e = Symbol s -> In s ss -> exists front, ss = (front ++ [s])%list) ->
    lam ss e h = (Ok f, h) -> Forall2 (fun r g => lam names r h = (Ok g, h)) ts fs ->
    exists t g, xreplace e (combine (map (fun s => PExpr (Symbol s)) ss) rs) = Ok t /\ lam names t h = (Ok g, h) /\
      forall vals, length vals = length names ->
        exists vs v, Forall2 (fun g v => call g vals = Ok (FFloat v)) fs vs /\ call f vs = Ok (FFloat v) /\ call g vals = Ok (FFloat v).
  Proof.
    intros Hg Hgs Hlen Hts Hroot Hf Hfs. pose proof (good_names_nodup ss Hgs) as Hnd.
    assert (Htl : length ts = length rs) by (apply mapM_Ok_Forall2 in Hts; clear -Hts; induction Hts; cbn [length]; congruence).
    exists (subst (map Symbol ss) ts e).
    destruct (C65_lambdify_expression mc load call_f64 call_fill Hplatform (map Symbol ss) e h Hgs) as [Hacc Hcall].
    destruct (Hcall f h Hf) as (_ & Hcallf & _).
    destruct (C65_lambdify_expression mc load call_f64 call_fill Hplatform (map Symbol names) (subst (map Symbol ss) ts e) h Hg) as [Hacc' Hcall'].
    assert (Hr : forall mc vals, length vals = length names -> exists vs, length vs = length ts /\
      Forall2 (fun t v => machine_value mc (map Symbol names) vals t = Some v) ts vs).
    { intros mc' vals Hl. clear -Hplatform Hg Hfs Hl. induction Hfs as [|r g ts fs Hr _ (vs & Hv1 & Hv2)]; [exists []; split; constructor|].
      destruct (C65_lambdify_expression mc load call_f64 call_fill Hplatform (map Symbol names) r h Hg) as [[Ha _] _].
      destruct (Ha (ex_intro _ g Hr) mc' vals) as (v & Hv); [rewrite map_length; exact Hl|].
      exists (v :: vs). split; [cbn [length]; congruence|constructor; assumption]. }
    destruct (proj2 Hacc') as (g & Hgt).
    { intros mc' vals Hl. rewrite map_length in Hl. destruct (Hr mc' vals Hl) as (vs & Hvl & Hvs).
      destruct (proj1 Hacc (ex_intro _ f Hf) mc' vs) as (v & Hv); [rewrite map_length; congruence|].
      exists v. apply (machine_subst mc' names vals ss ts vs Hnd); [congruence|exact Hvs|exact Hv]. }
    exists g. split; [apply xreplace_symbols; assumption|]. split; [exact Hgt|]. intros vals Hl.
    destruct (Hr mc vals Hl) as (vs & Hvl & Hvs). destruct (Hcallf vs) as (v & Hv & Hcv); [rewrite map_length; congruence|].
    exists vs, v. split; [|split; [exact Hcv|]].
    - clear -Hplatform Hg Hfs Hl Hvs. revert vs Hvs. induction Hfs as [|r g ts fs Hr _ IH]; intros vs Hvs; inversion Hvs as [|? v ? vs' Hv Hvs']; subst; constructor; [|exact (IH vs' Hvs')].
      destruct (C65_lambdify_expression mc load call_f64 call_fill Hplatform (map Symbol names) r h Hg) as [_ Hc].
      destruct (Hc g h Hr) as (_ & Hcg & _). destruct (Hcg vals) as (v' & Hv' & Hcv'); [rewrite map_length; exact Hl|]. congruence.
    - destruct (Hcall' g h Hgt) as (_ & Hcg & _). destruct (Hcg vals) as (v' & Hv' & Hcv'); [rewrite map_length; exact Hl|].
      rewrite (machine_subst mc names vals ss ts vs Hnd) with (v := v) in Hv'; [congruence|congruence|exact Hvs|exact Hv].
  Qed.

  (** The order of the arguments and arguments that do not occur in [e] make no difference: two compiled functions of
      [e] return the same double whenever they are given the same values for the symbols in [e]. *)
  Theorem C103_arguments names names' e f f' h vals vals' :
    good_names (map Symbol names) -> good_names (map Symbol names') ->
    lam names e h = (Ok f, h) -> lam names' e h = (Ok f', h) ->
    length vals = length names -> length vals' = length names' ->
    (forall s v, contains e s -> In (s, v) (combine names vals) <-> In (s, v) (combine names' vals')) ->
    exists v, call f vals = Ok (FFloat v) /\ call f' vals' = Ok (FFloat v).
  Proof.
    intros Hg Hg' Hf Hf' Hl Hl' Hsame.
    destruct (C65_lambdify_expression mc load call_f64 call_fill Hplatform (map Symbol names) e h Hg) as [_ Hc].
    destruct (Hc f h Hf) as (_ & Hcf & _). destruct (Hcf vals) as (v & Hv & Hcv); [rewrite map_length; exact Hl|].
    destruct (C65_lambdify_expression mc load call_f64 call_fill Hplatform (map Symbol names') e h Hg') as [_ Hc'].
    destruct (Hc' f' h Hf') as (_ & Hcf' & _). destruct (Hcf' vals') as (v' & Hv' & Hcv'); [rewrite map_length; exact Hl'|].
    exists v. split; [exact Hcv|]. rewrite Hcv'. do 2 f_equal.
    assert (E : machine_value mc (map Symbol names) vals e = machine_value mc (map Symbol names') vals' e); [|congruence].
    apply machine_agree. intros a Ha.
    assert (G : forall ns (vs : list spec_float) s, NoDup ns -> forall v, argument (map Symbol ns) vs (Symbol s) = Some v <-> In (s, v) (combine ns vs)).
    { clear. intros ns vs s Hnd v. revert vs. induction Hnd as [|n ns Hn Hnd IH]; intros [|w vs]; cbn [map argument combine]; try (split; [discriminate|intros []]).
      destruct (tree_eqb_spec (Symbol s) (Symbol n)) as [E|Hne].
      - injection E as ->. split; [intros [= ->]; left; reflexivity|]. intros [[= ->]|Hin]; [reflexivity|]. apply in_combine_l in Hin. contradiction.
      - rewrite IH. split; [intros Hin; right; exact Hin|]. intros [[= -> _]|Hin]; [congruence|exact Hin]. }
    assert (Hno : forall ns (vs : list spec_float) a, (forall s, Atm a <> Symbol s) -> argument (map Symbol ns) vs (Atm a) = None).
    { clear. intros ns vs a H. revert vs. induction ns as [|n ns IH]; intros [|w vs]; cbn [map argument]; try reflexivity.
      destruct (tree_eqb_spec (Atm a) (Symbol n)) as [E|_]; [destruct (H n E)|apply IH]. }
    assert (Hs : (exists s, Atm a = Symbol s) \/ forall s, Atm a <> Symbol s).
    { destruct a as [ty [n|s]]; [right; intros s; discriminate|]. destruct (tree_eqb_spec (Atm (mkAtom ty (VStr s))) (Symbol s)) as [E|Hne]; [left; eauto|].
      right. intros s' E. injection E as -> ->. apply Hne. reflexivity. }
    destruct Hs as [(s & Es)|Hs]; [|rewrite !Hno by exact Hs; reflexivity]. rewrite Es in *.
    pose proof (G names vals s (good_names_nodup _ Hg)) as G1. pose proof (G names' vals' s (good_names_nodup _ Hg')) as G2.
    destruct (argument (map Symbol names) vals (Symbol s)) as [w|] eqn:E1.
    - symmetry. apply G2, Hsame; [exact Ha|]. apply G1. reflexivity.
    - destruct (argument (map Symbol names') vals' (Symbol s)) as [w|] eqn:E2; [|reflexivity]. apply G1. apply Hsame; [exact Ha|]. apply G2. reflexivity.
  Qed.
End Platform.

(** The same for eval_f64: evaluating e.xreplace({s_i: r_i}) gives the double that evaluating [e] gives when the values of
    the r_i are passed for the s_i. *)
Theorem C103_evaluate_after_substitution {F} (o : float_ops F) names (vals ws : list F) ss e rs ts v :
  NoDup ss -> length ss = length rs -> mapM expressify rs = Ok ts ->
  (forall s, e = Symbol s -> In s ss -> exists front, ss = (front ++ [s])%list) ->
  Forall2 (fun r w => eval_f64 o r (Some (combine (map Symbol names) vals)) = Ok w) ts ws ->
  eval_f64 o e (Some (combine (map Symbol ss) ws)) = Ok v ->
  exists t, xreplace e (combine (map (fun s => PExpr (Symbol s)) ss) rs) = Ok t /\
    eval_f64 o t (Some (combine (map Symbol names) vals)) = Ok v.
Proof.
  intros Hnd Hlen Hts Hroot Hws Hv.
  assert (Htl : length ts = length rs) by (apply mapM_Ok_Forall2 in Hts; clear -Hts; induction Hts; cbn [length]; congruence).
  exists (subst (map Symbol ss) ts e). split; [apply xreplace_symbols; assumption|].
  apply eval_f64_meaning. apply eval_f64_meaning in Hv. apply (f64_subst o names vals ss ts ws Hnd); [congruence| |exact Hv].
  clear -Hws. induction Hws as [|r w ts ws H _ IH]; constructor; [apply eval_f64_meaning, H|exact IH].
Qed.

(** sin(x)**2 + 3*x*y + sin(x) with x := y*z and y := 3, compiled for the arguments z, y. *)
Example C103_case mc :
  let ss := ["x"; "y"] in let names := ["z"; "y"] in let rs := [PExpr (m_mul y z); PInt 3] in
  faithful mc sample_load (sample_f64 mc) (sample_fill mc) /\
  good_names (map Symbol names) /\ good_names (map Symbol ss) /\ mapM expressify rs = Ok [m_mul y z; int 3] /\
  (exists f, lambdify sample_load (map OExpr (map Symbol ss)) (OExpr e_code) heap_ab = (Ok f, heap_ab)) /\
  (exists f1 f2, lambdify sample_load (map OExpr (map Symbol names)) (OExpr (m_mul y z)) heap_ab = (Ok f1, heap_ab) /\
     lambdify sample_load (map OExpr (map Symbol names)) (OExpr (int 3)) heap_ab = (Ok f2, heap_ab)) /\
  exists t g, xreplace e_code (combine (map (fun s => PExpr (Symbol s)) ss) rs) = Ok t /\
    lambdify sample_load (map OExpr (map Symbol names)) (OExpr t) heap_ab = (Ok g, heap_ab) /\
    forall a b, let c := mc_mul mc b a in call_compiled (sample_f64 mc) (sample_fill mc) g [a; b] =
       Ok (FFloat (mc_add mc (mc_add mc (mc_pow mc (mc_sin mc c) two) (mc_mul mc (mc_mul mc three c) three)) (mc_sin mc c))).
Proof.
  intros ss names rs. split; [apply sample_faithful|].
  assert (H1 : good_names (map Symbol names)).
  { exists names. split; [reflexivity|]. split; [repeat (apply NoDup_cons; [cbn [In]; intuition discriminate|]); apply NoDup_nil|].
    split; [repeat constructor; discriminate|]. intros k [H|[H|[]]]; discriminate. }
  assert (H2 : good_names (map Symbol ss)).
  { exists ss. split; [reflexivity|]. split; [repeat (apply NoDup_cons; [cbn [In]; intuition discriminate|]); apply NoDup_nil|].
    split; [repeat constructor; discriminate|]. intros k [H|[H|[]]]; discriminate. }
  split; [exact H1|]. split; [exact H2|]. split; [reflexivity|].
  split; [eexists; vm_compute; reflexivity|]. split; [do 2 eexists; split; vm_compute; reflexivity|].
  do 2 eexists. split; [vm_compute; reflexivity|]. split; [vm_compute; reflexivity|]. intros a b. vm_compute. reflexivity.
Qed.
Print Assumptions C103_compile_after_substitution.
Print Assumptions C103_evaluate_after_substitution.
