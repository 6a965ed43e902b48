(** * Rules and evaluators on objects *)
From Verif Require Import Py ModelTree ModelIntern SpecIntern ModelEval ModelDiff ModelSym ModelCas ModelApi ProofBase ProofIntern SpecTree ModelObjects SpecObjects
  ModelObjEval SpecObjEval ModelObjExpr SpecObjExpr ModelObjRules SpecObjRules ProofTopo ProofGraph ProofObjects ProofObjTree ProofObjEval PropsObjEval ProofObjExpr.

(** ** Pure part *)
(** What o_read reads with limited fuel. *)
Fixpoint trunc (fuel : nat) (u : tree) : res tree :=
  match fuel with
  | O => Err OutOfFuel
  | S f => match u with Atm _ => Ok u | Node l => do l' <- mapM (trunc f) l; Ok (Node l') end
  end.
Fixpoint height (u : tree) : nat :=
  match u with Atm _ => 1 | Node l => S (list_max (map height l)) end.
Lemma trunc_fine u : forall fuel, height u <= fuel -> trunc fuel u = Ok u.
Proof.
  induction u as [a|l IH] using tree_ind_all; intros [|f] Hf; cbn [height] in Hf; try lia; [reflexivity|]. cbn [trunc].
  assert (E : mapM (trunc f) l = Ok l); [|rewrite E; reflexivity].
  assert (Hl : forall x, In x l -> height x <= f).
  { intros x Hx. pose proof (proj1 (list_max_le (map height l) f) ltac:(lia)) as H. rewrite Forall_forall in H. apply H, in_map, Hx. }
  clear Hf. induction l as [|x l IHl]; [reflexivity|]. cbn [mapM]. rewrite (IH x (or_introl eq_refl)) by (apply Hl; left; reflexivity). cbn [bind].
  rewrite IHl; [reflexivity|intros y Hy; apply IH; right; exact Hy|intros y Hy; apply Hl; right; exact Hy].
Qed.
Definition trunc_ev {V} (fuel : nat) (ev : evaluator V) : evaluator V :=
  mkEval (ev_atoms ev) (ev_operations ev) (fun h args => do u <- trunc fuel h; ev_generic_operation ev u args) (fun a => do u <- trunc fuel a; ev_generic_atom ev u).
Lemma trunc_evaluate {V} (none : V -> bool) (ev : evaluator V) u : exists N, forall fuel d, N <= fuel -> evaluate none (trunc_ev fuel ev) u d = evaluate none ev u d.
Proof.
  destruct (forward_graph u) as [g|x] eqn:E.
  - exists (S (list_max (map (fun op => height (fst op)) (g_operations g)))). intros fuel d Hf. unfold evaluate, eval_forward. rewrite E. cbn [bind].
    assert (El : mapM (eval_leaf none (trunc_ev fuel ev) (match d with Some d0 => d0 | None => [] end)) (g_atoms g) = mapM (eval_leaf none ev (match d with Some d0 => d0 | None => [] end)) (g_atoms g)).
    { apply mapM_ext. intros a _. assert (Ea : eval_atom (trunc_ev fuel ev) a = eval_atom ev a).
      { unfold eval_atom. destruct a as [x|cs]; [|reflexivity]. cbn [tree_value bind trunc_ev ev_atoms ev_generic_atom].
        destruct (dict_get atype_eqb (ev_atoms ev) (atom_type x)); [reflexivity|]. destruct fuel; [lia|]. reflexivity. }
      unfold eval_leaf. rewrite Ea. reflexivity. }
    rewrite El. clear El. match goal with |- bind ?x _ = bind ?x _ => generalize x; intros m end. destruct m as [st|]; cbn [bind]; [|reflexivity].
    assert (Ho : forall op, In op (g_operations g) -> forall args, eval_operation (trunc_ev fuel ev) (fst op) args = eval_operation ev (fst op) args).
    { intros op Hin args. unfold eval_operation. cbn [trunc_ev ev_operations ev_generic_operation]. destruct (dict_get tree_eqb (ev_operations ev) (fst op)) as [[]|]; [reflexivity|].
      rewrite trunc_fine; [reflexivity|]. pose proof (proj1 (list_max_le _ _) (Nat.le_refl (list_max (map (fun op => height (fst op)) (g_operations g))))) as H.
      rewrite Forall_forall in H. specialize (H (height (fst op)) ltac:(apply (in_map (fun op => height (fst op))), Hin)). lia. }
    assert (Ef : foldM (run_op (eval_operation (trunc_ev fuel ev))) (g_operations g) st = foldM (run_op (eval_operation ev)) (g_operations g) st); [|rewrite Ef; reflexivity].
    clear - Ho. revert st. induction (g_operations g) as [|op l IH]; intros st; [reflexivity|]. cbn [foldM].
    assert (E : run_op (eval_operation (trunc_ev fuel ev)) st op = run_op (eval_operation ev) st op).
    { unfold run_op. destruct op as [h ns]. destruct (mapM _ _) as [vs|]; cbn [bind]; [|reflexivity]. rewrite (Ho (h, ns) (or_introl eq_refl)). reflexivity. }
    rewrite E. clear E. destruct (run_op (eval_operation ev) st op); cbn [bind]; [|reflexivity]. apply IH. intros op' Hin. apply Ho. right. exact Hin.
  - exists 0. intros fuel d _. unfold evaluate, eval_forward. rewrite E. reflexivity.
Qed.

Lemma update_id {V} (e : dict tree V) : NoDup (map fst e) -> dict_update tree_eqb [] e = e.
Proof.
  intros Hn.
  assert (G : forall (l d : dict tree V), NoDup (map fst (d ++ l)) -> dict_update tree_eqb d l = d ++ l); [|apply (G e []); exact Hn].
  clear. unfold dict_update. induction l as [|[k v] l IH]; intros d Hn; [symmetry; apply app_nil_r|]. cbn [fold_left fst snd].
  assert (E : dict_set tree_eqb d k v = d ++ [(k, v)]).
  { rewrite map_app in Hn. assert (Hk : ~ In k (map fst d)).
    { intros H. apply NoDup_remove_2 in Hn. apply Hn, in_or_app. left. exact H. }
    clear - Hk. induction d as [|[k' v'] d IH]; [reflexivity|]. cbn [dict_set app]. destruct (tree_eqb_spec k k') as [->|Hne]; [destruct Hk; left; reflexivity|].
    rewrite IH; [reflexivity|]. intros H. apply Hk. right. exact H. }
  rewrite E, IH; rewrite <- app_assoc; [reflexivity|exact Hn].
Qed.
Lemma update_nodup {V} (m : list (tree * V)) : NoDup (map fst (dict_update tree_eqb [] m)).
Proof.
  assert (G : forall d : dict tree V, NoDup (map fst d) -> NoDup (map fst (dict_update tree_eqb d m))); [|apply G; constructor].
  unfold dict_update. induction m as [|[k v] m IH]; intros d Hd; [exact Hd|]. cbn [fold_left fst snd]. apply IH, dict_set_NoDup; [exact tree_eqb_spec|exact Hd].
Qed.

Section Proof.
  Context (names : nat -> string) (atomic : bool) (who : nat -> Prop) (t : nat).
  Context (Hsafe : safe atomic who) (Hwho : who t) (Hnames : rule_names names).
  Context {V : Type} (none : V -> bool).
  Notation has_tree := (has_tree names t).
  Notation has_atom := (has_atom names t).
  Notation has_expr := (has_expr names t).
  Notation W := (W atomic who t).
  Notation le := (le t).
  Notation mono := (mono t).
  Notation refines := (refines atomic who t).
  Notation later := (later names t).
  Notation trees := (rlist has_tree).
  Notation exprs := (rlist has_expr).
  Notation ref_bind := (ref_bind atomic who t Hwho).
  Notation ref_bind_ok := (ref_bind_ok atomic who t Hwho).
  Notation ref_ret := (ref_ret atomic who t).
  Implicit Types (s : state pyval).
  Let Hcas : cas_names names := proj1 Hnames.

  Lemma read_ref fuel : forall s a u, W s -> has_tree s a u -> refines s (o_read names fuel a) (trunc fuel u) (@req tree).
  Proof.
    induction fuel as [|fuel IH]; intros s a u HW Ha; [apply ref_ret; [exact HW|apply mono_eq|reflexivity]|].
    cbn [o_read trunc]. destruct Ha as [Ha Hu]. pose proof Hu as Hu0. inversion Hu as [? b x Ho Hx|? l us Ho Hl]; subst.
    - eapply ref_read; [exact HW|exact Ha|exact Ho|]. intros s1 W1 L1 Ho1 Hh.
      eapply ref_bind_ok; [exact W1|apply (parts_ref names atomic who t s1 b x W1)|].
      + pose proof (tree_obj_le names t s s1 L1 (Atm x) a a Ha (leads_self _ _) Hu0) as Hu1. inversion Hu1 as [? b' x' Ho' Hx'|]; subst.
        assert (b' = b) by congruence. subst. split; [apply Hh; left; reflexivity|exact Hx'].
      + intros s2 [ty v] W2 L2 E. cbn [fst snd] in E. subst x. apply ref_ret; [exact W2|apply mono_eq|]. reflexivity.
    - eapply ref_read; [exact HW|exact Ha|exact Ho|]. intros s1 W1 L1 Ho1 Hh.
      assert (Hl1 : trees s1 l us).
      { pose proof (tree_obj_le names t s s1 L1 (Node us) a a Ha (leads_self _ _) Hu0) as Hu1. inversion Hu1 as [|? l' us' Ho' Hl']; subst.
        assert (l' = l) by congruence. subst. cbn [obj_refs] in Hh. clear - Hl' Hh. induction Hl' as [|b v l us Hb _ IH]; [constructor|].
        constructor; [split; [apply Hh; left; reflexivity|exact Hb]|apply IH; intros c Hc; apply Hh; right; exact Hc]. }
      eapply (ref_bind _ _ _ _ _ (rlist (@req tree))); [exact W1| |].
      + apply (pmap_ref atomic who t Hwho has_tree (@req tree)); [apply mono_tree|apply mono_eq|exact W1|exact Hl1|]. intros s2 x y W2 _ H2. apply IH; assumption.
      + intros s2 x y W2 L2 H2. apply ref_ret; [exact W2|apply mono_eq|]. cbn [rel]. apply eq_list in H2. subst. reflexivity.
  Qed.

  (** ** Evaluators *)
  Notation same_rules := (same_rules names atomic who t (@req V)).
  (** The rules that a user can add are functions of Python values: in all states they compute the same, only the heads have to stay. *)
  Definition fixed_atom (r : nat * (pyval -> prog V)) (q : atype * (pyval -> res V)) : Prop :=
    fst q = mkType (fst r) (names (fst r)) /\ forall s1 v, W s1 -> refines s1 (snd r v) (snd q v) (@req V).
  Definition fixed_op s (r : addr * ((list (pyarg V) -> prog V) * bool)) (q : tree * (callable V * bool)) : Prop :=
    has_tree s (fst r) (fst q) /\ snd (snd r) = snd (snd q) /\ forall s1 args, W s1 -> refines s1 (fst (snd r) args) (fst (snd q) args) (@req V).
  Record fixed s (oe : o_evaluator V) (ev : evaluator V) : Prop := {
    fx_atoms : Forall2 fixed_atom (oe_atoms oe) (ev_atoms ev);
    fx_operations : Forall2 (fixed_op s) (oe_operations oe) (ev_operations ev);
    fx_generic_operation : forall s1 h u args, W s1 -> has_tree s1 h u -> refines s1 (oe_generic_operation oe h args) (ev_generic_operation ev u args) (@req V);
    fx_generic_atom : forall s1 a u, W s1 -> has_tree s1 a u -> refines s1 (oe_generic_atom oe a) (ev_generic_atom ev u) (@req V)
  }.
  Definition rev_ fuel s (oe : o_evaluator V) (ev : evaluator V) : Prop := fixed s oe (trunc_ev fuel ev).
  Lemma stable_eq : stable names t (@req V). Proof. intros s s' a b _ H. exact H. Qed.
  Lemma fixed_keys s s' oe ev : (forall a u, In a (map fst (oe_operations oe)) -> has_tree s a u -> has_tree s' a u) -> fixed s oe ev -> fixed s' oe ev.
  Proof.
    intros L [H1 H2 H3 H4]. constructor; try assumption. clear H1 H3 H4. induction H2 as [|r q l m (K1 & K2) _ IH]; constructor.
    - split; [|exact K2]. apply L; [left; reflexivity|exact K1].
    - apply IH. intros a u Ha. apply L. right. exact Ha.
  Qed.
  Lemma fixed_held s oe ev : fixed s oe ev -> incl (map fst (oe_operations oe)) (held (threads s t)).
  Proof.
    intros [_ H2 _ _]. induction H2 as [|r q l m ([K1 _] & _) _ IH]; intros a Ha; [destruct Ha|]. destruct Ha as [<-|Ha]; [exact K1|apply IH, Ha].
  Qed.
  Lemma mono_ev fuel : mono (rev_ fuel).
  Proof. intros s s' oe ev L H. unfold rev_. eapply fixed_keys; [|exact H]. intros a u _ Ha. eapply has_tree_le; eassumption. Qed.
  Lemma lift_ref s (x : res V) : W s -> refines s (lift x) x (@req V).
  Proof. intros HW. apply ref_ret; [exact HW|apply mono_eq|]. destruct x; reflexivity. Qed.
  Lemma head_op_ref fuel s h u args (f : tree -> list V -> res V) : W s -> has_tree s h u ->
    refines s (o_head_op names fuel f h args) (do v <- trunc fuel u; f v args) (@req V).
  Proof.
    intros HW Hh. unfold o_head_op. eapply ref_bind; [exact HW|apply read_ref; [exact HW|exact Hh]|]. intros s1 a b W1 L1 E. red in E. subst. apply lift_ref, W1.
  Qed.
  Lemma atom_func_ref fuel s a u (f : tree -> res V) : W s -> has_tree s a u -> refines s (o_atom_func names fuel f a) (do v <- trunc fuel u; f v) (@req V).
  Proof.
    intros HW Hh. unfold o_atom_func. eapply ref_bind; [exact HW|apply read_ref; [exact HW|exact Hh]|]. intros s1 b c W1 L1 E. red in E. subst. apply lift_ref, W1.
  Qed.
  Lemma vals_eq s (args args' : list V) : Forall2 (@req V s) args args' -> args = args'.
  Proof. apply eq_list. Qed.
  Lemma args_eq s (args args' : list (pyarg V)) : Forall2 (same_args (@req V) s) args args' -> args = args'.
  Proof.
    induction 1 as [|x y l m Hx _ IH]; [reflexivity|]. rewrite IH. f_equal. destruct x, y; cbn [same_args] in Hx; try contradiction.
    - red in Hx. subst. reflexivity.
    - apply vals_eq in Hx. subst. reflexivity.
  Qed.
  Lemma fixed_rules s oe ev : fixed s oe ev -> same_rules s oe ev.
  Proof.
    intros [H1 H2 H3 H4]. constructor.
    - eapply Forall2_mono; [|exact H1]. intros r q [E H]. split; [exact E|]. intros s1 v R1 _. apply H, R1.
    - eapply Forall2_mono; [|exact H2]. intros r q (E & E2 & H). split; [exact E|]. split; [exact E2|].
      intros s1 l m R1 _ Hl. apply args_eq in Hl. subst. apply H, R1.
    - intros s1 h u l m R1 _ Hh Hl. apply vals_eq in Hl. subst. apply H3; assumption.
    - intros s1 a u R1 _ Ha. apply H4; assumption.
  Qed.
  Lemma new_evaluator_ref fuel s : rev_ fuel s (o_new_evaluator names fuel) new_evaluator.
  Proof.
    constructor; cbn [o_new_evaluator trunc_ev new_evaluator oe_atoms oe_operations oe_generic_operation oe_generic_atom ev_atoms ev_operations ev_generic_operation ev_generic_atom].
    - constructor.
    - constructor.
    - intros s1 h u args R1 Hh. apply head_op_ref; assumption.
    - intros s1 a u R1 Ha. apply atom_func_ref; assumption.
  Qed.
  Lemma known_type ty : In ty [T_Integer; T_Symbol; T_Function; T_Wild] -> mkType (ty_id ty) (names (ty_id ty)) = ty.
  Proof. intros Hty. pose proof Hcas as H. unfold cas_names in H. rewrite Forall_forall in H. rewrite (H ty Hty). destruct ty; reflexivity. Qed.
  Lemma add_atom_ref fuel s oe ev ty (f : pyval -> res V) : In ty [T_Integer; T_Symbol; T_Function; T_Wild] -> rev_ fuel s oe ev ->
    rev_ fuel s (o_add_atom oe (ty_id ty) f) (add_atom ev ty f).
  Proof.
    intros Hty [H1 H2 H3 H4]. constructor; try assumption. cbn [o_add_atom add_atom trunc_ev oe_atoms ev_atoms] in *.
    apply known_type in Hty. revert Hty. generalize (ty_id ty). intros n <-. clear - H1.
    assert (Hnew : fixed_atom (n, fun v => lift (f v)) (mkType n (names n), f)).
    { split; [reflexivity|]. intros s1 v R1. apply lift_ref, R1. }
    induction H1 as [|[n' g] [q g'] l m [Hq Hg] Hl IH]; cbn [dict_set]; [constructor; [exact Hnew|constructor]|]. cbn [fst snd] in Hq, Hg. subst q.
    unfold atype_eqb. cbn [ty_id ty_name]. destruct (Nat.eqb_spec n n') as [->|Hne]; cbn [andb].
    - rewrite String.eqb_refl. constructor; [exact Hnew|exact Hl].
    - constructor; [split; [reflexivity|exact Hg]|exact IH].
  Qed.
  Lemma add_atom_generic_ref fuel s oe ev (f : tree -> res V) : rev_ fuel s oe ev -> rev_ fuel s (o_add_atom_generic names fuel oe f) (add_atom_generic ev f).
  Proof. intros [H1 H2 H3 H4]. constructor; try assumption. intros s1 a u R1 Ha. apply atom_func_ref; assumption. Qed.
  Lemma add_op_generic_ref fuel s oe ev (f : tree -> list V -> res V) : rev_ fuel s oe ev -> rev_ fuel s (o_add_op_generic names fuel oe f) (add_op_generic ev f).
  Proof. intros [H1 H2 H3 H4]. constructor; try assumption. intros s1 h u args R1 Hh. apply head_op_ref; assumption. Qed.
  Lemma set_op_ref s l m h u (f : callable V) b : W s -> has_tree s h u -> Forall2 (fixed_op s) l m ->
    Forall2 (fixed_op s) (dict_set Nat.eqb l h (o_callable f, b)) (dict_set tree_eqb m u (f, b)).
  Proof.
    intros HW Hh H.
    assert (Hnew : forall h, has_tree s h u -> fixed_op s (h, (o_callable f, b)) (u, (f, b))).
    { intros h0 H0. split; [exact H0|]. split; [reflexivity|]. intros s1 args R1. apply lift_ref, R1. }
    induction H as [|[h' g] [u' g'] l m (Hu & Hg) Hl IH]; cbn [dict_set]; [constructor; [apply Hnew, Hh|constructor]|]. cbn [fst snd] in Hu, Hg.
    rewrite (identity names atomic who t Hsafe s h u h' u' HW Hh Hu). destruct (tree_eqb_spec u u') as [<-|Hne].
    - constructor; [apply Hnew, Hu|exact Hl].
    - constructor; [split; [exact Hu|exact Hg]|exact IH].
  Qed.
  Lemma sym_add_op_ref fuel s oe ev h u (op : pyfunc V) : W s -> has_expr s h u -> rev_ fuel s oe ev ->
    refines s (o_sym_add_op oe h op) (let (ev', r) := sym_add_op ev u op in do _ <- r; Ok ev') (rev_ fuel).
  Proof.
    intros HW Hh Hev. assert (G : forall f b, refines s (run r <- o_rep h; ret (o_add_op oe r f b))
      (Ok (mkEval (ev_atoms ev) (dict_set tree_eqb (ev_operations ev) u (f, b)) (ev_generic_operation ev) (ev_generic_atom ev))) (rev_ fuel)).
    { intros f b. eapply (ref_bind_ok _ _ _ _ _ has_tree); [exact HW|apply (rep_ref names); [exact HW|exact Hh]|]. intros s1 r W1 L1 Hr.
      apply ref_ret; [exact W1|apply mono_ev|]. cbn [rel]. pose proof (mono_ev fuel _ _ _ _ L1 Hev) as [H1 H2 H3 H4].
      constructor; try assumption. cbn [o_add_op trunc_ev oe_operations ev_operations] in *. apply set_op_ref; assumption. }
    destruct op; cbn [o_sym_add_op sym_add_op bind]; try (apply G); apply ref_ret; try exact HW; try apply mono_ev; reflexivity.
  Qed.

  (** ** Patterns *)
  Definition rpat s (p : o_pattern) (q : pattern) : Prop :=
    match p, q with
    | OPSym e, PSym u => has_expr s e u
    | OPAtomValue ty e, PAtomValue ty' u => ty = ty' /\ has_expr s e u
    | OPAtomRule e, PAtomRule u => has_expr s e u
    | OPHeadRule e f, PHeadRule u v => has_expr s e u /\ has_expr s f v
    | _, _ => False
    end.
  Lemma mono_pat : mono rpat.
  Proof.
    intros s s' [e|ty e|e|e f] [u|ty' u|u|u v] L H; cbn [rpat] in *; try contradiction; try (eapply has_expr_le; eassumption).
    - destruct H as [H1 H2]. split; [exact H1|eapply has_expr_le; eassumption].
    - destruct H as [H1 H2]. split; eapply has_expr_le; eassumption.
  Qed.
  Lemma pattern_args_ref s p q : W s -> rpat s p q -> refines s (o_pattern_args p) (Ok (pattern_args q)) exprs.
  Proof.
    intros HW H. destruct p as [e|ty e|e|e f], q as [u|ty' u|u|u v]; cbn [rpat] in H; try contradiction; cbn [o_pattern_args pattern_args].
    - apply (args_ref names atomic who t Hsafe Hwho); assumption.
    - apply ref_ret; [exact HW|apply mono_exprs|]. constructor; [apply H|constructor].
    - apply ref_ret; [exact HW|apply mono_exprs|]. constructor; [apply H|constructor].
    - apply ref_ret; [exact HW|apply mono_exprs|]. constructor; [apply H|]. constructor; [apply H|constructor].
  Qed.
  Lemma star_ref s star_r e u : W s -> has_tree s star_r Star -> has_expr s e u -> refines s (o_star star_r e) (Ok (star u)) has_expr.
  Proof.
    intros HW Hs He. unfold o_star, star. eapply (ref_bind_ok _ _ _ _ _ has_tree); [exact HW|apply (rep_ref names); [exact HW|exact He]|]. intros s1 r W1 L1 Hr.
    eapply (ref_bind_ok _ _ (tree_call Star [u]) _ _ has_tree); [exact W1|apply (call_ref names atomic who t Hsafe Hwho); [exact W1|eapply has_tree_le; eassumption|constructor; [exact Hr|constructor]]|].
    intros s2 x W2 L2 Hx. apply (Expr_ref names atomic who t Hsafe Hwho); assumption.
  Qed.
  Lemma addrs_same s l us m vs : W s -> exprs s l us -> exprs s m vs -> addrs_eqb l m = trees_eqb us vs.
  Proof.
    intros HW Hl Hm. unfold trees_eqb. destruct (tree_eqb_spec (Node us) (Node vs)) as [[= ->]|Hne].
    - unfold addrs_eqb. rewrite (rl_length _ _ _ _ Hl), (rl_length _ _ _ _ Hm), Nat.eqb_refl. cbn [andb]. revert m Hm. induction Hl as [|a u l us Ha _ IH]; intros m Hm; [reflexivity|].
      inversion Hm as [|b ? m' ? Hb Hm']; subst. cbn [combine forallb fst snd]. rewrite (expr_identity names atomic who t Hsafe s a u b u HW Ha Hb).
      destruct (tree_eqb_spec u u) as [_|Hc]; [|destruct Hc; reflexivity]. apply IH, Hm'.
    - apply Bool.not_true_is_false. intros E. apply Hne. f_equal. unfold addrs_eqb in E. apply andb_prop in E as [E1 E2]. apply Nat.eqb_eq in E1. clear Hne.
      revert m vs Hm E1 E2. induction Hl as [|a u l us Ha _ IH]; intros m vs Hm E1 E2; inversion Hm as [|b v m' vs' Hb Hm']; subst; try discriminate; [reflexivity|].
      cbn [combine forallb fst snd] in E2. apply andb_prop in E2 as [E2 E3]. rewrite (expr_identity names atomic who t Hsafe s a u b v HW Ha Hb) in E2.
      destruct (tree_eqb_spec u v) as [->|]; [|discriminate]. f_equal. eapply IH; [exact Hm'|injection E1 as E1; exact E1|exact E3].
  Qed.
  Lemma signature_ref s star_r p q (op : pyfunc V) l us : W s -> has_tree s star_r Star -> rpat s p q -> exprs s l us ->
    refines s (o_signature_check star_r p op l) (signature_check q (mkCall op us)) (@req unit).
  Proof.
    intros HW Hs Hp Hl. unfold o_signature_check, signature_check. cbn [wc_op wc_args].
    eapply (ref_bind_ok _ _ _ _ _ exprs); [exact HW|apply pattern_args_ref; [exact HW|exact Hp]|]. intros s1 pargs W1 L1 Ha.
    assert (Hl1 : exprs s1 l us) by (eapply mono_exprs; eassumption).
    assert (G : forall m vs, exprs s1 m vs -> refines s1 (if negb (addrs_eqb pargs m) then Ret (Err BadRuleError) else ret tt)
      (if negb (trees_eqb (pattern_args q) vs) then Err BadRuleError else Ok tt) (@req unit)).
    { intros m vs Hm. rewrite (addrs_same s1 pargs _ m vs W1 Ha Hm). destruct (trees_eqb _ _); cbn [negb]; apply ref_ret; try exact W1; try apply mono_eq; reflexivity. }
    destruct op; try (apply G; exact Hl1). inversion Hl1 as [|e u l' us' He Hl']; subst; [apply ref_ret; [exact W1|apply mono_eq|reflexivity]|].
    inversion Hl' as [|e2 u2 l2 us2 He2 Hl2]; subst; [|apply ref_ret; [exact W1|apply mono_eq|reflexivity]].
    eapply (ref_bind_ok _ _ _ _ _ has_expr); [exact W1|apply star_ref; [exact W1|eapply has_tree_le; eassumption|exact He]|]. intros s2 st W2 L2 Hst.
    rewrite (addrs_same s2 pargs (pattern_args q) [st] [star u] W2); [|eapply mono_exprs; eassumption|constructor; [exact Hst|constructor]].
    destruct (trees_eqb _ _); cbn [negb]; apply ref_ret; try exact W2; try apply mono_eq; reflexivity.
  Qed.
  Definition rule_ok (p : pattern) : Prop := match p with PAtomValue ty _ => In ty [T_Integer; T_Symbol; T_Function; T_Wild] | _ => True end.
  Lemma set_item_ref fuel s star_r p q (op : pyfunc V) l us oe ev : W s -> has_tree s star_r Star -> rpat s p q -> rule_ok q -> exprs s l us -> rev_ fuel s oe ev ->
    refines s (o_set_item names fuel star_r oe p op l) (run_statement ev (q, op, us)) (rev_ fuel).
  Proof.
    intros HW Hs Hp Hok Hl Hev. unfold o_set_item, run_statement.
    eapply (ref_bind _ _ _ _ _ (fun s l c => wc_op c = op /\ exprs s l (wc_args c))); [exact HW| |].
    - assert (M : mono (fun s l (c : wildcall V) => wc_op c = op /\ exprs s l (wc_args c))) by (intros s1 s2 a b L [H1 H2]; split; [exact H1|eapply mono_exprs; eassumption]).
      unfold pyfunc_call. destruct op; inversion Hl as [|? ? ? ? H1 Hl1]; subst; cbn [o_pyfunc_call]; try (apply ref_ret; [exact HW|exact M|reflexivity]);
        inversion Hl1 as [|? ? ? ? H2 Hl2]; subst; try (apply ref_ret; [exact HW|exact M|first [reflexivity|split; [reflexivity|exact Hl]]]);
        inversion Hl2; subst; apply ref_ret; try exact HW; try exact M; first [reflexivity|split; [reflexivity|exact Hl]].
    - intros s1 args [op' us'] W1 L1 [E Ha]. cbn [wc_op wc_args] in E, Ha. subst op'. unfold set_item.
      pose proof (signature_ref s1 star_r p q op args us' W1 (has_tree_le _ _ _ _ _ _ L1 Hs) (mono_pat _ _ _ _ L1 Hp) Ha) as G.
      destruct (signature_check q (mkCall op us')) as [[]|err]; [|eapply (ref_err atomic who t Hwho); [exact W1|exact G]].
      eapply ref_bind_ok; [exact W1|exact G|]. intros s2 _ W2 L2 _.
      pose proof (mono_pat _ _ _ _ (le_trans _ _ _ _ L1 L2) Hp) as Hp2. pose proof (mono_ev _ _ _ _ _ (le_trans _ _ _ _ L1 L2) Hev) as Hev2. clear G.
      destruct p as [e|ty e|e|e f], q as [u|ty' u|u|u v]; cbn [rpat] in Hp2; try contradiction; cbn [wc_op rule_ok] in *.
      + destruct op as [f|f|f|f|f|f]; try (apply ref_ret; [exact W2|apply mono_ev|reflexivity]).
        all: pose proof (head_ref names atomic who t Hsafe Hwho s2 e u W2 Hp2) as G; destruct (sym_head u) as [h|err]; [|eapply (ref_err atomic who t Hwho); [exact W2|exact G]];
          (eapply (ref_bind_ok _ _ _ _ _ has_expr); [exact W2|exact G|]); intros s3 h' W3 L3 Hh;
          pose proof (sym_add_op_ref fuel s3 oe ev h' h) as A.
        * apply (A (PyOp1 f)); [exact W3|exact Hh|eapply mono_ev; eassumption].
        * apply (A (PyOp2 f)); [exact W3|exact Hh|eapply mono_ev; eassumption].
        * apply (A (PyOpN f)); [exact W3|exact Hh|eapply mono_ev; eassumption].
      + destruct Hp2 as [-> _]. destruct op as [f|f|f|f|f|f]; apply ref_ret; try exact W2; try apply mono_ev; try reflexivity. cbn [rel]. apply add_atom_ref; assumption.
      + destruct op as [f|f|f|f|f|f]; apply ref_ret; try exact W2; try apply mono_ev; try reflexivity. cbn [rel]. apply add_atom_generic_ref; assumption.
      + destruct op as [g|g|g|g|g|g]; apply ref_ret; try exact W2; try apply mono_ev; try reflexivity. cbn [rel]. apply add_op_generic_ref; assumption.
  Qed.

  (** ** Evaluation *)
  Lemma dict_same s (l : list (addr * V)) (m : list (tree * V)) (key : state pyval -> addr -> tree -> Prop) :
    (forall a u b v, key s a u -> key s b v -> Nat.eqb a b = tree_eqb u v) ->
    rlist (rprod key (@req V)) s l m -> rlist (rprod key (@req V)) s (dict_update Nat.eqb [] l) (dict_update tree_eqb [] m).
  Proof.
    intros Hid H.
    assert (G : forall (d : dict addr V) (d' : dict tree V), rlist (rprod key (@req V)) s d d' -> rlist (rprod key (@req V)) s (dict_update Nat.eqb d l) (dict_update tree_eqb d' m)); [|apply G; constructor].
    unfold dict_update. induction H as [|[k v] [k' v'] l m [Hk Hv] _ IH]; intros d d' Hd; [exact Hd|]. cbn [fold_left fst snd] in *. apply IH. clear IH.
    induction Hd as [|[j w] [j' w'] d d' [Hj Hw] Hd IHd]; cbn [dict_set].
    - constructor; [split; assumption|constructor].
    - cbn [fst snd] in *. rewrite (Hid k k' j j' Hk Hj). destruct (tree_eqb k' j'); constructor; try assumption; split; assumption.
  Qed.
  Definition rvals s (d : option (dict addr V)) (e : option (dict tree V)) : Prop :=
    match d, e with
    | None, None => True
    | Some d, Some e => NoDup (map fst e) /\ rlist (rprod has_expr (@req V)) s d e
    | _, _ => False
    end.
  Lemma mono_vals : mono rvals.
  Proof.
    intros s s' [d|] [e|] L H; cbn [rvals] in *; try exact H. destruct H as [H1 H2]. split; [exact H1|].
    eapply (mono_list t); [apply mono_prod; [apply mono_expr|apply mono_eq]|exact L|exact H2].
  Qed.
  Lemma evaluate_ref u ev : exists N, forall fuel, N <= fuel -> forall s oe e d d', W s -> has_expr s e u -> rev_ fuel s oe ev -> rvals s d d' ->
    refines s (o_sym_evaluate none fuel oe e d) (sym_evaluate none ev u d') (@req V).
  Proof.
    destruct (trunc_evaluate none ev u) as (N & HN). exists (N + S (topo_weight u)). intros fuel Hf s oe e d d' HW He Hev Hd. unfold o_sym_evaluate, sym_evaluate.
    rewrite <- (HN fuel d' ltac:(lia)).
    replace (evaluate none (trunc_ev fuel ev) u d') with (evaluate none (trunc_ev fuel ev) u (Some (match d' with Some x => x | None => [] end))) by (destruct d'; reflexivity).
    eapply (ref_bind_ok _ _ (match d' with Some x => x | None => [] end) _ _ (fun s (x : dict addr V) (y : dict tree V) => same_values names t (@req V) s x y)); [exact HW| |].
    - assert (M : mono (fun s (x : dict addr V) (y : dict tree V) => same_values names t (@req V) s x y)).
      { intros s1 s2 x y L H. eapply values_later; [exact stable_eq|apply le_later, L|exact H]. }
      destruct d as [d|], d' as [d'|]; cbn [rvals] in Hd; try contradiction; [|apply ref_ret; [exact HW|exact M|constructor]].
      destruct Hd as [Hn Hd].
      eapply (ref_bind_ok _ _ d' _ _ (rlist (rprod has_tree (@req V)))); [exact HW| |].
      + change (@Ok (dict tree V) d') with (@Ok (list (tree * V)) d'). rewrite <- (mapM_Ok d'). apply (pmap_ref atomic who t Hwho (rprod has_expr (@req V)) (rprod has_tree (@req V))); [apply mono_prod; [apply mono_expr|apply mono_eq]|apply mono_prod; [apply mono_tree|apply mono_eq]|exact HW|exact Hd|].
        intros s1 [a v] [w v'] W1 L1 [Ha Hv]. cbn [fst snd] in Ha, Hv. red in Hv. subst v'. unfold o_value_item. cbn [fst snd].
        eapply (ref_bind_ok _ _ _ _ _ has_tree); [exact W1|apply (rep_ref names); [exact W1|exact Ha]|]. intros s2 r W2 L2 Hr.
        apply ref_ret; [exact W2|apply mono_prod; [apply mono_tree|apply mono_eq]|]. split; [exact Hr|reflexivity].
      + intros s1 l W1 L1 Hl. apply ref_ret; [exact W1|exact M|]. change (same_values names t (@req V) s1 (dict_update Nat.eqb [] l) d'). rewrite <- (update_id d' Hn).
        apply (dict_same s1 l d' has_tree) in Hl; [exact Hl|]. intros a w b v Ha Hb. apply (identity names atomic who t Hsafe s1); assumption.
    - intros s1 vr W1 L1 Hvr. eapply (ref_bind_ok _ _ _ _ _ has_tree); [exact W1|apply (rep_ref names); [exact W1|eapply has_expr_le; eassumption]|]. intros s2 r W2 L2 Hr.
      apply (ProofObjEval.evaluate_ref names atomic who t Hsafe Hwho (@req V) none none stable_eq); try assumption.
      + intros s3 a b E. red in E. subst. reflexivity.
      + apply fixed_rules. eapply (mono_ev fuel); [exact L2|]. eapply (mono_ev fuel); eassumption.
      + eapply values_later; [exact stable_eq|apply le_later, L2|exact Hvr].
      + unfold enough. lia.
      + apply graph_atoms.
  Qed.

  (** ** Programs *)
  Notation vars := (vars names t).
  Definition rvars fuel s (x : o_rstate) (y : v_rstate) : Prop :=
    vars s (fst (fst x)) (fst (fst y)) /\ rlist (rev_ fuel) s (snd (fst x)) (snd (fst y)) /\ snd x = snd y.
  Lemma mono_rvars fuel : mono (rvars fuel).
  Proof.
    intros s s' x y L (H1 & H2 & H3). split; [eapply mono_vars; eassumption|]. split; [|exact H3]. eapply (mono_list t); [apply mono_ev|exact L|exact H2].
  Qed.
  Lemma pattern_ref s oenv env p : W s -> exprs s oenv env -> refines s (o_rpattern oenv p) (v_rpattern env p) rpat.
  Proof.
    intros HW H. destruct p as [i|ty i|i|i j]; cbn [o_rpattern v_rpattern];
      (eapply (ref_bind _ _ _ _ _ (item names t env oenv i)); [exact HW|apply (item_ref names); [exact HW|exact H]|]); intros s1 e u W1 L1 (He & _ & H1).
    - apply ref_ret; [exact W1|apply mono_pat|exact He].
    - apply ref_ret; [exact W1|apply mono_pat|split; [reflexivity|exact He]].
    - apply ref_ret; [exact W1|apply mono_pat|exact He].
    - eapply (ref_bind _ _ _ _ _ (item names t env oenv j)); [exact W1|apply (item_ref names); [exact W1|exact H1]|]. intros s2 f v W2 L2 (Hf & _).
      apply ref_ret; [exact W2|apply mono_pat|split; [eapply has_expr_le; eassumption|exact Hf]].
  Qed.
  Lemma items_ref s oenv env l : W s -> exprs s oenv env -> refines s (pmap (fun i => lift (getitem oenv i)) l) (mapM (getitem env) l) exprs.
  Proof.
    intros HW H. apply (pmap_ref atomic who t Hwho (@req nat) has_expr); [apply mono_eq|apply mono_expr|exact HW|unfold rlist, req; apply list_eq|].
    intros s1 x y W1 L1 E. red in E. subst y. apply ref_ret; [exact W1|apply mono_expr|]. apply (rl_getitem has_expr). eapply mono_exprs; eassumption.
  Qed.
  Lemma values_ref s oenv env vals : W s -> exprs s oenv env -> refines s (o_rvalues oenv vals) (v_rvalues env vals) rvals.
  Proof.
    intros HW H. destruct vals as [l|]; cbn [o_rvalues v_rvalues]; [|apply ref_ret; [exact HW|apply mono_vals|exact Logic.I]].
    assert (M : mono (rprod has_expr (@req V))) by (apply mono_prod; [apply mono_expr|apply mono_eq]).
    eapply (ref_bind _ _ _ _ _ (rlist (rprod has_expr (@req V)))); [exact HW| |].
    - apply (pmap_ref atomic who t Hwho (@req (nat * V)) (rprod has_expr (@req V))); [apply mono_eq|exact M|exact HW|unfold rlist, req; apply list_eq|].
      intros s1 x y W1 L1 E. red in E. subst y. unfold o_rvalue, v_rvalue. eapply (ref_bind _ _ _ _ _ (item names t env oenv (fst x))); [exact W1|apply (item_ref names); [exact W1|eapply mono_exprs; eassumption]|].
      intros s2 e u W2 L2 (He & _). apply ref_ret; [exact W2|exact M|]. split; [exact He|reflexivity].
    - intros s1 m n W1 L1 Hm. apply ref_ret; [exact W1|apply mono_vals|]. cbn [rel rvals]. split; [apply update_nodup|].
      apply (dict_same s1 m n has_expr); [|exact Hm]. intros a w b v Ha Hb. apply (expr_identity names atomic who t Hsafe s1); assumption.
  Qed.
  Lemma ev_item fuel s oevs evs k : W s -> rlist (rev_ fuel) s oevs evs -> refines s (lift (getitem oevs k)) (getitem evs k) (fun s oe ev => rev_ fuel s oe ev /\ getitem evs k = Ok ev).
  Proof.
    intros HW H. apply ref_ret; [exact HW|intros s1 s2 a b L [H1 H2]; split; [eapply mono_ev; eassumption|exact H2]|].
    pose proof (rl_getitem (rev_ fuel) s _ _ k H) as G. destruct (getitem oevs k), (getitem evs k); cbn [rel] in *; try contradiction; [|exact G]. split; [exact G|reflexivity].
  Qed.
  Lemma rl_firstn {A B} (R : state pyval -> A -> B -> Prop) s n : forall l m, rlist R s l m -> rlist R s (firstn n l) (firstn n m).
  Proof. induction n as [|n IH]; intros l m H; [constructor|]. destruct H; cbn [firstn]; constructor; [assumption|apply IH; assumption]. Qed.
  Lemma rl_skipn {A B} (R : state pyval -> A -> B -> Prop) s n : forall l m, rlist R s l m -> rlist R s (skipn n l) (skipn n m).
  Proof. induction n as [|n IH]; intros l m H; [exact H|]. destruct H; cbn [skipn]; [constructor|apply IH; assumption]. Qed.
  Definition known (c : rstatement V) : Prop := match c with RSet _ (RPAtomValue ty _) _ _ => In ty [T_Integer; T_Symbol; T_Function; T_Wild] | _ => True end.
  Lemma rule_ok_pat env p q : v_rpattern env p = Ok q -> match p with RPAtomValue ty _ => In ty [T_Integer; T_Symbol; T_Function; T_Wild] | _ => True end -> rule_ok q.
  Proof.
    destruct p as [i|ty i|i|i j]; cbn [v_rpattern]; destruct (getitem env i) as [u|]; cbn [bind]; try discriminate; intros E H.
    - injection E as <-. exact Logic.I.
    - injection E as <-. exact H.
    - injection E as <-. exact Logic.I.
    - destruct (getitem env j); cbn [bind] in E; [|discriminate]. injection E as <-. exact Logic.I.
  Qed.
  Lemma rstatement_ref c env q evs out : known c -> exists N, forall fuel, N <= fuel -> forall s g star_r st, W s -> module_ok names t s g -> has_tree s star_r Star ->
    rvars fuel s st (env, q, evs, out) -> refines s (o_rstatement none names fuel g star_r st c) (v_rstatement none (env, q, evs, out) c) (rvars fuel).
  Proof.
    intros Hc. destruct c as [c|name|i| |k pat op args|k i vals].
    - destruct (statement_ref names atomic who t Hsafe Hwho Hcas c env q) as (N & HN). exists N. intros fuel Hf s g star_r [[[oenv p] oevs] o] HW Hg Hs (Hv & He & Ho).
      cbn [fst snd] in Hv, He, Ho. subst o. cbn [o_rstatement v_rstatement].
      eapply (ref_bind _ _ _ _ _ vars); [exact HW|apply HN; assumption|]. intros s1 x y W1 L1 H1. apply ref_ret; [exact W1|apply mono_rvars|].
      split; [exact H1|]. split; [eapply (mono_list t); [apply mono_ev|exact L1|exact He]|reflexivity].
    - exists 0. intros fuel Hf s g star_r [[[oenv p] oevs] o] HW Hg Hs (Hv & He & Ho). cbn [fst snd] in Hv, He, Ho. subst o. cbn [o_rstatement v_rstatement].
      eapply (ref_bind_ok _ _ (new_wild name) _ _ has_expr); [exact HW|apply (new_ref names atomic who t Hsafe Hwho Hcas); [exact HW|cbn [In]; tauto]|].
      intros s1 e W1 L1 H1. pose proof (mono_vars names t _ _ _ _ L1 Hv) as [Hv1 Hv2]. cbn [fst snd] in Hv1, Hv2.
      apply ref_ret; [exact W1|apply mono_rvars|]. split; [split; [apply rl_snoc; assumption|exact Hv2]|]. split; [eapply (mono_list t); [apply mono_ev|exact L1|exact He]|reflexivity].
    - exists 0. intros fuel Hf s g star_r [[[oenv p] oevs] o] HW Hg Hs (Hv & He & Ho). cbn [fst snd] in Hv, He, Ho. subst o. cbn [o_rstatement v_rstatement].
      destruct Hv as [Hv Hq]. cbn [fst snd] in Hv, Hq.
      eapply (ref_bind _ _ _ _ _ (item names t env oenv i)); [exact HW|apply (item_ref names); [exact HW|exact Hv]|]. intros s1 e u W1 L1 (Hu & _ & Hv1).
      eapply (ref_bind_ok _ _ _ _ _ has_expr); [exact W1|apply star_ref; [exact W1|eapply has_tree_le; eassumption|exact Hu]|]. intros s2 e2 W2 L2 H2.
      apply ref_ret; [exact W2|apply mono_rvars|]. pose proof (le_trans t _ _ _ L1 L2) as L.
      split; [split; [apply rl_snoc; [eapply mono_exprs; eassumption|exact H2]|eapply mono_props; eassumption]|]. split; [eapply (mono_list t); [apply mono_ev|exact L|exact He]|reflexivity].
    - exists 0. intros fuel Hf s g star_r [[[oenv p] oevs] o] HW Hg Hs (Hv & He & Ho). cbn [fst snd] in Hv, He, Ho. subst o. cbn [o_rstatement v_rstatement].
      apply ref_ret; [exact HW|apply mono_rvars|]. split; [exact Hv|]. split; [|reflexivity]. apply rl_snoc; [exact He|apply new_evaluator_ref].
    - exists 0. intros fuel Hf s g star_r [[[oenv p] oevs] o] HW Hg Hs (Hv & He & Ho). cbn [fst snd] in Hv, He, Ho. subst o. cbn [o_rstatement v_rstatement].
      eapply (ref_bind _ _ _ _ _ (fun s oe ev => rev_ fuel s oe ev /\ getitem evs k = Ok ev)); [exact HW|apply ev_item; assumption|]. intros s1 oe ev W1 L1 [Hev _].
      pose proof (mono_vars names t _ _ _ _ L1 Hv) as [Hv1 Hq1]. cbn [fst snd] in Hv1, Hq1.
      eapply (ref_bind _ _ _ _ _ exprs); [exact W1|apply items_ref; [exact W1|exact Hv1]|]. intros s2 l us W2 L2 Hl.
      pose proof (mono_exprs names t _ _ _ _ L2 Hv1) as Hv2.
      assert (P : refines s2 (o_rpattern oenv pat) (v_rpattern env pat) (fun s a b => rpat s a b /\ v_rpattern env pat = Ok b)).
      { pose proof (pattern_ref s2 oenv env pat W2 Hv2) as [E H]. split; [exact E|]. intros s' r Hr. specialize (H s' r Hr). destruct r, (v_rpattern env pat); try exact H. split; [exact H|reflexivity]. }
      eapply (ref_bind _ _ _ _ _ _); [exact W2|exact P|]. intros s3 a b W3 L3 [Hp Eb].
      pose proof (le_trans t _ _ _ L2 L3) as L13. pose proof (le_trans t _ _ _ L1 L13) as L03.
      eapply (ref_bind _ _ _ _ _ (rev_ fuel)); [exact W3|apply set_item_ref; [exact W3|exact (has_tree_le _ _ _ _ _ _ L03 Hs)|exact Hp|exact (rule_ok_pat _ _ _ Eb Hc)|exact (mono_exprs _ _ _ _ _ _ L3 Hl)|exact (mono_ev _ _ _ _ _ L13 Hev)]|].
      intros s4 oe4 ev4 W4 L4 H4. pose proof (le_trans t _ _ _ L03 L4) as L04. apply ref_ret; [exact W4|apply mono_rvars|].
      split; [exact (mono_vars names t _ _ _ _ L04 Hv)|]. split; [|reflexivity]. cbn [fst snd]. pose proof (mono_list t _ (mono_ev fuel) _ _ _ _ L04 He) as He4.
      apply (rl_app (rev_ fuel)); [apply rl_firstn, He4|]. constructor; [exact H4|apply (rl_skipn (rev_ fuel) s4 (S k) oevs evs), He4].
    - assert (HN : exists N, forall fuel, N <= fuel -> forall u ev, getitem env i = Ok u -> getitem evs k = Ok ev -> forall s oe e d d', W s -> has_expr s e u -> rev_ fuel s oe ev -> rvals s d d' ->
        refines s (o_sym_evaluate none fuel oe e d) (sym_evaluate none ev u d') (@req V)).
      { destruct (getitem env i) as [u|]; [|exists 0; intros fuel _ u ev E; discriminate E]. destruct (getitem evs k) as [ev|]; [|exists 0; intros fuel _ u' ev _ E; discriminate E].
        destruct (evaluate_ref u ev) as (N & HN). exists N. intros fuel Hf u' ev' [= <-] [= <-]. apply HN, Hf. }
      destruct HN as (N & HN). exists N. intros fuel Hf s g star_r [[[oenv p] oevs] o] HW Hg Hs (Hv & He & Ho). cbn [fst snd] in Hv, He, Ho. subst o. cbn [o_rstatement v_rstatement].
      eapply (ref_bind _ _ _ _ _ (fun s oe ev => rev_ fuel s oe ev /\ getitem evs k = Ok ev)); [exact HW|apply ev_item; assumption|]. intros s1 oe ev W1 L1 [Hev Ev].
      pose proof (mono_vars names t _ _ _ _ L1 Hv) as [Hv1 Hq1]. cbn [fst snd] in Hv1, Hq1.
      eapply (ref_bind _ _ _ _ _ (item names t env oenv i)); [exact W1|apply (item_ref names); [exact W1|exact Hv1]|]. intros s2 e u W2 L2 (Hu & Eu & Hv2).
      eapply (ref_bind _ _ _ _ _ rvals); [exact W2|apply values_ref; [exact W2|exact Hv2]|]. intros s3 d d' W3 L3 Hd.
      pose proof (le_trans t _ _ _ L2 L3) as L13. pose proof (le_trans t _ _ _ L1 L13) as L03.
      eapply (ref_bind _ _ _ _ _ (@req V)); [exact W3|apply (HN fuel Hf u ev Eu Ev); [exact W3|exact (has_expr_le _ _ _ _ _ _ L3 Hu)|exact (mono_ev _ _ _ _ _ L13 Hev)|exact Hd]|].
      intros s4 v v' W4 L4 E. red in E. subst v'. pose proof (le_trans t _ _ _ L03 L4) as L04. apply ref_ret; [exact W4|apply mono_rvars|].
      split; [exact (mono_vars names t _ _ _ _ L04 Hv)|]. split; [|reflexivity]. exact (mono_list t _ (mono_ev fuel) _ _ _ _ L04 He).
  Qed.
  Lemma rprogram_ref l : forall env q evs out, Forall known l -> exists N, forall fuel, N <= fuel -> forall s g star_r st, W s -> module_ok names t s g -> has_tree s star_r Star ->
    rvars fuel s st (env, q, evs, out) -> refines s (pfold (o_rstatement none names fuel g star_r) l st) (foldM (v_rstatement none) l (env, q, evs, out)) (rvars fuel).
  Proof.
    induction l as [|c l IH]; intros env q evs out Hl; inversion Hl as [|? ? Hc Hl']; subst.
    - exists 0. intros fuel _ s g star_r st HW _ _ Hv. apply ref_ret; [exact HW|apply mono_rvars|exact Hv].
    - destruct (rstatement_ref c env q evs out Hc) as (N & HN). destruct (v_rstatement none (env, q, evs, out) c) as [[[[env' q'] evs'] out']|err] eqn:E.
      + destruct (IH env' q' evs' out' Hl') as (M & HM). exists (N + M). intros fuel Hf s g star_r st HW Hg Hs Hv. cbn [pfold foldM]. rewrite E. cbn [bind].
        eapply (ref_bind_ok _ _ _ _ _ (rvars fuel)); [exact HW|apply HN; [lia|exact HW|exact Hg|exact Hs|exact Hv]|].
        intros s1 st1 W1 L1 Hv1. apply HM; [lia|exact W1|eapply module_le; eassumption|eapply has_tree_le; eassumption|exact Hv1].
      + exists N. intros fuel Hf s g star_r st HW Hg Hs Hv. cbn [pfold foldM]. rewrite E. cbn [bind]. eapply (ref_err atomic who t Hwho); [exact HW|apply HN; assumption].
  Qed.
  Lemma rsession_ref l : Forall known l -> exists N, forall fuel, N <= fuel -> forall s, W s -> refines s (o_rsession none names fuel l) (v_rsession none l) (rprod exprs (@req (list V))).
  Proof.
    intros Hl. destruct (rprogram_ref l [] cas_diff [] [] Hl) as (N & HN). exists (import_fuel + N). intros fuel Hf s HW. unfold o_rsession, v_rsession.
    eapply (ref_bind_ok _ _ _ _ _ has_atom); [exact HW|apply (Atom_ref names atomic who t Hsafe Hwho); exact HW|]. intros s1 a W1 L1 Ha.
    eapply (ref_bind_ok _ _ _ _ _ has_tree); [exact W1|apply (Tr_ref names atomic who t Hsafe Hwho); [exact W1|exact Ha]|]. intros s2 star_r W2 L2 Hs.
    rewrite (proj2 Hnames) in Hs. change (has_tree s2 star_r Star) in Hs.
    eapply (ref_bind_ok _ _ _ _ _ (imported names t)); [exact W2|apply (import_ref names atomic who t Hsafe Hwho Hcas); [exact W2|lia]|]. intros s3 [g p] W3 L3 [Hg Hp]. cbn [fst snd] in *.
    eapply (ref_bind _ _ _ _ _ (rvars fuel)); [exact W3|apply HN; [lia|exact W3|exact Hg|eapply has_tree_le; eassumption|]|].
    - split; [split; [constructor|exact Hp]|]. split; [constructor|reflexivity].
    - intros s4 x y W4 L4 ((Hv & _) & _ & Ho). apply ref_ret; [exact W4|apply mono_prod; [apply mono_exprs|apply mono_eq]|]. split; [exact Hv|exact Ho].
  Qed.
End Proof.
