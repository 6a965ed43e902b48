(** * Properties stated with real numbers: C24 (derivatives), C35 (operators), C36 (xreplace) *)
From Coq Require Import Reals Lra.
From Verif Require Import Py ModelTree SpecTree ProofBase ProofSubs ModelDiff ProofDiff ModelSym ModelCas SpecCas
  ProofCasDiff SpecReal ProofReal Samples.
Local Open Scope R_scope.

(** C24. If e.diff(x) succeeds, and e and e.diff(x) are defined at a point, then e is defined around it
    and is differentiable in x there, with the value of e.diff(x) as its derivative. *)
Theorem C24_diff_is_the_derivative env e s d v v' :
  expr_diff e (Symbol s) 1 = Ok d ->
  reval env e = Some v -> reval env d = Some v' ->
  has_derivative env e s v'.
Proof.
  intros Hd Hv Hv'. rewrite expr_diff_one in Hd. apply diff_forward_deriv in Hd.
  exact (deriv_is_derivative env s e (reval_arith env e v Hv) d Hd v v' Hv Hv').
Qed.

(** Negative base and exponent: (x + y)**(-2) * cos(x), at x = -2, y = 1. *)
Example C24_case :
  let e := m_mul (m_pow (m_add x y) (int (-2))) (call1 cos x) in
  let env := upd (fun _ => 1) "x" (-2) in
  exists d v v', expr_diff e x 1 = Ok d /\ reval env e = Some v /\ reval env d = Some v'.
Proof.
  intros e env. eexists. 
  assert (H1 : reval env (m_pow (m_add x y) (int (-2))) = Some 1).
  { change (rpow (-2 + (1 + 0)) (IZR (-2)) = Some 1). rewrite rpow_int by (left; lra). f_equal. simpl. field. }
  assert (H2 : reval env (m_pow (m_add x y) (call2 Add (int (-2)) negone)) = Some (-1)).
  { change (rpow (-2 + (1 + 0)) (IZR (-2) + (-1 + 0)) = Some (-1)).
    replace (-2 + (-1 + 0)) with (IZR (-3)) by lra. rewrite rpow_int by (left; lra). f_equal. simpl. field. }
  eexists (1 * (Rtrigo_def.cos (-2) * 1)), _. split; [reflexivity|]. split.
  - apply reval_node. exists [1; Rtrigo_def.cos (-2)]. split; [|reflexivity].
    constructor; [exact H1|]. constructor; [reflexivity|constructor].
  - apply reval_node. eexists. split; [|reflexivity]. constructor; [|constructor; [|constructor]].
    + apply reval_node. eexists. split; [|reflexivity]. constructor; [|constructor; [reflexivity|constructor]].
      apply reval_node. eexists. split; [|reflexivity].
      constructor; [reflexivity|]. constructor; [exact H2|constructor].
    + apply reval_node. eexists. split; [|reflexivity]. constructor; [exact H1|].
      constructor; [reflexivity|constructor].
Qed.

(** The condition that e.diff(x) is defined is needed: x**0 has derivative 0 everywhere but its diff,
    0*x**(0 + -1), is undefined at 0 (finding). *)
Theorem C24_diff_may_be_undefined_refuted :
  let e := m_pow x (int 0) in let env := fun _ : string => 0 in
  exists d, expr_diff e x 1 = Ok d /\ reval env e = Some 1 /\
    has_derivative env e "x" 0 /\ reval env d = None.
Proof.
  intros e env. eexists. split; [reflexivity|].
  assert (He : forall u, reval (upd env "x" u) e = Some 1).
  { intros u. change (rpow u (IZR 0) = Some (powerRZ u 0)). apply rpow_int. right; lia. }
  split; [|split].
  - rewrite <- (He 0). symmetry. apply (reval_upd_same env "x").
  - exists (fun _ => 1), 1. split; [lra|]. split; [intros u _; apply He|apply (derivable_pt_lim_const 1)].
  - match goal with |- ?t = None => destruct t as [w|] eqn:E; [|reflexivity] end. exfalso.
    apply reval_node in E as (ws & Hws & _). inversion Hws as [|? ? ? ws' _ Hws']; subst.
    inversion Hws' as [|? p ? ? Hp _]; subst. apply reval_node in Hp as (ps & Hps & Hop).
    inversion Hps as [|? a ? ps1 Ha Hps1]; subst. inversion Hps1 as [|? b ? ps2 Hb Hps2]; subst.
    inversion Hps2; subst. change (rpow a b = Some p) in Hop. injection Ha as <-.
    apply reval_node in Hb as (bs & Hbs & Hb). inversion Hbs as [|? b1 ? bs1 Hb1 Hbs1]; subst.
    inversion Hbs1 as [|? b2 ? bs2 Hb2 Hbs2]; subst. inversion Hbs2; subst. injection Hb as <-.
    injection Hb1 as <-. injection Hb2 as <-.
    apply rpow_cases in Hop as [[H _]|[_ (k & Ek & _ & Hk)]]; [unfold env in H; lra|].
    destruct Hk as [H|H]; [unfold env in H; lra|]. simpl in Ek.
    assert (E2 : IZR k = IZR (-1)) by lra. apply eq_IZR in E2. lia.
Qed.
Print Assumptions C24_diff_is_the_derivative.
Print Assumptions C24_diff_may_be_undefined_refuted.

(** ** C35 *)
(** The value of a Python operand. *)
Definition oval (env : string -> R) (o : pyobj) : option R :=
  match o with
  | PExpr t => reval env t
  | PInt n => Some (IZR n)
  | PBool b => Some (if b then 1 else 0)
  | POther => None
  end.
Definition is_expr (o : pyobj) : Prop := exists t, o = PExpr t.

Lemma oval_expressify env o t : expressify o = Ok t -> reval env t = oval env o.
Proof. destruct o as [u|n|[|]|]; simpl; intros [= <-]; reflexivity. Qed.

(** A binary operator builds one tree [F l r] from the two operands in source order. *)
Lemma binop_spec (method rmethod F : tree -> tree -> tree) l r :
  (forall a b, method a b = F a b) -> (forall a b, rmethod a b = F b a) ->
  is_expr l \/ is_expr r ->
  (exists a b, expressify l = Ok a /\ expressify r = Ok b /\ binop method rmethod l r = Ok (F a b)) \/
  ((l = POther \/ r = POther) /\ binop method rmethod l r = Err TypeError).
Proof.
  intros H1 H2 H. destruct l as [a|n|b|], r as [a'|n'|b'|];
    try (exfalso; destruct H as [[? E]|[? E]]; discriminate);
    unfold binop; simpl; rewrite ?H1, ?H2; try (left; eexists _, _; repeat split; reflexivity);
    right; auto.
Qed.

Lemma reval_add env a b : reval env (call2 Add a b) =
  match reval env a, reval env b with Some v, Some w => Some (v + w) | _, _ => None end.
Proof.
  unfold call2, tree_call. cbn [reval all_defined].
  destruct (reval env a) as [v|]; [|reflexivity]. destruct (reval env b) as [w|]; [|reflexivity].
  cbn. f_equal. ring.
Qed.
Lemma reval_mul env a b : reval env (call2 Mul a b) =
  match reval env a, reval env b with Some v, Some w => Some (v * w) | _, _ => None end.
Proof.
  unfold call2, tree_call. cbn [reval all_defined].
  destruct (reval env a) as [v|]; [|reflexivity]. destruct (reval env b) as [w|]; [|reflexivity].
  cbn. f_equal. ring.
Qed.
Lemma reval_pow env a b : reval env (call2 Pow a b) =
  match reval env a, reval env b with Some v, Some w => rpow v w | _, _ => None end.
Proof.
  unfold call2, tree_call. cbn [reval all_defined].
  destruct (reval env a) as [v|]; [|reflexivity]. destruct (reval env b) as [w|]; reflexivity.
Qed.
Lemma rpow_m1 w : rpow w (-1) = if Req_EM_T w 0 then None else Some (/ w).
Proof.
  destruct (Req_EM_T w 0) as [->|H].
  - destruct (rpow 0 (-1)) as [p|] eqn:E; [|reflexivity]. exfalso.
    apply rpow_cases in E as [[H _]|[_ (k & Ek & _ & Hk)]]; [lra|]. apply eq_IZR in Ek.
    destruct Hk; [lra|lia].
  - rewrite (rpow_int w (-1)) by (left; exact H). f_equal. simpl. field. exact H.
Qed.

(** What each operator does to values; None is "undefined". *)
Definition lift2 (f : R -> R -> option R) (v w : option R) : option R :=
  match v, w with Some a, Some b => f a b | _, _ => None end.

(** C35. If at least one operand is an Expr, each operator gives an expression whose value is that
    operator applied to the values of the operands (in source order), in every environment; or, if
    an operand is not an Expr, int or bool, TypeError. *)
Theorem C35_operators_mean_arithmetic l r : is_expr l \/ is_expr r ->
  (l <> POther /\ r <> POther /\
   exists ta ts tm td tp,
     op_add l r = Ok ta /\ op_sub l r = Ok ts /\ op_mul l r = Ok tm /\ op_truediv l r = Ok td /\ op_pow l r = Ok tp /\
     forall env,
       reval env ta = lift2 (fun a b => Some (a + b)) (oval env l) (oval env r) /\
       reval env ts = lift2 (fun a b => Some (a - b)) (oval env l) (oval env r) /\
       reval env tm = lift2 (fun a b => Some (a * b)) (oval env l) (oval env r) /\
       reval env td = lift2 (fun a b => if Req_EM_T b 0 then None else Some (a / b)) (oval env l) (oval env r) /\
       reval env tp = lift2 rpow (oval env l) (oval env r)) \/
  ((l = POther \/ r = POther) /\
   op_add l r = Err TypeError /\ op_sub l r = Err TypeError /\ op_mul l r = Err TypeError /\
   op_truediv l r = Err TypeError /\ op_pow l r = Err TypeError).
Proof.
  intros H.
  destruct (binop_spec m_add m_radd (fun a b => call2 Add a b) l r (fun _ _ => eq_refl) (fun _ _ => eq_refl) H)
    as [(a & b & Ea & Eb & E1)|[Ho E1]].
  2:{ right. split; [exact Ho|]. split; [exact E1|].
      destruct Ho as [->| ->]; [destruct r|destruct l]; try (destruct H as [[? H]|[? H]]; discriminate); repeat split. }
  left. split; [intros ->; discriminate|]. split; [intros ->; discriminate|].
  destruct (binop_spec m_sub m_rsub (fun a b => call2 Add a (call2 Mul negone b)) l r (fun _ _ => eq_refl) (fun _ _ => eq_refl) H)
    as [(a2 & b2 & Ea2 & Eb2 & E2)|[[->| ->] _]]; try discriminate.
  destruct (binop_spec m_mul m_rmul (fun a b => call2 Mul a b) l r (fun _ _ => eq_refl) (fun _ _ => eq_refl) H)
    as [(a3 & b3 & Ea3 & Eb3 & E3)|[[->| ->] _]]; try discriminate.
  destruct (binop_spec m_truediv m_rtruediv (fun a b => call2 Mul a (call2 Pow b negone)) l r (fun _ _ => eq_refl) (fun _ _ => eq_refl) H)
    as [(a4 & b4 & Ea4 & Eb4 & E4)|[[->| ->] _]]; try discriminate.
  destruct (binop_spec m_pow m_rpow (fun a b => call2 Pow a b) l r (fun _ _ => eq_refl) (fun _ _ => eq_refl) H)
    as [(a5 & b5 & Ea5 & Eb5 & E5)|[[->| ->] _]]; try discriminate.
  rewrite Ea in *. rewrite Eb in *.
  injection Ea2 as <-; injection Eb2 as <-; injection Ea3 as <-; injection Eb3 as <-;
  injection Ea4 as <-; injection Eb4 as <-; injection Ea5 as <-; injection Eb5 as <-.
  eexists _, _, _, _, _. repeat (split; [eassumption|]). intros env.
  rewrite <- (oval_expressify env l a Ea), <- (oval_expressify env r b Eb).
  rewrite !reval_add, !reval_mul, !reval_pow. unfold lift2.
  change (reval env negone) with (Some (-1)).
  destruct (reval env a) as [v|]; [|repeat split; reflexivity].
  destruct (reval env b) as [w|]; [|repeat split; reflexivity].
  repeat split.
  - f_equal. ring.
  - rewrite rpow_m1. destruct (Req_EM_T w 0); reflexivity.
Qed.

Theorem C35_negation env t : reval env (expr_neg t) = match reval env t with Some v => Some (- v) | None => None end /\
  expr_pos t = t.
Proof.
  split; [|reflexivity]. unfold expr_neg. rewrite reval_mul. change (reval env negone) with (Some (-1)).
  destruct (reval env t) as [v|]; [|reflexivity]. f_equal. ring.
Qed.

(** 2 - x is Add(2, Mul(-1, x)), and 1 / x; both orders of an int and an Expr. *)
Example C35_case :
  op_sub (PInt 2) (PExpr x) = Ok (call2 Add (int 2) (call2 Mul (int (-1)) x)) /\
  op_truediv (PInt 1) (PExpr x) = Ok (call2 Mul (int 1) (call2 Pow x (int (-1)))) /\
  op_pow (PInt 2) (PExpr x) = Ok (call2 Pow (int 2) x) /\
  op_pow (PExpr x) (PInt 2) = Ok (call2 Pow x (int 2)) /\
  op_add (PExpr x) POther = Err TypeError.
Proof. repeat split. Qed.
Print Assumptions C35_operators_mean_arithmetic.
Print Assumptions C35_negation.

(** ** C36 *)
Fixpoint upd_all (env : string -> R) (ss : list string) (vs : list R) : string -> R :=
  match ss, vs with
  | s :: ss', v :: vs' => upd (upd_all env ss' vs') s v
  | _, _ => env
  end.

Lemma replacement_sym ss rs t v : replacement (map Symbol ss) rs t = Some v -> exists s, In s ss /\ t = Symbol s.
Proof.
  revert rs. induction ss as [|s ss IH]; intros [|r rs]; simpl; try discriminate.
  destruct (replacement (map Symbol ss) rs t) as [w|] eqn:E.
  - intros [= ->]. destruct (IH rs E) as (s' & Hs & ->). eauto.
  - destruct (tree_eqb_spec t (Symbol s)) as [->|]; [|discriminate]. intros _. eauto.
Qed.

Lemma replacement_value env ss rs vs : NoDup ss ->
  Forall2 (fun r v => reval env r = Some v) rs vs -> length ss = length rs ->
  forall s, match replacement (map Symbol ss) rs (Symbol s) with
            | Some r => reval env r = Some (upd_all env ss vs s)
            | None => upd_all env ss vs s = env s
            end.
Proof.
  intros Hnd. revert rs vs. induction Hnd as [|s0 ss Hs0 Hnd IH]; intros rs vs Hrv Hlen s.
  - destruct Hrv; [reflexivity|discriminate].
  - destruct Hrv as [|r v rs vs Hr Hrs]; [discriminate|]. injection Hlen as Hlen. simpl.
    specialize (IH rs vs Hrs Hlen s).
    destruct (replacement (map Symbol ss) rs (Symbol s)) as [w|] eqn:E.
    + apply replacement_sym in E as (s' & Hs' & E'). injection E' as <-. unfold upd.
      destruct (String.eqb_spec s s0) as [->|_]; [contradiction|exact IH].
    + change (match (if tree_eqb (Symbol s) (Symbol s0) then Some r else None) with
              | Some r => reval env r = Some (upd (upd_all env ss vs) s0 v s)
              | None => upd (upd_all env ss vs) s0 v s = env s end).
      unfold upd. destruct (String.eqb_spec s s0) as [->|Hne].
      * rewrite tree_eqb_refl. exact Hr.
      * destruct (tree_eqb_spec (Symbol s) (Symbol s0)) as [E2|_]; [injection E2 as E2; contradiction|exact IH].
Qed.

Lemma rop_subst_head env ss rs vs h ws : NoDup ss ->
  Forall2 (fun r v => reval env r = Some v) rs vs -> length ss = length rs ->
  rop (subst (map Symbol ss) rs h) ws = rop h ws.
Proof.
  intros Hnd Hrv Hlen.
  assert (Hfun : forall n, replacement (map Symbol ss) rs (Function n) = None).
  { intros n. destruct (replacement (map Symbol ss) rs (Function n)) as [w|] eqn:E; [|reflexivity].
    apply replacement_sym in E as (s & _ & E). discriminate. }
  assert (Hf : forall n, subst (map Symbol ss) rs h = Function n <-> h = Function n).
  { intros n. split.
    - intros E. destruct (replacement (map Symbol ss) rs h) as [w|] eqn:Er.
      + exfalso. pose proof Er as Er'. apply replacement_sym in Er' as (s & _ & ->).
        pose proof (replacement_value env ss rs vs Hnd Hrv Hlen s) as Hv. rewrite Er in Hv.
        assert (subst (map Symbol ss) rs (Symbol s) = w) as Ew by (cbn [subst Symbol Tr]; fold (Tr (mkAtom T_Symbol (VStr s))); fold (Symbol s); rewrite Er; reflexivity).
        rewrite Ew in E. subst w. discriminate.
      + destruct h as [a|cs]; cbn [subst] in E; rewrite Er in E; [exact E|discriminate].
    - intros ->. change (match replacement (map Symbol ss) rs (Function n) with Some v => v | None => Function n end = Function n).
      rewrite Hfun. reflexivity. }
  assert (He : forall n, tree_eqb (subst (map Symbol ss) rs h) (Function n) = tree_eqb h (Function n)).
  { intros n. destruct (tree_eqb_spec h (Function n)) as [E|E], (tree_eqb_spec (subst (map Symbol ss) rs h) (Function n)) as [E'|E'];
      try reflexivity; exfalso; apply E' || apply E; apply Hf; assumption. }
  unfold rop, Add, Mul, Pow, sin, cos. rewrite !He. reflexivity.
Qed.

Lemma reval_subst env ss rs vs e : NoDup ss ->
  Forall2 (fun r v => reval env r = Some v) rs vs -> length ss = length rs ->
  reval env (subst (map Symbol ss) rs e) = reval (upd_all env ss vs) e.
Proof.
  intros Hnd Hrv Hlen. induction e as [a|cs IH] using tree_ind_all.
  - cbn [subst]. destruct (replacement (map Symbol ss) rs (Atm a)) as [w|] eqn:E.
    + pose proof E as E'. apply replacement_sym in E' as (s & _ & Es). rewrite Es in *.
      pose proof (replacement_value env ss rs vs Hnd Hrv Hlen s) as Hv. rewrite E in Hv. rewrite Hv. reflexivity.
    + apply reval_ext. intros s Hs.
      assert (Ha : Atm a = Symbol s) by (inversion Hs as [|t c s' _ Hc]; subst; [reflexivity|destruct Hc]).
      rewrite Ha in E. pose proof (replacement_value env ss rs vs Hnd Hrv Hlen s) as Hv. rewrite E in Hv.
      symmetry. exact Hv.
  - cbn [subst]. destruct (replacement (map Symbol ss) rs (Node cs)) as [w|] eqn:E;
      [apply replacement_sym in E as (s & _ & E); discriminate|].
    destruct cs as [|h args]; [reflexivity|]. cbn [map reval].
    assert (Hargs : all_defined (reval env) (map (subst (map Symbol ss) rs) args) =
                    all_defined (reval (upd_all env ss vs)) args).
    { clear -IH. assert (IH' : forall c, In c args -> reval env (subst (map Symbol ss) rs c) = reval (upd_all env ss vs) c)
        by (intros c Hc; apply IH; right; exact Hc).
      clear IH. induction args as [|a args IHa]; [reflexivity|]. cbn [map all_defined].
      rewrite (IH' a) by (left; reflexivity). rewrite IHa; [reflexivity|]. intros; apply IH'; right; assumption. }
    rewrite Hargs. destruct (all_defined (reval (upd_all env ss vs)) args) as [ws|]; [|reflexivity].
    apply (rop_subst_head env ss rs vs h ws Hnd Hrv Hlen).
Qed.

(** The tree xreplace builds for distinct symbols. *)
Lemma xreplace_symbols e (ss : list string) (rs : list pyobj) (ts : list tree) :
  NoDup ss -> length ss = length rs -> mapM expressify rs = Ok ts -> length ts = length rs ->
  (forall s, e = Symbol s -> In s ss -> exists front, ss = front ++ [s]) ->
  xreplace e (combine (map (fun s => PExpr (Symbol s)) ss) rs) = Ok (subst (map Symbol ss) ts e).
Proof.
  intros Hnd Hlen Hts Htl Hroot.
  assert (Hk : mapM expressify (map (fun s => PExpr (Symbol s)) ss) = Ok (map Symbol ss)).
  { clear. induction ss as [|s ss IH]; [reflexivity|]. simpl. rewrite IH. reflexivity. }
  unfold xreplace, expr_function, expr_function_call.
  assert (Hfst : map fst (combine (map (fun s => PExpr (Symbol s)) ss) rs) = map (fun s => PExpr (Symbol s)) ss).
  { clear -Hlen. revert rs Hlen. induction ss; intros [|r rs]; simpl; intros H; try discriminate; [reflexivity|].
    f_equal. apply IHss. congruence. }
  assert (Hsnd : map snd (combine (map (fun s => PExpr (Symbol s)) ss) rs) = rs).
  { clear -Hlen. revert rs Hlen. induction ss; intros [|r rs]; simpl; intros H; try discriminate; [reflexivity|].
    f_equal. apply IHss. congruence. }
  rewrite Hfst, Hsnd, Hk. cbn [bind]. 
  destruct (subs_new_total e (map Symbol ss)) as (sf & Hsf & _). rewrite Hsf. cbn [bind]. rewrite Hts. cbn [bind].
  assert (Hl : length ts = length (map Symbol ss)) by (rewrite map_length; congruence).
  destruct (In_dec tree_eq_dec e (map Symbol ss)) as [Hin|Hnin].
  + rewrite (subs_root_last e _ ts sf Hin Hl Hsf).
    apply in_map_iff in Hin as (s & <- & Hs). destruct (Hroot s eq_refl Hs) as (front & ->).
    rewrite map_app in *. cbn [map] in *.
    assert (Hts2 : exists tf tl, ts = tf ++ [tl] /\ length tf = length front).
    { rewrite app_length, map_length in Hl. simpl in Hl. destruct (exists_last (l := ts)) as (tf & tl & ->).
      - intros ->. simpl in Hl. lia.
      - exists tf, tl. split; [reflexivity|]. rewrite app_length in Hl. simpl in Hl. lia. }
    destruct Hts2 as (tf & tl & -> & Htf).
    unfold last_item. rewrite rev_app_distr. cbn [rev app]. f_equal.
    change (tl = match replacement (map Symbol front ++ [Symbol s]) (tf ++ [tl]) (Symbol s) with Some v => v | None => Symbol s end).
    assert (G : forall l t, length l = length t -> replacement (map Symbol l ++ [Symbol s]) (t ++ [tl]) (Symbol s) = Some tl).
    { clear. induction l as [|s' l IH]; intros [|t0 t]; cbn [length]; try discriminate; intros H.
      - cbn [map app replacement]. rewrite tree_eqb_refl. reflexivity.
      - cbn [map app replacement]. rewrite IH; [reflexivity|congruence]. }
    rewrite G by congruence. reflexivity.
  + apply (subs_correct e _ ts sf Hnin Hl Hsf).
Qed.
Lemma expressify_values env rs vs : Forall2 (fun r v => oval env r = Some v) rs vs ->
  exists ts, mapM expressify rs = Ok ts /\ Forall2 (fun r v => reval env r = Some v) ts vs /\ length ts = length rs.
Proof.
  intros Hrv.
  induction Hrv as [|r v rs vs Hr _ (ts & E & Hts & Hl)]; [exists []; repeat split; constructor|].
    destruct r as [t|n|b|]; [exists (t :: ts)|exists (Integer n :: ts)|exists (Integer (if b then 1 else 0)%Z :: ts)|discriminate];
      simpl; rewrite E; (split; [reflexivity|]); (split; [constructor; [|exact Hts]|congruence]).
    - exact Hr.
    - exact Hr.
    - destruct b; exact Hr.
Qed.
(** C36. Replacing distinct symbols by expressions with values [vs] gives an expression whose value is
    that of [e] with the symbols bound to [vs] - or undefined where that is - provided [e] is not
    itself one of the symbols, except the last (see C14). *)
Theorem C36_xreplace_is_substitution_of_values env e (ss : list string) (rs : list pyobj) (vs : list R) :
  NoDup ss -> length ss = length rs ->
  Forall2 (fun r v => oval env r = Some v) rs vs ->
  (forall s, e = Symbol s -> In s ss -> exists front, ss = front ++ [s]) ->
  exists t, xreplace e (combine (map (fun s => PExpr (Symbol s)) ss) rs) = Ok t /\
    reval env t = reval (upd_all env ss vs) e.
Proof.
  intros Hnd Hlen Hrv Hroot. destruct (expressify_values env rs vs Hrv) as (ts & Hts & Htv & Htl).
  exists (subst (map Symbol ss) ts e). split; [apply xreplace_symbols; assumption|apply reval_subst; [exact Hnd|exact Htv|congruence]].
Qed.

(** Simultaneous: x -> y, y -> 3 in x*y. *)
Example C36_case :
  xreplace (m_mul x y) (combine (map (fun s => PExpr (Symbol s)) ["x"; "y"]%string) [PExpr y; PInt 3])
  = Ok (m_mul y (int 3)) /\
  NoDup ["x"; "y"]%string /\
  Forall2 (fun r v => oval (fun _ => 7) r = Some v) [PExpr y; PInt 3] [7; 3].
Proof.
  split; [reflexivity|]. split.
  - repeat constructor; simpl; intuition discriminate.
  - repeat constructor.
Qed.
Print Assumptions C36_xreplace_is_substitution_of_values.
