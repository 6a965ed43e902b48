(** * C99: the chain rule for xreplace *)
From Coq Require Import Reals Lra.
From Verif Require Import Py ModelTree SpecTree ProofBase ProofSubs ModelDiff SpecDiff ProofDiff ModelSym ModelCas SpecCas
  ProofCasDiff SpecReal ProofReal ProofAlg PropsReal ProofChain Samples.
Local Open Scope R_scope.

(** The slope of a replacement in the direction of the symbol [y]: 0 for a number, the value of
    r.diff(y) for an expression. *)
Definition slope (env : string -> R) (y : string) (o : pyobj) (b : R) : Prop :=
  match o with
  | PExpr r => exists d, expr_diff r (Symbol y) 1 = Ok d /\ reval env d = Some b
  | PInt _ | PBool _ => b = 0
  | POther => False
  end.
Fixpoint dot (l l' : list R) : R := match l, l' with a :: r, b :: r' => a * b + dot r r' | _, _ => 0 end.

Lemma slope_deriv env y rs bs ts : Forall2 (slope env y) rs bs -> mapM expressify rs = Ok ts ->
  Forall2 (fun t b => exists d, deriv cas_diff (Symbol y) t = Ok d /\ reval env d = Some b) ts bs.
Proof.
  intros H. revert ts. induction H as [|r b rs bs Hr _ IH]; intros ts Hts; [injection Hts as <-; constructor|].
  cbn [mapM] in Hts. destruct (expressify r) as [t|] eqn:Er; [|discriminate]. cbn [bind] in Hts.
  destruct (mapM expressify rs) as [ts'|] eqn:Ers; [|discriminate]. injection Hts as <-. constructor; [|apply IH; reflexivity].
  destruct r as [r|n|c|]; cbn [slope expressify] in Er, Hr; [|injection Er as <-; subst b; exists zero; split; [apply atom_D|reflexivity]|injection Er as <-; subst b; exists zero; split; [apply atom_D|reflexivity]|contradiction].
  injection Er as <-. destruct Hr as (d & Hd & Hv). exists d. rewrite expr_diff_one in Hd. apply diff_forward_deriv in Hd. auto.
Qed.

(** The slopes as a function of the replaced symbol. *)
Fixpoint fun_of (ss : list string) (bs : list R) (k : string -> R) (s : string) : R :=
  match ss, bs with
  | s' :: ss', b :: bs' => if String.eqb s s' then b else fun_of ss' bs' k s
  | _, _ => k s
  end.
Lemma replacement_slope (P : tree -> R -> Prop) ss rs bs k : NoDup ss -> Forall2 P rs bs -> length ss = length rs ->
  (forall s, ~ In s ss -> P (Symbol s) (k s)) -> forall s,
  P (match replacement (map Symbol ss) rs (Symbol s) with Some r => r | None => Symbol s end) (fun_of ss bs k s).
Proof.
  intros Hnd. revert rs bs. induction Hnd as [|s0 ss Hs0 Hnd IH]; intros rs bs Hrb Hlen Hk s.
  - destruct Hrb; [apply Hk; intros []|discriminate].
  - destruct Hrb as [|r b rs bs Hr Hrs]; [discriminate|]. injection Hlen as Hlen. cbn [map replacement fun_of].
    destruct (String.eqb_spec s s0) as [->|Hne].
    + destruct (replacement (map Symbol ss) rs (Symbol s0)) as [w|] eqn:E.
      * apply replacement_sym in E as (s' & Hs' & E'). injection E' as <-. contradiction.
      * rewrite tree_eqb_refl. exact Hr.
    + destruct (in_dec string_dec s ss) as [Hin|Hnin].
      * assert (Hk' : forall s1, ~ In s1 ss -> P (match replacement (map Symbol ss) rs (Symbol s1) with Some r => r | None => Symbol s1 end)
            (fun_of ss bs k s1) \/ True) by auto. clear Hk'.
        assert (Gr : exists r', replacement (map Symbol ss) rs (Symbol s) = Some r' /\ P r' (fun_of ss bs k s)).
        { clear -Hin Hrs Hlen Hnd. revert rs bs Hrs Hlen. induction Hnd as [|s1 ss Hs1 Hnd IH]; intros rs bs Hrs Hlen; [destruct Hin|].
          destruct Hrs as [|r b rs bs Hr Hrs]; [discriminate|]. injection Hlen as Hlen. cbn [map replacement fun_of].
          destruct (String.eqb_spec s s1) as [->|Hne].
          - destruct (replacement (map Symbol ss) rs (Symbol s1)) as [w|] eqn:E.
            + apply replacement_sym in E as (s' & Hs' & E'). injection E' as <-. contradiction.
            + rewrite tree_eqb_refl. eauto.
          - destruct Hin as [->|Hin]; [contradiction|]. destruct (IH Hin rs bs Hrs Hlen) as (r' & -> & Hr'). eauto. }
        destruct Gr as (r' & -> & Hr'). exact Hr'.
      * destruct (replacement (map Symbol ss) rs (Symbol s)) as [w|] eqn:E.
        { apply replacement_sym in E as (s' & Hs' & E'). injection E' as <-. contradiction. }
        destruct (tree_eqb_spec (Symbol s) (Symbol s0)) as [E2|_]; [injection E2 as E2; contradiction|].
        replace (fun_of ss bs k s) with (k s); [apply Hk; intros [->|H]; contradiction|].
        clear -Hnin. revert bs. induction ss as [|s1 ss IH]; intros [|b bs]; cbn [fun_of]; try reflexivity.
        destruct (String.eqb_spec s s1) as [->|_]; [destruct Hnin; left; reflexivity|]. apply IH. intros H. apply Hnin. right. exact H.
Qed.

(** C99. Let distinct symbols [ss] be replaced by [rs] - expressions or integers - whose values are [vs]
    and whose slopes in the direction of [y] are [bs]. If [e] has a value and e.diff(s) has the value a_s
    for every replaced symbol s, all at the replaced values - and so has e.diff(y), with value [k], when
    [y] itself is not replaced - then e.xreplace(...).diff(y) succeeds, is defined, and has the value
    sum of a_s * b_s, plus [k]. *)
Theorem C99_chain_rule env e (ss : list string) (rs : list pyobj) (vs bs coeffs : list R) y k w :
  NoDup ss -> length ss = length rs ->
  Forall2 (fun r v => oval env r = Some v) rs vs ->
  Forall2 (slope env y) rs bs ->
  (forall s, e = Symbol s -> In s ss -> exists front, ss = front ++ [s]) ->
  reval (upd_all env ss vs) e = Some w ->
  Forall2 (fun s a => exists d, expr_diff e (Symbol s) 1 = Ok d /\ reval (upd_all env ss vs) d = Some a) ss coeffs ->
  (if in_dec string_dec y ss then k = 0 else exists d, expr_diff e (Symbol y) 1 = Ok d /\ reval (upd_all env ss vs) d = Some k) ->
  exists t d, xreplace e (combine (map (fun s => PExpr (Symbol s)) ss) rs) = Ok t /\
    expr_diff t (Symbol y) 1 = Ok d /\ reval env d = Some (dot coeffs bs + k).
Proof.
  intros Hnd Hlen Hrv Hsl Hroot Hw Hco Hk.
  destruct (expressify_values env rs vs Hrv) as (ts & Hts & Htv & Htl).
  pose proof (slope_deriv env y rs bs ts Hsl Hts) as Hsd.
  exists (subst (map Symbol ss) ts e).
  set (k1 := fun s => if String.eqb s y then 1 else 0). set (b := fun_of ss bs k1).
  assert (Hone : forall s, subst (map Symbol ss) ts (Symbol s) =
    match replacement (map Symbol ss) ts (Symbol s) with Some r => r | None => Symbol s end) by (intros; rewrite subst_unfold; reflexivity).
  assert (Hb : forall s, exists d, deriv cas_diff (Symbol y) (subst (map Symbol ss) ts (Symbol s)) = Ok d /\ reval env d = Some (b s)).
  { intros s. rewrite Hone. apply (replacement_slope (fun t b => exists d, deriv cas_diff (Symbol y) t = Ok d /\ reval env d = Some b)
      ss ts bs k1 Hnd Hsd ltac:(congruence)). intros s' Hs'. rewrite sym_D. unfold k1. destruct (String.eqb s' y); eexists; (split; [reflexivity|reflexivity]). }
  set (SS := if in_dec string_dec y ss then ss else ss ++ [y]).
  assert (HSS : forall s, In s SS <-> In s ss \/ s = y).
  { intros s. unfold SS. destruct (in_dec string_dec y ss) as [Hy|Hy]; [intuition congruence|]. rewrite in_app_iff. cbn. intuition. }
  assert (HndS : NoDup SS).
  { unfold SS. destruct (in_dec string_dec y ss) as [Hy|Hy]; [exact Hnd|]. apply NoDup_rev in Hnd. rewrite <- (rev_involutive (ss ++ [y])).
    apply NoDup_rev. rewrite rev_app_distr. cbn [rev app]. constructor; [rewrite <- in_rev; exact Hy|exact Hnd]. }
  assert (Hfn : forall ff args, subst (map Symbol ss) ts (Node (Function ff :: args)) = Node (Function ff :: map (subst (map Symbol ss) ts) args)).
  { intros ff args. rewrite subst_unfold. destruct (replacement (map Symbol ss) ts (Node (Function ff :: args))) as [u|] eqn:E.
    - apply replacement_sym in E as (s & _ & E). discriminate.
    - cbn [map]. do 2 f_equal. rewrite subst_unfold. destruct (replacement (map Symbol ss) ts (Function ff)) as [u|] eqn:E2; [|reflexivity].
      apply replacement_sym in E2 as (s & _ & E2). discriminate. }
  assert (Hfi : forall n, subst (map Symbol ss) ts (Integer n) = Integer n).
  { intros n. rewrite subst_unfold. destruct (replacement (map Symbol ss) ts (Integer n)) as [u|] eqn:E2; [|reflexivity].
    apply replacement_sym in E2 as (s & _ & E2). discriminate. }
  assert (Hval : forall t, reval env (subst (map Symbol ss) ts t) = reval (upd_all env ss vs) t).
  { intros t. apply reval_subst; [exact Hnd|exact Htv|congruence]. }
  destruct (chain env (upd_all env ss vs) y SS (subst (map Symbol ss) ts) b) with (e := e) (w := w) as (d & Hd & Hv).
  - apply HSS. auto.
  - exact HndS.
  - intros s _. apply Hb.
  - intros s Hs. rewrite Hone. destruct (replacement (map Symbol ss) ts (Symbol s)) as [u|] eqn:E2; [|reflexivity].
    apply replacement_sym in E2 as (s' & Hs' & E2). injection E2 as <-. destruct Hs. apply HSS. auto.
  - exact Hval.
  - exact Hfi.
  - exact Hfn.
  - exact (reval_arith _ _ _ Hw).
  - intros s Hs. apply HSS in Hs. destruct (in_dec string_dec s ss) as [Hin|Hnin].
    + revert Hco. generalize (upd_all env ss vs) as E'. intros E' Hco. clear -Hco Hin. induction Hco as [|s1 a ss coeffs (d & Hd & Hv) _ IH]; [destruct Hin|]. destruct Hin as [<-|Hin]; [|exact (IH Hin)].
      exists d, a. rewrite expr_diff_one in Hd. apply diff_forward_deriv in Hd. auto.
    + destruct Hs as [Hs| ->]; [contradiction|]. destruct (in_dec string_dec y ss) as [Hy|_]; [contradiction|]. destruct Hk as (d & Hd & Hv).
      exists d, k. rewrite expr_diff_one in Hd. apply diff_forward_deriv in Hd. auto.
  - exact Hw.
  - exists d. split; [apply xreplace_symbols; assumption|]. split; [rewrite expr_diff_one; apply diff_forward_deriv, Hd|].
    rewrite Hv. f_equal. unfold dotf.
    assert (G : Rsum (map (fun s => gv (upd_all env ss vs) e s * b s) ss) = dot coeffs bs).
    { assert (Hlb : length ss = length bs) by (rewrite Hlen; clear -Hsl; induction Hsl; cbn [length]; congruence).
      assert (Hc : coeffs = map (gv (upd_all env ss vs) e) ss).
      { revert Hco. generalize (upd_all env ss vs) as E'. intros E' Hco. clear -Hco. induction Hco as [|s1 a ss coeffs (d & Hd & Hv) _ IH]; [reflexivity|]. cbn [map]. f_equal; [|exact IH].
        symmetry. apply (gv_value _ _ _ d); [|exact Hv]. rewrite expr_diff_one in Hd. apply diff_forward_deriv in Hd. exact Hd. }
      rewrite Hc. generalize (gv (upd_all env ss vs) e) as gg. intros gg. unfold b. clear -Hlb Hnd. revert bs Hlb.
      induction Hnd as [|s ss Hs Hnd IH]; intros [|b0 bs] Hlb; try discriminate; [reflexivity|]. injection Hlb as Hlb.
      unfold Rsum in *. cbn [map fold_right fun_of dot]. rewrite String.eqb_refl. f_equal. rewrite <- (IH bs Hlb). f_equal. apply map_ext_in. intros s' Hs'.
      destruct (String.eqb_spec s' s) as [->|_]; [contradiction|reflexivity]. }
    unfold SS. destruct (in_dec string_dec y ss) as [Hy|Hy].
    + rewrite G, Hk. ring.
    + rewrite map_app. cbn [map]. destruct Hk as (dy & Hdy & Hvy). rewrite expr_diff_one in Hdy. apply diff_forward_deriv in Hdy.
      rewrite (gv_value _ e y dy k Hdy Hvy).
      assert (Hby : b y = 1).
      { unfold b, k1. clear -Hy. revert bs. induction ss as [|s1 ss IH]; intros [|b0 bs]; cbn [fun_of]; try (rewrite String.eqb_refl; reflexivity).
        destruct (String.eqb_spec y s1) as [->|_]; [destruct Hy; left; reflexivity|]. apply IH. intros H. apply Hy. right. exact H. }
      rewrite Hby. assert (Hs : forall l l', Rsum (l ++ l') = Rsum l + Rsum l').
      { clear. induction l as [|v l IH]; intros l'; unfold Rsum in *; cbn [app fold_right]; [ring|rewrite IH; ring]. }
      rewrite Hs, G. unfold Rsum. cbn [fold_right]. ring.
Qed.

(** One replacement x := r, differentiated by another symbol:
    e(r).diff(y) = e.diff(x)(r) * r.diff(y) + e.diff(y)(r). *)
Theorem C99_one_replacement env e s r y v b a k w : s <> y ->
  reval env r = Some v ->
  (exists d, expr_diff r (Symbol y) 1 = Ok d /\ reval env d = Some b) ->
  reval (upd env s v) e = Some w ->
  (exists d, expr_diff e (Symbol s) 1 = Ok d /\ reval (upd env s v) d = Some a) ->
  (exists d, expr_diff e (Symbol y) 1 = Ok d /\ reval (upd env s v) d = Some k) ->
  exists t d, xreplace e [(PExpr (Symbol s), PExpr r)] = Ok t /\
    expr_diff t (Symbol y) 1 = Ok d /\ reval env d = Some (a * b + k).
Proof.
  intros Hne Hr Hb Hw Ha Hk.
  destruct (C99_chain_rule env e [s] [PExpr r] [v] [b] [a] y k w) as (t & d & H1 & H2 & H3); try (repeat constructor; assumption).
  - constructor; [intros []|constructor].
  - intros s0 -> [<-|[]]. exists []. reflexivity.
  - destruct (in_dec string_dec y [s]) as [[->|[]]|_]; [contradiction|exact Hk].
  - exists t, d. split; [exact H1|]. split; [exact H2|]. rewrite H3. cbn [dot]. f_equal. ring.
Qed.

(** Replacing the variable itself, e.g. x := x**2 in sin(x): e(r).diff(x) = e.diff(x)(r) * r.diff(x). *)
Theorem C99_same_symbol env e s r v b a w :
  reval env r = Some v ->
  (exists d, expr_diff r (Symbol s) 1 = Ok d /\ reval env d = Some b) ->
  reval (upd env s v) e = Some w ->
  (exists d, expr_diff e (Symbol s) 1 = Ok d /\ reval (upd env s v) d = Some a) ->
  exists t d, xreplace e [(PExpr (Symbol s), PExpr r)] = Ok t /\
    expr_diff t (Symbol s) 1 = Ok d /\ reval env d = Some (a * b).
Proof.
  intros Hr Hb Hw Ha.
  destruct (C99_chain_rule env e [s] [PExpr r] [v] [b] [a] s 0 w) as (t & d & H1 & H2 & H3); try (repeat constructor; assumption).
  - constructor; [intros []|constructor].
  - intros s0 -> [<-|[]]. exists []. reflexivity.
  - destruct (in_dec string_dec s [s]) as [_|H]; [reflexivity|destruct H; left; reflexivity].
  - exists t, d. split; [exact H1|]. split; [exact H2|]. rewrite H3. cbn [dot]. f_equal. ring.
Qed.

(** x * y with x := y * y and, at the same time, y := x + 2, differentiated by y where x = y = 3:
    the value is 5 * 6 + 9 * 0 = 30. *)
Example C99_case :
  let e := m_mul x y in let env := fun _ : string => 3 in
  let ss := ["x"; "y"]%string in let rs := [PExpr (m_mul y y); PExpr (m_add x (int 2))] in
  NoDup ss /\ Forall2 (fun r v => oval env r = Some v) rs [9; 5] /\ Forall2 (slope env "y") rs [6; 0] /\
  reval (upd_all env ss [9; 5]) e = Some 45 /\
  Forall2 (fun s a => exists d, expr_diff e (Symbol s) 1 = Ok d /\ reval (upd_all env ss [9; 5]) d = Some a) ss [5; 9] /\
  exists t d, xreplace e (combine (map (fun s => PExpr (Symbol s)) ss) rs) = Ok t /\
    t = m_mul (m_mul y y) (m_add x (int 2)) /\
    expr_diff t y 1 = Ok d /\ reval env d = Some 30.
Proof.
  intros e env ss rs.
  assert (H1 : NoDup ss) by (repeat constructor; cbn; intuition discriminate).
  assert (H2 : Forall2 (fun r v => oval env r = Some v) rs [9; 5]).
  { constructor; [|constructor; [|constructor]]; cbn; f_equal; unfold env; ring. }
  assert (H3 : Forall2 (slope env "y") rs [6; 0]).
  { constructor; [|constructor; [|constructor]]; eexists; (split; [reflexivity|]); cbn; f_equal; unfold env; ring. }
  assert (H4 : reval (upd_all env ss [9; 5]) e = Some 45) by (cbn; f_equal; ring).
  assert (H5 : Forall2 (fun s a => exists d, expr_diff e (Symbol s) 1 = Ok d /\ reval (upd_all env ss [9; 5]) d = Some a) ss [5; 9]).
  { constructor; [|constructor; [|constructor]]; eexists; (split; [reflexivity|]); cbn; f_equal; ring. }
  split; [exact H1|]. split; [exact H2|]. split; [exact H3|]. split; [exact H4|]. split; [exact H5|].
  destruct (C99_chain_rule env e ss rs [9; 5] [6; 0] [5; 9] "y" 0 45 H1 eq_refl H2 H3 ltac:(intros s Hs; discriminate) H4 H5 eq_refl)
    as (t & d & Ht & Hd & Hv).
  exists t, d. split; [exact Ht|]. split; [injection Ht as <-; reflexivity|]. split; [exact Hd|]. rewrite Hv. f_equal. cbn [dot]. ring.
Qed.
Print Assumptions C99_chain_rule.
