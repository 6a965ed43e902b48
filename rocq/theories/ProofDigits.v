(** * Printing with limited ints: proofs for C89 *)
From Coq Require Import DecimalString DecimalZ DecimalFacts DecimalPos Decimal.
From Verif Require Import Py ModelTree SpecTree ProofBase ModelEval SpecEval ProofEval ModelDiff ModelSym ModelCas SpecPrint
  ModelRepr ModelDigits SpecDigits ProofPrint ProofRepr SpecOutcome ProofOutcome.

(** ** The number of digits *)
Lemma acc_bounds d : forall acc,
  (Z.pos acc * 10 ^ Z.of_nat (nb_digits d) <= Z.pos (Pos.of_uint_acc d acc) < (Z.pos acc + 1) * 10 ^ Z.of_nat (nb_digits d))%Z.
Proof.
  induction d; intros acc; cbn [Pos.of_uint_acc nb_digits]; [change (Z.of_nat 0) with 0%Z; rewrite Z.pow_0_r; lia|..];
  match goal with |- context [Pos.of_uint_acc d ?a] => specialize (IHd a) end;
  rewrite Nat2Z.inj_succ, Z.pow_succ_r by lia;
  (assert (Hp : (0 < 10 ^ Z.of_nat (nb_digits d))%Z) by (apply Z.pow_pos_nonneg; lia)); nia.
Qed.
Lemma to_uint_head p : forall d, Pos.to_uint p <> D0 d.
Proof.
  intros d E. pose proof (DecimalPos.Unsigned.of_to p) as Ho. 
  assert (Hu : unorm (Pos.to_uint p) = Pos.to_uint p).
  { pose proof (DecimalPos.Unsigned.to_of (Pos.to_uint p)) as H. rewrite Ho in H. cbn in H. congruence. }
  rewrite E in Hu, Ho. assert (Hd : d <> Nil) by (intros ->; cbn in Ho; discriminate).
  apply (f_equal nb_digits) in Hu. change (nb_digits (unorm d) = S (nb_digits d)) in Hu.
  pose proof (nb_digits_unorm d Hd). lia.
Qed.
Lemma digits_pos p : let n := nb_digits (Pos.to_uint p) in
  1 <= n /\ (10 ^ (Z.of_nat n - 1) <= Z.pos p < 10 ^ Z.of_nat n)%Z.
Proof.
  pose proof (DecimalPos.Unsigned.of_to p) as Ho. pose proof (to_uint_head p) as Hh. cbv zeta.
  destruct (Pos.to_uint p) as [|d|d|d|d|d|d|d|d|d|d]; [discriminate|destruct (Hh d eq_refl)|..];
  cbn [Pos.of_uint] in Ho; injection Ho as Ho; cbn [nb_digits]; (split; [lia|]);
  rewrite Nat2Z.inj_succ; (replace (Z.succ (Z.of_nat (nb_digits d)) - 1)%Z with (Z.of_nat (nb_digits d)) by lia);
  rewrite Z.pow_succ_r by lia;
  (assert (Hp : (0 < 10 ^ Z.of_nat (nb_digits d))%Z) by (apply Z.pow_pos_nonneg; lia));
  match type of Ho with Pos.of_uint_acc d ?a = p => pose proof (acc_bounds d a) as Hb end; rewrite Ho in Hb; nia.
Qed.
Lemma length_uint d : String.length (NilEmpty.string_of_uint d) = nb_digits d.
Proof. induction d; cbn; congruence. Qed.
Lemma digits_fit limit z : 0 < limit ->
  (limit <? String.length (str_int (Z.abs z)))%nat = negb (Z.abs z <? 10 ^ Z.of_nat limit)%Z.
Proof.
  intros Hl. unfold str_int. assert (Ha := Z.abs_nonneg z). destruct (Z.abs z) as [|p|p]; [|clear Ha|lia].
  - cbn. replace (0 <? 10 ^ Z.of_nat limit)%Z with true; [destruct limit; [lia|reflexivity]|].
    symmetry. apply Z.ltb_lt. apply Z.pow_pos_nonneg; lia.
  - cbn [Z.to_int NilEmpty.string_of_int]. rewrite length_uint. destruct (digits_pos p) as (H1 & H2 & H3).
    set (n := nb_digits (Pos.to_uint p)) in *.
    destruct (Nat.ltb_spec limit n) as [H|H]; symmetry.
    + apply Bool.negb_true_iff, Z.ltb_ge. eapply Z.le_trans; [|exact H2]. apply Z.pow_le_mono_r; lia.
    + apply Bool.negb_false_iff, Z.ltb_lt. eapply Z.lt_le_trans; [exact H3|]. apply Z.pow_le_mono_r; lia.
Qed.
Definition fit_int (limit : nat) (z : Z) : bool := (limit =? 0)%nat || (Z.abs z <? 10 ^ Z.of_nat limit)%Z.
Lemma str_int_lim_eq limit z : str_int_lim limit z = if fit_int limit z then Ok (str_int z) else Err ValueError.
Proof.
  unfold str_int_lim, fit_int. destruct limit as [|l]; [reflexivity|]. rewrite digits_fit by lia. cbn [Nat.ltb Nat.leb Nat.eqb andb orb].
  destruct (Z.abs z <? 10 ^ Z.of_nat (S l))%Z; reflexivity.
Qed.

(** ** The texts *)
Fixpoint fitb (limit : nat) (t : tree) : bool :=
  match t with
  | Atm a => match atom_value a with VInt z => fit_int limit z | VStr _ => true end
  | Node cs => forallb (fitb limit) cs
  end.
Lemma fitb_spec limit e : fitb limit e = true <-> fits limit e.
Proof.
  unfold fits. split.
  - intros H. destruct (Nat.eq_dec limit 0) as [|Hn]; [left; assumption|right]. intros ty z Hr.
    remember (Atm {| atom_type := ty; atom_value := VInt z |}) as s eqn:Es.
    induction Hr as [t Ht|t c s Ht Hc Hr IH].
    + subst t. cbn [fitb atom_value] in H. unfold fit_int in H.
      apply orb_prop in H as [H|H]; [apply Nat.eqb_eq in H; lia|apply Z.ltb_lt, H].
    + apply IH; [|exact Es]. destruct t as [a|cs]; [destruct Hc|]. cbn [fitb] in H. rewrite forallb_forall in H. apply H.
      destruct cs as [|h args]; [destruct Hc|exact Hc].
  - intros H. induction e as [a|cs IH] using tree_ind_all.
    + cbn [fitb]. destruct a as [ty [z|s]]; [|reflexivity]. cbn [atom_value]. unfold fit_int.
      destruct H as [->|H]; [reflexivity|]. apply Bool.orb_true_iff. right. apply Z.ltb_lt, (H ty). constructor. intros [].
    + cbn [fitb]. apply forallb_forall. intros c Hc. apply IH; [exact Hc|]. destruct H as [H|H]; [left; exact H|right].
      intros ty z Hr. apply (H ty). eapply reach_child; [intros []| |exact Hr]. destruct cs as [|h args]; [destruct Hc|exact Hc].
Qed.

(** The outcome [r'] with the limit, when the outcome without is [r] and everything fits iff [b]. *)
Definition limited (b : bool) (r r' : res string) : Prop :=
  if b then r' = r else match r with Ok _ => r' = Err ValueError | Err _ => exists x, r' = Err x end.
Definition limitedl (b : bool) (r r' : res (list string)) : Prop :=
  if b then r' = r else match r with Ok _ => r' = Err ValueError | Err _ => exists x, r' = Err x end.
Lemma limited_mapM (f g : tree -> res string) p l : (forall a, In a l -> limited (p a) (f a) (g a)) ->
  limitedl (forallb p l) (mapM f l) (mapM g l).
Proof.
  induction l as [|a l IH]; intros H; [reflexivity|]. cbn [forallb mapM].
  assert (Ha := H a (or_introl eq_refl)). assert (Hl : limitedl (forallb p l) (mapM f l) (mapM g l)) by (apply IH; intros b Hb; apply H; right; exact Hb).
  clear IH H. unfold limited in Ha. unfold limitedl in *. destruct (p a); cbn [andb].
  - rewrite Ha. destruct (f a) as [v|x]; cbn [bind].
    + destruct (forallb p l); [rewrite Hl; reflexivity|].
      destruct (mapM f l); cbn [bind]; [rewrite Hl; reflexivity|]. destruct Hl as (x & ->). eexists; reflexivity.
    + destruct (forallb p l); [reflexivity|eexists; reflexivity].
  - destruct (f a) as [v|x]; cbn [bind].
    + rewrite Ha. cbn [bind]. destruct (mapM f l); cbn [bind]; [reflexivity|eexists; reflexivity].
    + destruct Ha as (y & ->). eexists; reflexivity.
Qed.
Lemma limited_value limit a : limited (fitb limit (Atm a)) (Ok (str_value (atom_value a))) (str_value_lim limit (atom_value a)).
Proof.
  cbn [fitb]. destruct (atom_value a) as [z|s]; [|reflexivity]. cbn [str_value str_value_lim]. rewrite str_int_lim_eq.
  destruct (fit_int limit z); reflexivity.
Qed.
Lemma limited_tree_str limit t : limited (fitb limit t) (tree_str t) (tree_str_lim limit t).
Proof.
  induction t as [a|cs IH] using tree_ind_all; [apply limited_value|].
  destruct cs as [|h args]; [reflexivity|]. cbn [tree_str tree_str_lim fitb forallb].
  assert (Hh := IH h (or_introl eq_refl)).
  assert (Hl := limited_mapM tree_str (tree_str_lim limit) (fitb limit) args (fun a Ha => IH a (or_intror Ha))).
  unfold limited in *. unfold limitedl in Hl. destruct (fitb limit h); cbn [andb].
  - rewrite Hh. destruct (tree_str h) as [s|x]; cbn [bind]; [|destruct (forallb _ args); [reflexivity|eexists; reflexivity]].
    destruct (forallb (fitb limit) args); [rewrite Hl; reflexivity|].
    destruct (mapM tree_str args); cbn [bind]; [rewrite Hl; reflexivity|]. destruct Hl as (x & ->). eexists; reflexivity.
  - destruct (tree_str h) as [s|x]; cbn [bind].
    + rewrite Hh. cbn [bind]. destruct (mapM tree_str args); cbn [bind]; [reflexivity|eexists; reflexivity].
    + destruct Hh as (y & ->). eexists; reflexivity.
Qed.

Section Lim.
  Context (limit : nat) (leaf leaf' : tree -> res string) (op op' : tree -> list string -> res string).
  Context (Hleaf : forall t, children t = [] -> limited (fitb limit t) (leaf t) (leaf' t)).
  Context (Hop : forall h vs, limited (fitb limit h) (op h vs) (op' h vs)).
  Lemma limited_meaning e : limited (fitb limit e) (meaning leaf op e) (meaning leaf' op' e).
  Proof.
    induction e as [a|cs IH] using tree_ind_all; [apply Hleaf; reflexivity|].
    destruct cs as [|h args]; [apply Hleaf; reflexivity|]. cbn [meaning fitb forallb].
    assert (Hl := limited_mapM (meaning leaf op) (meaning leaf' op') (fitb limit) args (fun a Ha => IH a (or_intror Ha))).
    unfold limitedl in Hl. destruct (forallb (fitb limit) args); rewrite ?andb_true_r, ?andb_false_r.
    - rewrite Hl. destruct (mapM (meaning leaf op) args) as [vs|x]; cbn [bind]; [apply Hop|].
      unfold limited. destruct (fitb limit h); [reflexivity|eexists; reflexivity].
    - unfold limited. destruct (mapM (meaning leaf op) args) as [vs|x]; cbn [bind].
      + rewrite Hl. cbn [bind]. destruct (op h vs); [reflexivity|eexists; reflexivity].
      + destruct Hl as (y & ->). eexists; reflexivity.
  Qed.
  Lemma fitb_leaves e a : fitb limit e = true -> In a (leaves e) -> fitb limit a = true.
  Proof.
    induction e as [b|cs IH] using tree_ind_all; [intros H [<-|[]]; exact H|].
    destruct cs as [|h args]; [intros H [<-|[]]; exact H|]. cbn [fitb forallb leaves]. intros H Ha.
    apply andb_prop in H as [_ H]. apply in_flat_map in Ha as (c & Hc & Ha). rewrite forallb_forall in H.
    apply (IH c); [right; exact Hc|apply H, Hc|exact Ha].
  Qed.
  Lemma limited_outcome e : limited (fitb limit e)
    (match first_error leaf (leaves e) with Some x => Err x | None => meaning leaf op e end)
    (match first_error leaf' (leaves e) with Some x => Err x | None => meaning leaf' op' e end).
  Proof.
    assert (Hm := limited_meaning e). unfold limited in *. destruct (fitb limit e) eqn:Ef.
    - rewrite Hm. rewrite (fe_ext leaf' leaf); [reflexivity|]. intros a Ha.
      assert (Hl := Hleaf a (leaves_childless e a Ha)). rewrite (fitb_leaves e a Ef Ha) in Hl. exact Hl.
    - assert (Hx : exists x, match first_error leaf' (leaves e) with Some x => Err x | None => meaning leaf' op' e end = Err x).
      { destruct (first_error leaf' (leaves e)) as [x|]; [eexists; reflexivity|].
        destruct (meaning leaf op e); [eexists; exact Hm|exact Hm]. }
      destruct (first_error leaf (leaves e)) as [x|] eqn:El; [exact Hx|].
      destruct (meaning leaf op e) as [s|x]; [|exact Hx].
      rewrite Hm. destruct (first_error leaf' (leaves e)) as [x|] eqn:El'; [|reflexivity]. f_equal.
      pose proof (fe_None _ _ El) as Hok. assert (Hc := leaves_childless e). clear - El' Hok Hleaf Hc.
      induction (leaves e) as [|a l IH]; [discriminate|]. cbn [first_error] in El'.
      assert (Hl := Hleaf a (Hc a (or_introl eq_refl))). destruct (Hok a (or_introl eq_refl)) as (s & Es). unfold limited in Hl. rewrite Es in Hl.
      destruct (fitb limit a); rewrite Hl in El'; [|congruence].
      apply IH; [exact El'|intros; apply Hok; right; assumption|intros; apply Hc; right; assumption].
  Qed.
End Lim.


(** ** The evaluators, for any way [sv] of printing values and [ts] of printing trees *)
Definition repr_leaf (sv : pyval -> res string) (ts : tree -> res string) (t : tree) : res string :=
  match t with
  | Atm (mkAtom ty v) => if atype_eqb ty T_Function || atype_eqb ty T_Symbol || atype_eqb ty T_Integer then sv v else ts t
  | Node _ => Err AttributeError
  end.
Definition repr_op (ts : tree -> res string) (h : tree) (vs : list string) : res string :=
  if tree_eqb h Pow then match vs with [b; e] => repr_pow b e | _ => Err TypeError end
  else if tree_eqb h Mul then repr_mul vs
  else if tree_eqb h Add then repr_add vs
  else do s <- ts h; Ok (s ++ "(" ++ join ", " vs ++ ")")%string.
Definition latex_leaf (sv : pyval -> res string) (t : tree) : res string :=
  match t with
  | Atm (mkAtom ty v) => if atype_eqb ty T_Function || atype_eqb ty T_Symbol || atype_eqb ty T_Integer then sv v else Err NoEvaluationRuleError
  | Node _ => Err AttributeError
  end.
Definition latex_op (ts : tree -> res string) (h : tree) (vs : list string) : res string :=
  if tree_eqb h cos then match vs with [v] => latex_cos v | _ => Err TypeError end
  else if tree_eqb h sin then match vs with [v] => latex_sin v | _ => Err TypeError end
  else if tree_eqb h Pow then match vs with [b; e] => latex_pow b e | _ => Err TypeError end
  else if tree_eqb h Mul then latex_mul vs
  else if tree_eqb h Add then latex_add vs
  else do s <- ts h; Ok (s ++ "(" ++ join ", " vs ++ ")")%string.

Definition call_op (ts : tree -> res string) (h : tree) (vs : list string) : res string :=
  do s <- ts h; Ok (s ++ "(" ++ join ", " vs ++ ")")%string.
Definition atoms_ev (sv : pyval -> res string) (ev : evaluator string) : evaluator string :=
  add_atom (add_atom (add_atom ev T_Integer sv) T_Symbol sv) T_Function sv.
Definition repr_evs sv ts : evaluator string :=
  add_op2 (add_opn (add_opn (atoms_ev sv (add_atom_generic (add_op_generic new_evaluator (call_op ts)) ts))
    Add (pyn repr_add)) Mul (pyn repr_mul)) Pow (py2 repr_pow).
Definition latex_evs sv ts : evaluator string :=
  add_op1 (add_op1 (add_op2 (add_opn (add_opn (atoms_ev sv (add_op_generic new_evaluator (call_op ts)))
    Add (pyn latex_add)) Mul (pyn latex_mul)) Pow (py2 latex_pow)) sin (py1 latex_sin)) cos (py1 latex_cos).
Lemma atoms_get sv (ev : evaluator string) ty : ev_atoms ev = [] ->
  dict_get atype_eqb (ev_atoms (atoms_ev sv ev)) ty =
  if atype_eqb ty T_Function || atype_eqb ty T_Symbol || atype_eqb ty T_Integer then Some sv else None.
Proof.
  intros H. unfold atoms_ev, add_atom. cbn [ev_atoms]. rewrite H, !(dict_get_set _ atype_eqb_spec'). cbn [dict_get].
  destruct (atype_eqb ty T_Function), (atype_eqb ty T_Symbol), (atype_eqb ty T_Integer); reflexivity.
Qed.
Lemma repr_evs_leaf sv ts t : children t = [] -> eval_leaf (fun _ => false) (repr_evs sv ts) [] t = repr_leaf sv ts t.
Proof.
  intros Ht. unfold eval_leaf, eval_atom. cbn [dict_get]. destruct t as [[ty v]|[|c cs]]; [|reflexivity|discriminate Ht].
  cbn [tree_value bind atom_type atom_value repr_leaf].
  change (ev_atoms (repr_evs sv ts)) with (ev_atoms (atoms_ev sv (add_atom_generic (add_op_generic new_evaluator (call_op ts)) ts))).
  rewrite atoms_get by reflexivity. destruct (_ || _); reflexivity.
Qed.
Lemma latex_evs_leaf sv ts t : children t = [] -> eval_leaf (fun _ => false) (latex_evs sv ts) [] t = latex_leaf sv t.
Proof.
  intros Ht. unfold eval_leaf, eval_atom. cbn [dict_get]. destruct t as [[ty v]|[|c cs]]; [|reflexivity|discriminate Ht].
  cbn [tree_value bind atom_type atom_value latex_leaf].
  change (ev_atoms (latex_evs sv ts)) with (ev_atoms (atoms_ev sv (add_op_generic new_evaluator (call_op ts)))).
  rewrite atoms_get by reflexivity. destruct (_ || _); reflexivity.
Qed.
Lemma repr_evs_op sv ts h vs : eval_operation (repr_evs sv ts) h vs = repr_op ts h vs.
Proof.
  unfold eval_operation, repr_evs, repr_op, add_op2, add_opn. cbn [ev_operations ev_generic_operation].
  rewrite !(dict_get_set _ tree_eqb_spec).
  destruct (tree_eqb h Pow); [destruct vs as [|? [|? [|]]]; reflexivity|].
  destruct (tree_eqb h Mul); [reflexivity|]. destruct (tree_eqb h Add); reflexivity.
Qed.
Lemma latex_evs_op sv ts h vs : eval_operation (latex_evs sv ts) h vs = latex_op ts h vs.
Proof.
  unfold eval_operation, latex_evs, latex_op, add_op1, add_op2, add_opn. cbn [ev_operations ev_generic_operation].
  rewrite !(dict_get_set _ tree_eqb_spec).
  destruct (tree_eqb h cos); [destruct vs as [|? [|? [|]]]; reflexivity|].
  destruct (tree_eqb h sin); [destruct vs as [|? [|? [|]]]; reflexivity|].
  destruct (tree_eqb h Pow); [destruct vs as [|? [|? [|]]]; reflexivity|].
  destruct (tree_eqb h Mul); [reflexivity|]. destruct (tree_eqb h Add); reflexivity.
Qed.
Lemma repr_ev : eval_repr_ev = Ok (repr_evs (fun v => Ok (str_value v)) tree_str).
Proof. reflexivity. Qed.
Lemma repr_ev_lim limit : eval_repr_ev_lim limit = Ok (repr_evs (str_value_lim limit) (tree_str_lim limit)).
Proof. reflexivity. Qed.
Lemma latex_ev : eval_latex_ev = Ok (latex_evs (fun v => Ok (str_value v)) tree_str).
Proof. reflexivity. Qed.
Lemma latex_ev_lim limit : eval_latex_ev_lim limit = Ok (latex_evs (str_value_lim limit) (tree_str_lim limit)).
Proof. reflexivity. Qed.

Lemma limited_err b x : limited b (Err x) (Err x).
Proof. destruct b; [reflexivity|eexists; reflexivity]. Qed.
Lemma limited_call limit h vs :
  limited (fitb limit h) (do s <- tree_str h; Ok (s ++ "(" ++ join ", " vs ++ ")")%string)
    (do s <- tree_str_lim limit h; Ok (s ++ "(" ++ join ", " vs ++ ")")%string).
Proof.
  assert (H := limited_tree_str limit h). unfold limited in *. destruct (fitb limit h); [rewrite H; reflexivity|].
  destruct (tree_str h); cbn [bind]; [rewrite H; reflexivity|]. destruct H as (x & ->). eexists; reflexivity.
Qed.
Lemma outcome_of (ev : evaluator string) leaf op e :
  (forall t, children t = [] -> eval_leaf (fun _ => false) ev [] t = leaf t) ->
  (forall h vs, eval_operation ev h vs = op h vs) ->
  sym_evaluate (fun _ => false) ev e None =
  match first_error leaf (leaves e) with Some x => Err x | None => meaning leaf op e end.
Proof.
  intros Hl Ho. unfold sym_evaluate, evaluate. rewrite forward_outcome.
  rewrite (fe_ext (eval_leaf (fun _ => false) ev []) leaf) by (intros a Ha; apply Hl, (leaves_childless e), Ha).
  rewrite (meaning_ext _ leaf _ op e); [reflexivity| |].
  - intros s _ Hs. apply Hl, Hs.
  - intros h args vs _ _. apply Ho.
Qed.
Lemma fun_fits limit h s : h = Function s -> fitb limit h = true.
Proof. intros ->. reflexivity. Qed.
Ltac special H limit := match goal with |- context [tree_eqb ?h (?k)] =>
  destruct (tree_eqb_spec h k) as [H|_]; [rewrite (fun_fits limit h _ H); reflexivity|] end.

Lemma eval_repr_lim_limited limit e : limited (fitb limit e) (eval_repr e) (eval_repr_lim limit e).
Proof.
  unfold eval_repr, eval_repr_lim. rewrite repr_ev, repr_ev_lim. cbn [bind].
  rewrite !(outcome_of (repr_evs _ _) _ _ e (repr_evs_leaf _ _) (repr_evs_op _ _)).
  apply limited_outcome.
  - intros t Ht. destruct t as [[ty v]|[|c cs]]; [|reflexivity|discriminate Ht]. cbn [repr_leaf].
    destruct (_ || _); [exact (limited_value limit (mkAtom ty v))|exact (limited_value limit (mkAtom ty v))].
  - intros h vs. unfold repr_op. special H limit. special H limit. special H limit. apply limited_call.
Qed.
Lemma eval_latex_lim_limited limit e : limited (fitb limit e) (eval_latex e) (eval_latex_lim limit e).
Proof.
  unfold eval_latex, eval_latex_lim. rewrite latex_ev, latex_ev_lim. cbn [bind].
  rewrite !(outcome_of (latex_evs _ _) _ _ e (latex_evs_leaf _ _) (latex_evs_op _ _)).
  apply limited_outcome.
  - intros t Ht. destruct t as [[ty v]|[|c cs]]; [|reflexivity|discriminate Ht]. cbn [latex_leaf].
    destruct (_ || _); [exact (limited_value limit (mkAtom ty v))|apply limited_err].
  - intros h vs. unfold latex_op. do 5 special H limit. apply limited_call.
Qed.
Lemma tree_repr_lim_limited limit e : limited (fitb limit e) (tree_repr e) (tree_repr_lim limit e).
Proof.
  induction e as [a|cs IH] using tree_ind_all.
  - cbn [tree_repr tree_repr_lim children tree_value bind fitb]. unfold atom_repr, atom_repr_lim, repr_value.
    destruct (atom_value a) as [z|s]; [|reflexivity]. rewrite str_int_lim_eq. cbn [str_value]. destruct (fit_int limit z); reflexivity.
  - destruct cs as [|c cs]; [reflexivity|]. cbn [tree_repr tree_repr_lim children fitb].
    assert (Hl := limited_mapM tree_repr (tree_repr_lim limit) (fitb limit) (c :: cs) IH). unfold limitedl in Hl. unfold limited.
    destruct (forallb (fitb limit) (c :: cs)); [rewrite Hl; reflexivity|].
    destruct (mapM tree_repr (c :: cs)); cbn [bind]; [rewrite Hl; reflexivity|]. destruct Hl as (x & ->). eexists; reflexivity.
Qed.
Lemma limited_spec limit e r r' : limited (fitb limit e) r r' ->
  (fits limit e -> r' = r) /\ (~ fits limit e -> match r with Ok _ => r' = Err ValueError | Err _ => exists x, r' = Err x end).
Proof. unfold limited. rewrite <- fitb_spec. destruct (fitb limit e); intros H; split; intros H'; tauto || congruence || exact H. Qed.
