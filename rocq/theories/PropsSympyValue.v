(** * C93: converting to and from SymPy keeps the mathematical value. *)
From Coq Require Import Reals Lra.
From Verif Require Import Py ModelTree SpecTree ProofBase ModelEval SpecEval ModelDiff ModelSym ModelCas ModelMatrix ModelSympy SpecMatrix SpecSympy SpecReal
  SpecSympyValue ProofMatrix ProofSympy PropsMatrix PropsSympy PropsReal Samples.
From Verif Require ProofReal.
Local Open Scope string_scope.

Lemma defined_map {A B C} (f : B -> option C) (g : A -> option C) l l' :
  Forall2 (fun a b => f b = g a) l l' -> all_defined f l' = all_defined g l.
Proof. induction 1 as [|a b l l' H _ IH]; [reflexivity|]. cbn [all_defined]. rewrite H, IH. reflexivity. Qed.
Lemma defined_forall {A B} (f : A -> option B) l vs : all_defined f l = Some vs -> Forall2 (fun a v => f a = Some v) l vs.
Proof.
  revert vs. induction l as [|a l IH]; intros vs; cbn [all_defined]; [intros [= <-]; constructor|].
  destruct (f a) as [v|] eqn:E; [|discriminate]. destruct (all_defined f l) as [ws|]; [|discriminate]. intros [= <-]. constructor; auto.
Qed.
Lemma forall_defined {A B} (f : A -> option B) l vs : Forall2 (fun a v => f a = Some v) l vs -> all_defined f l = Some vs.
Proof. induction 1 as [|a v l vs H _ IH]; [reflexivity|]. cbn [all_defined]. rewrite H, IH. reflexivity. Qed.

Lemma head_value F h hd vs : head_for h = Some hd -> (forall name n, h = SUndef name n -> ~ In name builtin_names) ->
  fop F hd vs = sop F h vs.
Proof.
  destruct h; intros [= <-] Hn; try reflexivity. cbn [sop fop Function].
  unfold fop. cbn. assert (Hx := Hn _ _ eq_refl).
  destruct (existsb (String.eqb name) builtin_names) eqn:E.
  - apply existsb_exists in E as (m & Hm & Em). apply String.eqb_eq in Em as ->. contradiction.
  - unfold builtin_names in E. cbn in E. rewrite E. reflexivity.
Qed.
Theorem C93_from_sympy s t : no_clash s -> from_sympy s = Ok t ->
  forall F senv env, symbols_agree s senv env -> fvalue F env t = svalue F senv s.
Proof.
  rewrite from_sympy_convert. intros Hc Ht F senv env Ha. revert t Ht Hc Ha.
  induction s as [p|name n|name|n|h args IH] using sexpr_ind_all; intros t Ht Hc Ha.
  - injection Ht as <-. reflexivity.
  - injection Ht as <-. cbn. rewrite (Ha name n); [reflexivity|constructor].
  - discriminate.
  - discriminate.
  - destruct args as [|a0 args0]; [discriminate|]. set (args := a0 :: args0) in *.
    change (convert (SApp h args)) with (do ts <- mapM convert args; match head_for h with Some t => Ok (Node (t :: ts)) | None => Err NotImplementedErr end) in Ht.
    destruct (mapM convert args) as [ts|] eqn:Em; [|discriminate]. cbn [bind] in Ht.
    destruct (head_for h) as [hd|] eqn:Eh; [|discriminate]. injection Ht as <-.
    cbn [fvalue svalue]. rewrite (defined_map (fvalue F env) (svalue F senv) args ts).
    + destruct (all_defined (svalue F senv) args) as [vs|]; [|reflexivity]. apply head_value; [exact Eh|].
      intros name n ->. apply (Hc name n args). constructor.
    + apply mapM_Ok_Forall2 in Em. assert (G : forall l us, Forall2 (fun a b => convert a = Ok b) l us -> incl l args ->
        Forall2 (fun a b => fvalue F env b = svalue F senv a) l us).
      { induction 1 as [|a u l us Hu _ IHl]; intros Hi; [constructor|]. assert (Hin : In a args) by (apply Hi; left; reflexivity).
        constructor; [|apply IHl; intros q Hq; apply Hi; right; exact Hq].
        apply (IH a Hin u Hu).
        - intros name n l' Hs. apply (Hc name n l'). eapply sub_arg; eassumption.
        - intros name n Hs. apply Ha. eapply sub_arg; eassumption. }
      apply G; [exact Em|intros q Hq; exact Hq].
Qed.

Lemma rop_builtin F h vs v : rop h vs = Some v -> fop F h vs = rop h vs.
Proof.
  destruct h as [[ty [|name]]|]; try reflexivity. cbn [fop].
  destruct (atype_eqb ty T_Function && negb (existsb (String.eqb name) builtin_names)) eqn:E; [|reflexivity].
  apply andb_true_iff in E as [E1 E2]. apply negb_true_iff in E2. destruct (atype_eqb_spec ty T_Function) as [->|]; [|discriminate].
  assert (Hn : ~ In name builtin_names).
  { intros Hi. assert (existsb (String.eqb name) builtin_names = true); [|congruence]. apply existsb_exists. exists name. split; [exact Hi|apply String.eqb_refl]. }
  assert (Hh : forall m, In m builtin_names -> tree_eqb (Atm (mkAtom T_Function (VStr name))) (Function m) = false).
  { intros m Hm. destruct (tree_eqb_spec (Atm (mkAtom T_Function (VStr name))) (Function m)) as [E|]; [|reflexivity]. injection E as ->. contradiction. }
  unfold rop. change Add with (Function "Add"). change Mul with (Function "Mul"). change Pow with (Function "pow").
  change sin with (Function "sin"). change cos with (Function "cos"). rewrite !Hh by (unfold builtin_names; cbn; tauto). discriminate.
Qed.
Lemma fvalue_none env t : fvalue no_functions env t = reval env t.
Proof.
  induction t as [a|cs IH] using tree_ind_all; [reflexivity|]. destruct cs as [|h args]; [reflexivity|]. cbn [fvalue reval].
  rewrite (defined_map (fvalue no_functions env) (reval env) args args).
  - destruct (all_defined (reval env) args) as [vs|]; [|reflexivity]. destruct (rop h vs) as [v|] eqn:E; [rewrite <- E; eapply rop_builtin; exact E|].
    destruct h as [[ty [|name]]|]; try exact E. unfold fop. destruct (_ && _); [reflexivity|exact E].
  - assert (G : forall l, incl l args -> Forall2 (fun a b => fvalue no_functions env b = reval env a) l l).
    { induction l as [|a l IHl]; intros Hi; constructor; [apply IH; right; apply Hi; left; reflexivity|apply IHl; intros q Hq; apply Hi; right; exact Hq]. }
    apply G. intros q Hq. exact Hq.
Qed.

(** [meaning] of compound trees, from SpecEval. *)
Theorem C93_to_sympy o F t s : faithful o F -> to_sympy o t = Ok s ->
  forall senv env, (forall name, senv name 0 = env name) ->
  forall v, fvalue F env t = Some v -> svalue F senv s = Some v.
Proof.
  intros Hf Ht senv env He. apply to_sympy_meaning in Ht. revert s Ht.
  induction t as [a|cs IH] using tree_ind_all; intros s Ht v Hv.
  - cbn [meaning sp_leaf] in Ht. cbn [fvalue] in Hv. unfold ratom in Hv. destruct (atom_value a) as [z|nm].
    + destruct (atype_eqb (atom_type a) T_Integer); [|discriminate]. injection Ht as <-. exact Hv.
    + destruct (atype_eqb_spec (atom_type a) T_Symbol) as [E|]; [|discriminate]. rewrite E in Ht. injection Ht as <-.
      cbn [svalue]. rewrite He. exact Hv.
  - destruct cs as [|h args]; [discriminate|]. cbn [meaning] in Ht. cbn [fvalue] in Hv.
    destruct (mapM (meaning sp_leaf (sp_op o)) args) as [ss|] eqn:Em; [|discriminate]. cbn [bind] in Ht.
    destruct (all_defined (fvalue F env) args) as [vs|] eqn:Ed; [|discriminate].
    assert (Hs : all_defined (svalue F senv) ss = Some vs).
    { apply mapM_Ok_Forall2 in Em. apply defined_forall in Ed. apply forall_defined.
      assert (G : forall l us ws, Forall2 (fun a b => meaning sp_leaf (sp_op o) a = Ok b) l us -> Forall2 (fun a w => fvalue F env a = Some w) l ws ->
        incl l args -> Forall2 (fun u w => svalue F senv u = Some w) us ws).
      { intros l us ws H. revert ws. induction H as [|a u l us Hu _ IHl]; intros ws Hw Hi; inversion Hw; subst; constructor.
        - eapply IH; [right; apply Hi; left; reflexivity|exact Hu|assumption].
        - apply IHl; [assumption|]. intros q Hq. apply Hi. right. exact Hq. }
      exact (G _ _ _ Em Ed (fun q Hq => Hq)). }
    assert (G : forall hd, construct o hd ss = Ok s -> sop F hd vs = Some v -> svalue F senv s = Some v).
    { intros hd H1 H2. apply (Hf hd ss s H1). cbn [svalue]. rewrite Hs. exact H2. }
    unfold sp_op in Ht. unfold fop, rop in Hv.
    destruct (tree_eqb_spec h Add) as [->|]; [apply (G SAdd); [exact Ht|exact Hv]|].
    destruct (tree_eqb_spec h Mul) as [->|]; [apply (G SMul); [exact Ht|exact Hv]|].
    destruct (tree_eqb_spec h Pow) as [->|]; [apply (G SPow); [exact Ht|exact Hv]|].
    destruct (tree_eqb_spec h sin) as [->|]; [apply (G SSin); [exact Ht|exact Hv]|].
    destruct (tree_eqb_spec h cos) as [->|]; [apply (G SCos); [exact Ht|exact Hv]|].
    destruct (tree_eqb_spec h List_) as [->|]; [discriminate Hv|].
    destruct h as [[ty [z|name]]|]; try discriminate Hv.
    destruct (atype_eqb ty T_Function && negb (existsb (String.eqb name) builtin_names)) eqn:E; [|discriminate].
    cbn in Ht. apply (G (SUndef name 0)); [exact Ht|exact Hv].
Qed.
(** There and back, also when SymPy's constructors simplify. *)
Theorem C93_there_and_back o F s t s' : faithful o F -> no_clash s -> from_sympy s = Ok t -> to_sympy o t = Ok s' ->
  forall senv v, symbols_agree s senv (fun name => senv name 0) -> svalue F senv s = Some v -> svalue F senv s' = Some v.
Proof.
  intros Hf Hc H1 H2 senv v Ha Hv. eapply (C93_to_sympy o F t s' Hf H2 senv (fun name => senv name 0)); [reflexivity|].
  rewrite (C93_from_sympy s t Hc H1 F senv _ Ha). exact Hv.
Qed.

Lemma value_no_clash senv s v : svalue no_functions senv s = Some v -> no_clash s.
Proof.
  revert v. induction s as [p|name n|name|n|h args IH] using sexpr_ind_all; intros v Hv name' n' l Hs; inversion Hs as [|h' args' a q Hin Hsub]; subst.
  - cbn [svalue] in Hv. destruct (all_defined _ _); discriminate.
  - cbn [svalue] in Hv. destruct (all_defined (svalue no_functions senv) args) as [vs|] eqn:Ed; [|discriminate]. apply defined_forall in Ed.
    assert (exists w, svalue no_functions senv a = Some w) as [w Hw].
    { clear -Ed Hin. induction Ed as [|b u l us Hu _ IHl]; [destruct Hin|]. destruct Hin as [<-|Hi]; [eauto|auto]. }
    exact (IH a Hin w Hw _ _ _ Hsub).
Qed.
(** to_sympy(from_sympy(s).diff(x)) is a derivative of [s]. *)
Theorem C93_derivative o s t x d s' env v v' : faithful o no_functions -> from_sympy s = Ok t -> expr_diff t (Symbol x) 1 = Ok d ->
  to_sympy o d = Ok s' -> svalue no_functions (fun name _ => env name) s = Some v -> reval env d = Some v' ->
  svalue no_functions (fun name _ => env name) s' = Some v' /\
  exists (f : R -> R) (delta : R), (0 < delta)%R /\
    (forall u, (Rabs (u - env x) < delta)%R -> svalue no_functions (fun name _ => upd env x u name) s = Some (f u)) /\
    derivable_pt_lim f (env x) v'.
Proof.
  intros Hf Ht Hd Hs' Hv Hv'. pose proof (value_no_clash _ _ _ Hv) as Hc.
  assert (G : forall e, reval e t = svalue no_functions (fun name _ => e name) s).
  { intros e. rewrite <- fvalue_none. apply C93_from_sympy; [exact Hc|exact Ht|]. intros name n _. reflexivity. }
  split; [eapply (C93_to_sympy o no_functions d s' Hf Hs' _ env); [reflexivity|rewrite fvalue_none; exact Hv']|].
  rewrite <- G in Hv. destruct (C24_diff_is_the_derivative env t x d v v' Hd Hv Hv') as (f & delta & H0 & H1 & H2).
  exists f, delta. split; [exact H0|]. split; [|exact H2]. intros u Hu. rewrite <- G. apply H1, Hu.
Qed.

(** The entry of a SymPy matrix: 0 where nothing is stored. *)
Definition entry_in (sm : smatrix) (i j : Z) : sexpr :=
  match dict_get pos_eqb (sm_dok sm) (Z.to_nat i, Z.to_nat j) with Some s => s | None => SInt 0 end.
Lemma entry_converted (l : list (pos * sexpr)) p : forall ts pre, mapM convert (map snd l) = Ok ts ->
  convert (match dict_get pos_eqb l p with Some s => s | None => SInt 0 end) =
  Ok (entry (pre ++ ts)%list (map (fun e : nat * (pos * sexpr) => (fst (snd e), fst e)) (enumerate_from (length pre) l)) p).
Proof.
  induction l as [|[q a] l IH]; intros ts pre Em; [reflexivity|]. cbn [map mapM snd] in Em.
  destruct (convert a) as [t|] eqn:Ea; [|discriminate]. cbn [bind] in Em. destruct (mapM convert (map snd l)) as [ts0|]; [|discriminate].
  injection Em as <-. unfold entry. cbn [enumerate_from map dict_get fst snd].
  destruct (pos_eqb p q); [rewrite Ea, nth_middle; reflexivity|].
  specialize (IH ts0 (pre ++ [t])%list eq_refl). rewrite app_length, <- app_assoc in IH. cbn [length app] in IH. rewrite Nat.add_1_r in IH. exact IH.
Qed.
(** Matrix.from_sympy: each entry is the converted entry, so it has its value, now and after any further program. *)
Theorem C93_matrix h ms sm m h' : history h ms -> smatrix_ok sm -> from_sympy_matrix sm h = (Ok m, h') ->
  m_nrows m = sm_rows sm /\ m_ncols m = sm_cols sm /\
  forall h2 ms2, steps h' (m :: ms) h2 ms2 -> forall i j, inside m i j ->
    exists t, get m i j h2 = Ok t /\ from_sympy (entry_in sm i j) = Ok t /\
      forall F senv env, no_clash (entry_in sm i j) -> symbols_agree (entry_in sm i j) senv env ->
        fvalue F env t = svalue F senv (entry_in sm i j).
Proof.
  intros Hh Hok E. destruct (from_matrix sm h Hok) as [(C & h1 & ts & E1 & Hext & Hwf & Enr & Enc & Em & _ & Ee & Ed)|(x0 & h1 & E1 & _)];
    rewrite E in E1; [|discriminate]. injection E1 as <- <-.
  split; [exact Enr|]. split; [exact Enc|]. intros h2 ms2 Hs i j Hin.
  assert (Hh' : history h' (m :: ms)) by (eapply steps_more; [exact Hh|]; exact (step_sympy _ _ _ _ _ Hok E)).
  destruct (steps_inv _ _ _ _ Hs (history_wf _ _ Hh')) as (Hx & Hi & Hw2).
  destruct (extends_same _ _ _ Hwf Hx) as [Ee2 Ed2].
  assert (Hf : from_sympy (entry_in sm i j) = Ok (entry (elems h2 m) (emap h2 m) (Z.to_nat i, Z.to_nat j))).
  { rewrite from_sympy_convert, Ee2, Ed2, Ee, Ed. exact (entry_converted (sm_dok sm) _ ts [] Em). }
  eexists. split; [apply get_inside; [apply Hw2, Hi; left; reflexivity|exact Hin]|]. split; [exact Hf|].
  intros F senv env Hc Ha. exact (C93_from_sympy _ _ Hc Hf F senv env Ha).
Qed.

(** Without the conditions the value can change: an undefined function called cos becomes the cosine; x and
    x with an assumption, which are different symbols to SymPy, become one, so x - x' becomes 0. *)
Theorem C93_confused_names_refuted :
  (exists s t F, from_sympy s = Ok t /\ forall senv env, svalue F senv s = Some 0%R /\ fvalue F env t = Some 1%R) /\
  (exists s t senv, from_sympy s = Ok t /\ forall F env, svalue F senv s = Some (-1)%R /\ fvalue F env t = Some 0%R).
Proof.
  split.
  - exists (SApp (SUndef "cos" 0) [SInt 0]), (tree_call cos [int 0]), (fun _ _ => Some 0%R). split; [reflexivity|].
    intros senv env. split; [reflexivity|]. cbn. rewrite cos_0. reflexivity.
  - exists (SApp SAdd [SSym "x" 0; SApp SMul [SInt (-1); SSym "x" 1]]), (m_add x (m_mul (int (-1)) x)), (fun _ n => INR (S n)).
    split; [reflexivity|]. intros F env. split; cbn; f_equal; lra.
Qed.

(** A SymPy that adds integers and cancels a * a**-1. *)
Definition sympy_cancels : sympy_ops :=
  mkSympy
    (fun l => match l with [SInt p; SInt q] => Ok (SInt (p + q)) | _ => Ok (SApp SAdd l) end)
    (fun l => match l with
              | [a; SApp SPow [b; SInt n]] => if sexpr_eqb a b && Z.eqb n (-1) then Ok (SInt 1) else Ok (SApp SMul l)
              | _ => Ok (SApp SMul l)
              end)
    (fun a b => Ok (SApp SPow [a; b])) (fun a => Ok (SApp SSin [a])) (fun a => Ok (SApp SCos [a]))
    (fun name l => Ok (SApp (SUndef name 0) l)).
Lemma rpow_inverse a r : rpow a (-1) = Some r -> (a * (r * 1))%R = 1%R.
Proof.
  unfold rpow. assert (Hi : Int_part (-1) = (-1)%Z).
  { exact (ProofReal.Int_part_IZR (-1)). }
  rewrite Hi. destruct (Rlt_dec 0 a) as [H|H].
  - intros [= <-]. replace (-1)%R with (- (1))%R by lra. rewrite Rpower_Ropp, Rpower_1 by exact H. field. lra.
  - destruct (Req_EM_T (-1) (IZR (-1))) as [_|n]; [|exfalso; apply n; simpl; lra].
    destruct (Req_EM_T a 0) as [E|E]; [destruct (Z_le_dec 0 (-1)); [lia|discriminate]|]. intros [= <-]. simpl. field. exact E.
Qed.
Lemma cancels_faithful F : faithful sympy_cancels F.
Proof.
  intros h args s H senv v Hv. destruct h.
  - cbn in H. destruct args as [|[p| | | |] [|[q| | | |] [|]]]; try (injection H as <-; exact Hv).
    injection H as <-. cbn in *. injection Hv as <-. f_equal. rewrite plus_IZR. lra.
  - cbn in H. destruct args as [|a [|b [|]]]; try (injection H as <-; exact Hv); [destruct b as [| | | |[] [|b0 [|[n| | | |] [|]]]]; try (injection H as <-; exact Hv)|].
    + destruct (sexpr_eqb a b0 && (n =? -1)%Z) eqn:E; [|injection H as <-; exact Hv].
      apply andb_true_iff in E as [E1 E2]. apply sexpr_eqb_iff in E1 as ->. apply Z.eqb_eq in E2 as ->. injection H as <-.
      cbn [svalue all_defined] in Hv. destruct (svalue F senv b0) as [w|]; [|discriminate]. cbn [sop] in Hv.
      destruct (rpow w (-1)) as [r|] eqn:Er; [|discriminate]. injection Hv as <-. cbn. f_equal. symmetry. apply rpow_inverse, Er.
    + destruct b as [| | | |[] [|b0 [|[n| | | |] [|]]]]; injection H as <-; exact Hv.
  - destruct args as [|a [|b [|]]]; try discriminate H. injection H as <-. exact Hv.
  - destruct args as [|a [|]]; try discriminate H. injection H as <-. exact Hv.
  - destruct args as [|a [|]]; try discriminate H. injection H as <-. exact Hv.
  - cbn in Hv. destruct (all_defined _ _); discriminate.
  - cbn in H. injection H as <-. cbn [svalue] in *. exact Hv.
  - discriminate.
Qed.
Fixpoint subterms (s : sexpr) : list sexpr := s :: match s with SApp _ args => flat_map subterms args | _ => [] end.
Lemma subterms_spec s p : subterm s p -> In p (subterms s).
Proof.
  induction 1 as [s|h args a p Hin _ IH]; [destruct s; left; reflexivity|]. cbn [subterms]. right. apply in_flat_map. exists a. split; assumption.
Qed.
(** f(x) * f(x)**-1 + x comes back as 1 + x; and the derivative of x**2. *)
Example C93_case :
  let fx := SApp (SUndef "f" 0) [SSym "x" 0] in
  let s := SApp SAdd [SApp SMul [fx; SApp SPow [fx; SInt (-1)]]; SSym "x" 0] in
  no_clash s /\ (exists t, from_sympy s = Ok t /\ to_sympy sympy_cancels t = Ok (SApp SAdd [SInt 1; SSym "x" 0])) /\
  (forall senv, svalue (fun _ vs => match vs with [v] => Some v | _ => None end) (fun n k => if Nat.eqb k 0 then 2%R else senv n k) s = Some 3%R) /\
  (exists t d s', from_sympy (SApp SPow [SSym "x" 0; SInt 2]) = Ok t /\ expr_diff t x 1 = Ok d /\ to_sympy sympy_cancels d = Ok s' /\
     reval (fun _ => 3%R) d = Some 6%R).
Proof.
  cbv zeta. split.
  { intros name n args H. apply subterms_spec in H. cbn in H. repeat (destruct H as [H|H]); try discriminate; try contradiction; injection H as <- <- <-; cbn; intuition discriminate. }
  split; [eexists; split; [reflexivity|vm_compute; reflexivity]|]. split.
  - intros senv. cbn. unfold rpow. destruct (Rlt_dec 0 2) as [_|n]; [|exfalso; apply n; lra]. f_equal.
    replace (-1)%R with (- (1))%R by lra. rewrite Rpower_Ropp, Rpower_1 by lra. cbn [fold_right]. lra.
  - do 3 eexists. split; [reflexivity|]. split; [vm_compute; reflexivity|]. split; [vm_compute; reflexivity|].
    cbn. unfold rpow. destruct (Rlt_dec 0 3) as [_|n]; [|exfalso; apply n; lra]. replace (2 + (-1 + 0))%R with 1%R by lra.
    rewrite Rpower_1 by lra. cbn [fold_right]. f_equal. lra.
Qed.
Print Assumptions C93_from_sympy.
Print Assumptions C93_to_sympy.
Print Assumptions C93_there_and_back.
Print Assumptions C93_derivative.
Print Assumptions C93_matrix.
Print Assumptions C93_confused_names_refuted.
