(** * SymPy conversions: proofs for C52 - C54 *)
From Verif Require Import Py ModelTree SpecTree ProofBase ModelEval SpecEval ProofEval ModelDiff ModelSym ModelCas ModelMatrix ModelSympy
  SpecMatrix ProofMatrix SpecSympy.
Local Open Scope string_scope.

Lemma sexpr_ind_all (P : sexpr -> Prop) :
  (forall p, P (SInt p)) -> (forall s n, P (SSym s n)) -> (forall s, P (SFunc s)) -> (forall n, P (SOtherAtom n)) ->
  (forall h args, (forall a, In a args -> P a) -> P (SApp h args)) -> forall s, P s.
Proof.
  intros H1 H2 H3 H4 H5. fix IH 1. intros [p|s n|s|n|h args]; [apply H1|apply H2|apply H3|apply H4|apply H5].
  induction args as [|b args IHa]; intros a Ha; [destruct Ha|]. destruct Ha as [<-|Ha]; [apply IH|apply IHa, Ha].
Qed.

Lemma shead_eqb_spec g h : reflect (g = h) (shead_eqb g h).
Proof.
  destruct g as [| | | | | |s m|m], h as [| | | | | |t n|n]; simpl; try (constructor; congruence).
  - destruct (String.eqb_spec s t), (Nat.eqb_spec m n); constructor; congruence.
  - destruct (Nat.eqb_spec m n); constructor; congruence.
Qed.
Lemma sexpr_eqb_iff s : forall t, sexpr_eqb s t = true <-> s = t.
Proof.
  induction s as [p|s n|s|n|h args IH] using sexpr_ind_all; intros [q|s' n'|s'|n'|h' args']; simpl; try (split; congruence).
  - rewrite Z.eqb_eq. split; congruence.
  - rewrite andb_true_iff, String.eqb_eq, Nat.eqb_eq. split; [intros [-> ->]; reflexivity|intros E; injection E; auto].
  - rewrite String.eqb_eq. split; congruence.
  - rewrite Nat.eqb_eq. split; congruence.
  - rewrite andb_true_iff. destruct (shead_eqb_spec h h') as [->|Hh]; [|split; [intros [E _]; discriminate|congruence]].
    assert (G : forall args', (fix go (l m : list sexpr) : bool :=
         match l, m with [], [] => true | a :: l', b :: m' => sexpr_eqb a b && go l' m' | _, _ => false end) args args' = true <-> args = args').
    { clear args'. induction args as [|a args IHa]; intros [|b args']; try (split; congruence).
      rewrite andb_true_iff, (IH a (or_introl eq_refl)), IHa by (intros c Hc; apply IH; right; exact Hc).
      split; [intros [-> ->]; reflexivity|intros E; injection E; auto]. }
    rewrite G. split; [intros [_ ->]; reflexivity|intros E; injection E; auto].
Qed.
Lemma sexpr_eqb_spec s t : reflect (s = t) (sexpr_eqb s t).
Proof. apply iff_reflect. symmetry. apply sexpr_eqb_iff. Qed.

(** ** The cache *)
Definition cache_ok (c : cache) : Prop := forall s t, dict_get sexpr_eqb c s = Some t -> convert s = Ok t.
Lemma cache_set c s t : cache_ok c -> convert s = Ok t -> cache_ok (dict_set sexpr_eqb c s t).
Proof.
  intros Hc Ht s' t' H.
  assert (G : forall c, dict_get sexpr_eqb (dict_set sexpr_eqb c s t) s' = if sexpr_eqb s' s then Some t else dict_get sexpr_eqb c s').
  { clear. induction c as [|[k v] c IH]; simpl; [reflexivity|]. destruct (sexpr_eqb_spec s k) as [->|Hk]; simpl.
    - destruct (sexpr_eqb s' k); reflexivity.
    - rewrite IH. destruct (sexpr_eqb_spec s' k) as [->|_]; [|reflexivity].
      destruct (sexpr_eqb_spec k s); [congruence|reflexivity]. }
  rewrite G in H. destruct (sexpr_eqb_spec s' s) as [->|_]; [congruence|auto].
Qed.

Lemma convert_err s x : convert s = Err x -> x = NotImplementedErr \/ (x = TypeError /\ has_class s).
Proof.
  revert x. induction s as [p|s n|s|n|h args IH] using sexpr_ind_all; simpl; intros x E; try discriminate.
  - injection E as <-. right. split; [reflexivity|constructor].
  - injection E as <-. left. reflexivity.
  - destruct args as [|a0 args0]; [injection E as <-; left; reflexivity|]. set (args := a0 :: args0) in *.
    destruct (mapM convert args) as [ts|y] eqn:Em; cbn [bind] in E.
    + destruct (head_for h); [discriminate|]. injection E as <-. left. reflexivity.
    + injection E as <-. assert (G : y = NotImplementedErr \/ (y = TypeError /\ exists a, In a args /\ has_class a)).
      { clear -Em IH. induction args as [|a args IHa]; [discriminate|]. cbn [mapM] in Em.
        destruct (convert a) as [t|z] eqn:Ea; cbn [bind] in Em.
        - destruct (mapM convert args) as [ts|z]; [discriminate|]. cbn [bind] in Em. destruct IHa as [->|[-> (b & Hb & Hc)]]; [intros b Hb; apply IH; right; exact Hb|exact Em|auto|].
          right. split; [reflexivity|]. exists b. split; [right; exact Hb|exact Hc].
        - injection Em as ->. destruct (IH a (or_introl eq_refl) y Ea) as [->|[-> Hc]]; [auto|]. right. split; [reflexivity|]. exists a. split; [left; reflexivity|exact Hc]. }
      destruct G as [->|[-> (a & Ha & Hc)]]; [auto|]. right. split; [reflexivity|]. exact (hc_arg h args a Ha Hc).
Qed.
Lemma convert_err_none s x : ~ has_class s -> convert s = Err x -> x = NotImplementedErr.
Proof. intros H E. destruct (convert_err s x E) as [->|[_ Hc]]; [reflexivity|contradiction]. Qed.

Lemma call_head h ts : from_sympy_call h ts = match head_for h with Some t => Ok (Node (t :: ts)) | None => Err NotImplementedErr end.
Proof. destruct h; reflexivity. Qed.

Definition outcome (s : sexpr) (r : res (tree * cache)) : Prop :=
  match r with
  | Ok (t, c') => convert s = Ok t /\ cache_ok c'
  | Err x => convert s = Err x
  end.
Lemma from_cache_ok s : forall c, cache_ok c -> outcome s (from_sympy_cache s c).
Proof.
  induction s as [p|s n|s|n|h args IH] using sexpr_ind_all; intros c Hc;
    (match goal with |- outcome ?s _ => destruct (dict_get sexpr_eqb c s) as [t|] eqn:E end;
     [cbn [from_sympy_cache]; rewrite E; split; [apply Hc, E|exact Hc]|]).
  - cbn [from_sympy_cache]. rewrite E. cbn [from_sympy_leaf bind]. split; [reflexivity|apply cache_set; [exact Hc|reflexivity]].
  - cbn [from_sympy_cache]. rewrite E. cbn [from_sympy_leaf bind]. split; [reflexivity|apply cache_set; [exact Hc|reflexivity]].
  - cbn [from_sympy_cache]. rewrite E. reflexivity.
  - cbn [from_sympy_cache]. rewrite E. reflexivity.
  - cbn [from_sympy_cache]. rewrite E. destruct args as [|a0 args0]; [reflexivity|].
    set (args := a0 :: args0) in *.
    set (go := fix go (args : list sexpr) (c : cache) : res (list tree * cache) :=
                 match args with
                 | [] => Ok ([], c)
                 | a :: r => do (t, c1) <- from_sympy_cache a c; do (ts, c2) <- go r c1; Ok (t :: ts, c2)
                 end).
    assert (G : forall l, (forall a, In a l -> In a args) -> forall c, cache_ok c ->
       match go l c with Ok (ts, c') => mapM convert l = Ok ts /\ cache_ok c' | Err x => mapM convert l = Err x end).
    { induction l as [|a l IHl]; intros Hl c1 Hc1; [split; [reflexivity|exact Hc1]|]. cbn [go].
      pose proof (IH a (Hl a (or_introl eq_refl)) c1 Hc1) as Ha. cbn [mapM].
      destruct (from_sympy_cache a c1) as [[t c2]|x]; cbn [bind outcome] in *.
      - destruct Ha as [-> Hc2]. cbn [bind].
        pose proof (IHl (fun b Hb => Hl b (or_intror Hb)) c2 Hc2) as Hr. fold go.
        destruct (go l c2) as [[ts c3]|x]; cbn [bind].
        + destruct Hr as [-> Hc3]. cbn [bind]. auto.
        + rewrite Hr. reflexivity.
      - rewrite Ha. reflexivity. }
    pose proof (G args (fun a Ha => Ha) c Hc) as Ga.
    assert (Hconv : convert (SApp h args) = (do ts <- mapM convert args; match head_for h with Some t => Ok (Node (t :: ts)) | None => Err NotImplementedErr end))
      by reflexivity.
    match goal with |- outcome _ ?r => change r with (do (ret, c') <- (do (args', c') <- go args c; do ret <- from_sympy_call h args'; Ok (ret, c'));
      Ok (ret, dict_set sexpr_eqb c' (SApp h args) ret)) end.
    destruct (go args c) as [[ts c']|x]; cbn [bind].
    + destruct Ga as [Em Hc']. rewrite Em in Hconv. cbn [bind] in Hconv. rewrite call_head.
      destruct (head_for h) as [t|]; cbn [bind outcome]; [|exact Hconv].
      split; [exact Hconv|apply cache_set; [exact Hc'|exact Hconv]].
    + cbn [outcome]. rewrite Hconv, Ga. reflexivity.
Qed.

Lemma from_sympy_convert s : from_sympy s = convert s.
Proof.
  assert (H0 : cache_ok []) by (intros k v E; discriminate).
  unfold from_sympy. pose proof (from_cache_ok s [] H0) as H.
  destruct (from_sympy_cache s []) as [[t c]|x]; cbn [bind outcome] in *.
  - destruct H as [-> _]. reflexivity.
  - rewrite H. reflexivity.
Qed.

Lemma mapM_all_iff {A B} (f : A -> res B) l : (exists v, mapM f l = Ok v) <-> Forall (fun a => exists v, f a = Ok v) l.
Proof.
  induction l as [|a l IH]; cbn [mapM]; [split; eauto|]. split.
  - intros [v H]. destruct (f a) as [b|] eqn:E; [|discriminate]. cbn [bind] in H.
    destruct (mapM f l) as [bs|] eqn:El; [|discriminate]. constructor; [eauto|]. apply IH. eauto.
  - intros H. inversion H as [|? ? [b Hb] Hl]; subst. apply IH in Hl as [bs Hbs]. rewrite Hb, Hbs. cbn [bind]. eauto.
Qed.

Lemma convert_iff s : (exists t, convert s = Ok t) <-> convertible s.
Proof.
  induction s as [p|s n|s|n|h args IH] using sexpr_ind_all.
  - split; [constructor|eexists; reflexivity].
  - split; [constructor|eexists; reflexivity].
  - split; [intros [t E]; discriminate|intros H; inversion H].
  - split; [intros [t E]; discriminate|intros H; inversion H].
  - destruct args as [|a0 args0].
    + split; [intros [t E]; discriminate|intros H; inversion H; congruence].
    + set (args := a0 :: args0) in *.
      assert (Hconv : convert (SApp h args) = (do ts <- mapM convert args; match head_for h with Some t => Ok (Node (t :: ts)) | None => Err NotImplementedErr end))
        by reflexivity.
      assert (Hm : (exists ts, mapM convert args = Ok ts) <-> Forall convertible args).
      { rewrite mapM_all_iff, !Forall_forall. split; intros H a Ha; apply IH; auto. }
      split.
      * intros [t E]. rewrite Hconv in E. destruct (mapM convert args) as [ts|] eqn:Em; [|discriminate].
        constructor; [discriminate| |apply Hm; eauto]. intros n ->. discriminate.
      * intros H. inversion H as [| |? ? _ Hh Ha]; subst. apply Hm in Ha as [ts Hts]. rewrite Hconv, Hts. cbn [bind].
        destruct h; try (eexists; reflexivity). destruct (Hh n eq_refl).
Qed.

(** ** There and back *)
(** What to_sympy does, by recursion. *)
Definition sp_leaf (t : tree) : res sexpr :=
  match t with
  | Atm a =>
      if atype_eqb (atom_type a) T_Integer then match atom_value a with VInt n => Ok (SInt n) | VStr _ => Err ValueError end
      else if atype_eqb (atom_type a) T_Symbol then match atom_value a with VStr s => Ok (SSym s 0) | VInt _ => Err TypeError end
      else if atype_eqb (atom_type a) T_Function then match atom_value a with VStr s => Ok (SFunc s) | VInt _ => Err TypeError end
      else Err NoEvaluationRuleError
  | Node _ => Err AttributeError
  end.
Definition sp_op (o : sympy_ops) (h : tree) (vs : list sexpr) : res sexpr :=
  if tree_eqb h Add then sp_add o vs
  else if tree_eqb h Mul then sp_mul o vs
  else if tree_eqb h Pow then match vs with [a; b] => sp_pow o a b | _ => Err TypeError end
  else if tree_eqb h sin then match vs with [a] => sp_sin o a | _ => Err TypeError end
  else if tree_eqb h cos then match vs with [a] => sp_cos o a | _ => Err TypeError end
  else if tree_eqb h List_ then Ok (SApp STuple vs)
  else do s <- tree_str h; sp_call o s vs.

Lemma to_sympy_meaning o e v : to_sympy o e = Ok v <-> meaning sp_leaf (sp_op o) e = Ok v.
Proof.
  unfold to_sympy. destruct (eval_to_sympy_ev o) as [ev|] eqn:Eev; [|discriminate].
  cbv [eval_to_sympy_ev run_statements foldM run_statement pyfunc_call bind set_item signature_check] in Eev.
  vm_compute in Eev. injection Eev as <-. cbn [bind]. unfold sym_evaluate, evaluate.
  rewrite eval_forward_meaning.
  match goal with |- meaning ?l ?p e = _ <-> _ => assert (H : meaning l p e = meaning sp_leaf (sp_op o) e); [|rewrite H; reflexivity] end.
  apply meaning_ext.
  - intros s _ Hs. destruct s as [a|[|? ?]]; try discriminate.
    + unfold eval_leaf, eval_atom, sp_leaf. cbn [dict_get tree_value bind ev_atoms ev_generic_atom].
      change {| ty_id := 0; ty_name := "Integer" |} with T_Integer.
      change {| ty_id := 1; ty_name := "Symbol" |} with T_Symbol.
      change {| ty_id := 2; ty_name := "Function" |} with T_Function.
      destruct (atype_eqb (atom_type a) T_Integer); [reflexivity|].
      destruct (atype_eqb (atom_type a) T_Symbol); [reflexivity|].
      destruct (atype_eqb (atom_type a) T_Function); reflexivity.
    + reflexivity.
  - intros h args vs _. unfold eval_operation, sp_op. cbn [ev_operations ev_generic_operation dict_get].
    change (Atm {| atom_type := {| ty_id := 2; ty_name := "Function" |}; atom_value := VStr "Add" |}) with Add.
    change (Atm {| atom_type := {| ty_id := 2; ty_name := "Function" |}; atom_value := VStr "Mul" |}) with Mul.
    change (Atm {| atom_type := {| ty_id := 2; ty_name := "Function" |}; atom_value := VStr "pow" |}) with Pow.
    change (Atm {| atom_type := {| ty_id := 2; ty_name := "Function" |}; atom_value := VStr "sin" |}) with sin.
    change (Atm {| atom_type := {| ty_id := 2; ty_name := "Function" |}; atom_value := VStr "cos" |}) with cos.
    change (Atm {| atom_type := {| ty_id := 2; ty_name := "Function" |}; atom_value := VStr "List" |}) with List_.
    destruct (tree_eqb h Add); [reflexivity|]. destruct (tree_eqb h Mul); [reflexivity|].
    destruct (tree_eqb h Pow); [destruct vs as [|b [|e' [|]]]; reflexivity|].
    destruct (tree_eqb h sin); [destruct vs as [|b [|]]; reflexivity|].
    destruct (tree_eqb h cos); [destruct vs as [|b [|]]; reflexivity|].
    destruct (tree_eqb h List_); reflexivity.
Qed.

Lemma head_for_op o h t args s : head_for h = Some t ->
  (forall name n, h = SUndef name n -> ~ In name ["Add"; "Mul"; "pow"; "sin"; "cos"; "List"]) ->
  construct o h args = Ok s -> sp_op o t args = Ok s.
Proof.
  intros Hh Hn Hc. destruct h; simpl in Hh; try discriminate; injection Hh as <-.
  1-6: destruct args as [|a [|b [|]]]; try discriminate; exact Hc.
  - specialize (Hn name n eq_refl). unfold sp_op.
    assert (H : forall m, In m ["Add"; "Mul"; "pow"; "sin"; "cos"; "List"] -> tree_eqb (Function name) (Function m) = false).
    { intros m Hm. destruct (tree_eqb_spec (Function name) (Function m)) as [E|]; [|reflexivity].
      injection E as E. subst. contradiction. }
    unfold Add, Mul, Pow, sin, cos, List_.
    rewrite !H by (simpl; tauto). exact Hc.
Qed.

Lemma round_trip o s t : canonical o s -> convert s = Ok t -> to_sympy o t = Ok s.
Proof.
  intros Hc Ht. apply to_sympy_meaning. revert t Ht.
  induction s as [p|s n|s|n|h args IH] using sexpr_ind_all; intros t Ht.
  - injection Ht as <-. reflexivity.
  - inversion Hc; subst. injection Ht as <-. reflexivity.
  - inversion Hc.
  - inversion Hc.
  - inversion Hc as [| |h' args' Hne Hcons Hnames Hargs]; subst.
    destruct args as [|a0 args0]; [congruence|]. set (args := a0 :: args0) in *.
    change (convert (SApp h args)) with (do ts <- mapM convert args; match head_for h with Some t => Ok (Node (t :: ts)) | None => Err NotImplementedErr end) in Ht.
    destruct (mapM convert args) as [ts|] eqn:Em; [|discriminate]. cbn [bind] in Ht.
    destruct (head_for h) as [hd|] eqn:Eh; [|discriminate]. injection Ht as <-.
    cbn [meaning].
    assert (Hm : mapM (meaning sp_leaf (sp_op o)) ts = Ok args).
    { clear Hcons Hc Hne. clearbody args. clear Hnames Eh. revert ts Em Hargs IH. induction args as [|a args IHa]; intros ts Em Hargs IH.
      - injection Em as <-. reflexivity.
      - cbn [mapM] in Em. destruct (convert a) as [b|] eqn:Ea; [|discriminate]. cbn [bind] in Em.
        destruct (mapM convert args) as [bs|] eqn:El; [|discriminate]. injection Em as <-.
        inversion Hargs; subst. cbn [mapM].
        rewrite (IH a (or_introl eq_refl) H1 b Ea). cbn [bind]. rewrite (IHa bs eq_refl H2); [reflexivity|].
        intros c Hin. apply IH. right. exact Hin. }
    rewrite Hm. cbn [bind]. eapply head_for_op; eauto. intros name n E. apply (Hnames name n E).
Qed.

(** The conversion of a tuple. *)
Lemma from_tuple l tup : from_sympy (SApp STuple l) = Ok tup -> exists ts, mapM convert l = Ok ts /\ sym_args tup = ts /\ l <> [].
Proof.
  rewrite from_sympy_convert. destruct l as [|a l]; [discriminate|]. cbn [convert].
  intros E. change (mapM (fun s => convert s) (a :: l)) with (mapM convert (a :: l)) in E.
  destruct (mapM convert (a :: l)) as [ts|]; [|discriminate]. injection E as <-.
  exists ts. split; [reflexivity|]. split; [reflexivity|discriminate].
Qed.

(** Matrix.from_sympy: either fails, or the new matrix has the converted entries. *)
Lemma from_matrix sm h : smatrix_ok sm ->
  (exists C h' ts, from_sympy_matrix sm h = (Ok C, h') /\ extends h h' /\ wf h' C /\
     m_nrows C = sm_rows sm /\ m_ncols C = sm_cols sm /\
     mapM convert (map snd (sm_dok sm)) = Ok ts /\ sm_dok sm <> [] /\
     elems h' C = ts /\ emap h' C = map (fun e => (fst (snd e), fst e)) (enumerate_from 0 (sm_dok sm))) \/
  (exists x h', from_sympy_matrix sm h = (Err x, h') /\ (x = NotImplementedErr \/ (x = TypeError /\ Exists has_class (map snd (sm_dok sm)))) /\ extends h h' /\
     ~ (sm_dok sm <> [] /\ exists ts, mapM convert (map snd (sm_dok sm)) = Ok ts)).
Proof.
  intros Hok. destruct (from_sympy (SApp STuple (map snd (sm_dok sm)))) as [tup|x] eqn:E.
  - left. destruct (from_tuple _ _ E) as (ts & Hts & Ha & Hne).
    destruct (from_sympy_spec sm h tup Hok E) as (C & h' & E1 & E2 & E3 & E4 & E5 & E6 & E7).
    { rewrite Ha, (mapM_length _ _ _ Hts), map_length. reflexivity. }
    subst ts. exists C, h', (sym_args tup). repeat (split; [assumption|]). split; [|split; assumption].
    intros Hd. apply Hne. rewrite Hd. reflexivity.
  - right. pose proof E as Hx. rewrite from_sympy_convert in Hx.
    destruct (from_sympy_matrix_err sm h _ Hok E) as (h' & E1 & E2). exists x, h'. split; [exact E1|]. split.
    { destruct (convert_err _ _ Hx) as [->|[-> Hc]]; [auto|right]. split; [reflexivity|]. inversion Hc; subst. apply Exists_exists. eauto. }
    split; [exact E2|].
    intros [Hne (ts & Hts)]. destruct (sm_dok sm) as [|e l] eqn:Ed; [congruence|]. cbn [map] in Hx, Hts.
    cbn [convert] in Hx. change (mapM (fun s => convert s)) with (mapM convert) in Hx. rewrite Hts in Hx. discriminate.
Qed.

(** ** Programs with matrices *)
Lemma step_inv h ms h' ms' : step h ms h' ms' -> (forall m, In m ms -> wf h m) ->
  extends h h' /\ (forall m, In m ms -> In m ms') /\ forall m, In m ms' -> wf h' m.
Proof.
  intros Hs Hw.
  assert (G : forall r, extends h h' -> (forall m, r = Ok m -> wf h' m) ->
    extends h h' /\ (forall m, In m ms -> In m (hold r ms)) /\ forall m, In m (hold r ms) -> wf h' m).
  { intros r He Hm. split; [exact He|]. split; [intros m Hin; destruct r; simpl; auto|].
    intros m Hin. destruct r as [c|]; simpl in Hin.
    - destruct Hin as [<-|Hin]; [apply Hm; reflexivity|]. eapply wf_extends; eauto.
    - eapply wf_extends; eauto. }
  destruct Hs as [h ms entries r h' E|h ms A B func r h' HA HB E|h ms A sym r h' HA E|h ms sm r h' Hsm E]; apply G; clear G.
  - destruct (matrix_new_cases entries h) as [(rows & nc & ts & He & Hne & Hl & Hf)|(x & Hx & _)].
    + destruct (matrix_new_ok rows nc ts h Hne Hl Hf) as (C & h2 & E2 & Hext & _). rewrite He, E2 in E. injection E as <- <-. exact Hext.
    + rewrite Hx in E. injection E as <- <-. apply extends_refl.
  - intros m ->. destruct (matrix_new_cases entries h) as [(rows & nc & ts & He & Hne & Hl & Hf)|(x & Hx & _)].
    + destruct (matrix_new_ok rows nc ts h Hne Hl Hf) as (C & h2 & E2 & Hext & Hwf & _). rewrite He, E2 in E. injection E as <- <-. exact Hwf.
    + rewrite Hx in E. discriminate.
  - destruct (Nat.eq_dec (m_nrows A) (m_nrows B)) as [Er|Er]; [destruct (Nat.eq_dec (m_ncols A) (m_ncols B)) as [Ec|Ec]|].
    + destruct (binop_spec A B func h (Hw _ HA) (Hw _ HB) Er Ec) as (C & h2 & E2 & Hext & _). rewrite E2 in E. injection E as <- <-. exact Hext.
    + rewrite binop_mismatch in E by congruence. injection E as <- <-. apply extends_refl.
    + rewrite binop_mismatch in E by congruence. injection E as <- <-. apply extends_refl.
  - intros m ->. destruct (Nat.eq_dec (m_nrows A) (m_nrows B)) as [Er|Er]; [destruct (Nat.eq_dec (m_ncols A) (m_ncols B)) as [Ec|Ec]|].
    + destruct (binop_spec A B func h (Hw _ HA) (Hw _ HB) Er Ec) as (C & h2 & E2 & Hext & Hwf & _). rewrite E2 in E. injection E as <- <-. exact Hwf.
    + rewrite binop_mismatch in E by congruence. discriminate.
    + rewrite binop_mismatch in E by congruence. discriminate.
  - destruct (mapM (fun e => expr_diff e sym 1) (elems h A)) as [ds|x] eqn:Ed.
    + destruct (mdiff_ok A sym h ds (Hw _ HA) Ed) as (C & h2 & E2 & Hext & _). rewrite E2 in E. injection E as <- <-. exact Hext.
    + destruct (mdiff_err A sym h x (Hw _ HA) Ed) as [y E2]. rewrite E2 in E. injection E as <- <-. apply extends_refl.
  - intros m ->. destruct (mapM (fun e => expr_diff e sym 1) (elems h A)) as [ds|x] eqn:Ed.
    + destruct (mdiff_ok A sym h ds (Hw _ HA) Ed) as (C & h2 & E2 & Hext & Hwf & _). rewrite E2 in E. injection E as <- <-. exact Hwf.
    + destruct (mdiff_err A sym h x (Hw _ HA) Ed) as [y E2]. rewrite E2 in E. discriminate.
  - destruct (from_matrix sm h Hsm) as [(C & h2 & ts & E2 & Hext & _)|(x & h2 & E2 & _ & Hext & _)]; rewrite E2 in E; injection E as <- <-; exact Hext.
  - intros m ->. destruct (from_matrix sm h Hsm) as [(C & h2 & ts & E2 & Hext & Hwf & _)|(x & h2 & E2 & _)]; rewrite E2 in E; [injection E as <- <-; exact Hwf|discriminate].
Qed.
Lemma steps_inv h ms h' ms' : steps h ms h' ms' -> (forall m, In m ms -> wf h m) ->
  extends h h' /\ (forall m, In m ms -> In m ms') /\ forall m, In m ms' -> wf h' m.
Proof.
  induction 1 as [h ms|h ms h1 ms1 h2 ms2 _ IH Hs]; intros Hw.
  - split; [apply extends_refl|]. split; auto.
  - destruct (IH Hw) as (E1 & S1 & W1). destruct (step_inv _ _ _ _ Hs W1) as (E2 & S2 & W2).
    split; [eapply extends_trans; eauto|]. split; auto.
Qed.
Lemma history_wf h ms : history h ms -> forall m, In m ms -> wf h m.
Proof. intros H. destruct (steps_inv _ _ _ _ H) as (_ & _ & W); [intros m []|exact W]. Qed.
