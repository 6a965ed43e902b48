(** * C115. Conversion to and from SymPy on shared objects, with threads and a collector. *)
From Verif Require Import Py ModelTree SpecTree ModelIntern SpecIntern ModelEval ModelDiff ModelSym ModelCas ModelApi ProofBase ProofIntern ModelObjects SpecObjects
  ModelObjEval SpecObjEval ModelMatrix SpecMatrix ModelSympy SpecSympy ModelObjExpr SpecObjExpr ModelObjMatrix SpecObjMatrix ModelLLVM ModelObjLLVM SpecObjLLVM ModelObjRules SpecObjRules
  ModelObjSympy SpecObjSympy ProofTopo ProofObjects ProofObjTree ProofObjEval ProofObjExpr ProofMatrix ProofObjMatrix ProofObjSympy.
From Verif Require Import Samples PropsSympy.
From Verif Require ProofSympy PropsIntern PropsObjExpr PropsObjMatrix PropsObjRules PropsSympy.
Local Open Scope string_scope.

(** ** The conversions of matrices are those of ModelSympy.v, on its heap of lists and dicts *)
Theorem C115_to_matrix_meaning o m h : to_sympy_matrix o m h = (v_to_sympy_matrix o (attributes m h), h).
Proof.
  unfold to_sympy_matrix, v_to_sympy_matrix. cbn [attributes vm_graph vm_nrows vm_ncols vm_entrymap]. unfold hbind, hlift, hret, read_dict.
  destruct (to_sympy o (m_graph m)) as [s|e]; cbn [bind]; [|reflexivity]. destruct (mapM _ _) as [l|e]; reflexivity.
Qed.
Lemma puts L D items : forall d,
  hfor (fun n_ke : nat * (pos * sexpr) => dict_put (length D) (fst (snd n_ke)) (fst n_ke)) items (mkHeap L (D ++ [d])%list) =
  (Ok tt, mkHeap L (D ++ [fold_left (fun d (n_ke : nat * (pos * sexpr)) => dict_set pos_eqb d (fst (snd n_ke)) (fst n_ke)) items d])%list).
Proof.
  induction items as [|e items IH]; intros d; [reflexivity|]. cbn [hfor fold_left]. rewrite <- IH. unfold hbind at 1.
  unfold dict_put at 1, hbind, read_dict, write_dict. cbn [h_dicts h_lists]. rewrite nth_end, set_nth_any_last. reflexivity.
Qed.
Theorem C115_from_matrix_meaning sm h : PropsObjMatrix.gives h (from_sympy_matrix sm) (v_from_sympy_matrix sm).
Proof.
  unfold PropsObjMatrix.gives, from_sympy_matrix, v_from_sympy_matrix. unfold hbind at 1, new_dict. unfold hbind at 1. rewrite puts.
  fold (sm_entrymap (sm_dok sm)). unfold hbind at 1, hlift.
  destruct (from_sympy (SApp STuple (map snd (sm_dok sm)))) as [tup|e]; cbn [bind]; [|reflexivity].
  unfold hbind at 1, new_list. cbn [h_lists h_dicts].
  unfold matrix__new, hbind, list_copy, read_list, new_list, hret, hbind. cbn [h_lists h_dicts]. rewrite nth_end, app_length. cbn [length].
  rewrite <- app_assoc. cbn [app]. apply PropsObjMatrix.attributes_new. f_equal; [apply Nat.add_1_r|f_equal; apply nth_middle].
Qed.

Section Props.
  Context (names : nat -> string) (atomic : bool) (who : nat -> Prop) (t : nat).
  Context (Hsafe : safe atomic who) (Hwho : who t) (Hnames : rule_names names).
  Notation has_expr := (has_expr names t).
  Notation ready := (ready atomic who t).
  Notation always := (always atomic who t).
  Notation computes := (computes atomic who t).
  Implicit Types (s : state pyval).

  (** A program that converts to and from SymPy, at any places, after the import of the library and of sympy_conversions: among any other threads it ends as its
      meaning on values says: with those expressions and matrices in its variables, the same texts, and the same objects and matrices of SymPy; or with the same exception. *)
  Theorem C115_sympy_programs o l s : ready s ->
    exists n, forall fuel, n <= fuel -> computes s (o_ysession names o fuel l) (v_ysession o l)
      (fun s' r v => Forall2 (has_expr s') (fst (fst (fst r))) (fst (fst (fst v))) /\ Forall2 (has_matrix names t s') (snd (fst (fst r))) (snd (fst (fst v))) /\
         snd (fst r) = snd (fst v) /\ snd r = snd v).
  Proof.
    intros Hr. destruct (ysession_ref names atomic who t Hsafe Hwho Hnames o l) as (n & H). exists n. intros fuel Hf.
    apply (ref_weaken atomic who t Hwho _ _ _ _ _ Hr (H fuel Hf s Hr)). intros s1 a b _ _ [[[H1 H2] H3] H4]. auto.
  Qed.

  Lemma extend o l env ms texts out l' st : v_ysession o l = Ok (env, ms, texts, out) ->
    (forall p, foldM (v_ystatement o) l' ((((env, p), ms), texts), out) = Ok (((((fst (fst (fst st))), p), snd (fst (fst st))), snd (fst st)), snd st)) ->
    v_ysession o (l ++ l')%list = Ok st.
  Proof.
    unfold v_ysession. intros E H. rewrite foldM_app. destruct (foldM (v_ystatement o) l _) as [[[[[env0 p] ms0] tx] out0]|]; [|discriminate]. cbn [bind] in *.
    injection E as -> -> -> ->. rewrite H. cbn [bind]. destruct st as [[[a b] c] d]. reflexivity.
  Qed.
  Lemma last_two {A B} (R : A -> B -> Prop) l m a b : Forall2 R l (m ++ [a; b])%list -> exists l' e f, l = (l' ++ [e; f])%list /\ Forall2 R l' m /\ R e a /\ R f b.
  Proof.
    intros H. apply Forall2_app_inv_r in H as (l1 & l2 & H1 & H2 & ->). inversion H2 as [|e ? l3 ? He H3]; subst. inversion H3 as [|f ? l4 ? Hf H4]; subst. inversion H4; subst. eauto 8.
  Qed.
  Lemma nth_rel {A B} (R : A -> B -> Prop) l m i u : Forall2 R l m -> getitem m i = Ok u -> exists e, nth_error l i = Some e /\ R e u.
  Proof.
    intros H. revert i. induction H as [|a b l m Ha _ IH]; intros [|i] E; try discriminate E; [injection E as <-; exists a; auto|]. exact (IH i E).
  Qed.
  Lemma getitem_end {A} (l : list A) a r : getitem (l ++ a :: r)%list (length l) = Ok a.
  Proof. unfold getitem. rewrite nth_error_app2, Nat.sub_diag by lia. reflexivity. Qed.

  (** There and back: at any point of any program, [e = from_sympy(x); y = e.to_sympy(); f = from_sympy(y)] leaves [y == x] and [f is e], for [x] that SymPy's
      constructors leave as it is. *)
  Theorem C115_from_to_from o l x s env ms texts out : ready s -> v_ysession o l = Ok (env, ms, texts, out) -> canonical o x ->
    exists n, forall fuel, n <= fuel -> always (o_ysession names o fuel (l ++ [YFrom (SLit x); YTo (length env); YFrom (SOut (length (fst out)))])%list) s
      (fun _ r => exists vars e oms, r = Ok ((vars ++ [e; e])%list, oms, texts, ((fst out ++ [x])%list, snd out))).
  Proof.
    intros Hr El Hx. destruct (PropsSympy.C53_round_trip_exists o x Hx) as (u & Eu & Ex).
    assert (E : v_ysession o (l ++ [YFrom (SLit x); YTo (length env); YFrom (SOut (length (fst out)))])%list = Ok ((env ++ [u; u])%list, ms, texts, ((fst out ++ [x])%list, snd out))).
    { eapply extend; [exact El|]. intros p. cbn [foldM v_ystatement sympy_arg bind]. rewrite Eu. cbn [bind v_ystatement sympy_arg fst snd]. rewrite getitem_end. cbn [bind]. rewrite Ex. cbn [bind v_ystatement sympy_arg fst snd].
      rewrite getitem_end. cbn [bind]. rewrite Eu. cbn [bind v_ystatement sympy_arg fst snd]. rewrite <- app_assoc. reflexivity. }
    destruct (C115_sympy_programs o (l ++ [YFrom (SLit x); YTo (length env); YFrom (SOut (length (fst out)))])%list s Hr) as (n & H). exists n. intros fuel Hf.
    destruct (H fuel Hf) as [X Y]. split; [exact X|]. intros s' r Hrun. specialize (Y s' r Hrun). rewrite E in Y. destruct r as [[[[oenv oms] tx] ou]|]; [|destruct Y].
    destruct Y as (Y1 & _ & Y2 & Y3). cbn [fst snd] in *. subst tx ou. apply last_two in Y1 as (vars & e & f & -> & _ & He & Hf').
    exists vars, e, oms. do 4 f_equal. cut (e = f); [intros ->; reflexivity|].
    apply (PropsObjExpr.C72_comparison names atomic who t Hsafe s' e u t f u); [apply (runs_ok atomic who t Hwho _ _ _ _ Hrun Hr)|exact He|exact Hf'|reflexivity].
  Qed.
  (** [from_sympy(v.to_sympy()) is v], at any point of any program, whenever converting the value of [v] gives it back. *)
  Theorem C115_to_from o l i x u s env ms texts out : ready s -> v_ysession o l = Ok (env, ms, texts, out) -> getitem env i = Ok u ->
    to_sympy o u = Ok x -> from_sympy x = Ok u ->
    exists n, forall fuel, n <= fuel -> always (o_ysession names o fuel (l ++ [YTo i; YFrom (SOut (length (fst out)))])%list) s
      (fun _ r => exists vars e oms, r = Ok ((vars ++ [e])%list, oms, texts, ((fst out ++ [x])%list, snd out)) /\ nth_error vars i = Some e).
  Proof.
    intros Hr El Ei Ex Eu.
    assert (E : v_ysession o (l ++ [YTo i; YFrom (SOut (length (fst out)))])%list = Ok ((env ++ [u])%list, ms, texts, ((fst out ++ [x])%list, snd out))).
    { eapply extend; [exact El|]. intros p. cbn [foldM v_ystatement sympy_arg bind]. rewrite Ei. cbn [bind]. rewrite Ex. cbn [bind v_ystatement sympy_arg fst snd].
      rewrite getitem_end. cbn [bind]. rewrite Eu. reflexivity. }
    destruct (C115_sympy_programs o (l ++ [YTo i; YFrom (SOut (length (fst out)))])%list s Hr) as (n & H). exists n. intros fuel Hf.
    destruct (H fuel Hf) as [X Y]. split; [exact X|]. intros s' r Hrun. specialize (Y s' r Hrun). rewrite E in Y. destruct r as [[[[oenv oms] tx] ou]|]; [|destruct Y].
    destruct Y as (Y1 & _ & Y2 & Y3). cbn [fst snd] in *. subst tx ou. apply Forall2_app_inv_r in Y1 as (vars & l2 & Hv & H2 & ->). inversion H2 as [|f ? l3 ? Hf' H3]; subst. inversion H3; subst.
    destruct (nth_rel _ _ _ _ _ Hv Ei) as (e & Ee & He). exists vars, f, oms. split; [reflexivity|]. rewrite Ee. f_equal.
    apply (PropsObjExpr.C72_comparison names atomic who t Hsafe s' e u t f u); [apply (runs_ok atomic who t Hwho _ _ _ _ Hrun Hr)|exact He|exact Hf'|reflexivity].
  Qed.
  (** [Matrix.from_sympy(m).to_sympy()] sets the entries of [m] in a zero matrix of the same shape, at any point of any program. *)
  Theorem C115_matrix_round_trip o l sm s env ms texts out : ready s -> v_ysession o l = Ok (env, ms, texts, out) ->
    smatrix_ok sm -> sm_dok sm <> [] -> Forall (canonical o) (map snd (sm_dok sm)) ->
    exists n, forall fuel, n <= fuel -> always (o_ysession names o fuel (l ++ [YFromMatrix sm; YToMatrix (length ms)])%list) s
      (fun _ r => exists vars oms, r = Ok (vars, oms, texts, (fst out, (snd out ++ [(sm_rows sm, sm_cols sm, sm_dok sm)])%list))).
  Proof.
    intros Hr El Hok Hne Hc. destruct (PropsSympy.C53_matrix_round_trip o empty_heap [] sm (steps_none _ _) Hok Hne Hc) as (m & h' & E1 & _ & E2).
    specialize (E2 h' [m] (steps_none _ _)). rewrite C115_to_matrix_meaning in E2. injection E2 as E2.
    pose proof (C115_from_matrix_meaning sm empty_heap) as G. unfold PropsObjMatrix.gives in G. rewrite E1 in G.
    destruct (v_from_sympy_matrix sm) as [U|] eqn:EU; [|destruct G]. rewrite G in E2.
    assert (E : v_ysession o (l ++ [YFromMatrix sm; YToMatrix (length ms)])%list = Ok (env, (ms ++ [U])%list, texts, (fst out, (snd out ++ [(sm_rows sm, sm_cols sm, sm_dok sm)])%list))).
    { eapply extend; [exact El|]. intros p. cbn [foldM v_ystatement bind]. rewrite EU. cbn [bind v_ystatement sympy_arg fst snd]. rewrite getitem_end. cbn [bind]. rewrite E2. reflexivity. }
    destruct (C115_sympy_programs o (l ++ [YFromMatrix sm; YToMatrix (length ms)])%list s Hr) as (n & H). exists n. intros fuel Hf.
    destruct (H fuel Hf) as [X Y]. split; [exact X|]. intros s' r Hrun. specialize (Y s' r Hrun). rewrite E in Y. destruct r as [[[[oenv oms] tx] ou]|]; [|destruct Y].
    destruct Y as (_ & _ & Y2 & Y3). cbn [fst snd] in *. subst tx ou. eauto.
  Qed.
End Props.

(** [e = from_sympy(s); s2 = e.to_sympy(); e2 = from_sympy(s2); M = Matrix.from_sympy(m); M.to_sympy(); x = from_sympy(Symbol("x")); t = from_sympy(sin(x)); t.to_sympy()], with another thread in the middle
    of [Symbol("x")]. *)
Definition ys_program : list ystatement :=
  [YFrom (SLit s_sample); YTo 0; YFrom (SOut 0); YFromMatrix sm_sample; YToMatrix 0; YFrom (SLit (SSym "x" 0)); YFrom (SLit s_sin); YTo 3].
Definition ys_tree := m_add (tree_call Samples.f [tree_call sin [Samples.x]; m_pow Samples.x (int 2)]) (tree_call sin [Samples.x]).
Example C115_case : rule_names PropsObjRules.rc_names /\
  (exists s, ready true (fun _ => True) 0 s /\ at_ (threads s 1) = Made (KAtom (ty_id T_Symbol) (VStr "x")) 0) /\
  (exists U, v_ysession sympy_plain ys_program = Ok ([ys_tree; ys_tree; Symbol "x"; tree_call sin [Samples.x]], [U], [], ([s_sample; s_sin], [(2, 3, sm_dok sm_sample)])) /\
     vm_nrows U = 2 /\ vm_ncols U = 3) /\
  canonical sympy_plain s_sample /\ smatrix_ok sm_sample /\ sm_dok sm_sample <> [] /\ Forall (canonical sympy_plain) (map snd (sm_dok sm_sample)) /\
  to_sympy sympy_plain ys_tree = Ok s_sample /\ from_sympy s_sample = Ok ys_tree /\
  v_ysession sympy_plain (ys_program ++ [YFrom (SLit (SApp SAdd [s_sin; SApp (SOtherClass 7) [s_sin]]))]) = Err NotImplementedErr /\
  v_ysession sympy_plain (ys_program ++ [YToMatrix 1]) = Err IndexError.
Proof.
  destruct PropsObjRules.C83_case as (Hn & Hs & _). destruct PropsSympy.C53_case as (Hc & Hok & Hf & _).
  split; [exact Hn|]. split; [exact Hs|]. split; [eexists; split; [vm_compute; reflexivity|split; reflexivity]|].
  split; [exact Hc|]. split; [exact Hok|]. split; [discriminate|]. split; [exact Hf|]. vm_compute. repeat split; reflexivity.
Qed.
Print Assumptions C115_to_matrix_meaning.
Print Assumptions C115_from_matrix_meaning.
Print Assumptions C115_sympy_programs.
Print Assumptions C115_from_to_from.
Print Assumptions C115_to_from.
Print Assumptions C115_matrix_round_trip.
