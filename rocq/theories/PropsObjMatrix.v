(** * C113. Programs with matrices, on shared objects, with threads and a collector. *)
From Verif Require Import Py ModelTree SpecTree ModelIntern SpecIntern ModelEval ModelDiff ModelSym ModelCas ModelApi ProofBase ProofIntern ModelObjects SpecObjects
  ModelObjEval SpecObjEval ModelMatrix SpecMatrix ModelObjExpr SpecObjExpr ModelObjMatrix SpecObjMatrix ProofTopo ProofObjects ProofObjTree ProofObjEval ProofObjExpr ProofObjMatrix ProofMatrix ProofSympy.
From Verif Require PropsIntern PropsObjExpr.

Section Props.
  Context (names : nat -> string) (atomic : bool) (who : nat -> Prop) (t : nat).
  Context (Hsafe : safe atomic who) (Hwho : who t) (Hnames : cas_names names).
  Notation has_expr := (has_expr names t).
  Notation ready := (ready atomic who t).
  Notation always := (always atomic who t).
  Notation computes := (computes atomic who t).
  Implicit Types (s : state pyval).

  (** A program with matrices, after the import of the library: among any other threads it ends as its meaning on values says. Its variables
      hold those expressions and those matrices of expressions, or it raises the same exception. *)
  Theorem C113_matrix_programs l s : ready s ->
    exists n, forall fuel, n <= fuel -> computes s (o_msession fuel l) (v_msession l)
      (fun s' r v => Forall2 (has_expr s') (fst r) (fst v) /\ Forall2 (has_matrix names t s') (snd r) (snd v)).
  Proof.
    intros Hr. destruct (msession_ref names atomic who t Hsafe Hwho Hnames l) as (n & H). exists n. intros fuel Hf. exact (H fuel Hf s Hr).
  Qed.
  (** [M[i, j] is N[k, l]], for any two matrices that threads have, whatever the steps before: if and only if the entries are the same expression. *)
  Theorem C113_entries s z M U t' z' N V i j k l a b : reachable pyval_eqb atomic who s ->
    has_expr s z zero -> SpecObjExpr.has_expr names t' s z' zero -> has_matrix names t s M U -> has_matrix names t' s N V ->
    vm_getitem z M i j = Ok a -> vm_getitem z' N k l = Ok b ->
    exists u v, vm_getitem zero U i j = Ok u /\ vm_getitem zero V k l = Ok v /\ has_expr s a u /\ SpecObjExpr.has_expr names t' s b v /\ (a = b <-> u = v).
  Proof.
    intros Hr Hz Hz' HM HN Ea Eb.
    pose proof (getitem_same names t s z M U i j Hz HM) as Ka. pose proof (getitem_same names t' s z' N V k l Hz' HN) as Kb. rewrite Ea in Ka. rewrite Eb in Kb.
    destruct (vm_getitem zero U i j) as [u|]; [|destruct Ka]. destruct (vm_getitem zero V k l) as [v|]; [|destruct Kb]. cbn [rel] in *.
    exists u, v. do 2 (split; [reflexivity|]). split; [exact Ka|]. split; [exact Kb|].
    exact (PropsObjExpr.C72_comparison names atomic who t Hsafe s a u t' b v Hr Ka Kb).
  Qed.
  (** The graph of a matrix is the List of its elements: [M.elements_graph is List( *M.elements)], for every matrix of a program, at the end and at any later time. *)
  Theorem C113_graph l s env ms g p : ready s -> v_msession l = Ok (env, ms) -> module_ok names t s g -> same_props names t s p cas_diff ->
    exists n, forall fuel, n <= fuel -> always (run r <- pfold (o_mstatement fuel g) l (([], p), []);
      pmap (fun M => run e <- o_expr_call (om_List g) (map OE (vm_elements M)); ret (Nat.eqb e (vm_graph M))) (snd r)) s
      (fun _ r => r = Ok (map (fun _ => true) ms)).
  Proof.
    intros Hr E Hg Hp. destruct (mprogram_ref names atomic who t Hsafe Hwho Hnames l (([], cas_diff), [])) as (n & H). exists n. intros fuel Hf.
    unfold v_msession in E. destruct (foldM v_mstatement l ([], cas_diff, [])) as [[[env' q'] ms']|] eqn:Ef; [|discriminate]. cbn [bind fst snd] in E. injection E as -> ->.
    assert (HL : Forall (fun U => vm_graph U = tree_call List_ (vm_elements U)) ms).
    { assert (G : forall l env q vs st, foldM v_mstatement l ((env, q), vs) = Ok st -> Forall (fun U => vm_graph U = tree_call List_ (vm_elements U)) vs ->
        Forall (fun U => vm_graph U = tree_call List_ (vm_elements U)) (snd st)); [|exact (G _ _ _ _ _ Ef (Forall_nil _))].
      clear. induction l as [|c l IH]; intros env q vs st E H; [injection E as <-; exact H|]. cbn [foldM] in E.
      destruct (v_mstatement ((env, q), vs) c) as [[[env1 q1] vs1]|] eqn:Ec; [|discriminate]. cbn [bind] in E. apply (IH _ _ _ _ E). clear IH E.
      assert (Nw : forall nr nc els d, vm_graph (v_matrix__new nr nc els d) = tree_call List_ (vm_elements (v_matrix__new nr nc els d))) by reflexivity.
      assert (Pe : forall r : res tree, (do u <- r; Ok ((env ++ [u], q), vs)) = Ok ((env1, q1), vs1) -> vs1 = vs) by (intros [u|]; cbn [bind]; congruence).
      assert (Pm : forall r : res (vmatrix tree), (forall U, r = Ok U -> vm_graph U = tree_call List_ (vm_elements U)) ->
        (do U <- r; Ok ((env, q), vs ++ [U])) = Ok ((env1, q1), vs1) -> Forall (fun U => vm_graph U = tree_call List_ (vm_elements U)) vs1).
      { intros [U|] K; cbn [bind]; intros E; [|discriminate]. injection E as <- <- <-. apply Forall_app. split; [exact H|]. constructor; [apply K; reflexivity|constructor]. }
      assert (Kb : forall M N h U, v_matrix_binop M N h = Ok U -> vm_graph U = tree_call List_ (vm_elements U)).
      { intros M N h U. unfold v_matrix_binop. destruct (negb _); [discriminate|]. destruct (foldM _ _ _) as [[els d]|]; cbn [bind]; [|discriminate]. intros E. injection E as <-. apply Nw. }
      unfold v_mstatement in Ec. cbv beta iota zeta in Ec. destruct c as [c|rows|m i j|m i j|m n|m|m n|m n f|m x].
      - destruct (v_statement (env, q) c) as [st'|]; [|discriminate]. cbn [bind] in Ec. injection Ec as -> <-. exact H.
      - apply Pm in Ec; [exact Ec|]. intros U. destruct (mapM _ rows) as [r|]; cbn [bind]; [|discriminate]. unfold v_matrix_new.
        destruct (vm_ncols_of r); cbn [bind]; [|discriminate]. destruct (mapM _ r) as [es|]; cbn [bind]; [|discriminate].
        destruct (fold_left _ (indexed es) _) as [els d]. intros E. injection E as <-. apply Nw.
      - apply Pe in Ec as ->. exact H.
      - apply Pe in Ec as ->. exact H.
      - apply Pe in Ec as ->. exact H.
      - apply Pe in Ec as ->. exact H.
      - apply Pm in Ec; [exact Ec|]. intros U. destruct (getitem vs m); cbn [bind]; [|discriminate]. destruct (getitem vs n); cbn [bind]; [|discriminate]. apply Kb.
      - apply Pm in Ec; [exact Ec|]. intros U. destruct (getitem vs m); cbn [bind]; [|discriminate]. destruct (getitem vs n); cbn [bind]; [|discriminate].
        destruct (getitem env f); cbn [bind]; [|discriminate]. apply Kb.
      - apply Pm in Ec; [exact Ec|]. intros U. destruct (getitem vs m); cbn [bind]; [|discriminate]. destruct (getitem env x); cbn [bind]; [|discriminate].
        unfold v_matrix_diff. destruct (sym_diff_call _ _ _ _); cbn [bind]; [|discriminate]. intros E. injection E as <-. apply Nw. }
    assert (C : computes s (run r <- pfold (o_mstatement fuel g) l (([], p), []);
      pmap (fun M => run e <- o_expr_call (om_List g) (map OE (vm_elements M)); ret (Nat.eqb e (vm_graph M))) (snd r)) (Ok (map (fun _ => true) ms)) (fun _ x y => x = y)).
    { assert (H0 : mvars names t s (([], p), []) (([], cas_diff), [])) by (split; [split; [constructor|exact Hp]|constructor]).
      pose proof (H fuel Hf s g _ Hr Hg H0) as H1.
      eapply (ref_bind_ok atomic who t Hwho _ _ _ _ _ (mvars names t)); [exact Hr|exact H1|].
      intros s1 r W1 L1 [_ Hm]. cbn [snd] in Hm.
      assert (Em : Ok (map (fun _ => true) ms) = mapM (fun _ : vmatrix tree => Ok true) ms) by (clear; induction ms as [|U ms IH]; [reflexivity|]; cbn [map mapM bind]; rewrite <- IH; reflexivity).
      rewrite Em. eapply (ref_weaken atomic who t Hwho _ _ _ (rlist (@req bool))); [exact W1| |intros s2 x y _ _ K; unfold rlist, req in K; clear -K; induction K; congruence].
      pose proof (module_le names t s s1 g L1 Hg) as Hg1.
      apply (pmap_ref atomic who t Hwho (fun s M U => has_matrix names t s M U /\ module_ok names t s g /\ vm_graph U = tree_call List_ (vm_elements U)) (@req bool)); [|apply mono_eq|exact W1| |].
      - intros s2 s3 M U L (K1 & K2 & K3). split; [eapply mono_mat; eassumption|]. split; [eapply module_le; eassumption|exact K3].
      - clear - Hm HL Hg1. unfold rlist in *. revert HL. induction Hm as [|M U r0 ms HM _ IH]; intros HL; constructor; [|apply IH; inversion HL; assumption].
        split; [exact HM|]. split; [exact Hg1|]. inversion HL; assumption.
      - intros s2 M U W2 L2 (K1 & K2 & K3).
        eapply (ref_bind_ok atomic who t Hwho _ _ (vm_graph U) _ _ (fun s e u => has_expr s e u /\ has_matrix names t s M U)); [exact W2| |].
        + rewrite K3, <- call_values. eapply (ref_weaken atomic who t Hwho _ _ _ has_expr); [exact W2|apply expr_call_ref; [exact Hsafe|exact Hwho|exact Hnames|exact W2|apply K2|apply operands_of, K1]|].
          intros s3 e u W3 L3 He. split; [exact He|eapply mono_mat; eassumption].
        + intros s3 e W3 L3 [He HM]. apply (ref_ret atomic who t); [exact W3|apply mono_eq|]. cbn [rel]. red.
          rewrite (expr_identity names atomic who t Hsafe s3 e (vm_graph U) (vm_graph M) (vm_graph U) W3 He (proj1 (proj2 (proj2 (proj2 HM))))).
          destruct (tree_eqb_spec (vm_graph U) (vm_graph U)); congruence. }
    destruct C as [C1 C2]. split; [exact C1|]. intros s' r Hrun. specialize (C2 s' r Hrun). destruct r; [congruence|destruct C2].
  Qed.
End Props.

(** ** The meanings are those of ModelMatrix.v, on its heap of lists and dicts *)
(** [c] gives a matrix with the attributes [x], or the exception. *)
Definition gives (h : heap) (c : hm matrix) (x : res (vmatrix tree)) : Prop :=
  let (r, h') := c h in match r, x with Ok m, Ok U => attributes m h' = U | Err e, Err e' => e = e' | _, _ => False end.
Lemma store_pure_vm es : forall a, fold_left store_pure es a = fold_left (vm_store (fun u => tree_eqb u zero)) es a.
Proof.
  induction es as [|e es IH]; intros [l d]; [reflexivity|]. cbn [fold_left]. rewrite IH. reflexivity.
Qed.
Lemma rows_items rows : map row_items (map PRow rows) = rows.
Proof. rewrite map_map. cbn [row_items]. apply map_id. Qed.
Lemma mapM_map {A B C} (f : A -> B) (k : B -> res C) l : mapM k (map f l) = mapM (fun a => k (f a)) l.
Proof. induction l as [|a l IH]; [reflexivity|]. cbn [map mapM]. rewrite IH. reflexivity. Qed.
Lemma forallb_map {A B} (f : A -> B) (k : B -> bool) l : forallb k (map f l) = forallb (fun a => k (f a)) l.
Proof. induction l as [|a l IH]; [reflexivity|]. cbn [map forallb]. rewrite IH. reflexivity. Qed.
Lemma attributes_new nr nc L l D d m : m = mkMatrix nr nc (S (length L)) (tree_call List_ l) (length D) ->
  attributes m (mkHeap (L ++ [l; l]) (D ++ [d])) = v_matrix__new nr nc l d.
Proof.
  intros ->. unfold attributes, v_matrix__new. cbn [m_nrows m_ncols m_elements m_graph m_entrymap h_lists h_dicts].
  rewrite app_nth2 by lia. replace (S (length L) - length L) with 1 by lia. rewrite nth_end. reflexivity.
Qed.
Lemma new_gives h rows : gives h (matrix_new (PRows (map PRow rows))) (v_matrix_new rows).
Proof.
  unfold gives, matrix_new, v_matrix_new, vm_ncols_of. rewrite !map_length.
  replace (forallb is_row (map PRow rows)) with true by (symmetry; rewrite forallb_map; apply forallb_forall; reflexivity). cbn [negb].
  destruct rows as [|row0 rows]; [reflexivity|]. remember (row0 :: rows) as all eqn:Eall.
  assert (E0 : getitem (map PRow all) 0 = Ok (PRow row0)) by (subst; reflexivity). assert (E1 : getitem all 0 = Ok row0) by (subst; reflexivity).
  clear Eall. rewrite E0, E1. cbn [bind]. unfold hbind at 1, hlift at 1. cbn [row_items].
  rewrite forallb_map. cbn [row_items]. destruct (forallb (fun r => Nat.eqb (length r) (length row0)) all); cbn [negb bind]; [|reflexivity].
  rewrite mapM_map. cbn [row_items]. destruct (mapM (mapM expressify) all) as [ts|e] eqn:Em.
  2: { reflexivity. }
  cbn [bind].
  match goal with |- match ?c h with _ => _ end => assert (E : c h = let (l, d) := fold_left store_pure (all_entries ts) ([], []) in
    (Ok (mkMatrix (length all) (length row0) (S (length (h_lists h))) (tree_call List_ l) (length (h_dicts h))), mkHeap (h_lists h ++ [l; l]) (h_dicts h ++ [d]))) end.
  { unfold hbind at 1, hlift. unfold hbind at 1, new_list. unfold hbind at 1, new_dict. cbn [h_lists h_dicts]. unfold hbind.
    rewrite (hfor_ext _ (fun irow => hfor (store_entry (length (h_lists h)) (length (h_dicts h))) (row_entries irow)))
      by (intros irow h0; unfold row_entries; rewrite <- hfor_map; reflexivity).
    rewrite hfor_nested. fold (all_entries ts). rewrite hfor_store. rewrite (surjective_pairing (fold_left store_pure (all_entries ts) ([], []))).
    set (l := fst (fold_left store_pure (all_entries ts) ([], []))). set (d := snd (fold_left store_pure (all_entries ts) ([], []))). cbn [fst snd].
    rewrite (matrix__new_spec _ _ (h_lists h) l (h_dicts h) d) by reflexivity. reflexivity. }
  rewrite E. change (indexed ts) with (all_entries ts). rewrite <- store_pure_vm. destruct (fold_left store_pure (all_entries ts) ([], [])) as [l d]. cbn [fst snd]. cbv beta iota.
  apply attributes_new. reflexivity.
Qed.
Lemma get_gives h A i j : get A i j h = vm_getitem zero (attributes A h) i j.
Proof.
  unfold get, matrix_getitem, vm_getitem. cbn [as_int attributes vm_nrows vm_ncols vm_entrymap vm_elements]. destruct (negb _); [reflexivity|].
  unfold dict_has, dict_at, list_get, hbind, hret, hlift, read_dict, read_list, dict_mem, dict_getitem.
  destruct (dict_get pos_eqb _ _) as [n|] eqn:E; [|reflexivity]. rewrite E. reflexivity.
Qed.
Lemma tolist_gives h A : tolist A h = vm_tolist zero (attributes A h).
Proof. reflexivity. Qed.
Lemma binop_fold_v nr nc lo func (items : entries_dict) : range_ok nr nc items -> (forall e, In e items -> snd e < length lo) ->
  forall l d, good nr nc l d -> foldM (v_binop_entry lo func) items (l, d) = Ok (fold_left (binop_pure lo func) items (l, d)).
Proof.
  induction items as [|e items IH]; intros Hr Hlt l d Hg; [reflexivity|]. cbn [foldM fold_left].
  assert (E : v_binop_entry lo func (l, d) e = Ok (binop_pure lo func (l, d) e)).
  { unfold v_binop_entry, binop_pure. assert (Eb : getitem lo (snd e) = Ok (nth (snd e) lo zero)) by (apply getitem_nth, nth_error_nth', Hlt; left; reflexivity).
    destruct (dict_get pos_eqb d (fst e)) as [n|] eqn:Ed.
    - assert (Hn : n < length l) by (eapply good_lt; eassumption). rewrite (getitem_nth l n (nth n l zero)) by (apply nth_error_nth', Hn). cbn [bind]. rewrite Eb. cbn [bind].
      destruct (Nat.ltb_spec n (length l)); [reflexivity|lia].
    - rewrite Eb. cbn [bind]. rewrite dset_absent by (apply dget_none, Ed). reflexivity. }
  rewrite E. cbn [bind]. pose proof (binop_pure_good nr nc lo func l d e Hg) as G.
  destruct (binop_pure lo func (l, d) e) as [l1 d1]. apply IH.
  - intros q Hq. apply Hr. right. exact Hq.
  - intros e' He'. apply Hlt. right. exact He'.
  - apply G. apply Hr. left. reflexivity.
Qed.
Lemma binop_gives h A B func : wf h A -> wf h B -> gives h (matrix_binop A B func) (v_matrix_binop (attributes A h) (attributes B h) func).
Proof.
  intros (A1 & A2 & A3 & Ag) (B1 & B2 & B3 & Bg). unfold gives, v_matrix_binop. cbn [attributes vm_nrows vm_ncols vm_elements vm_entrymap].
  destruct (Nat.eqb_spec (m_nrows A) (m_nrows B)) as [Er|Er]; [destruct (Nat.eqb_spec (m_ncols A) (m_ncols B)) as [Ec|Ec]|]; cbn [andb negb];
    try (rewrite binop_mismatch by congruence; reflexivity).
  assert (BgA : good (m_nrows A) (m_ncols A) (elems h B) (emap h B)) by (rewrite Er, Ec; exact Bg).
  pose proof BgA as (Bn & Bs & Br).
  assert (Blt : forall e, In e (emap h B) -> snd e < length (elems h B)).
  { intros e He. apply (in_map snd) in He. rewrite Bs in He. apply in_seq in He. simpl in He. lia. }
  fold (elems h A) (emap h A) (elems h B) (emap h B). rewrite (binop_fold_v (m_nrows A) (m_ncols A)); [|exact Br|exact Blt|exact Ag]. cbn [bind].
  assert (E : matrix_binop A B func h = let (l, d) := fold_left (binop_pure (elems h B) func) (emap h B) (elems h A, emap h A) in
    (Ok (mkMatrix (m_nrows A) (m_ncols A) (S (length (h_lists h))) (tree_call List_ l) (length (h_dicts h))), mkHeap (h_lists h ++ [l; l]) (h_dicts h ++ [d]))).
  { unfold matrix_binop. rewrite Er, Ec, !Nat.eqb_refl. cbn [andb negb].
    unfold list_copy, dict_copy, hbind, read_list, read_dict, new_list, new_dict. cbn [h_lists h_dicts].
    fold (elems h A). fold (emap h A). rewrite (app_nth1 (h_dicts h)) by exact B2. fold (emap h B).
    rewrite (hfor_binop (m_nrows A) (m_ncols A)); auto. fold (elems h B).
    set (r := fold_left (binop_pure (elems h B) func) (emap h B) (elems h A, emap h A)). rewrite (surjective_pairing r). set (l := fst r). set (d := snd r). cbn [fst snd].
    rewrite (matrix__new_spec _ _ (h_lists h) l (h_dicts h) d) by reflexivity. reflexivity. }
  rewrite E. destruct (fold_left _ _ _) as [l d]. cbn [fst snd]. cbv beta iota. apply attributes_new. reflexivity.
Qed.
Lemma diff_gives h A x : gives h (matrix_diff A x) (v_matrix_diff cas_diff (attributes A h) x).
Proof.
  unfold gives, matrix_diff, v_matrix_diff. cbn [attributes vm_nrows vm_ncols vm_graph vm_entrymap].
  assert (E : expr_diff (m_graph A) x 1 = sym_diff_call cas_diff (m_graph A) x 1).
  { unfold expr_diff. change (Z.to_nat 1) with 1. cbn [repeatM]. destruct (sym_diff_call cas_diff (m_graph A) x 1); reflexivity. }
  rewrite E. unfold hbind at 1, hlift. destruct (sym_diff_call cas_diff (m_graph A) x 1) as [d|e]; [|reflexivity]. cbn [bind].
  unfold hbind at 1, new_list at 1. unfold matrix__new, list_copy, hbind, read_list, new_list, hret. cbn [h_lists h_dicts fst snd].
  rewrite !nth_end. rewrite app_nth1 by (rewrite app_length; simpl; lia). rewrite nth_end. unfold attributes, v_matrix__new. cbn [m_nrows m_ncols m_elements m_graph m_entrymap h_lists h_dicts].
  rewrite nth_end. reflexivity.
Qed.
(** What a program with matrices means is what ModelMatrix.v computes: for every matrix of every state that calls reach there, construction, indexing,
    tolist, +, binop and diff (with the library's rules) give the attributes, entries and exceptions of the meaning. *)
Theorem C113_meaning h ms A B rows i j func x : history h ms -> In A ms -> In B ms ->
  gives h (matrix_new (PRows (map PRow rows))) (v_matrix_new rows) /\
  get A i j h = vm_getitem zero (attributes A h) i j /\ tolist A h = vm_tolist zero (attributes A h) /\
  gives h (matrix_add A B) (v_matrix_binop (attributes A h) (attributes B h) Add) /\
  gives h (matrix_binop A B func) (v_matrix_binop (attributes A h) (attributes B h) func) /\
  gives h (matrix_diff A x) (v_matrix_diff cas_diff (attributes A h) x).
Proof.
  intros Hh HA HB. pose proof (history_wf h ms Hh A HA) as WA. pose proof (history_wf h ms Hh B HB) as WB.
  split; [apply new_gives|]. split; [apply get_gives|]. split; [apply tolist_gives|]. split; [apply binop_gives; assumption|]. split; [apply binop_gives; assumption|]. apply diff_gives.
Qed.

(** ** A case, with another thread in the middle of making Symbol("x"):
      x = Symbol("x"); f = Function("f"); v2 = f(x); diff[v2, x] = v2; M0 = Matrix([[x, 0], [v2, x]]); M1 = M0.diff(x); v3 = M1[0, 0]; v4 = M1[0, 1];
      M2 = M0 + M1; v5 = M2[1, 0]; v6 = M2.tolist()[0][0]; M3 = M0.binop(M1, f); v7 = M3.elements[2]; v8 = M1.elements_graph *)
Definition xd_program : list mstatement :=
  [MExpr (SSymbol "x"); MExpr (SFunction "f"); MExpr (SCall 1 [OE 0]); MExpr (SRule 2 0 2); MNew [[OE 0; OI 0]; [OE 2; OE 0]]; MDiff 0 0; MGet 1 0 0; MGet 1 0 1;
   MAdd 0 1; MGet 2 1 0; MToList 2 0 0; MBinop 0 1 1; MElement 3 2; MGraph 1].
Definition xd_x := Symbol "x".
Definition xd_fx := Node [Function "f"; xd_x].
Definition xd_map : entries_dict := [((0, 0), 0); ((1, 0), 1); ((1, 1), 2)].
Definition xd_mat (l : list tree) : vmatrix tree := mkVM 2 2 l (Node (List_ :: l)) xd_map.
Example C113_case : cas_names PropsObjExpr.xc_names /\
  (exists s, ready true (fun _ => True) 0 s /\ at_ (threads s 1) = Made (KAtom (ty_id T_Symbol) (VStr "x")) 0) /\
  v_msession xd_program = Ok
    ([xd_x; Function "f"; xd_fx; one; zero; Node [Add; xd_fx; xd_fx]; Node [Add; xd_x; one]; Node [Function "f"; xd_x; one]; Node [List_; one; xd_fx; one]],
     [xd_mat [xd_x; xd_fx; xd_x]; xd_mat [one; xd_fx; one]; xd_mat [Node [Add; xd_x; one]; Node [Add; xd_fx; xd_fx]; Node [Add; xd_x; one]];
      xd_mat [Node [Function "f"; xd_x; one]; Node [Function "f"; xd_fx; xd_fx]; Node [Function "f"; xd_x; one]]]) /\
  v_msession (xd_program ++ [MGet 0 2 0]) = Err IndexError /\ v_msession (xd_program ++ [MGet 0 (-1) 0]) = Err IndexError /\
  v_msession (xd_program ++ [MNew [[OI 1]]; MAdd 0 4]) = Err TypeError /\ v_msession [MNew []] = Err IndexError /\ v_msession [MNew [[OI 1]; []]] = Err TypeError.
Proof.
  destruct PropsObjExpr.C72_case as (H1 & H2 & _). split; [exact H1|]. split; [exact H2|]. vm_compute. repeat split; reflexivity.
Qed.
Print Assumptions C113_matrix_programs.
Print Assumptions C113_entries.
Print Assumptions C113_graph.
Print Assumptions C113_meaning.
