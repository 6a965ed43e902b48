(** * Proofs about the lists a program holds *)
From Verif Require Import Py ModelTree SpecTree ProofBase ModelDiff ModelSym ModelCas ModelMatrix SpecMatrix ProofMatrix
  ProofSympy ModelLists SpecLists.

Lemma sbind_ok {A B} (c : sm A) (k : A -> sm B) s a s' : c s = (Ok a, s') -> sbind c k s = k a s'.
Proof. intros E. unfold sbind. rewrite E. reflexivity. Qed.
Lemma expressify_map l : mapM s_expressify (map uexpr l) = Ok l.
Proof. induction l as [|t l IH]; [reflexivity|]. cbn [map mapM s_expressify uexpr expressify bind]. rewrite IH. reflexivity. Qed.
Lemma nth_map_uexpr n l : nth n (map uexpr l) (uexpr zero) = uexpr (nth n l zero).
Proof. apply map_nth. Qed.

Lemma s__new_spec nr nc L l D d :
  s_matrix__new nr nc (length L) d (mkStore (L ++ [map uexpr l]) D) =
  (Ok (mkMatrix nr nc (S (length L)) (tree_call List_ l) d), mkStore (L ++ [map uexpr l; map uexpr l]) D).
Proof.
  unfold s_matrix__new, s_copy, sbind, sret, s_read, s_new, slift. cbn [s_lists s_dicts].
  rewrite !nth_end. rewrite app_nth1 by (rewrite app_length; simpl; lia). rewrite nth_end, expressify_map, app_length.
  cbn [length]. rewrite Nat.add_1_r, <- app_assoc. reflexivity.
Qed.

(** ** Loops *)
Lemma sfor_app {A} (body : A -> sm unit) l1 l2 s :
  sfor body (l1 ++ l2) s = sbind (sfor body l1) (fun _ => sfor body l2) s.
Proof.
  revert s. induction l1 as [|a l1 IH]; intros s; [reflexivity|]. cbn [app sfor]. unfold sbind in *.
  destruct (body a s) as [[u|x] s']; [apply IH|reflexivity].
Qed.
Lemma sfor_map {A B} (f : A -> B) (body : B -> sm unit) l s : sfor (fun a => body (f a)) l s = sfor body (map f l) s.
Proof.
  revert s. induction l as [|a l IH]; intros s; [reflexivity|]. cbn [sfor map]. unfold sbind.
  destruct (body (f a) s) as [[u|x] s']; [apply IH|reflexivity].
Qed.
Lemma sfor_nested {A B} (f : A -> list B) (body : B -> sm unit) l s :
  sfor (fun a => sfor body (f a)) l s = sfor body (flat_map f l) s.
Proof.
  revert s. induction l as [|a l IH]; intros s; [reflexivity|]. cbn [sfor flat_map]. rewrite sfor_app. unfold sbind.
  destruct (sfor body (f a) s) as [[u|x] s']; [apply IH|reflexivity].
Qed.
Lemma sfor_ext {A} (f g : A -> sm unit) l s : (forall a s, f a s = g a s) -> sfor f l s = sfor g l s.
Proof.
  intros H. revert s. induction l as [|a l IH]; intros s; [reflexivity|]. cbn [sfor]. unfold sbind. rewrite H.
  destruct (g a s) as [[u|x] s']; [apply IH|reflexivity].
Qed.

Lemma s_store_spec L l D d e :
  s_store_entry (length L) (length D) e (mkStore (L ++ [map uexpr l]) (D ++ [d])) =
  (Ok tt, mkStore (L ++ [map uexpr (fst (store_pure (l, d) e))]) (D ++ [snd (store_pure (l, d) e)])).
Proof.
  destruct e as [p t]. unfold s_store_entry, store_pure. cbn [fst snd].
  destruct (tree_eqb t zero); [reflexivity|].
  unfold s_len, s_put, s_append, sbind, sret, s_read, s_readdict, s_write, s_writedict. cbn [s_lists s_dicts].
  rewrite !nth_end, !set_nth_any_last, map_length. cbn [fst snd]. rewrite map_app. reflexivity.
Qed.
Lemma sfor_store L D es : forall l d,
  sfor (s_store_entry (length L) (length D)) es (mkStore (L ++ [map uexpr l]) (D ++ [d])) =
  (Ok tt, mkStore (L ++ [map uexpr (fst (fold_left store_pure es (l, d)))]) (D ++ [snd (fold_left store_pure es (l, d))])).
Proof.
  induction es as [|e es IH]; intros l d; [reflexivity|]. cbn [sfor fold_left]. unfold sbind.
  rewrite s_store_spec, IH, <- surjective_pairing. reflexivity.
Qed.

(** ** Matrix(...) *)
Lemma smap_ok {A B} (body : A -> sm B) (f : A -> res B) l s : (forall a, In a l -> body a s = (f a, s)) ->
  smap body l s = (mapM f l, s).
Proof.
  induction l as [|a l IH]; intros H; [reflexivity|]. cbn [smap mapM]. unfold sbind at 1. rewrite (H a (or_introl eq_refl)).
  destruct (f a) as [b|x]; [|reflexivity]. cbn [bind]. unfold sbind. rewrite IH by (intros c Hc; apply H; right; exact Hc).
  destruct (mapM f l); reflexivity.
Qed.
Lemma mapM_map_ok {A B} (f : A -> B) (g : A -> res B) l : (forall a, In a l -> g a = Ok (f a)) -> mapM g l = Ok (map f l).
Proof.
  induction l as [|a l IH]; intros H; [reflexivity|]. cbn [mapM map]. rewrite (H a (or_introl eq_refl)), IH; [reflexivity|].
  intros b Hb. apply H. right. exact Hb.
Qed.
Lemma mapM_map_args {A B C} (f : A -> B) (g : B -> res C) l : mapM g (map f l) = mapM (fun a => g (f a)) l.
Proof. induction l as [|a l IH]; [reflexivity|]. cbn [mapM map]. rewrite IH. reflexivity. Qed.
Lemma expressify_as v : s_expressify v = expressify (as_pyobj v).
Proof. destruct v; reflexivity. Qed.

(** Matrix(...) does what ModelMatrix.v says for the contents of its argument. *)
Lemma s_new_cases v s h :
  (exists x, s_matrix_new v s = (Err x, s) /\ matrix_new (as_pyrows s v) h = (Err x, h)) \/
  (exists nr nc ts, let r := fold_left store_pure (all_entries ts) ([], []) in
     (forall h, matrix_new (as_pyrows s v) h =
       (Ok (mkMatrix nr nc (S (length (h_lists h))) (tree_call List_ (fst r)) (length (h_dicts h))),
        mkHeap (h_lists h ++ [fst r; fst r]) (h_dicts h ++ [snd r]))) /\
     s_matrix_new v s =
       (Ok (mkMatrix nr nc (S (length (s_lists s))) (tree_call List_ (fst r)) (length (s_dicts s))),
        mkStore (s_lists s ++ [map uexpr (fst r); map uexpr (fst r)]) (s_dicts s ++ [snd r]))).
Proof.
  destruct v as [o|loc]; [left; exists TypeError; split; reflexivity|].
  unfold s_matrix_new, as_pyrows, matrix_new. rewrite (sbind_ok _ _ s (contents s loc) s) by reflexivity.
  set (rows := contents s loc).
  assert (E1 : forallb is_row (map (as_pyrow s) rows) = forallb is_list rows).
  { induction rows as [|[o|r] rows IH]; [reflexivity|reflexivity|]. cbn [map forallb as_pyrow is_row is_list andb]. exact IH. }
  rewrite E1. destruct (forallb is_list rows) eqn:El; cbn [negb]; [|left; exists TypeError; split; reflexivity].
  assert (Hall : forall v, In v rows -> exists r, v = UList r).
  { intros v Hv. rewrite forallb_forall in El. specialize (El v Hv). destruct v as [o|r]; [discriminate|eauto]. }
  assert (Eg : s_get loc 0 s = (getitem rows 0, s)) by reflexivity.
  destruct rows as [|row0 rows'] eqn:Er.
  { left. exists IndexError. split; [|reflexivity]. unfold sbind at 1. rewrite Eg. reflexivity. }
  destruct (Hall row0 (or_introl eq_refl)) as [r0 E0]. subst row0.
  rewrite (sbind_ok _ _ _ _ _ Eg). rewrite (sbind_ok _ _ s r0 s) by reflexivity.
  rewrite (sbind_ok _ _ s (length (contents s r0)) s) by reflexivity.
  rewrite <- Er in *. clear Eg.
  set (ncols := length (contents s r0)).
  set (len := fun v => match v with UList r => length (contents s r) | UObj _ => 0 end).
  rewrite (sbind_ok _ _ s (map len rows) s).
  2:{ rewrite (smap_ok _ (fun v => Ok (len v))); [rewrite (mapM_map_ok len); [reflexivity|intros; reflexivity]|].
      intros a Ha. destruct (Hall a Ha) as [r ->]. reflexivity. }
  assert (E2 : forallb (fun r => Nat.eqb (length (row_items r)) ncols) (map (as_pyrow s) rows) = forallb (fun n => Nat.eqb n ncols) (map len rows)).
  { clear Er E1 El. induction rows as [|v rows IH]; [reflexivity|]. cbn [map forallb]. rewrite IH by (intros a Ha; apply Hall; right; exact Ha).
    destruct (Hall v (or_introl eq_refl)) as [r ->]. cbn [as_pyrow row_items len]. rewrite map_length. reflexivity. }
  assert (E3 : mapM (fun r => mapM expressify (row_items r)) (map (as_pyrow s) rows) =
               mapM (fun v => mapM s_expressify (match v with UList r => contents s r | UObj _ => [] end)) rows).
  { clear Er E2. rewrite mapM_map_args. apply mapM_ext. intros v Hv. destruct (Hall v Hv) as [r ->]. cbn [as_pyrow row_items].
    rewrite mapM_map_args. apply mapM_ext. intros a _. symmetry. apply expressify_as. }
  assert (Hm : getitem (map (as_pyrow s) rows) 0 = Ok (PRow (map as_pyobj (contents s r0)))) by (rewrite Er; reflexivity).
  rewrite Hm.
  assert (E4 : smap (fun row => let@ r <- slift (as_list row); let@ items <- s_read r; slift (mapM s_expressify items)) rows s =
               (mapM (fun v => mapM s_expressify (match v with UList r => contents s r | UObj _ => [] end)) rows, s)).
  { apply smap_ok. intros a Ha. destruct (Hall a Ha) as [r ->]. reflexivity. }
  destruct (forallb (fun n => Nat.eqb n ncols) (map len rows)) eqn:El2; cbn [negb].
  2:{ left. exists TypeError. split; [reflexivity|]. unfold hbind at 1, hlift at 1. cbn [row_items]. rewrite map_length. fold ncols. rewrite E2. reflexivity. }
  destruct (mapM (fun v => mapM s_expressify _) rows) as [ts|x] eqn:E5.
  2:{ left. exists x. unfold sbind at 1. rewrite E4. split; [reflexivity|]. unfold hbind at 1, hlift at 1. cbn [row_items]. rewrite map_length. fold ncols.
      rewrite E2. cbn [negb]. unfold hbind at 1, hlift. rewrite E3. reflexivity. }
  right. exists (length rows), ncols, ts. cbn zeta. set (r := fold_left store_pure (all_entries ts) ([], [])). split.
  - intros h0. unfold hbind at 1, hlift at 1. cbn [row_items]. rewrite map_length. fold ncols.
    rewrite E2. cbn [negb]. unfold hbind at 1, hlift at 1. rewrite E3.
    unfold hbind at 1, new_list. unfold hbind at 1, new_dict. cbn [h_lists h_dicts]. unfold hbind.
    rewrite (hfor_ext _ (fun irow => hfor (store_entry (length (h_lists h0)) (length (h_dicts h0))) (row_entries irow)))
      by (intros irow h1; unfold row_entries; rewrite <- hfor_map; reflexivity).
    rewrite hfor_nested. fold (all_entries ts). rewrite hfor_store. fold r.
    rewrite (matrix__new_spec _ _ (h_lists h0) (fst r) (h_dicts h0) (snd r)) by reflexivity. rewrite map_length. reflexivity.
  - rewrite (sbind_ok _ _ _ _ _ E4). unfold sbind at 1, s_new. unfold sbind at 1, s_newdict. cbn [s_lists s_dicts]. unfold sbind.
    rewrite (sfor_ext _ (fun irow => sfor (s_store_entry (length (s_lists s)) (length (s_dicts s))) (row_entries irow)))
      by (intros irow h1; unfold row_entries; rewrite <- sfor_map; reflexivity).
    rewrite sfor_nested. fold (all_entries ts). change [] with (map uexpr []) at 1. rewrite (sfor_store (s_lists s) (s_dicts s) (all_entries ts) [] []). fold r.
    rewrite s__new_spec. reflexivity.
Qed.

(** ** The matrices in the store *)
Definition sdict (s : store) (m : matrix) : entries_dict := nth (m_entrymap m) (s_dicts s) [].
Definition swf_with (s : store) (m : matrix) (l : list tree) : Prop :=
  m_elements m < length (s_lists s) /\ m_entrymap m < length (s_dicts s) /\
  contents s (m_elements m) = map uexpr l /\ m_graph m = tree_call List_ l /\
  good (m_nrows m) (m_ncols m) l (sdict s m).
Definition swf (s : store) (m : matrix) : Prop := exists l, swf_with s m l.
Definition sextends (s s' : store) : Prop :=
  exists ls ds, s_lists s' = s_lists s ++ ls /\ s_dicts s' = s_dicts s ++ ds.

(** ** binop *)
Section SOps.
  Context (L : list (list uval)) (l : list tree) (D : list entries_dict) (d : entries_dict).
  Let H := mkStore (L ++ [map uexpr l]) (D ++ [d]).
  Lemma sop_has p : s_has (length D) p H = (Ok (dict_mem pos_eqb d p), H).
  Proof. unfold s_has, sbind, sret, s_readdict, H. cbn [s_dicts]. rewrite nth_end. reflexivity. Qed.
  Lemma sop_at p n : dict_get pos_eqb d p = Some n -> s_at (length D) p H = (Ok n, H).
  Proof. intros E. unfold s_at, sbind, slift, s_readdict, dict_getitem, H. cbn [s_dicts]. rewrite nth_end, E. reflexivity. Qed.
  Lemma sop_put p n : s_put (length D) p n H = (Ok tt, mkStore (L ++ [map uexpr l]) (D ++ [dict_set pos_eqb d p n])).
  Proof. unfold s_put, sbind, s_readdict, s_writedict, H. cbn [s_dicts s_lists]. rewrite nth_end, set_nth_any_last. reflexivity. Qed.
  Lemma getitem_uexpr n k : n < length k -> getitem (map uexpr k) n = Ok (uexpr (nth n k zero)).
  Proof. intros Hn. unfold getitem. rewrite nth_error_map, (nth_error_nth' k zero Hn). reflexivity. Qed.
  Lemma sop_get n : n < length l -> s_get (length L) n H = (Ok (uexpr (nth n l zero)), H).
  Proof. intros Hn. unfold s_get, sbind, slift, s_read, H. cbn [s_lists]. rewrite nth_end, getitem_uexpr by exact Hn. reflexivity. Qed.
  Lemma sop_get_old loc k n : loc < length L -> nth loc L [] = map uexpr k -> n < length k ->
    s_get loc n H = (Ok (uexpr (nth n k zero)), H).
  Proof.
    intros Hl E Hn. unfold s_get, sbind, slift, s_read, H. cbn [s_lists]. rewrite app_nth1, E, getitem_uexpr by assumption. reflexivity.
  Qed.
  Lemma map_set_nth {A B} (f : A -> B) k n a : set_nth_any (map f k) n (f a) = map f (set_nth_any k n a).
  Proof.
    unfold set_nth_any. rewrite map_app, firstn_map, skipn_map. destruct (skipn n k); reflexivity.
  Qed.
  Lemma sop_set n t : n < length l -> s_set (length L) n (uexpr t) H = (Ok tt, mkStore (L ++ [map uexpr (set_nth_any l n t)]) (D ++ [d])).
  Proof.
    intros Hn. unfold s_set, sbind, s_read, s_write, H. cbn [s_lists]. rewrite nth_end, map_length.
    destruct (Nat.ltb_spec n (length l)) as [_|]; [|lia]. cbn [s_lists s_dicts]. rewrite set_nth_any_last, map_set_nth. reflexivity.
  Qed.
  Lemma sop_len : s_len (length L) H = (Ok (length l), H).
  Proof. unfold s_len, sbind, sret, s_read, H. cbn [s_lists]. rewrite nth_end, map_length. reflexivity. Qed.
  Lemma sop_append t : s_append (length L) (uexpr t) H = (Ok tt, mkStore (L ++ [map uexpr (l ++ [t])]) (D ++ [d])).
  Proof. unfold s_append, sbind, s_read, s_write, H. cbn [s_lists s_dicts]. rewrite nth_end, set_nth_any_last, map_app. reflexivity. Qed.
End SOps.

Lemma s_binop_entry_spec nr nc L l D d lo_loc k func e :
  good nr nc l d -> lo_loc < length L -> nth lo_loc L [] = map uexpr k -> snd e < length k ->
  s_binop_entry lo_loc (length L) (length D) func e (mkStore (L ++ [map uexpr l]) (D ++ [d])) =
  (Ok tt, mkStore (L ++ [map uexpr (fst (binop_pure k func (l, d) e))]) (D ++ [snd (binop_pure k func (l, d) e)])).
Proof.
  intros Hg Hlo Hk He. destruct e as [p n0]. cbn [snd] in He. unfold s_binop_entry, binop_pure. cbn [fst snd].
  rewrite (sbind_ok _ _ _ _ _ (sop_has L l D d p)). unfold dict_mem.
  destruct (dict_get pos_eqb d p) as [n|] eqn:E; cbn [fst snd].
  - assert (Hn : n < length l) by (eapply good_lt; eauto).
    rewrite (sbind_ok _ _ _ _ _ (sop_at L l D d p n E)).
    rewrite (sbind_ok _ _ _ _ _ (sop_get L l D d n Hn)).
    rewrite (sbind_ok _ _ _ _ _ (sop_get_old L l D d lo_loc k n0 Hlo Hk He)).
    apply sop_set, Hn.
  - rewrite (sbind_ok _ _ _ _ _ (sop_len L l D d)).
    rewrite (sbind_ok _ _ _ _ _ (sop_put L l D d p (length l))).
    rewrite (sbind_ok _ _ _ _ _ (sop_get_old L l D _ lo_loc k n0 Hlo Hk He)).
    rewrite sop_append. rewrite dset_absent by (apply dget_none, E). reflexivity.
Qed.
Lemma sfor_binop nr nc lo_loc k L D func (items : entries_dict) : lo_loc < length L -> nth lo_loc L [] = map uexpr k ->
  range_ok nr nc items -> (forall e, In e items -> snd e < length k) -> forall l d, good nr nc l d ->
  sfor (s_binop_entry lo_loc (length L) (length D) func) items (mkStore (L ++ [map uexpr l]) (D ++ [d])) =
  (Ok tt, mkStore (L ++ [map uexpr (fst (fold_left (binop_pure k func) items (l, d)))])
                  (D ++ [snd (fold_left (binop_pure k func) items (l, d))])).
Proof.
  intros Hlo Hk. induction items as [|e items IH]; intros Hr Hlt l d Hg; [reflexivity|].
  cbn [sfor fold_left]. unfold sbind. rewrite (s_binop_entry_spec nr nc _ _ _ _ _ k) by (auto; apply Hlt; left; reflexivity).
  rewrite IH.
  - rewrite <- surjective_pairing. reflexivity.
  - intros q Hq. apply Hr. right. exact Hq.
  - intros e' He'. apply Hlt. right. exact He'.
  - apply binop_pure_good; [exact Hg|]. apply Hr. left. reflexivity.
Qed.

Definition same_shape (A B : matrix) : bool := Nat.eqb (m_nrows A) (m_nrows B) && Nat.eqb (m_ncols A) (m_ncols B).
Lemma s_binop_spec A B func s la lb : swf_with s A la -> swf_with s B lb ->
  s_binop A B func s =
  if same_shape A B then
    let r := fold_left (binop_pure lb func) (sdict s B) (la, sdict s A) in
    (Ok (mkMatrix (m_nrows A) (m_ncols A) (S (length (s_lists s))) (tree_call List_ (fst r)) (length (s_dicts s))),
     mkStore (s_lists s ++ [map uexpr (fst r); map uexpr (fst r)]) (s_dicts s ++ [snd r]))
  else (Err TypeError, s).
Proof.
  intros (A1 & A2 & A3 & A4 & Ag) (B1 & B2 & B3 & B4 & Bg). unfold s_binop, same_shape.
  destruct (Nat.eqb_spec (m_nrows A) (m_nrows B)) as [Er|], (Nat.eqb_spec (m_ncols A) (m_ncols B)) as [Ec|]; try reflexivity.
  cbn [andb negb]. cbn zeta.
  assert (BgA : good (m_nrows A) (m_ncols A) lb (sdict s B)) by (rewrite Er, Ec; exact Bg). destruct BgA as (Bn & Bs & Br).
  assert (Blt : forall e, In e (sdict s B) -> snd e < length lb).
  { intros e He. apply (in_map snd) in He. rewrite Bs in He. apply in_seq in He. simpl in He. lia. }
  unfold s_copy, s_copydict, sbind, s_read, s_readdict, s_new, s_newdict. cbn [s_lists s_dicts].
  fold (contents s (m_elements A)). rewrite A3. fold (sdict s A). rewrite (app_nth1 (s_dicts s)) by exact B2. fold (sdict s B).
  rewrite (sfor_binop (m_nrows A) (m_ncols A) _ lb); auto. apply s__new_spec.
Qed.
Lemma h_binop_spec A B func h : wf h A -> wf h B ->
  matrix_binop A B func h =
  if same_shape A B then
    let r := fold_left (binop_pure (elems h B) func) (emap h B) (elems h A, emap h A) in
    (Ok (mkMatrix (m_nrows A) (m_ncols A) (S (length (h_lists h))) (tree_call List_ (fst r)) (length (h_dicts h))),
     mkHeap (h_lists h ++ [fst r; fst r]) (h_dicts h ++ [snd r]))
  else (Err TypeError, h).
Proof.
  intros (A1 & A2 & A3 & Ag) (B1 & B2 & B3 & Bg). unfold matrix_binop, same_shape.
  destruct (Nat.eqb_spec (m_nrows A) (m_nrows B)) as [Er|], (Nat.eqb_spec (m_ncols A) (m_ncols B)) as [Ec|]; try reflexivity.
  cbn [andb negb]. cbn zeta.
  assert (BgA : good (m_nrows A) (m_ncols A) (elems h B) (emap h B)) by (rewrite Er, Ec; exact Bg). destruct BgA as (Bn & Bs & Br).
  assert (Blt : forall e, In e (emap h B) -> snd e < length (nth (m_elements B) (h_lists h) [])).
  { intros e He. apply (in_map snd) in He. rewrite Bs in He. apply in_seq in He. fold (elems h B). simpl in He. lia. }
  unfold list_copy, dict_copy, hbind, read_list, read_dict, new_list, new_dict. cbn [h_lists h_dicts].
  fold (elems h A). fold (emap h A). rewrite (app_nth1 (h_dicts h)) by exact B2. fold (emap h B).
  rewrite (hfor_binop (m_nrows A) (m_ncols A)); auto. fold (elems h B). apply (matrix__new_spec _ _ (h_lists h) _ (h_dicts h)). reflexivity.
Qed.

(** ** diff *)
Lemma s_diff_spec A sym s :
  s_diff A sym s =
  match expr_diff (m_graph A) sym 1 with
  | Ok t => (Ok (mkMatrix (m_nrows A) (m_ncols A) (S (length (s_lists s))) (tree_call List_ (sym_args t)) (m_entrymap A)),
             mkStore (s_lists s ++ [map uexpr (sym_args t); map uexpr (sym_args t)]) (s_dicts s))
  | Err e => (Err e, s)
  end.
Proof.
  unfold s_diff, sbind at 1, slift. destruct (expr_diff (m_graph A) sym 1) as [t|e]; [|reflexivity].
  unfold sbind, s_new. cbn [s_lists s_dicts]. apply s__new_spec.
Qed.
Lemma h_diff_spec A sym h :
  matrix_diff A sym h =
  match expr_diff (m_graph A) sym 1 with
  | Ok t => (Ok (mkMatrix (m_nrows A) (m_ncols A) (S (length (h_lists h))) (tree_call List_ (sym_args t)) (m_entrymap A)),
             mkHeap (h_lists h ++ [sym_args t; sym_args t]) (h_dicts h))
  | Err e => (Err e, h)
  end.
Proof.
  unfold matrix_diff, hbind at 1, hlift. destruct (expr_diff (m_graph A) sym 1) as [t|e]; [|reflexivity].
  unfold hbind at 1, new_list at 1. unfold matrix__new, list_copy, hbind, read_list, new_list, hret. cbn [h_lists h_dicts].
  rewrite !nth_end. rewrite app_nth1 by (rewrite app_length; simpl; lia). rewrite nth_end, app_length.
  cbn [length]. rewrite Nat.add_1_r, <- app_assoc. reflexivity.
Qed.

(** ** tolist *)
Lemma smap_new c : forall n k L D, smap (fun _ : nat => s_new c) (seq k n) (mkStore L D) =
  (Ok (seq (length L) n), mkStore (L ++ repeat c n) D).
Proof.
  induction n as [|n IH]; intros k L D; [cbn; rewrite app_nil_r; reflexivity|]. cbn [seq smap].
  unfold sbind at 1, s_new at 1. cbn [s_lists s_dicts]. unfold sbind. rewrite IH, app_length, Nat.add_1_r, <- app_assoc. reflexivity.
Qed.
Lemma set_nth_app {A} (L M : list A) i a : i < length M -> forall T, set_nth_any (L ++ M ++ T) (length L + i) a = L ++ set_nth_any M i a ++ T.
Proof.
  intros Hi T. induction L as [|b L IH]; cbn [app length Nat.add].
  - revert i Hi. induction M as [|b M IHM]; intros i Hi; [simpl in Hi; lia|]. destruct i as [|i]; [reflexivity|].
    cbn [app]. rewrite !set_nth_any_S. cbn [app]. rewrite IHM by (simpl in Hi; lia). reflexivity.
  - rewrite set_nth_any_S, IH. reflexivity.
Qed.
Lemma nth_mid {A} (L M T : list A) i d : i < length M -> nth (length L + i) (L ++ M ++ T) d = nth i M d.
Proof. intros Hi. rewrite app_nth2, Nat.add_comm, Nat.add_sub, app_nth1 by lia. reflexivity. Qed.

Lemma sfor_tolist nr nc L D loc l (d : entries_dict) : loc < length L -> nth loc L [] = map uexpr l -> range_ok nr nc d ->
  (forall pn, In pn d -> snd pn < length l) ->
  forall rows rows', shape_ok nr nc rows ->
  foldM (fun rows pn => do t <- getitem l (snd pn); set_entry rows (fst pn) t) d rows = Ok rows' ->
  sfor (fun pn : pos * nat => let '((i, j), n) := pn in
          let@ e <- s_get loc n; let@ row <- s_get (length L + nr) i; let@ r <- slift (as_list row); s_set r j e) d
       (mkStore (L ++ map (map uexpr) rows ++ [map UList (seq (length L) nr)]) D) =
  (Ok tt, mkStore (L ++ map (map uexpr) rows' ++ [map UList (seq (length L) nr)]) D).
Proof.
  intros Hloc Hl. induction d as [|[[i j] n] d IH]; intros Hr Hlt rows rows' Hs E; [injection E as ->; reflexivity|].
  cbn [foldM fst snd] in E. assert (Hn : n < length l) by (apply (Hlt ((i, j), n)); left; reflexivity).
  rewrite (getitem_nth l n (nth n l zero)) in E by (apply nth_error_nth', Hn). cbn [bind] in E.
  destruct (Hr (i, j)) as [R1 R2]; [left; reflexivity|]. cbn [fst snd] in R1, R2.
  destruct (set_entry_spec nr nc rows (i, j) (nth n l zero) Hs R1 R2) as (rows1 & E1 & Hs1 & _). rewrite E1 in E. cbn [bind] in E.
  destruct Hs as [Hs1a Hs1b].
  unfold set_entry, getitem in E1. cbn [fst snd] in E1.
  destruct (nth_error rows i) as [row|] eqn:Er; [|apply nth_error_None in Er; lia]. cbn [of_option bind] in E1.
  assert (Hrow : length row = nc) by (apply Hs1b; eapply nth_error_In, Er).
  rewrite Hrow in E1. destruct (Nat.ltb_spec j nc) as [_|]; [|lia]. injection E1 as <-.
  cbn [sfor]. unfold sbind at 1.
  assert (S1 : s_get loc n (mkStore (L ++ map (map uexpr) rows ++ [map UList (seq (length L) nr)]) D) =
    (Ok (uexpr (nth n l zero)), mkStore (L ++ map (map uexpr) rows ++ [map UList (seq (length L) nr)]) D)).
  { unfold s_get, sbind, slift, s_read. cbn [s_lists]. rewrite app_nth1, Hl, getitem_uexpr by assumption. reflexivity. }
  rewrite (sbind_ok _ _ _ _ _ S1).
  assert (S2 : s_get (length L + nr) i (mkStore (L ++ map (map uexpr) rows ++ [map UList (seq (length L) nr)]) D) =
    (Ok (UList (length L + i)), mkStore (L ++ map (map uexpr) rows ++ [map UList (seq (length L) nr)]) D)).
  { unfold s_get, sbind, slift, s_read. cbn [s_lists]. rewrite app_assoc.
    replace (length L + nr) with (length (L ++ map (map uexpr) rows)) by (rewrite app_length, map_length, Hs1a; reflexivity).
    rewrite nth_end. unfold getitem. rewrite nth_error_map.
    rewrite (nth_error_nth' (seq (length L) nr) 0) by (rewrite seq_length; exact R1). rewrite seq_nth by exact R1. reflexivity. }
  rewrite (sbind_ok _ _ _ _ _ S2). rewrite (sbind_ok _ _ _ (length L + i) _) by reflexivity.
  assert (S3 : s_set (length L + i) j (uexpr (nth n l zero)) (mkStore (L ++ map (map uexpr) rows ++ [map UList (seq (length L) nr)]) D) =
    (Ok tt, mkStore (L ++ map (map uexpr) (set_nth_any rows i (set_nth_any row j (nth n l zero))) ++ [map UList (seq (length L) nr)]) D)).
  { unfold s_set, sbind, s_read, s_write. cbn [s_lists s_dicts]. rewrite nth_mid by (rewrite map_length; lia).
    assert (En : nth i (map (map uexpr) rows) [] = map uexpr row) by (apply nth_error_nth; rewrite nth_error_map, Er; reflexivity).
    rewrite En, map_length, Hrow.
    destruct (Nat.ltb_spec j nc) as [_|]; [|lia]. cbn [s_lists s_dicts].
    rewrite set_nth_app by (rewrite map_length; lia). rewrite !map_set_nth. reflexivity. }
  rewrite S3. apply IH; auto.
  - intros q Hq. apply Hr. right. exact Hq.
  - intros pn Hpn. apply Hlt. right. exact Hpn.
Qed.

Lemma map_rep {A B} (f : A -> B) a n : map f (repeat a n) = repeat (f a) n.
Proof. induction n as [|n IH]; [reflexivity|]. cbn [repeat map]. rewrite IH. reflexivity. Qed.
Lemma s_tolist_spec s m l : swf_with s m l ->
  exists rows, shape_ok (m_nrows m) (m_ncols m) rows /\ (forall p, cell rows p = entry l (sdict s m) p) /\
    foldM (fun rows pn => do t <- getitem l (snd pn); set_entry rows (fst pn) t) (sdict s m) (repeat (repeat zero (m_ncols m)) (m_nrows m)) = Ok rows /\
    s_tolist m s = (Ok (length (s_lists s) + m_nrows m),
      mkStore (s_lists s ++ map (map uexpr) rows ++ [map UList (seq (length (s_lists s)) (m_nrows m))]) (s_dicts s)).
Proof.
  intros (H1 & H2 & H3 & H4 & Hg).
  destruct (tolist_spec (mkHeap [l] [sdict s m]) (mkMatrix (m_nrows m) (m_ncols m) 0 (tree_call List_ l) 0)) as (rows & E & Hsh & Hc).
  { split; [simpl; lia|]. split; [simpl; lia|]. split; [reflexivity|exact Hg]. }
  unfold matrix_tolist, hbind, hlift, read_dict, read_list in E.
  cbn [m_nrows m_ncols m_elements m_entrymap h_lists h_dicts nth] in E. injection E as E.
  exists rows. split; [exact Hsh|]. split; [exact Hc|]. split; [exact E|].
  destruct s as [L D]. unfold s_tolist. cbn [s_lists s_dicts].
  rewrite (sbind_ok _ _ _ _ _ (smap_new _ _ _ _ _)). unfold sbind at 1, s_new at 1. cbn [s_lists s_dicts].
  rewrite app_length, repeat_length. unfold sbind at 1, s_readdict. cbn [s_dicts]. change (nth (m_entrymap m) D []) with (sdict (mkStore L D) m).
  unfold sbind at 1. rewrite <- app_assoc.
  replace (repeat (repeat (uexpr zero) (m_ncols m)) (m_nrows m)) with (map (map uexpr) (repeat (repeat zero (m_ncols m)) (m_nrows m)))
    by (rewrite !map_rep; reflexivity).
  rewrite (sfor_tolist (m_nrows m) (m_ncols m) L D (m_elements m) l) with (rows' := rows).
  - reflexivity.
  - exact H1.
  - exact H3.
  - apply Hg.
  - destruct Hg as (_ & Hs & _). intros pn Hpn. apply (in_map snd) in Hpn. rewrite Hs in Hpn. apply in_seq in Hpn. simpl in Hpn. lia.
  - split; [apply repeat_length|]. intros r Hin. apply repeat_spec in Hin. subst. apply repeat_length.
  - exact E.
Qed.

(** ** What a program can reach *)
Definition bounded (s : store) (rs : list nat) : Prop :=
  (forall r, In r rs -> r < length (s_lists s)) /\
  (forall vs r, In vs (s_lists s) -> In (UList r) vs -> r < length (s_lists s)).
Definition inv (s : store) (k : held) : Prop :=
  bounded s (roots k) /\ forall m, In m (mats k) -> swf s m /\ ~ reach s (roots k) (m_elements m).

Lemma in_contents s l v : In v (contents s l) -> In (contents s l) (s_lists s).
Proof.
  intros H. unfold contents in *. destruct (Nat.lt_ge_cases l (length (s_lists s))) as [Hl|Hl]; [apply nth_In, Hl|].
  rewrite nth_overflow in H by exact Hl. destruct H.
Qed.
Lemma reach_bounded s rs r : bounded s rs -> reach s rs r -> r < length (s_lists s).
Proof. intros [B1 B2] H. destruct H as [r H|l r _ H]; [apply B1, H|]. eapply B2; [eapply in_contents, H|exact H]. Qed.
Lemma contents_old s s' l : sextends s s' -> l < length (s_lists s) -> contents s' l = contents s l.
Proof. intros (ls & ds & E & _) Hl. unfold contents. rewrite E. apply app_nth1, Hl. Qed.
Lemma reach_old s s' rs r : sextends s s' -> bounded s rs -> (reach s' rs r <-> reach s rs r).
Proof.
  intros He Hb. split; intros H.
  - induction H as [r H|l r _ IH H]; [apply reach_root, H|]. eapply reach_in; [exact IH|].
    rewrite (contents_old _ _ _ He) in H; [exact H|]. eapply reach_bounded; eauto.
  - induction H as [r H|l r Hl IH H]; [apply reach_root, H|]. eapply reach_in; [exact IH|].
    rewrite (contents_old _ _ _ He); [exact H|]. eapply reach_bounded; eauto.
Qed.
(** New lists refer to new lists and to those in reach only. *)
Lemma reach_new s s' ls new rs r : s_lists s' = s_lists s ++ ls -> bounded s rs -> length (s_lists s) <= new ->
  (forall vs r, In vs ls -> In (UList r) vs -> reach s rs r \/ length (s_lists s) <= r) ->
  reach s' (new :: rs) r -> reach s rs r \/ length (s_lists s) <= r.
Proof.
  intros E Hb Hn Hls H. induction H as [r [<-|H]|l r _ IH H]; [right; exact Hn|left; apply reach_root, H|].
  destruct (Nat.lt_ge_cases l (length (s_lists s))) as [Hl|Hl].
  - destruct IH as [IH|IH]; [|lia]. left. eapply reach_in; [exact IH|]. unfold contents in *. rewrite E, app_nth1 in H by exact Hl. exact H.
  - unfold contents in H. rewrite E, app_nth2 in H by exact Hl.
    destruct (Nat.lt_ge_cases (l - length (s_lists s)) (length ls)) as [Hl2|Hl2]; [|rewrite nth_overflow in H by exact Hl2; destruct H].
    eapply Hls; [apply nth_In, Hl2|exact H].
Qed.

Lemma swf_with_old s s' m l : sextends s s' -> swf_with s m l -> swf_with s' m l.
Proof.
  intros He (H1 & H2 & H3 & H4 & H5). unfold swf_with. rewrite (contents_old _ _ _ He H1).
  destruct He as (ls & ds & E1 & E2). unfold sdict in *. rewrite E1, E2, !app_length, app_nth1 by exact H2.
  split; [lia|]. split; [lia|]. split; [exact H3|]. split; [exact H4|exact H5].
Qed.
Lemma no_ref r l : ~ In (UList r) (map uexpr l).
Proof. intros H. apply in_map_iff in H as (t & E & _). discriminate. Qed.

(** A call that builds a matrix: two new lists of expressions, and perhaps a new dict. *)
Lemma inv_matrix s k m l ds : inv s k ->
  swf_with (mkStore (s_lists s ++ [map uexpr l; map uexpr l]) (s_dicts s ++ ds)) m l ->
  length (s_lists s) <= m_elements m ->
  inv (mkStore (s_lists s ++ [map uexpr l; map uexpr l]) (s_dicts s ++ ds)) (mkHeld (roots k) (m :: mats k)).
Proof.
  intros [Hb Hm] Hw Hge. set (s' := mkStore _ _) in *.
  assert (He : sextends s s') by (exists [map uexpr l; map uexpr l], ds; split; reflexivity).
  split; cbn [roots mats].
  - destruct Hb as [B1 B2]. split.
    + intros r Hr. unfold s'. cbn [s_lists]. rewrite app_length. specialize (B1 r Hr). lia.
    + intros vs r Hv Hr. unfold s' in *. cbn [s_lists] in *. rewrite app_length. apply in_app_iff in Hv as [Hv|[<-|[<-|[]]]].
      * specialize (B2 vs r Hv Hr). lia.
      * destruct (no_ref _ _ Hr).
      * destruct (no_ref _ _ Hr).
  - intros m' [<-|Hm']; [split; [exists l; exact Hw|]|].
    + rewrite (reach_old s s') by assumption. intros H. apply (reach_bounded _ _ _ Hb) in H. lia.
    + destruct (Hm m' Hm') as [[l' Hl'] Hn]. split; [exists l'; eapply swf_with_old; eauto|].
      rewrite (reach_old s s') by assumption. exact Hn.
Qed.

(** ** Every step keeps the invariant *)
Lemma wf_result ms h e m h' : step h ms h' (m :: ms) -> (forall a, In a ms -> wf h a) -> e = h' -> wf e m.
Proof. intros Hs Hw ->. apply (step_inv _ _ _ _ Hs Hw). left. reflexivity. Qed.

Definition is_new (s : store) (m : matrix) (l : list tree) (d : entries_dict) (ds : list entries_dict) (s' : store) : Prop :=
  s' = mkStore (s_lists s ++ [map uexpr l; map uexpr l]) (s_dicts s ++ ds) /\ swf_with s' m l /\ sdict s' m = d /\
  m_elements m = S (length (s_lists s)).
Lemma is_new_intro s m l d ds : m_elements m = S (length (s_lists s)) -> m_entrymap m < length (s_dicts s ++ ds) ->
  nth (m_entrymap m) (s_dicts s ++ ds) [] = d -> m_graph m = tree_call List_ l -> good (m_nrows m) (m_ncols m) l d ->
  is_new s m l d ds (mkStore (s_lists s ++ [map uexpr l; map uexpr l]) (s_dicts s ++ ds)).
Proof.
  intros H1 H2 H3 H4 H5. split; [reflexivity|]. split; [|split; [exact H3|exact H1]].
  unfold swf_with, sdict, contents. cbn [s_lists s_dicts]. rewrite H1, H3, app_length. cbn [length]. split; [lia|]. split; [exact H2|].
  split; [|split; [exact H4|exact H5]]. rewrite app_nth2 by lia. replace (S (length (s_lists s)) - length (s_lists s)) with 1 by lia. reflexivity.
Qed.

(** A call that makes a matrix, here and in ModelMatrix.v. *)
Lemma new_sim v s : (forall h, exists x, s_matrix_new v s = (Err x, s) /\ matrix_new (as_pyrows s v) h = (Err x, h)) \/
  exists m l d s', s_matrix_new v s = (Ok m, s') /\ is_new s m l d [d] s' /\
    forall h, exists m' h', matrix_new (as_pyrows s v) h = (Ok m', h') /\ same_matrix s' m h' m'.
Proof.
  destruct (s_new_cases v s empty_heap) as [(x & E1 & E2)|(nr & nc & ts & E1 & E2)].
  - left. intros h. exists x. split; [exact E1|]. destruct (s_new_cases v s h) as [(y & F1 & F2)|(nr & nc & ts & F1 & F2)]; [congruence|congruence].
  - right. set (r := fold_left store_pure (all_entries ts) ([], [])) in *.
    assert (Hg : good nr nc (fst r) (snd r)).
    { assert (W := step_new empty_heap [] _ _ _ (E1 empty_heap)). apply step_inv in W; [|intros m []].
      destruct W as (_ & _ & W). destruct (W _ (or_introl eq_refl)) as (_ & _ & _ & G). exact G. }
    eexists _, (fst r), (snd r), _. split; [exact E2|]. split.
    + apply is_new_intro; cbn [m_elements m_entrymap m_graph m_nrows m_ncols]; try reflexivity.
      * rewrite app_length. simpl. lia.
      * apply nth_end.
      * exact Hg.
    + intros h. eexists _, _. split; [apply E1|]. unfold same_matrix, contents.
      cbn [m_elements m_entrymap m_graph m_nrows m_ncols s_lists s_dicts h_lists h_dicts]. repeat (split; [reflexivity|]).
      rewrite !nth_end, !app_nth2 by lia. replace (S (length (s_lists s)) - length (s_lists s)) with 1 by lia.
      replace (S (length (h_lists h)) - length (h_lists h)) with 1 by lia. split; reflexivity.
Qed.

(** The same matrix, related to well-formed ones. *)
Lemma uexpr_inj l l' : map uexpr l = map uexpr l' -> l = l'.
Proof.
  revert l'. induction l as [|t l IH]; intros [|u l'] E; try discriminate; [reflexivity|]. injection E as -> E. rewrite (IH _ E). reflexivity.
Qed.
Lemma same_parts s M l h m : swf_with s M l -> same_matrix s M h m -> elems h m = l /\ emap h m = sdict s M.
Proof.
  intros (_ & _ & H & _) (_ & _ & _ & E & E2). split; [|symmetry; exact E2]. apply uexpr_inj. unfold elems. rewrite <- E. exact H.
Qed.

Lemma binop_sim A B func s la lb : swf_with s A la -> swf_with s B lb ->
  (same_shape A B = false /\ s_binop A B func s = (Err TypeError, s)) \/
  exists m l d s', s_binop A B func s = (Ok m, s') /\ is_new s m l d [d] s' /\
    forall h A' B', wf h A' -> wf h B' -> same_matrix s A h A' -> same_matrix s B h B' ->
      exists m' h', matrix_binop A' B' func h = (Ok m', h') /\ same_matrix s' m h' m'.
Proof.
  intros HA HB. rewrite (s_binop_spec A B func s la lb HA HB). destruct (same_shape A B) eqn:Es; [|left; split; reflexivity]. right. cbn zeta.
  set (r := fold_left (binop_pure lb func) (sdict s B) (la, sdict s A)).
  assert (Hs2 : m_nrows A = m_nrows B /\ m_ncols A = m_ncols B).
  { unfold same_shape in Es. apply andb_true_iff in Es as [E1 E2]. apply Nat.eqb_eq in E1, E2. auto. }
  assert (Hg : good (m_nrows A) (m_ncols A) (fst r) (snd r)).
  { destruct HA as (_ & _ & _ & _ & GA), HB as (_ & _ & _ & _ & GB). rewrite <- (proj1 Hs2), <- (proj2 Hs2) in GB.
    destruct GB as (G1 & _ & G3). apply (binop_fold _ _ lb func (sdict s B) G1 G3 la (sdict s A) GA). }
  eexists _, (fst r), (snd r), _. split; [reflexivity|]. split.
  - apply is_new_intro; cbn [m_elements m_entrymap m_graph m_nrows m_ncols]; try reflexivity.
    + rewrite app_length. simpl. lia.
    + apply nth_end.
    + exact Hg.
  - intros h A' B' WA WB SA SB. destruct (same_parts _ _ _ _ _ HA SA) as [EA1 EA2], (same_parts _ _ _ _ _ HB SB) as [EB1 EB2].
    rewrite (h_binop_spec A' B' func h WA WB).
    assert (Es' : same_shape A' B' = true).
    { unfold same_shape in *. destruct SA as (<- & <- & _), SB as (<- & <- & _). exact Es. }
    rewrite Es'. cbn zeta. rewrite EA1, EA2, EB1, EB2. fold r. eexists _, _. split; [reflexivity|]. unfold same_matrix, contents.
    cbn [m_elements m_entrymap m_graph m_nrows m_ncols s_lists s_dicts h_lists h_dicts].
    split; [apply SA|]. split; [apply SA|]. split; [reflexivity|].
    rewrite !nth_end, !app_nth2 by lia. replace (S (length (s_lists s)) - length (s_lists s)) with 1 by lia.
    replace (S (length (h_lists h)) - length (h_lists h)) with 1 by lia. split; reflexivity.
Qed.

Lemma diff_sim A sym s la : swf_with s A la ->
  (exists x, s_diff A sym s = (Err x, s) /\ forall h A', same_matrix s A h A' -> matrix_diff A' sym h = (Err x, h)) \/
  exists m l s', s_diff A sym s = (Ok m, s') /\ is_new s m l (sdict s A) [] s' /\ m_entrymap m = m_entrymap A /\
    forall h A', wf h A' -> same_matrix s A h A' ->
      exists m' h', matrix_diff A' sym h = (Ok m', h') /\ same_matrix s' m h' m'.
Proof.
  intros HA. rewrite s_diff_spec. destruct (expr_diff (m_graph A) sym 1) as [t|x] eqn:E.
  - right. assert (Hg : good (m_nrows A) (m_ncols A) (sym_args t) (sdict s A)).
    { set (A0 := mkMatrix (m_nrows A) (m_ncols A) 0 (m_graph A) 0). set (h0 := mkHeap [la] [sdict s A]).
      assert (Hd := h_diff_spec A0 sym h0). cbn [m_graph A0] in Hd. rewrite E in Hd.
      assert (W := step_diff h0 [A0] A0 sym _ _ (or_introl eq_refl) Hd). apply step_inv in W.
      - destruct W as (_ & _ & W). destruct (W _ (or_introl eq_refl)) as (_ & _ & _ & G). exact G.
      - intros m [<-|[]]. destruct HA as (_ & _ & _ & G1 & G2). split; [simpl; lia|]. split; [simpl; lia|]. split; [exact G1|exact G2]. }
    eexists _, (sym_args t), _. split; [rewrite <- (app_nil_r (s_dicts s)) at 1; reflexivity|]. split.
    + apply is_new_intro; cbn [m_elements m_entrymap m_graph m_nrows m_ncols]; try reflexivity.
      * rewrite app_nil_r. apply HA.
      * rewrite app_nil_r. reflexivity.
      * exact Hg.
    + split; [reflexivity|]. intros h A' WA SA. rewrite h_diff_spec. destruct SA as (S1 & S2 & S3 & S4 & S5).
      rewrite <- S3, E. eexists _, _. split; [reflexivity|]. unfold same_matrix, contents.
      cbn [m_elements m_entrymap m_graph m_nrows m_ncols s_lists s_dicts h_lists h_dicts].
      split; [exact S1|]. split; [exact S2|]. split; [reflexivity|]. rewrite app_nil_r.
      rewrite !app_nth2 by lia. replace (S (length (s_lists s)) - length (s_lists s)) with 1 by lia.
      replace (S (length (h_lists h)) - length (h_lists h)) with 1 by lia. split; [reflexivity|exact S5].
  - left. exists x. split; [reflexivity|]. intros h A' (_ & _ & S3 & _). rewrite h_diff_spec, <- S3, E. reflexivity.
Qed.

Lemma is_new_extends s m l d ds s' : is_new s m l d ds s' -> sextends s s'.
Proof. intros (-> & _). eexists _, ds. split; reflexivity. Qed.
Lemma sextends_refl s : sextends s s.
Proof. exists [], []. rewrite !app_nil_r. split; reflexivity. Qed.
Lemma inv_new s k m l d ds s' : inv s k -> is_new s m l d ds s' -> inv s' (hold_matrix (Ok m) k).
Proof. intros Hi (-> & Hw & _ & He). apply inv_matrix; [exact Hi|exact Hw|]. rewrite He. lia. Qed.

Lemma call_inv s k s' k' : call s k s' k' -> inv s k -> sextends s s' /\ inv s' k'.
Proof.
  intros Hc Hi. pose proof Hi as [Hb Hm]. destruct Hc as [s k v r s' Hv E|s k A B func r s' HA HB E|s k A sym r s' HA E|s k A r s' HA E].
  - destruct (new_sim v s) as [H|(m & l & d & s1 & E1 & Hn & _)].
    + destruct (H empty_heap) as (x & E1 & _). rewrite E1 in E. injection E as <- <-. split; [apply sextends_refl|exact Hi].
    + rewrite E1 in E. injection E as <- <-. split; [eapply is_new_extends, Hn|eapply inv_new; eauto].
  - destruct (Hm A HA) as [[la WA] _], (Hm B HB) as [[lb WB] _].
    destruct (binop_sim A B func s la lb WA WB) as [[_ E1]|(m & l & d & s1 & E1 & Hn & _)]; rewrite E1 in E; injection E as <- <-.
    + split; [apply sextends_refl|exact Hi].
    + split; [eapply is_new_extends, Hn|eapply inv_new; eauto].
  - destruct (Hm A HA) as [[la WA] _].
    destruct (diff_sim A sym s la WA) as [(x & E1 & _)|(m & l & s1 & E1 & Hn & _)]; rewrite E1 in E; injection E as <- <-.
    + split; [apply sextends_refl|exact Hi].
    + split; [eapply is_new_extends, Hn|eapply inv_new; eauto].
  - destruct (Hm A HA) as [[la WA] _]. destruct (s_tolist_spec s A la WA) as (rows & [Hs1 Hs2] & _ & _ & E1).
    rewrite E1 in E. injection E as <- <-. set (s' := mkStore _ _).
    assert (He : sextends s s') by (eexists _, []; split; [reflexivity|unfold s'; cbn [s_dicts]; rewrite app_nil_r; reflexivity]).
    split; [exact He|].
    assert (Hlen : length (s_lists s') = length (s_lists s) + m_nrows A + 1).
    { unfold s'. cbn [s_lists]. rewrite !app_length, map_length, Hs1. simpl. lia. }
    assert (Hls : forall vs r, In vs (map (map uexpr) rows ++ [map UList (seq (length (s_lists s)) (m_nrows A))]) -> In (UList r) vs ->
      length (s_lists s) <= r < length (s_lists s')).
    { intros vs r Hv Hr. apply in_app_iff in Hv as [Hv|[<-|[]]].
      - apply in_map_iff in Hv as (row & <- & _). destruct (no_ref _ _ Hr).
      - apply in_map_iff in Hr as (n & E & Hn). injection E as ->. apply in_seq in Hn. lia. }
    split; cbn [hold_list roots mats].
    + destruct Hb as [B1 B2]. split.
      * intros r [<-|Hr]; [lia|]. specialize (B1 r Hr). lia.
      * intros vs r Hv Hr. unfold s' in Hv. cbn [s_lists] in Hv. apply in_app_iff in Hv as [Hv|Hv].
        -- specialize (B2 vs r Hv Hr). lia.
        -- apply (Hls vs r Hv Hr).
    + intros m Hin. destruct (Hm m Hin) as [[l Hl] Hnr]. split; [exists l; eapply swf_with_old; eauto|].
      intros Hr. apply (reach_new s s' _ _ (roots k) _ eq_refl Hb) in Hr as [Hr|Hr].
      * exact (Hnr Hr).
      * destruct Hl as (Hl & _). lia.
      * lia.
      * intros vs r Hv Hr'. right. apply (Hls vs r Hv Hr').
Qed.

Lemma does_inv s k s' k' : does s k s' k' -> inv s k -> inv s' k'.
Proof.
  intros Hd Hi. pose proof Hi as [Hb Hm]. destruct Hd as [s k s' k' Hc|s k vs l s' Hv E|s k l vs s' Hl Hv E].
  - eapply call_inv; eauto.
  - injection E as <- <-. set (s' := mkStore _ _).
    assert (He : sextends s s') by (exists [vs], []; split; [reflexivity|unfold s'; cbn [s_dicts]; rewrite app_nil_r; reflexivity]).
    assert (Hlen : length (s_lists s') = S (length (s_lists s))) by (unfold s'; cbn [s_lists]; rewrite app_length; simpl; lia).
    assert (Hvs : forall r, In (UList r) vs -> reach s (roots k) r) by (intros r Hr; exact (Hv _ Hr)).
    split; cbn [hold_list roots mats].
    + pose proof Hb as [B1 B2]. split.
      * intros r [<-|Hr]; [lia|]. specialize (B1 r Hr). lia.
      * intros vs' r Hv' Hr. unfold s' in Hv'. cbn [s_lists] in Hv'. apply in_app_iff in Hv' as [Hv'|[<-|[]]].
        -- specialize (B2 vs' r Hv' Hr). lia.
        -- specialize (reach_bounded _ _ _ Hb (Hvs r Hr)). lia.
    + intros m Hin. destruct (Hm m Hin) as [[l0 Hl] Hnr]. split; [exists l0; eapply swf_with_old; eauto|].
      intros Hr. apply (reach_new s s' [vs] _ (roots k) _ eq_refl Hb) in Hr as [Hr|Hr].
      * exact (Hnr Hr).
      * destruct Hl as (Hl & _). lia.
      * lia.
      * intros vs' r [<-|[]] Hr'. left. apply Hvs, Hr'.
  - injection E as <-. set (s' := mkStore _ _).
    assert (Hlt := reach_bounded _ _ _ Hb Hl).
    assert (Hlen : length (s_lists s') = length (s_lists s)) by (apply set_nth_any_length).
    assert (Hc : forall q, contents s' q = if Nat.eqb q l then vs else contents s q) by (intros q; apply set_nth_any_nth, Hlt).
    assert (Hvs : forall r, In (UList r) vs -> reach s (roots k) r) by (intros r Hr; exact (Hv _ Hr)).
    assert (Hre : forall r, reach s' (roots k) r -> reach s (roots k) r).
    { intros r Hr. induction Hr as [r Hr|q r _ IH Hr]; [apply reach_root, Hr|]. rewrite Hc in Hr.
      destruct (Nat.eqb q l); [apply Hvs, Hr|eapply reach_in; eauto]. }
    split.
    + pose proof Hb as [B1 B2]. split.
      * intros r Hr. rewrite Hlen. apply B1, Hr.
      * intros vs' r Hv' Hr. rewrite Hlen. apply set_nth_any_In in Hv' as [->|Hv'].
        -- exact (reach_bounded _ _ _ Hb (Hvs r Hr)).
        -- exact (B2 vs' r Hv' Hr).
    + intros m Hin. destruct (Hm m Hin) as [[l0 Hl0] Hnr]. split; [|intros Hr; apply Hnr, Hre, Hr].
      exists l0. destruct Hl0 as (H1 & H2 & H3 & H4 & H5). split; [rewrite Hlen; exact H1|]. split; [exact H2|].
      split; [|split; [exact H4|exact H5]]. rewrite Hc. destruct (Nat.eqb_spec (m_elements m) l) as [Ee|_]; [|exact H3].
      exfalso. apply Hnr. rewrite Ee. exact Hl.
Qed.
Lemma inv_empty : inv empty_store (mkHeld [] []).
Proof. split; [split|]; cbn; tauto. Qed.
Lemma runs_inv s k s' k' : runs s k s' k' -> inv s k -> inv s' k'.
Proof. intros H Hi. induction H as [|s k s1 k1 s2 k2 _ IH Hd]; [exact Hi|]. eapply does_inv; eauto. Qed.
Lemma reached_inv s k : reached s k -> inv s k.
Proof. intros H. exact (runs_inv _ _ _ _ H inv_empty). Qed.

(** A matrix keeps its parts. *)
Lemma does_keeps s k s' k' m l : does s k s' k' -> inv s k -> In m (mats k) -> swf_with s m l ->
  In m (mats k') /\ swf_with s' m l /\ sdict s' m = sdict s m.
Proof.
  intros Hd Hi Hin Hw. pose proof Hi as [Hb Hm]. destruct Hd as [s k s' k' Hc|s k vs l0 s' Hv E|s k l0 vs s' Hl Hv E].
  - destruct (call_inv _ _ _ _ Hc Hi) as [He _]. split.
    + destruct Hc as [s k v r s' _ E|s k A B func r s' HA HB E|s k A sym r s' HA E|s k A r s' HA E]; destruct r; cbn; auto.
    + split; [eapply swf_with_old; eauto|]. destruct He as (ls & ds & _ & E2). unfold sdict. rewrite E2. apply app_nth1, Hw.
  - injection E as <- <-. split; [exact Hin|]. split; [|reflexivity]. eapply swf_with_old; [|exact Hw].
    exists [vs], []. split; [reflexivity|cbn; rewrite app_nil_r; reflexivity].
  - injection E as <-. split; [exact Hin|]. split; [|reflexivity]. destruct (Hm m Hin) as [_ Hnr].
    assert (Hlt := reach_bounded _ _ _ Hb Hl). destruct Hw as (H1 & H2 & H3 & H4 & H5).
    split; [cbn [s_lists]; rewrite set_nth_any_length; exact H1|]. split; [exact H2|]. split; [|split; [exact H4|exact H5]].
    unfold contents. cbn [s_lists]. rewrite set_nth_any_nth by exact Hlt.
    destruct (Nat.eqb_spec (m_elements m) l0) as [Ee|_]; [|exact H3]. exfalso. apply Hnr. rewrite Ee. exact Hl.
Qed.
Lemma runs_keeps s k s' k' m l : runs s k s' k' -> inv s k -> In m (mats k) -> swf_with s m l ->
  In m (mats k') /\ swf_with s' m l /\ sdict s' m = sdict s m.
Proof.
  intros H Hi Hin Hw. induction H as [|s k s1 k1 s2 k2 H1 IH Hd]; [auto|]. destruct (IH Hi Hin Hw) as (G1 & G2 & G3).
  rewrite <- G3. eapply does_keeps; eauto. eapply runs_inv; eauto.
Qed.

Lemma rows_of_tolist s m l rows : swf_with s m l -> shape_ok (m_nrows m) (m_ncols m) rows ->
  rows_of (mkStore (s_lists s ++ map (map uexpr) rows ++ [map UList (seq (length (s_lists s)) (m_nrows m))]) (s_dicts s))
          (length (s_lists s) + m_nrows m) = map (map uexpr) rows /\
  contents (mkStore (s_lists s ++ map (map uexpr) rows ++ [map UList (seq (length (s_lists s)) (m_nrows m))]) (s_dicts s))
          (length (s_lists s) + m_nrows m) = map UList (seq (length (s_lists s)) (m_nrows m)).
Proof.
  intros Hw [Hl Hr]. set (s' := mkStore _ _).
  assert (Hc : contents s' (length (s_lists s) + m_nrows m) = map UList (seq (length (s_lists s)) (m_nrows m))).
  { unfold contents, s'. cbn [s_lists]. rewrite app_assoc.
    replace (length (s_lists s) + m_nrows m) with (length (s_lists s ++ map (map uexpr) rows)) by (rewrite app_length, map_length, Hl; reflexivity).
    apply nth_end. }
  split; [|exact Hc]. unfold rows_of. rewrite Hc, map_map.
  apply nth_ext with (d := []) (d' := []); rewrite !map_length, seq_length; [symmetry; exact Hl|].
  intros n Hn. rewrite (nth_indep _ [] (contents s' 0)) by (rewrite map_length, seq_length; exact Hn).
  rewrite (map_nth (fun r => contents s' r)), seq_nth by exact Hn. unfold contents, s'. cbn [s_lists]. apply nth_mid. rewrite map_length. lia.
Qed.
Lemma entries_spec s m l : swf_with s m l -> exists rows, shape_ok (m_nrows m) (m_ncols m) rows /\
  foldM (fun rows pn => do t <- getitem l (snd pn); set_entry rows (fst pn) t) (sdict s m) (repeat (repeat zero (m_ncols m)) (m_nrows m)) = Ok rows /\
  entries_now m s = Ok (map (map uexpr) rows).
Proof.
  intros Hw. destruct (s_tolist_spec s m l Hw) as (rows & Hsh & _ & Ef & E). exists rows. split; [exact Hsh|]. split; [exact Ef|].
  unfold entries_now. rewrite E. rewrite (proj1 (rows_of_tolist s m l rows Hw Hsh)). reflexivity.
Qed.
Lemma entry_spec s m l i j : swf_with s m l ->
  entry_now m i j s = if in_range i (m_nrows m) && in_range j (m_ncols m) then Ok (uexpr (entry l (sdict s m) (Z.to_nat i, Z.to_nat j))) else Err IndexError.
Proof.
  intros (H1 & H2 & H3 & H4 & H5). unfold entry_now, s_getitem. destruct (in_range i (m_nrows m) && in_range j (m_ncols m)); [|reflexivity].
  cbn [negb]. unfold s_has, s_at, s_get, sbind, sret, slift, s_readdict, s_read, dict_mem, dict_getitem, entry. fold (sdict s m).
  destruct (dict_get pos_eqb (sdict s m) (Z.to_nat i, Z.to_nat j)) as [n|] eqn:E; [|reflexivity]. fold (sdict s m). rewrite E. cbn [of_option].
  fold (contents s (m_elements m)). rewrite H3, getitem_uexpr; [reflexivity|]. eapply good_lt; eauto.
Qed.
Lemma entries_same s m h m' l : swf_with s m l -> wf h m' -> same_matrix s m h m' ->
  exists rows, tolist m' h = Ok rows /\ entries_now m s = Ok (map (map uexpr) rows).
Proof.
  intros Hw Hw' Hs. destruct (same_parts _ _ _ _ _ Hw Hs) as [E1 E2]. destruct Hs as (S1 & S2 & _).
  destruct (entries_spec s m l Hw) as (rows & _ & Ef & E). exists rows. split; [|exact E].
  unfold tolist, matrix_tolist, hbind, hlift, read_dict, read_list. cbn [fst]. fold (elems h m'). fold (emap h m').
  rewrite E1, E2, <- S1, <- S2. exact Ef.
Qed.
