(** * Matrices: proofs for C42 - C45 *)
From Verif Require Import Py ModelTree SpecTree ProofBase ModelDiff SpecDiff ProofDiff ModelSym ModelCas ProofCasDiff ModelMatrix ModelSympy SpecMatrix.

(** ** Dictionaries of positions *)
Lemma pos_eqb_spec p q : reflect (p = q) (pos_eqb p q).
Proof.
  destruct p as [a b], q as [c d]. unfold pos_eqb. cbn [fst snd].
  destruct (Nat.eqb_spec a c), (Nat.eqb_spec b d); constructor; congruence.
Qed.
Lemma pos_eqb_refl p : pos_eqb p p = true.
Proof. destruct (pos_eqb_spec p p); congruence. Qed.

Lemma dget_none (d : entries_dict) p : dict_get pos_eqb d p = None <-> ~ In p (map fst d).
Proof.
  induction d as [|[q v] d IH]; simpl; [tauto|]. destruct (pos_eqb_spec p q) as [->|H].
  - split; [discriminate|tauto].
  - rewrite IH. intuition congruence.
Qed.
Lemma dget_some_in (d : entries_dict) p n : dict_get pos_eqb d p = Some n -> In (p, n) d.
Proof.
  induction d as [|[q v] d IH]; simpl; [discriminate|]. destruct (pos_eqb_spec p q) as [->|H].
  - intros E. injection E as ->. auto.
  - auto.
Qed.
Lemma dget_in (d : entries_dict) p n : NoDup (map fst d) -> In (p, n) d -> dict_get pos_eqb d p = Some n.
Proof.
  induction d as [|[q v] d IH]; simpl; [tauto|]. intros Hn [E|H].
  - injection E as -> ->. rewrite pos_eqb_refl. reflexivity.
  - inversion Hn as [|? ? Hq Hn']; subst. destruct (pos_eqb_spec p q) as [->|_]; [|auto].
    exfalso. apply Hq. apply in_map_iff. exists (q, n). auto.
Qed.
Lemma dget_app (d : entries_dict) p q n :
  dict_get pos_eqb (d ++ [(q, n)]) p =
  match dict_get pos_eqb d p with Some m => Some m | None => if pos_eqb p q then Some n else None end.
Proof.
  induction d as [|[r v] d IH]; simpl; [reflexivity|]. destruct (pos_eqb p r); [reflexivity|exact IH].
Qed.
Lemma dset_absent (d : entries_dict) p n : ~ In p (map fst d) -> dict_set pos_eqb d p n = d ++ [(p, n)].
Proof.
  induction d as [|[q v] d IH]; simpl; [reflexivity|]. intros H. destruct (pos_eqb_spec p q) as [->|_]; [tauto|].
  rewrite IH by tauto. reflexivity.
Qed.

(** ** Contents of a matrix *)
Definition range_ok (nr nc : nat) (d : entries_dict) : Prop :=
  forall p, In p (map fst d) -> fst p < nr /\ snd p < nc.
(** The positions of the dict count through the elements. *)
Definition good (nr nc : nat) (l : list tree) (d : entries_dict) : Prop :=
  NoDup (map fst d) /\ map snd d = seq 0 (length l) /\ range_ok nr nc d.
Definition entry (l : list tree) (d : entries_dict) (p : pos) : tree :=
  match dict_get pos_eqb d p with Some n => nth n l zero | None => zero end.

Lemma good_lt nr nc l d p n : good nr nc l d -> dict_get pos_eqb d p = Some n -> n < length l.
Proof.
  intros (_ & Hs & _) H. apply dget_some_in in H. apply (in_map snd) in H. rewrite Hs in H.
  apply in_seq in H. simpl in H. lia.
Qed.
Lemma good_inj nr nc l d p q n : good nr nc l d -> dict_get pos_eqb d p = Some n -> dict_get pos_eqb d q = Some n -> p = q.
Proof.
  intros (_ & Hs & _) Hp Hq. apply dget_some_in in Hp, Hq.
  assert (Hnd : NoDup (map snd d)) by (rewrite Hs; apply seq_NoDup). clear Hs.
  induction d as [|[r v] d IH]; simpl in *; [tauto|]. inversion Hnd as [|? ? Hv Hnd']; subst.
  destruct Hp as [Ep|Hp], Hq as [Eq|Hq].
  - congruence.
  - injection Ep as -> ->. exfalso. apply Hv. apply in_map_iff. exists (q, n). auto.
  - injection Eq as -> ->. exfalso. apply Hv. apply in_map_iff. exists (p, n). auto.
  - auto.
Qed.

Lemma good_append nr nc l d p t : good nr nc l d -> ~ In p (map fst d) -> fst p < nr /\ snd p < nc ->
  good nr nc (l ++ [t]) (d ++ [(p, length l)]).
Proof.
  intros (Hn & Hs & Hr) Hp Hrp. split; [|split].
  - rewrite map_app. cbn [map fst].
    clear -Hn Hp. induction (map fst d) as [|q m IH]; simpl in *; [repeat constructor; auto|].
    inversion Hn as [|? ? Hq Hn']; subst. constructor; [|apply IH; auto].
    rewrite in_app_iff. simpl. intuition.
  - rewrite map_app, Hs, app_length. cbn [map snd length]. rewrite Nat.add_comm. cbn [Nat.add].
    rewrite seq_S. reflexivity.
  - intros q Hq. rewrite map_app, in_app_iff in Hq. destruct Hq as [Hq|[<-|[]]]; auto.
Qed.
Lemma entry_append nr nc l d p t q : good nr nc l d -> ~ In p (map fst d) ->
  entry (l ++ [t]) (d ++ [(p, length l)]) q = if pos_eqb q p then t else entry l d q.
Proof.
  intros Hg Hp. unfold entry. rewrite dget_app. destruct (dict_get pos_eqb d q) as [n|] eqn:E.
  - destruct (pos_eqb_spec q p) as [->|_].
    + exfalso. apply Hp. apply dget_some_in in E. apply (in_map fst) in E. exact E.
    + apply app_nth1. eapply good_lt; eauto.
  - destruct (pos_eqb_spec q p) as [->|_]; [|reflexivity].
    rewrite app_nth2 by lia. rewrite Nat.sub_diag. reflexivity.
Qed.

Lemma set_nth_any_length {A} (l : list A) i a : length (set_nth_any l i a) = length l.
Proof.
  unfold set_nth_any. rewrite app_length. destruct (skipn i l) as [|b r] eqn:E.
  - rewrite <- (firstn_skipn i l) at 2. rewrite E, app_length. reflexivity.
  - rewrite <- (firstn_skipn i l) at 2. rewrite E, app_length. reflexivity.
Qed.
Lemma set_nth_any_S {A} (b : A) l i a : set_nth_any (b :: l) (S i) a = b :: set_nth_any l i a.
Proof. reflexivity. Qed.
Lemma set_nth_any_nth {A} (l : list A) i a k d : i < length l ->
  nth k (set_nth_any l i a) d = if Nat.eqb k i then a else nth k l d.
Proof.
  revert i k. induction l as [|b l IH]; intros i k Hi; [simpl in Hi; lia|].
  destruct i as [|i]; [destruct k; reflexivity|]. rewrite set_nth_any_S.
  destruct k as [|k]; [reflexivity|]. cbn [nth]. rewrite IH by (simpl in Hi; lia). reflexivity.
Qed.
Lemma set_nth_any_last {A} (l : list A) a b : set_nth_any (l ++ [a]) (length l) b = l ++ [b].
Proof. induction l as [|c l IH]; [reflexivity|]. cbn [app length]. rewrite set_nth_any_S, IH. reflexivity. Qed.

(** ** Matrices in the heap *)
Definition elems (h : heap) (m : matrix) : list tree := nth (m_elements m) (h_lists h) [].
Definition emap (h : heap) (m : matrix) : entries_dict := nth (m_entrymap m) (h_dicts h) [].
Definition wf (h : heap) (m : matrix) : Prop :=
  m_elements m < length (h_lists h) /\ m_entrymap m < length (h_dicts h) /\
  m_graph m = tree_call List_ (elems h m) /\ good (m_nrows m) (m_ncols m) (elems h m) (emap h m).

Definition extends (h h' : heap) : Prop :=
  exists ls ds, h_lists h' = h_lists h ++ ls /\ h_dicts h' = h_dicts h ++ ds.
Lemma extends_refl h : extends h h.
Proof. exists [], []. rewrite !app_nil_r. auto. Qed.
Lemma extends_trans a b c : extends a b -> extends b c -> extends a c.
Proof.
  intros (l1 & d1 & H1 & H2) (l2 & d2 & H3 & H4). exists (l1 ++ l2), (d1 ++ d2).
  rewrite H3, H4, H1, H2, !app_assoc. auto.
Qed.
Lemma extends_same h h' m : wf h m -> extends h h' -> elems h' m = elems h m /\ emap h' m = emap h m.
Proof.
  intros (He & Hd & _) (ls & ds & Hl & Hds). unfold elems, emap. rewrite Hl, Hds, !app_nth1 by assumption. auto.
Qed.
Lemma wf_extends h h' m : wf h m -> extends h h' -> wf h' m.
Proof.
  intros Hw He. destruct (extends_same h h' m Hw He) as [E1 E2]. destruct Hw as (H1 & H2 & H3 & H4).
  destruct He as (ls & ds & Hl & Hds). unfold wf. rewrite E1, E2, Hl, Hds, !app_length. repeat split; try lia; try apply H4; auto.
Qed.

Lemma matrix__new_spec nr nc L l D d : forall h, h = mkHeap (L ++ [l]) (D ++ [d]) ->
  matrix__new nr nc (length L) (length D) h =
  (Ok (mkMatrix nr nc (S (length L)) (tree_call List_ l) (length D)), mkHeap (L ++ [l; l]) (D ++ [d])).
Proof.
  intros h ->. unfold matrix__new, list_copy, hbind, hret, read_list, new_list. cbn [h_lists h_dicts].
  rewrite !(app_nth2 L), Nat.sub_diag by lia. cbn [nth].
  rewrite app_nth1 by (rewrite app_length; simpl; lia). rewrite !(app_nth2 L), Nat.sub_diag by lia. cbn [nth].
  rewrite <- app_assoc, app_length. cbn [length app]. rewrite Nat.add_1_r. reflexivity.
Qed.

(** ** Construction *)
Definition store_pure (acc : list tree * entries_dict) (ije : pos * tree) : list tree * entries_dict :=
  let '(l, d) := acc in
  if tree_eqb (snd ije) zero then (l, d) else (l ++ [snd ije], dict_set pos_eqb d (fst ije) (length l)).

Lemma read_last L l D d h : h = mkHeap (L ++ [l]) (D ++ [d]) ->
  nth (length L) (h_lists h) [] = l /\ nth (length D) (h_dicts h) [] = d.
Proof. intros ->. cbn. rewrite !app_nth2, !Nat.sub_diag by lia. auto. Qed.

Lemma store_entry_spec L l D d e :
  store_entry (length L) (length D) e (mkHeap (L ++ [l]) (D ++ [d])) =
  (Ok tt, mkHeap (L ++ [fst (store_pure (l, d) e)]) (D ++ [snd (store_pure (l, d) e)])).
Proof.
  destruct e as [p t]. unfold store_entry, store_pure. cbn [fst snd].
  destruct (tree_eqb t zero); [reflexivity|].
  unfold list_len, dict_put, list_append, hbind, hret, read_list, read_dict, write_list, write_dict. cbn [h_lists h_dicts].
  rewrite !app_nth2, !Nat.sub_diag by lia. cbn [nth]. rewrite !set_nth_any_last. reflexivity.
Qed.

Lemma hfor_app {A} (body : A -> hm unit) l1 l2 h :
  hfor body (l1 ++ l2) h = hbind (hfor body l1) (fun _ => hfor body l2) h.
Proof.
  revert h. induction l1 as [|a l1 IH]; intros h; [reflexivity|]. cbn [app hfor]. unfold hbind in *.
  destruct (body a h) as [[u|x] h']; [apply IH|reflexivity].
Qed.

Lemma hfor_store L l D d es :
  hfor (store_entry (length L) (length D)) es (mkHeap (L ++ [l]) (D ++ [d])) =
  (Ok tt, mkHeap (L ++ [fst (fold_left store_pure es (l, d))]) (D ++ [snd (fold_left store_pure es (l, d))])).
Proof.
  revert l d. induction es as [|e es IH]; intros l d; [reflexivity|]. cbn [hfor fold_left]. unfold hbind.
  rewrite store_entry_spec. rewrite IH. rewrite <- surjective_pairing. reflexivity.
Qed.

Definition row_entries (irow : nat * list tree) : list (pos * tree) :=
  map (fun je => ((fst irow, fst je), snd je)) (enumerate_from 0 (snd irow)).
Definition all_entries (rows : list (list tree)) : list (pos * tree) :=
  flat_map row_entries (enumerate_from 0 rows).

Lemma hfor_map {A B} (f : A -> B) (body : B -> hm unit) l h : hfor (fun a => body (f a)) l h = hfor body (map f l) h.
Proof.
  revert h. induction l as [|a l IH]; intros h; [reflexivity|]. cbn [hfor map]. unfold hbind.
  destruct (body (f a) h) as [[u|x] h']; [apply IH|reflexivity].
Qed.
Lemma hfor_nested {A B} (f : A -> list B) (body : B -> hm unit) l h :
  hfor (fun a => hfor body (f a)) l h = hfor body (flat_map f l) h.
Proof.
  revert h. induction l as [|a l IH]; intros h; [reflexivity|]. cbn [hfor flat_map]. rewrite hfor_app. unfold hbind.
  destruct (hfor body (f a) h) as [[u|x] h']; [apply IH|reflexivity].
Qed.
Lemma hfor_ext {A} (f g : A -> hm unit) l h : (forall a h, f a h = g a h) -> hfor f l h = hfor g l h.
Proof.
  intros H. revert h. induction l as [|a l IH]; intros h; [reflexivity|]. cbn [hfor]. unfold hbind. rewrite H.
  destruct (g a h) as [[u|x] h']; [apply IH|reflexivity].
Qed.

(** What storing does. *)
Lemma store_fold nr nc es : forall l d,
  good nr nc l d -> NoDup (map fst es) -> (forall p, In p (map fst es) -> ~ In p (map fst d)) -> range_ok nr nc (map (fun e => (fst e, 0)) es) ->
  good nr nc (fst (fold_left store_pure es (l, d))) (snd (fold_left store_pure es (l, d))) /\
  (forall p, entry (fst (fold_left store_pure es (l, d))) (snd (fold_left store_pure es (l, d))) p =
     match find (fun e => pos_eqb p (fst e)) es with Some e => snd e | None => entry l d p end).
Proof.
  induction es as [|[p0 t0] es IH]; intros l d Hg Hn Hd Hr; [split; [exact Hg|reflexivity]|].
  cbn [fold_left]. cbn [map fst] in Hn, Hd, Hr. inversion Hn as [|? ? Hp0 Hn']; subst.
  assert (Hr' : range_ok nr nc (map (fun e => (fst e, 0)) es)) by (intros p Hp; apply Hr; right; exact Hp).
  assert (Hp0d : ~ In p0 (map fst d)) by (apply Hd; left; reflexivity).
  assert (Hr0 : fst p0 < nr /\ snd p0 < nc) by (apply Hr; left; reflexivity).
  assert (Hentry0 : entry l d p0 = zero).
  { unfold entry. apply dget_none in Hp0d. rewrite Hp0d. reflexivity. }
  unfold store_pure at 2 4 6 8. cbn [fst snd].
  destruct (tree_eqb_spec t0 zero) as [->|Ht0].
  - destruct (IH l d Hg Hn') as [H1 H2]; auto. { intros p Hp. apply Hd. right. exact Hp. }
    split; [exact H1|]. intros p. rewrite H2. cbn [find fst snd]. destruct (pos_eqb_spec p p0) as [->|_]; [|reflexivity].
    destruct (find _ es) as [[q u]|] eqn:Ef; [|exact Hentry0].
    exfalso. apply find_some in Ef as [Hin He]. cbn [fst] in He. destruct (pos_eqb_spec p0 q) as [->|]; [|discriminate].
    apply Hp0. apply in_map_iff. exists (q, u). auto.
  - rewrite dset_absent by exact Hp0d.
    destruct (IH (l ++ [t0]) (d ++ [(p0, length l)])) as [H1 H2]; auto.
    { apply good_append; auto. }
    { intros p Hp. rewrite map_app, in_app_iff. cbn [map fst In]. intros [H|[<-|[]]].
      - apply (Hd p); auto. right. exact Hp.
      - exact (Hp0 Hp). }
    split; [exact H1|]. intros p. rewrite H2, (entry_append nr nc) by assumption. cbn [find fst snd].
    destruct (pos_eqb_spec p p0) as [->|_]; [|reflexivity].
    destruct (find _ es) as [[q u]|] eqn:Ef; [|reflexivity].
    exfalso. apply find_some in Ef as [Hin He]. cbn [fst] in He. destruct (pos_eqb_spec p0 q) as [->|]; [|discriminate].
    apply Hp0. apply in_map_iff. exists (q, u). auto.
Qed.

Lemma enumerate_in {A} (l : list A) : forall n i a, In (i, a) (enumerate_from n l) <-> n <= i /\ nth_error l (i - n) = Some a.
Proof.
  induction l as [|b l IH]; intros n i a; cbn [enumerate_from In].
  - split; [tauto|]. intros [_ H]. destruct (i - n); discriminate.
  - rewrite IH. split.
    + intros [E|[H1 H2]]; [injection E as <- <-; split; [lia|rewrite Nat.sub_diag; reflexivity]|].
      split; [lia|]. replace (i - n) with (S (i - S n)) by lia. exact H2.
    + intros [H1 H2]. destruct (Nat.eq_dec i n) as [->|Hne].
      * left. rewrite Nat.sub_diag in H2. injection H2 as ->. reflexivity.
      * right. split; [lia|]. replace (i - n) with (S (i - S n)) in H2 by lia. exact H2.
Qed.
Lemma enumerate_fst {A} (l : list A) n : map fst (enumerate_from n l) = seq n (length l).
Proof. revert n. induction l as [|a l IH]; intros n; [reflexivity|]. simpl. rewrite IH. reflexivity. Qed.
Lemma enumerate_snd {A} (l : list A) n : map snd (enumerate_from n l) = l.
Proof. revert n. induction l as [|a l IH]; intros n; [reflexivity|]. simpl. rewrite IH. reflexivity. Qed.

Lemma all_entries_in rows p t : In (p, t) (all_entries rows) <->
  exists row, nth_error rows (fst p) = Some row /\ nth_error row (snd p) = Some t.
Proof.
  unfold all_entries. rewrite in_flat_map. split.
  - intros ([i row] & Hi & H). apply enumerate_in in Hi as [_ Hi]. rewrite Nat.sub_0_r in Hi.
    unfold row_entries in H. apply in_map_iff in H as ([j u] & E & Hj). cbn [fst snd] in *. injection E as <- <-.
    apply enumerate_in in Hj as [_ Hj]. rewrite Nat.sub_0_r in Hj. exists row. auto.
  - intros (row & H1 & H2). exists (fst p, row). split; [apply enumerate_in; rewrite Nat.sub_0_r; split; [lia|exact H1]|].
    unfold row_entries. apply in_map_iff. exists (snd p, t). cbn [fst snd]. split; [destruct p; reflexivity|].
    apply enumerate_in. rewrite Nat.sub_0_r. split; [lia|exact H2].
Qed.

Lemma NoDup_app_intro {A} (l m : list A) : NoDup l -> NoDup m -> (forall a, In a l -> ~ In a m) -> NoDup (l ++ m).
Proof.
  induction l as [|a l IH]; cbn [app]; intros Hl Hm H; [exact Hm|]. inversion Hl as [|? ? Ha Hl']; subst.
  constructor.
  - rewrite in_app_iff. intros [H1|H1]; [auto|]. apply (H a); [left; reflexivity|exact H1].
  - apply IH; auto. intros b Hb. apply H. right. exact Hb.
Qed.

Lemma all_entries_NoDup rows : NoDup (map fst (all_entries rows)).
Proof.
  unfold all_entries. generalize 0 as n. induction rows as [|row rows IH]; intros n; cbn [enumerate_from flat_map]; [constructor|].
  rewrite map_app. apply NoDup_app_intro; [|apply IH|].
  - unfold row_entries. cbn [fst snd]. rewrite map_map. cbn [fst].
    replace (map _ _) with (map (fun j => (n, j)) (map fst (enumerate_from 0 row)));
      [|rewrite map_map; reflexivity]. rewrite enumerate_fst.
    apply FinFun.Injective_map_NoDup; [|apply seq_NoDup]. intros a b E. congruence.
  - intros p Hp Hq. unfold row_entries in Hp. cbn [fst snd] in Hp. rewrite map_map in Hp. cbn [fst] in Hp.
    apply in_map_iff in Hp as (je & <- & _).
    apply in_map_iff in Hq as ([q t] & E & Hq). cbn [fst] in E. subst q.
    apply in_flat_map in Hq as ([i r] & Hi & Hr). apply enumerate_in in Hi as [Hi _].
    unfold row_entries in Hr. apply in_map_iff in Hr as (je' & E & _). cbn [fst snd] in E. injection E as E _ _. lia.
Qed.

Lemma find_in {A} (es : list (pos * A)) p t : NoDup (map fst es) -> In (p, t) es ->
  find (fun e => pos_eqb p (fst e)) es = Some (p, t).
Proof.
  induction es as [|[q u] es IH]; cbn [map fst find]; intros Hn H; [destruct H|].
  inversion Hn as [|? ? Hq Hn']; subst. destruct (pos_eqb_spec p q) as [->|Hne].
  - destruct H as [E|H]; [congruence|]. exfalso. apply Hq. apply in_map_iff. exists (q, t). auto.
  - destruct H as [E|H]; [congruence|]. auto.
Qed.

Lemma store_keys es : forall l d p, In p (map fst (snd (fold_left store_pure es (l, d)))) -> In p (map fst d) \/ exists t, In (p, t) es /\ t <> zero.
Proof.
  induction es as [|[p0 t0] es IH]; intros l d p Hp; [left; exact Hp|]. cbn [fold_left] in Hp. unfold store_pure at 2 in Hp. cbn [fst snd] in Hp.
  destruct (tree_eqb_spec t0 zero) as [->|Ht0].
  - apply IH in Hp as [Hp|(t & H1 & H2)]; [left; exact Hp|right; exists t; split; [right; exact H1|exact H2]].
  - apply IH in Hp as [Hp|(t & H1 & H2)]; [|right; exists t; split; [right; exact H1|exact H2]].
    destruct (in_dec (fun p q => reflect_dec _ _ (pos_eqb_spec p q)) p0 (map fst d)) as [Hi|Hi].
    + left. assert (E : map fst (dict_set pos_eqb d p0 (length l)) = map fst d); [|rewrite <- E; exact Hp].
      clear -Hi. induction d as [|[q v] d IH]; [destruct Hi|]. cbn [dict_set]. destruct (pos_eqb_spec p0 q) as [->|Hn]; [reflexivity|].
      cbn [map fst]. f_equal. apply IH. destruct Hi as [Hi|Hi]; [cbn [fst] in Hi; congruence|exact Hi].
    + rewrite dset_absent, map_app in Hp by exact Hi. apply in_app_or in Hp as [Hp|[<-|[]]]; [left; exact Hp|].
      right. exists t0. split; [left; reflexivity|exact Ht0].
Qed.

(** The matrix of given rows. *)
Definition rect (nc : nat) (rows : list (list tree)) : Prop := forall row, In row rows -> length row = nc.

Lemma matrix_new_ok rows ncols ts h :
  rows <> [] -> (forall r, In r rows -> length r = ncols) ->
  Forall2 (Forall2 (fun o t => expressify o = Ok t)) rows ts ->
  exists m h', matrix_new (PRows (map PRow rows)) h = (Ok m, h') /\ extends h h' /\ wf h' m /\
    m_nrows m = length rows /\ m_ncols m = ncols /\ rect ncols ts /\ length ts = length rows /\
    forall p, entry (elems h' m) (emap h' m) p =
      match nth_error ts (fst p) with
      | Some row => match nth_error row (snd p) with Some t => t | None => zero end
      | None => zero
      end /\ (In p (map fst (emap h' m)) -> entry (elems h' m) (emap h' m) p <> zero).
Proof.
  intros Hne Hlen Hts.
  assert (Hrows : forallb is_row (map PRow rows) = true) by (apply forallb_forall; intros r Hr; apply in_map_iff in Hr as (l & <- & _); reflexivity).
  assert (Hrect : forallb (fun r => Nat.eqb (length (row_items r)) ncols) (map PRow rows) = true).
  { apply forallb_forall. intros r Hr. apply in_map_iff in Hr as (l & <- & Hl). apply Nat.eqb_eq. apply Hlen, Hl. }
  assert (HmapM : mapM (fun r => mapM expressify (row_items r)) (map PRow rows) = Ok ts).
  { clear -Hts. induction Hts as [|row t rows ts H _ IH]; [reflexivity|]. cbn [map mapM row_items].
    assert (E : mapM expressify row = Ok t); [|rewrite E, IH; reflexivity].
    clear -H. induction H as [|o u row t Ho _ IH]; [reflexivity|]. cbn [mapM]. rewrite Ho, IH. reflexivity. }
  assert (Hrt : rect ncols ts).
  { intros row Hr. clear -Hts Hlen Hr. induction Hts as [|r t rows ts H _ IH]; [destruct Hr|].
    destruct Hr as [->|Hr]; [|apply IH; auto; intros q Hq; apply Hlen; right; exact Hq].
    rewrite <- (Hlen r (or_introl eq_refl)). clear -H. induction H; simpl; congruence. }
  assert (Hlt : length ts = length rows) by (clear -Hts; induction Hts; simpl; congruence).
  set (es := all_entries ts).
  destruct (store_fold (length rows) ncols es [] []) as [Hg He].
  { split; [constructor|]. split; [reflexivity|]. intros p []. }
  { apply all_entries_NoDup. }
  { intros p _ []. }
  { intros p Hp. rewrite map_map in Hp. cbn [fst] in Hp. apply in_map_iff in Hp as ([q t] & <- & Hq). cbn [fst].
    apply all_entries_in in Hq as (row & H1 & H2). split.
    - rewrite <- Hlt. apply nth_error_Some. congruence.
    - rewrite <- (Hrt row); [apply nth_error_Some; congruence|]. eapply nth_error_In, H1. }
  set (l := fst (fold_left store_pure es ([], []))) in *. set (d := snd (fold_left store_pure es ([], []))) in *.
  exists (mkMatrix (length rows) ncols (S (length (h_lists h))) (tree_call List_ l) (length (h_dicts h))),
    (mkHeap (h_lists h ++ [l; l]) (h_dicts h ++ [d])).
  assert (El : forall m', m_elements m' = S (length (h_lists h)) -> elems (mkHeap (h_lists h ++ [l; l]) (h_dicts h ++ [d])) m' = l).
  { intros m' E. unfold elems. rewrite E. cbn [h_lists]. rewrite app_nth2 by lia.
    replace (S (length (h_lists h)) - length (h_lists h)) with 1 by lia. reflexivity. }
  assert (Ed : forall m', m_entrymap m' = length (h_dicts h) -> emap (mkHeap (h_lists h ++ [l; l]) (h_dicts h ++ [d])) m' = d).
  { intros m' E. unfold emap. rewrite E. cbn [h_dicts]. rewrite app_nth2, Nat.sub_diag by lia. reflexivity. }
  split; [|split; [|split; [|split; [reflexivity|split; [reflexivity|split; [exact Hrt|split; [exact Hlt|]]]]]]].
  - unfold matrix_new. rewrite Hrows. cbn [negb].
    destruct rows as [|row0 rows]; [congruence|]. cbn [map getitem nth_error of_option].
    unfold hbind at 1, hlift at 1. unfold getitem, of_option. cbn [nth_error row_items]. rewrite (Hlen row0 (or_introl eq_refl)).
    cbn [map] in Hrect. rewrite Hrect. cbn [negb]. cbn [map] in HmapM. rewrite HmapM.
    unfold hbind at 1, hlift. unfold hbind at 1, new_list. unfold hbind at 1, new_dict. cbn [h_lists h_dicts].
    unfold hbind.
    rewrite (hfor_ext _ (fun irow => hfor (store_entry (length (h_lists h)) (length (h_dicts h))) (row_entries irow)))
      by (intros irow h0; unfold row_entries; rewrite <- hfor_map; reflexivity).
    rewrite hfor_nested. fold (all_entries ts). fold es. rewrite hfor_store. fold l. fold d.
    rewrite (matrix__new_spec _ _ (h_lists h) l (h_dicts h) d) by reflexivity. cbn [length]; rewrite ?map_length; reflexivity.
  - exists [l; l], [d]. split; reflexivity.
  - unfold wf. rewrite El, Ed by reflexivity. cbn [m_elements m_entrymap m_graph m_nrows m_ncols h_lists h_dicts].
    rewrite !app_length. cbn [length]. split; [lia|]. split; [lia|]. split; [reflexivity|exact Hg].
  - intros p. rewrite El, Ed by reflexivity. rewrite He. split; [|intros Hp; apply store_keys in Hp as [[]|(t & Hp & Ht)];
      unfold es; rewrite (find_in _ p t (all_entries_NoDup _) Hp); exact Ht].
    destruct (nth_error ts (fst p)) as [row|] eqn:E1; [destruct (nth_error row (snd p)) as [t|] eqn:E2|].
    + unfold es. rewrite (find_in _ p t); [reflexivity|apply all_entries_NoDup|].
      apply all_entries_in. eauto.
    + destruct (find _ es) as [[q t]|] eqn:Ef; [|reflexivity]. exfalso.
      apply find_some in Ef as [Hin Hq]. cbn [fst] in Hq. destruct (pos_eqb_spec p q) as [->|]; [|discriminate].
      apply all_entries_in in Hin as (row' & H1 & H2). congruence.
    + destruct (find _ es) as [[q t]|] eqn:Ef; [|reflexivity]. exfalso.
      apply find_some in Ef as [Hin Hq]. cbn [fst] in Hq. destruct (pos_eqb_spec p q) as [->|]; [|discriminate].
      apply all_entries_in in Hin as (row' & H1 & H2). congruence.
Qed.

(** Every other call fails and changes nothing. *)
Lemma matrix_new_cases entries h :
  (exists rows ncols ts, entries = PRows (map PRow rows) /\ rows <> [] /\ (forall r, In r rows -> length r = ncols) /\
     Forall2 (Forall2 (fun o t => expressify o = Ok t)) rows ts) \/
  (exists x, matrix_new entries h = (Err x, h) /\
     ((x = TypeError /\ entries = PRowsNotList) \/
      (x = TypeError /\ exists l, entries = PRows l /\ In PNotList l) \/
      (x = IndexError /\ entries = PRows []) \/
      (x = TypeError /\ exists rows r0 r, entries = PRows (map PRow (r0 :: rows)) /\ In r rows /\ length r <> length r0) \/
      (x = ExpressifyError /\ exists rows r0, entries = PRows (map PRow (r0 :: rows)) /\
         (forall r, In r rows -> length r = length r0) /\ exists r, In r (r0 :: rows) /\ In POther r))).
Proof.
  destruct entries as [l|]; [|right; exists TypeError; split; [reflexivity|auto]].
  unfold matrix_new. destruct (forallb is_row l) eqn:Er; cbn [negb].
  2: { right. exists TypeError. split; [reflexivity|]. right; left. split; [reflexivity|]. exists l. split; [reflexivity|].
       clear -Er. induction l as [|r l IH]; [discriminate|]. simpl in Er. destruct r; [right; auto|left; reflexivity]. }
  assert (Hrows : exists rows, l = map PRow rows).
  { clear -Er. induction l as [|r l IH]; [exists []; reflexivity|]. simpl in Er. apply andb_prop in Er as [Hr Er].
    destruct (IH Er) as [rows ->]. destruct r as [row|]; [|discriminate]. exists (row :: rows). reflexivity. }
  destruct Hrows as [rows ->]. clear Er.
  destruct rows as [|r0 rows].
  { right. exists IndexError. split; [reflexivity|auto]. }
  cbn [map].
  unfold hbind at 1, hlift at 1. unfold getitem, of_option. cbn [nth_error row_items].
  destruct (forallb (fun r => Nat.eqb (length (row_items r)) (length r0)) (PRow r0 :: map PRow rows)) eqn:Ec; cbn [negb].
  2: { right. exists TypeError. split; [reflexivity|]. right; right; right; left. split; [reflexivity|].
       cbn [forallb row_items] in Ec. rewrite Nat.eqb_refl in Ec. cbn [andb] in Ec.
       exists rows, r0. clear -Ec. 
       assert (exists r, In r rows /\ length r <> length r0) as (r & H1 & H2); [|exists r; auto].
       induction rows as [|r rows IH]; [discriminate|]. cbn [map forallb row_items] in Ec.
       destruct (Nat.eqb_spec (length r) (length r0)) as [E|E]; [|exists r; split; [left; reflexivity|exact E]].
       destruct (IH Ec) as (r' & H1 & H2). exists r'. split; [right; exact H1|exact H2]. }
  assert (Hlen : forall r, In r (r0 :: rows) -> length r = length r0).
  { intros r Hr. rewrite forallb_forall in Ec. specialize (Ec (PRow r)). cbn [row_items] in Ec. apply Nat.eqb_eq, Ec.
    apply (in_map PRow (r0 :: rows)), Hr. }
  clear Ec.
  assert (G : forall rs, (exists ts, Forall2 (Forall2 (fun o t => expressify o = Ok t)) rs ts) \/
     (mapM (fun r => mapM expressify (row_items r)) (map PRow rs) = Err ExpressifyError /\ exists r, In r rs /\ In POther r)).
  { induction rs as [|r rs IH]; [left; exists []; constructor|].
    assert (G : (exists t, Forall2 (fun o t => expressify o = Ok t) r t) \/ (mapM expressify r = Err ExpressifyError /\ In POther r)).
    { clear. induction r as [|o r IH]; [left; exists []; constructor|]. cbn [mapM In]. destruct (expressify o) as [t|x] eqn:Eo.
      - destruct IH as [[u Hu]|[E H]]; [left; exists (t :: u); constructor; assumption|]. right. rewrite E. auto.
      - right. destruct o; try discriminate. simpl in Eo. injection Eo as <-. auto. }
    destruct G as [[t Ht]|[E H]].
    - destruct IH as [[ts Hts]|[E (q & H1 & H2)]]; [left; exists (t :: ts); constructor; assumption|]. right.
      cbn [map mapM row_items]. rewrite E. split; [|exists q; split; [right|]; assumption].
      assert (Em : mapM expressify r = Ok t); [|rewrite Em; reflexivity].
      clear -Ht. induction Ht as [|o u r t Ho _ IH]; [reflexivity|]. cbn [mapM]. rewrite Ho, IH. reflexivity.
    - right. cbn [map mapM row_items]. rewrite E. split; [reflexivity|]. exists r. split; [left; reflexivity|exact H]. }
  destruct (G (r0 :: rows)) as [[ts Hts]|[E (r & H1 & H2)]].
  - left. exists (r0 :: rows), (length r0), ts. repeat split; auto. discriminate.
  - right. exists ExpressifyError. cbn [map] in E. rewrite E. split; [reflexivity|].
    right; right; right; right. split; [reflexivity|]. exists rows, r0. split; [reflexivity|].
    split; [intros q Hq; apply Hlen; right; exact Hq|eauto].
Qed.

(** ** Reading *)
Lemma in_range_spec i n : in_range i n = true <-> (0 <= i < Z.of_nat n)%Z.
Proof. unfold in_range. rewrite andb_true_iff, Z.leb_le, Z.ltb_lt. lia. Qed.

Lemma inside_dec m i j : {inside m i j} + {~ inside m i j}.
Proof.
  unfold inside. destruct (in_range i (m_nrows m)) eqn:E1, (in_range j (m_ncols m)) eqn:E2.
  - left. apply in_range_spec in E1, E2. auto.
  - right. intros [_ H]. apply in_range_spec in H. congruence.
  - right. intros [H _]. apply in_range_spec in H. congruence.
  - right. intros [H _]. apply in_range_spec in H. congruence.
Qed.

Lemma getitem_inside h m oi oj i j : wf h m -> as_int oi = Some i -> as_int oj = Some j -> inside m i j ->
  matrix_getitem m (ITuple [oi; oj]) h = (Ok (entry (elems h m) (emap h m) (Z.to_nat i, Z.to_nat j)), h).
Proof.
  intros Hw Hi Hj [Ri Rj]. unfold matrix_getitem. rewrite Hi, Hj.
  apply in_range_spec in Ri, Rj. rewrite Ri, Rj. cbn [andb negb].
  unfold dict_has, dict_at, list_get, hbind, hret, hlift, read_dict, read_list, dict_mem, dict_getitem, entry.
  fold (emap h m). destruct (dict_get pos_eqb (emap h m) (Z.to_nat i, Z.to_nat j)) as [n|] eqn:E; [|reflexivity].
  fold (emap h m). rewrite E. cbn [of_option]. fold (elems h m). f_equal. apply getitem_nth. rewrite nth_error_nth' with (d := zero); [reflexivity|].
  eapply good_lt; [apply Hw|exact E].
Qed.
Lemma getitem_outside h m oi oj i j : as_int oi = Some i -> as_int oj = Some j -> ~ inside m i j ->
  matrix_getitem m (ITuple [oi; oj]) h = (Err IndexError, h).
Proof.
  intros Hi Hj Hout. unfold matrix_getitem. rewrite Hi, Hj.
  destruct (in_range i (m_nrows m)) eqn:E1, (in_range j (m_ncols m)) eqn:E2; try reflexivity.
  exfalso. apply Hout. apply in_range_spec in E1, E2. split; assumption.
Qed.
Lemma get_inside h m i j : wf h m -> inside m i j ->
  get m i j h = Ok (entry (elems h m) (emap h m) (Z.to_nat i, Z.to_nat j)).
Proof. intros Hw Hin. unfold get. rewrite (getitem_inside h m (PInt i) (PInt j) i j Hw eq_refl eq_refl Hin). reflexivity. Qed.
Lemma get_outside h m i j : ~ inside m i j -> get m i j h = Err IndexError.
Proof. intros Hin. unfold get. rewrite (getitem_outside h m (PInt i) (PInt j) i j eq_refl eq_refl Hin). reflexivity. Qed.
Lemma getitem_frame h h' m ix : wf h m -> extends h h' ->
  matrix_getitem m ix h' = (fst (matrix_getitem m ix h), h').
Proof.
  intros Hw He. destruct (extends_same h h' m Hw He) as [E1 E2]. unfold elems in E1. unfold emap in E2.
  destruct ix as [[|oi [|oj [|]]]|]; try reflexivity. unfold matrix_getitem.
  destruct (as_int oi) as [i|]; [|reflexivity]. destruct (as_int oj) as [j|]; [|reflexivity].
  destruct (negb _); [reflexivity|].
  unfold dict_has, dict_at, list_get, hbind, hret, hlift, read_dict, read_list. rewrite E2.
  destruct (dict_mem pos_eqb _ _); [|reflexivity]. rewrite ?E2. destruct (dict_getitem pos_eqb _ _); [|reflexivity].
  rewrite E1. reflexivity.
Qed.

(** ** tolist *)
Definition cell (rows : list (list tree)) (p : pos) : tree := nth (snd p) (nth (fst p) rows []) zero.
Definition shape_ok (nr nc : nat) (rows : list (list tree)) : Prop := length rows = nr /\ rect nc rows.

Lemma set_nth_any_In {A} (l : list A) i a b : In b (set_nth_any l i a) -> b = a \/ In b l.
Proof.
  unfold set_nth_any. rewrite in_app_iff. intros [H|H].
  - right. rewrite <- (firstn_skipn i l). apply in_or_app. auto.
  - destruct (skipn i l) as [|c r] eqn:E; [destruct H|]. destruct H as [->|H]; [auto|].
    right. rewrite <- (firstn_skipn i l), E. apply in_or_app. right. right. exact H.
Qed.

Lemma set_entry_spec nr nc rows p t : shape_ok nr nc rows -> fst p < nr -> snd p < nc ->
  exists rows', set_entry rows p t = Ok rows' /\ shape_ok nr nc rows' /\
    forall q, cell rows' q = if pos_eqb q p then t else cell rows q.
Proof.
  intros [Hl Hr] H1 H2. unfold set_entry, getitem.
  destruct (nth_error rows (fst p)) as [row|] eqn:E; [|apply nth_error_None in E; lia].
  cbn [of_option bind]. assert (Hrow : length row = nc) by (apply Hr; eapply nth_error_In, E).
  rewrite Hrow. destruct (Nat.ltb_spec (snd p) nc) as [_|]; [|lia]. eexists. split; [reflexivity|].
  split; [split|].
  - rewrite set_nth_any_length. exact Hl.
  - intros r Hin. apply set_nth_any_In in Hin as [->|Hin]; [rewrite set_nth_any_length; exact Hrow|auto].
  - intros [i j]. unfold cell, pos_eqb. cbn [fst snd]. rewrite set_nth_any_nth by lia.
    destruct (Nat.eqb_spec i (fst p)) as [->|_]; cbn [andb]; [|reflexivity].
    rewrite set_nth_any_nth by lia. rewrite (nth_error_nth rows (fst p) [] E). reflexivity.
Qed.

Lemma tolist_fold nr nc l d : NoDup (map fst d) -> range_ok nr nc d -> (forall pn, In pn d -> snd pn < length l) ->
  forall rows, shape_ok nr nc rows ->
  exists rows', foldM (fun rows pn => do t <- getitem l (snd pn); set_entry rows (fst pn) t) d rows = Ok rows' /\
    shape_ok nr nc rows' /\
    forall q, cell rows' q = match dict_get pos_eqb d q with Some n => nth n l zero | None => cell rows q end.
Proof.
  induction d as [|[p n] d IH]; intros Hn Hr Hlt rows Hs; [exists rows; repeat split; try apply Hs; reflexivity|].
  cbn [foldM fst snd map] in *. inversion Hn as [|? ? Hp Hn']; subst.
  assert (Hnl : n < length l) by (apply (Hlt (p, n)); left; reflexivity).
  rewrite (getitem_nth l n (nth n l zero)) by (apply nth_error_nth', Hnl). cbn [bind].
  destruct (Hr p) as [R1 R2]; [left; reflexivity|].
  destruct (set_entry_spec nr nc rows p (nth n l zero) Hs R1 R2) as (rows1 & E1 & Hs1 & Hc1). rewrite E1. cbn [bind].
  destruct (IH Hn') with (rows := rows1) as (rows' & E2 & Hs2 & Hc2); auto.
  { intros q Hq. apply Hr. right. exact Hq. } { intros pn Hpn. apply Hlt. right. exact Hpn. }
  exists rows'. split; [exact E2|]. split; [exact Hs2|]. intros q. rewrite Hc2, Hc1. cbn [dict_get].
  destruct (pos_eqb_spec q p) as [->|_]; [|reflexivity].
  apply dget_none in Hp. rewrite Hp. reflexivity.
Qed.

Lemma tolist_spec h m : wf h m -> exists rows, matrix_tolist m h = (Ok rows, h) /\
  shape_ok (m_nrows m) (m_ncols m) rows /\ forall p, cell rows p = entry (elems h m) (emap h m) p.
Proof.
  intros (_ & _ & _ & Hn & Hs & Hr). unfold matrix_tolist, hbind, hlift, read_dict, read_list.
  fold (emap h m). fold (elems h m).
  destruct (tolist_fold (m_nrows m) (m_ncols m) (elems h m) (emap h m) Hn Hr) with (rows := repeat (repeat zero (m_ncols m)) (m_nrows m))
    as (rows & E & Hsh & Hc).
  - intros pn Hpn. apply (in_map snd) in Hpn. rewrite Hs in Hpn. apply in_seq in Hpn. simpl in Hpn. lia.
  - split; [apply repeat_length|]. intros r Hin. apply repeat_spec in Hin. subst. apply repeat_length.
  - exists rows. rewrite E. split; [reflexivity|]. split; [exact Hsh|]. intros p. rewrite Hc. unfold entry.
    destruct (dict_get pos_eqb (emap h m) p); [reflexivity|]. unfold cell.
    destruct (Nat.lt_ge_cases (fst p) (m_nrows m)) as [H1|H1].
    + rewrite (nth_indep _ [] (repeat zero (m_ncols m))) by (rewrite repeat_length; exact H1).
      rewrite nth_repeat. destruct (Nat.lt_ge_cases (snd p) (m_ncols m)) as [H2|H2]; [|apply nth_overflow; rewrite repeat_length; exact H2].
      apply nth_repeat.
    + rewrite (nth_overflow (repeat _ _)) by (rewrite repeat_length; exact H1). destruct (snd p); reflexivity.
Qed.
Lemma tolist_frame h h' m : wf h m -> extends h h' -> matrix_tolist m h' = (fst (matrix_tolist m h), h').
Proof.
  intros Hw He. destruct (extends_same h h' m Hw He) as [E1 E2]. unfold elems in E1. unfold emap in E2.
  unfold matrix_tolist, hbind, hlift, read_dict, read_list. rewrite E1, E2. reflexivity.
Qed.

(** ** binop *)
Definition binop_pure (lo : list tree) (func : tree) (acc : list tree * entries_dict) (e : pos * nat) : list tree * entries_dict :=
  let '(l, d) := acc in
  match dict_get pos_eqb d (fst e) with
  | Some n => (set_nth_any l n (call2 func (nth n l zero) (nth (snd e) lo zero)), d)
  | None => (l ++ [nth (snd e) lo zero], d ++ [(fst e, length l)])
  end.

Lemma nth_end {A} (L : list A) l x : nth (length L) (L ++ [l]) x = l.
Proof. rewrite app_nth2, Nat.sub_diag by lia. reflexivity. Qed.

Lemma hbind_ok {A B} (c : hm A) (k : A -> hm B) h a h' : c h = (Ok a, h') -> hbind c k h = k a h'.
Proof. intros E. unfold hbind. rewrite E. reflexivity. Qed.
Section Ops.
  Variables (L : list (list tree)) (l : list tree) (D : list entries_dict) (d : entries_dict).
  Let H := mkHeap (L ++ [l]) (D ++ [d]).
  Lemma op_dict_has p : dict_has (length D) p H = (Ok (dict_mem pos_eqb d p), H).
  Proof. unfold dict_has, hbind, hret, read_dict, H. cbn [h_dicts]. rewrite nth_end. reflexivity. Qed.
  Lemma op_dict_at p n : dict_get pos_eqb d p = Some n -> dict_at (length D) p H = (Ok n, H).
  Proof. intros E. unfold dict_at, hbind, hlift, read_dict, dict_getitem, H. cbn [h_dicts]. rewrite nth_end, E. reflexivity. Qed.
  Lemma op_dict_put p n : dict_put (length D) p n H = (Ok tt, mkHeap (L ++ [l]) (D ++ [dict_set pos_eqb d p n])).
  Proof. unfold dict_put, hbind, read_dict, write_dict, H. cbn [h_dicts h_lists]. rewrite nth_end, set_nth_any_last. reflexivity. Qed.
  Lemma op_list_get n : n < length l -> list_get (length L) n H = (Ok (nth n l zero), H).
  Proof.
    intros Hn. unfold list_get, hbind, hlift, read_list, H. cbn [h_lists]. rewrite nth_end.
    rewrite (getitem_nth l n (nth n l zero)) by (apply nth_error_nth', Hn). reflexivity.
  Qed.
  Lemma op_list_get_old loc n : loc < length L -> n < length (nth loc L []) ->
    list_get loc n H = (Ok (nth n (nth loc L []) zero), H).
  Proof.
    intros Hl Hn. unfold list_get, hbind, hlift, read_list, H. cbn [h_lists]. rewrite app_nth1 by exact Hl.
    rewrite (getitem_nth _ n (nth n (nth loc L []) zero)) by (apply nth_error_nth', Hn). reflexivity.
  Qed.
  Lemma op_list_set n t : n < length l -> list_set (length L) n t H = (Ok tt, mkHeap (L ++ [set_nth_any l n t]) (D ++ [d])).
  Proof.
    intros Hn. unfold list_set, hbind, read_list, write_list, H. cbn [h_lists]. rewrite nth_end.
    destruct (Nat.ltb_spec n (length l)) as [_|]; [|lia]. cbn [h_lists h_dicts]. rewrite set_nth_any_last. reflexivity.
  Qed.
  Lemma op_list_len : list_len (length L) H = (Ok (length l), H).
  Proof. unfold list_len, hbind, hret, read_list, H. cbn [h_lists]. rewrite nth_end. reflexivity. Qed.
  Lemma op_list_append t : list_append (length L) t H = (Ok tt, mkHeap (L ++ [l ++ [t]]) (D ++ [d])).
  Proof. unfold list_append, hbind, read_list, write_list, H. cbn [h_lists h_dicts]. rewrite nth_end, set_nth_any_last. reflexivity. Qed.
End Ops.

Lemma binop_entry_spec nr nc L l D d lo_loc func e :
  good nr nc l d -> lo_loc < length L -> snd e < length (nth lo_loc L []) ->
  binop_entry lo_loc (length L) (length D) func e (mkHeap (L ++ [l]) (D ++ [d])) =
  (Ok tt, mkHeap (L ++ [fst (binop_pure (nth lo_loc L []) func (l, d) e)])
                 (D ++ [snd (binop_pure (nth lo_loc L []) func (l, d) e)])).
Proof.
  intros Hg Hlo He. destruct e as [p n0]. cbn [snd] in He. unfold binop_entry, binop_pure. cbn [fst snd].
  rewrite (hbind_ok _ _ _ _ _ (op_dict_has L l D d p)). unfold dict_mem.
  destruct (dict_get pos_eqb d p) as [n|] eqn:E; cbn [fst snd].
  - assert (Hn : n < length l) by (eapply good_lt; eauto).
    rewrite (hbind_ok _ _ _ _ _ (op_dict_at L l D d p n E)).
    rewrite (hbind_ok _ _ _ _ _ (op_list_get L l D d n Hn)).
    rewrite (hbind_ok _ _ _ _ _ (op_list_get_old L l D d lo_loc n0 Hlo He)).
    apply op_list_set, Hn.
  - rewrite (hbind_ok _ _ _ _ _ (op_list_len L l D d)).
    rewrite (hbind_ok _ _ _ _ _ (op_dict_put L l D d p (length l))).
    rewrite (hbind_ok _ _ _ _ _ (op_list_get_old L l D _ lo_loc n0 Hlo He)).
    rewrite op_list_append. rewrite dset_absent by (apply dget_none, E). reflexivity.
Qed.

Lemma binop_pure_good nr nc lo func l d (e : pos * nat) : good nr nc l d -> fst (fst e) < nr /\ snd (fst e) < nc ->
  good nr nc (fst (binop_pure lo func (l, d) e)) (snd (binop_pure lo func (l, d) e)).
Proof.
  intros Hg Hr. unfold binop_pure. destruct (dict_get pos_eqb d (fst e)) as [n|] eqn:E; cbn [fst snd].
  - destruct Hg as (H1 & H2 & H3). split; [exact H1|]. rewrite set_nth_any_length. auto.
  - apply good_append; auto. apply dget_none, E.
Qed.
Lemma binop_pure_entry nr nc lo func l d (e : pos * nat) q : good nr nc l d ->
  entry (fst (binop_pure lo func (l, d) e)) (snd (binop_pure lo func (l, d) e)) q =
  if pos_eqb q (fst e) then
    match dict_get pos_eqb d (fst e) with
    | Some _ => call2 func (entry l d q) (nth (snd e) lo zero)
    | None => nth (snd e) lo zero
    end
  else entry l d q.
Proof.
  intros Hg. unfold binop_pure. destruct (dict_get pos_eqb d (fst e)) as [n|] eqn:E; cbn [fst snd].
  - assert (Hn : n < length l) by (eapply good_lt; eauto). unfold entry.
    destruct (pos_eqb_spec q (fst e)) as [->|Hne].
    + rewrite E, set_nth_any_nth, Nat.eqb_refl by exact Hn. reflexivity.
    + destruct (dict_get pos_eqb d q) as [k|] eqn:Eq; [|reflexivity]. rewrite set_nth_any_nth by exact Hn.
      destruct (Nat.eqb_spec k n) as [->|_]; [|reflexivity]. exfalso. apply Hne. eapply good_inj; eauto.
  - rewrite (entry_append nr nc) by (auto; apply dget_none, E). reflexivity.
Qed.
Lemma binop_pure_keys lo func l d (e : pos * nat) q :
  In q (map fst (snd (binop_pure lo func (l, d) e))) <-> q = fst e \/ In q (map fst d).
Proof.
  unfold binop_pure. destruct (dict_get pos_eqb d (fst e)) as [n|] eqn:E; cbn [fst snd].
  - split; [auto|]. intros [->|H]; [|exact H]. apply dget_some_in in E. apply (in_map fst) in E. exact E.
  - rewrite map_app, in_app_iff. cbn [map fst In]. intuition.
Qed.

Lemma binop_fold nr nc lo func (items : entries_dict) : NoDup (map fst items) -> range_ok nr nc items ->
  forall l d, good nr nc l d ->
  let r := fold_left (binop_pure lo func) items (l, d) in
  good nr nc (fst r) (snd r) /\
  (forall q, In q (map fst (snd r)) <-> In q (map fst items) \/ In q (map fst d)) /\
  (forall q, entry (fst r) (snd r) q =
     match dict_get pos_eqb items q with
     | Some n => match dict_get pos_eqb d q with
                 | Some _ => call2 func (entry l d q) (nth n lo zero)
                 | None => nth n lo zero
                 end
     | None => entry l d q
     end).
Proof.
  induction items as [|e items IH]; intros Hn Hr l d Hg; cbn [fold_left].
  - split; [exact Hg|]. split; [intros q; simpl; tauto|reflexivity].
  - cbn [map] in Hn. inversion Hn as [|? ? He Hn']; subst.
    assert (Hre : fst (fst e) < nr /\ snd (fst e) < nc) by (apply Hr; left; reflexivity).
    pose proof (binop_pure_good nr nc lo func l d e Hg Hre) as Hg1.
    pose proof (fun q => binop_pure_entry nr nc lo func l d e q Hg) as He1.
    pose proof (fun q => binop_pure_keys lo func l d e q) as Hk1.
    destruct (binop_pure lo func (l, d) e) as [l1 d1]. cbn [fst snd] in *.
    destruct (IH Hn') with (l := l1) (d := d1) as (H1 & H2 & H3); auto.
    { intros q Hq. apply Hr. right. exact Hq. }
    split; [exact H1|]. split.
    + intros q. rewrite H2, Hk1. cbn [map In]. intuition.
    + intros q. rewrite H3, He1. destruct e as [p n]. cbn [fst snd dict_get] in *.
      destruct (pos_eqb_spec q p) as [->|Hne].
      * apply dget_none in He. rewrite He. reflexivity.
      * destruct (dict_get pos_eqb items q) as [k|]; [|reflexivity].
        assert (Eq : (dict_get pos_eqb d1 q = None) <-> (dict_get pos_eqb d q = None)).
        { rewrite !dget_none, Hk1. intuition. }
        destruct (dict_get pos_eqb d1 q), (dict_get pos_eqb d q); try reflexivity; exfalso; intuition discriminate.
Qed.

Lemma hfor_binop nr nc lo_loc L D func (items : entries_dict) : lo_loc < length L -> range_ok nr nc items ->
  (forall e, In e items -> snd e < length (nth lo_loc L [])) -> forall l d, good nr nc l d ->
  hfor (binop_entry lo_loc (length L) (length D) func) items (mkHeap (L ++ [l]) (D ++ [d])) =
  (Ok tt, mkHeap (L ++ [fst (fold_left (binop_pure (nth lo_loc L []) func) items (l, d))])
                 (D ++ [snd (fold_left (binop_pure (nth lo_loc L []) func) items (l, d))])).
Proof.
  intros Hlo. induction items as [|e items IH]; intros Hr Hlt l d Hg; [reflexivity|].
  cbn [hfor fold_left]. unfold hbind. rewrite (binop_entry_spec nr nc) by (auto; apply Hlt; left; reflexivity).
  rewrite IH.
  - rewrite <- surjective_pairing. reflexivity.
  - intros q Hq. apply Hr. right. exact Hq.
  - intros e' He'. apply Hlt. right. exact He'.
  - apply binop_pure_good; [exact Hg|]. apply Hr. left. reflexivity.
Qed.

Lemma binop_mismatch A B func h : (m_nrows A, m_ncols A) <> (m_nrows B, m_ncols B) ->
  matrix_binop A B func h = (Err TypeError, h).
Proof.
  intros H. unfold matrix_binop. destruct (Nat.eqb_spec (m_nrows A) (m_nrows B)), (Nat.eqb_spec (m_ncols A) (m_ncols B)); try reflexivity.
  congruence.
Qed.

Lemma binop_spec A B func h : wf h A -> wf h B -> m_nrows A = m_nrows B -> m_ncols A = m_ncols B ->
  exists C h', matrix_binop A B func h = (Ok C, h') /\ extends h h' /\ wf h' C /\
    m_nrows C = m_nrows A /\ m_ncols C = m_ncols A /\
    (forall q, In q (map fst (emap h' C)) <-> In q (map fst (emap h A)) \/ In q (map fst (emap h B))) /\
    (forall q, entry (elems h' C) (emap h' C) q =
       match dict_get pos_eqb (emap h B) q with
       | Some _ => match dict_get pos_eqb (emap h A) q with
                   | Some _ => call2 func (entry (elems h A) (emap h A) q) (entry (elems h B) (emap h B) q)
                   | None => entry (elems h B) (emap h B) q
                   end
       | None => entry (elems h A) (emap h A) q
       end).
Proof.
  intros (A1 & A2 & A3 & Ag) (B1 & B2 & B3 & Bg) Er Ec.
  assert (BgA : good (m_nrows A) (m_ncols A) (elems h B) (emap h B)) by (rewrite Er, Ec; exact Bg).
  pose proof BgA as (Bn & Bs & Br).
  assert (Blt : forall e, In e (emap h B) -> snd e < length (nth (m_elements B) (h_lists h) [])).
  { intros e He. apply (in_map snd) in He. rewrite Bs in He. apply in_seq in He. fold (elems h B). simpl in He. lia. }
  destruct (binop_fold (m_nrows A) (m_ncols A) (elems h B) func (emap h B) Bn Br (elems h A) (emap h A) Ag) as (G1 & G2 & G3).
  set (r := fold_left (binop_pure (elems h B) func) (emap h B) (elems h A, emap h A)) in *.
  set (l := fst r) in *. set (d := snd r) in *.
  exists (mkMatrix (m_nrows A) (m_ncols A) (S (length (h_lists h))) (tree_call List_ l) (length (h_dicts h))),
    (mkHeap (h_lists h ++ [l; l]) (h_dicts h ++ [d])).
  assert (El : forall m', m_elements m' = S (length (h_lists h)) -> elems (mkHeap (h_lists h ++ [l; l]) (h_dicts h ++ [d])) m' = l).
  { intros m' E. unfold elems. rewrite E. cbn [h_lists]. rewrite app_nth2 by lia.
    replace (S (length (h_lists h)) - length (h_lists h)) with 1 by lia. reflexivity. }
  assert (Ed : forall m', m_entrymap m' = length (h_dicts h) -> emap (mkHeap (h_lists h ++ [l; l]) (h_dicts h ++ [d])) m' = d).
  { intros m' E. unfold emap. rewrite E. cbn [h_dicts]. rewrite app_nth2, Nat.sub_diag by lia. reflexivity. }
  split; [|split; [|split; [|split; [reflexivity|split; [reflexivity|split]]]]].
  - unfold matrix_binop. rewrite Er, Ec, !Nat.eqb_refl. cbn [andb negb].
    unfold list_copy, dict_copy, hbind, read_list, read_dict, new_list, new_dict. cbn [h_lists h_dicts].
    fold (elems h A). fold (emap h A). rewrite (app_nth1 (h_dicts h)) by exact B2. fold (emap h B).
    rewrite (hfor_binop (m_nrows A) (m_ncols A)); auto.
    fold (elems h B). fold r. fold l. fold d.
    rewrite (matrix__new_spec _ _ (h_lists h) l (h_dicts h) d) by reflexivity. reflexivity.
  - exists [l; l], [d]. split; reflexivity.
  - unfold wf. rewrite El, Ed by reflexivity. cbn [m_elements m_entrymap m_graph m_nrows m_ncols h_lists h_dicts].
    rewrite !app_length. cbn [length]. split; [lia|]. split; [lia|]. split; [reflexivity|exact G1].
  - intros q. rewrite Ed by reflexivity. rewrite G2. tauto.
  - intros q. rewrite El, Ed by reflexivity. rewrite G3.
    destruct (dict_get pos_eqb (emap h B) q) as [n|] eqn:Eb; [|reflexivity].
    replace (entry (elems h B) (emap h B) q) with (nth n (elems h B) zero) by (unfold entry; rewrite Eb; reflexivity).
    reflexivity.
Qed.

(** ** diff *)
Lemma diff_zero sym : sym <> zero -> expr_diff zero sym 1 = Ok zero.
Proof.
  intros H. rewrite expr_diff_one. apply diff_forward_deriv.
  change (Ok (if tree_eqb zero sym then one else zero) = Ok zero).
  destruct (tree_eqb_spec zero sym) as [E|E]; [congruence|]. reflexivity.
Qed.

Lemma diff_list sym l ds : mapM (fun e => expr_diff e sym 1) l = Ok ds ->
  expr_diff (tree_call List_ l) sym 1 = Ok (tree_call List_ ds).
Proof.
  intros E. rewrite expr_diff_one. apply diff_distributive; [left; reflexivity|]. exists ds. split; [|reflexivity].
  rewrite <- E. apply mapM_ext. intros a _. rewrite expr_diff_one. reflexivity.
Qed.
Lemma diff_list_fails sym l x : mapM (fun e => expr_diff e sym 1) l = Err x ->
  exists y, expr_diff (tree_call List_ l) sym 1 = Err y.
Proof.
  intros E. destruct (expr_diff (tree_call List_ l) sym 1) as [d|y] eqn:Ed; [|eauto]. exfalso.
  rewrite expr_diff_one in Ed. apply diff_distributive in Ed as (ds & Hds & _); [|left; reflexivity].
  assert (E' : mapM (fun e => expr_diff e sym 1) l = Ok ds); [|congruence].
  rewrite <- Hds. apply mapM_ext. intros a _. apply expr_diff_one.
Qed.

Lemma mapM_nth {A B} (f : A -> res B) l ys n a0 b0 : mapM f l = Ok ys -> n < length l -> f (nth n l a0) = Ok (nth n ys b0).
Proof.
  revert ys n. induction l as [|a l IH]; intros ys n E Hn; [simpl in Hn; lia|]. cbn [mapM] in E.
  destruct (f a) as [b|] eqn:Ea; [|discriminate]. cbn [bind] in E.
  destruct (mapM f l) as [bs|] eqn:El; [|discriminate]. injection E as <-.
  destruct n as [|n]; [exact Ea|]. cbn [nth]. apply IH; [reflexivity|]. simpl in Hn. lia.
Qed.
Lemma mapM_err_in {A B} (f : A -> res B) l x : mapM f l = Err x -> exists a, In a l /\ f a = Err x.
Proof.
  induction l as [|a l IH]; [discriminate|]. cbn [mapM]. destruct (f a) as [b|y] eqn:Ea; cbn [bind].
  - destruct (mapM f l) as [bs|z]; [discriminate|]. cbn [bind]. intros E. destruct (IH E) as (c & Hc & Hx).
    exists c. split; [right; exact Hc|exact Hx].
  - intros E. exists a. split; [left; reflexivity|]. congruence.
Qed.

Lemma mdiff_ok A sym h ds : wf h A -> mapM (fun e => expr_diff e sym 1) (elems h A) = Ok ds ->
  exists C h', matrix_diff A sym h = (Ok C, h') /\ extends h h' /\ wf h' C /\
    m_nrows C = m_nrows A /\ m_ncols C = m_ncols A /\ emap h' C = emap h A /\
    (forall q, entry (elems h' C) (emap h' C) q =
       match dict_get pos_eqb (emap h A) q with Some n => nth n ds zero | None => zero end).
Proof.
  intros (A1 & A2 & A3 & Ag) Hds.
  exists (mkMatrix (m_nrows A) (m_ncols A) (S (length (h_lists h))) (tree_call List_ ds) (m_entrymap A)),
    (mkHeap (h_lists h ++ [ds; ds]) (h_dicts h)).
  assert (El : forall m', m_elements m' = S (length (h_lists h)) -> elems (mkHeap (h_lists h ++ [ds; ds]) (h_dicts h)) m' = ds).
  { intros m' E. unfold elems. rewrite E. cbn [h_lists]. rewrite app_nth2 by lia.
    replace (S (length (h_lists h)) - length (h_lists h)) with 1 by lia. reflexivity. }
  split; [|split; [|split; [|split; [reflexivity|split; [reflexivity|split; [reflexivity|]]]]]].
  - unfold matrix_diff. rewrite A3, (diff_list _ _ _ Hds).
    unfold hbind at 1, hlift. cbn [sym_args children tree_call tl].
    unfold hbind at 1, new_list at 1. unfold matrix__new, list_copy, hbind, read_list, new_list, hret. cbn [h_lists h_dicts].
    rewrite !nth_end. rewrite app_nth1 by (rewrite app_length; simpl; lia). rewrite nth_end, app_length.
    cbn [length]. rewrite Nat.add_1_r, <- app_assoc. reflexivity.
  - exists [ds; ds], []. rewrite app_nil_r. split; reflexivity.
  - unfold wf. rewrite El by reflexivity. cbn [m_elements m_entrymap m_graph m_nrows m_ncols h_lists h_dicts].
    rewrite !app_length. cbn [length]. split; [lia|]. split; [exact A2|]. split; [reflexivity|].
    change (emap _ _) with (emap h A). destruct Ag as (G1 & G2 & G3). split; [exact G1|]. split; [|exact G3].
    rewrite G2, (mapM_length _ _ _ Hds). reflexivity.
  - intros q. rewrite El by reflexivity. reflexivity.
Qed.
Lemma mdiff_err A sym h x : wf h A -> mapM (fun e => expr_diff e sym 1) (elems h A) = Err x ->
  exists y, matrix_diff A sym h = (Err y, h).
Proof.
  intros (A1 & A2 & A3 & Ag) Hds. destruct (diff_list_fails _ _ _ Hds) as [y Hy]. exists y.
  unfold matrix_diff. rewrite A3, Hy. reflexivity.
Qed.

(** ** from_sympy *)
Lemma from_call h args t : from_sympy_call h args = Ok t -> sym_args t = args.
Proof. destruct h; simpl; intros E; try discriminate; injection E as <-; reflexivity. Qed.

Lemma hfor_put L D items : forall d, NoDup (map (fun n_ke : nat * (pos * sexpr) => fst (snd n_ke)) items) ->
  (forall e, In e items -> ~ In (fst (snd e)) (map fst d)) ->
  hfor (fun n_ke : nat * (pos * sexpr) => dict_put (length D) (fst (snd n_ke)) (fst n_ke)) items (mkHeap L (D ++ [d])) =
  (Ok tt, mkHeap L (D ++ [d ++ map (fun e => (fst (snd e), fst e)) items])).
Proof.
  induction items as [|e items IH]; intros d Hn Hd; [rewrite app_nil_r; reflexivity|].
  cbn [hfor]. unfold hbind at 1. unfold dict_put at 1, hbind, read_dict, write_dict. cbn [h_dicts h_lists].
  rewrite nth_end, set_nth_any_last. cbn [map] in Hn. inversion Hn as [|? ? He Hn']; subst.
  rewrite dset_absent by (apply Hd; left; reflexivity). rewrite IH; auto.
  - rewrite <- app_assoc. reflexivity.
  - intros e' He'. rewrite map_app, in_app_iff. cbn [map fst In]. intros [H|[H|[]]].
    + apply (Hd e'); [right; exact He'|exact H].
    + apply He. rewrite H. apply in_map_iff. exists e'. auto.
Qed.

Lemma enumerate_map {A B} (f : A -> B) l n : map (fun e => f (snd e)) (enumerate_from n l) = map f l.
Proof. revert n. induction l as [|a l IH]; intros n; [reflexivity|]. simpl. rewrite IH. reflexivity. Qed.

(** What the plain recursion gives for the entries, in order. *)
Lemma from_sympy_spec sm h tup : smatrix_ok sm -> from_sympy (SApp STuple (map snd (sm_dok sm))) = Ok tup ->
  length (sym_args tup) = length (sm_dok sm) ->
  exists C h', from_sympy_matrix sm h = (Ok C, h') /\ extends h h' /\ wf h' C /\
    m_nrows C = sm_rows sm /\ m_ncols C = sm_cols sm /\ elems h' C = sym_args tup /\
    emap h' C = map (fun e => (fst (snd e), fst e)) (enumerate_from 0 (sm_dok sm)).
Proof.
  intros [Hn Hr] Et Hlen.
  set (d := map (fun e : nat * (pos * sexpr) => (fst (snd e), fst e)) (enumerate_from 0 (sm_dok sm))).
  set (l := sym_args tup) in *.
  exists (mkMatrix (sm_rows sm) (sm_cols sm) (S (length (h_lists h))) (tree_call List_ l) (length (h_dicts h))),
    (mkHeap (h_lists h ++ [l; l]) (h_dicts h ++ [d])).
  assert (El : forall m', m_elements m' = S (length (h_lists h)) -> elems (mkHeap (h_lists h ++ [l; l]) (h_dicts h ++ [d])) m' = l).
  { intros m' E. unfold elems. rewrite E. cbn [h_lists]. rewrite app_nth2 by lia.
    replace (S (length (h_lists h)) - length (h_lists h)) with 1 by lia. reflexivity. }
  assert (Ed : forall m', m_entrymap m' = length (h_dicts h) -> emap (mkHeap (h_lists h ++ [l; l]) (h_dicts h ++ [d])) m' = d).
  { intros m' E. unfold emap. rewrite E. cbn [h_dicts]. rewrite app_nth2, Nat.sub_diag by lia. reflexivity. }
  assert (Hkeys : map fst d = map fst (sm_dok sm)) by (unfold d; rewrite map_map; cbn [fst]; apply enumerate_map).
  split; [|split; [|split; [|split; [reflexivity|split; [reflexivity|split; [apply El; reflexivity|apply Ed; reflexivity]]]]]].
  - unfold from_sympy_matrix. unfold hbind at 1, new_dict.
    unfold hbind at 1. rewrite hfor_put.
    2: { rewrite enumerate_map. exact Hn. } 2: { intros e _ []. }
    cbn [app]. fold d. rewrite Et. unfold hbind at 1, hlift. fold l. unfold hbind at 1, new_list.
    cbn [h_lists h_dicts]. apply matrix__new_spec. reflexivity.
  - exists [l; l], [d]. split; reflexivity.
  - unfold wf. rewrite El, Ed by reflexivity. cbn [m_elements m_entrymap m_graph m_nrows m_ncols h_lists h_dicts].
    rewrite !app_length. cbn [length]. split; [lia|]. split; [lia|]. split; [reflexivity|].
    split; [rewrite Hkeys; exact Hn|]. split.
    + unfold d. rewrite map_map. cbn [snd]. rewrite Hlen. change (fun x => fst x) with (@fst nat (pos * sexpr)).
      apply enumerate_fst.
    + intros p Hp. rewrite Hkeys in Hp. apply Hr, Hp.
Qed.
Lemma from_sympy_matrix_err sm h x : smatrix_ok sm -> from_sympy (SApp STuple (map snd (sm_dok sm))) = Err x ->
  exists h', from_sympy_matrix sm h = (Err x, h') /\ extends h h'.
Proof.
  intros [Hn Hr] Et. eexists. split.
  - unfold from_sympy_matrix. unfold hbind at 1, new_dict.
    unfold hbind at 1. rewrite hfor_put.
    2: { rewrite enumerate_map. exact Hn. } 2: { intros e _ []. }
    rewrite Et. unfold hbind at 1, hlift. reflexivity.
  - eexists [], [_]. rewrite app_nil_r. split; reflexivity.
Qed.
