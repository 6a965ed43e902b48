(** * Proofs about the outermost calls *)
From Coq Require Import SpecFloat.
From Verif Require Import Py ModelTree ModelEval ModelDiff ModelSym ModelCas ModelMatrix ModelLLVM ModelRepr ModelApi
  SpecTree SpecMatrix SpecLLVM SpecLambdify SpecPrint SpecApi
  ProofBase ProofTree ProofMatrix ProofPrint PropsMatrix PropsLLVM.

Lemma sample_faithful mc : faithful mc sample_load (sample_f64 mc) (sample_fill mc).
Proof.
  split.
  - intros text (items & f & H & _). exists text. unfold sample_load. rewrite H. reflexivity.
  - intros text c H. assert (Ec : c = text) by (unfold sample_load in H; destruct (parse text); congruence). subst c. split.
    + intros vals. exists zeros. intros v mem' Hr. unfold sample_f64. rewrite Hr. reflexivity.
    + intros size vals. exists 0%Z, zeros. split; [intros k _; reflexivity|]. intros mem' Hr.
      unfold sample_fill. rewrite Hr. reflexivity.
Qed.

Lemma reps_map l : mapM obj_rep (map OExpr l) = Ok l.
Proof. induction l as [|a l IH]; [reflexivity|]. cbn [map mapM obj_rep bind]. rewrite IH. reflexivity. Qed.
Lemma reps_bad l : (exists o, In o l /\ ~ is_expr o) -> mapM obj_rep l = Err AttributeError.
Proof.
  induction l as [|a l IH]; intros (o & Hin & Ho); [destruct Hin|].
  destruct a as [t|m|z|b|]; try reflexivity. cbn [mapM obj_rep bind].
  destruct Hin as [<-|Hin]; [destruct Ho; eexists; reflexivity|]. rewrite IH by eauto. reflexivity.
Qed.

Lemma skipn_add {A} m n (l : list A) : skipn n (skipn m l) = skipn (m + n) l.
Proof.
  revert l. induction m as [|m IH]; intros l; [reflexivity|]. destruct l as [|a l]; [cbn; destruct n; reflexivity|]. exact (IH l).
Qed.
Lemma nth_error_firstn' {A} n (l : list A) j : j < n -> nth_error (firstn n l) j = nth_error l j.
Proof.
  revert l j. induction n as [|n IH]; intros l j H; [lia|]. destruct l as [|a l]; [reflexivity|].
  destruct j as [|j]; [reflexivity|]. apply (IH l j). lia.
Qed.
Lemma nth_error_skipn' {A} n (l : list A) j : nth_error (skipn n l) j = nth_error l (n + j).
Proof.
  revert l. induction n as [|n IH]; intros l; [reflexivity|]. destruct l as [|a l]; [cbn; destruct j; reflexivity|]. exact (IH l).
Qed.
Lemma chunks_length rows cols l : length (chunks rows cols l) = rows.
Proof. revert l. induction rows as [|rows IH]; intros l; [reflexivity|]. cbn. rewrite IH. reflexivity. Qed.
Lemma chunks_row rows cols l i : i < rows -> nth_error (chunks rows cols l) i = Some (firstn cols (skipn (i * cols) l)).
Proof.
  revert l i. induction rows as [|rows IH]; intros l i H; [lia|]. destruct i as [|i]; [reflexivity|].
  cbn [chunks nth_error]. rewrite IH by lia. rewrite skipn_add. reflexivity.
Qed.
Lemma chunks_widths rows cols l : rows * cols <= length l -> Forall (fun r => length r = cols) (chunks rows cols l).
Proof.
  revert l. induction rows as [|rows IH]; intros l H; [constructor|]. cbn [chunks]. constructor.
  - rewrite firstn_length. cbn in H. lia.
  - apply IH. rewrite skipn_length. cbn in H. lia.
Qed.
Lemma block_length p0 size mem : length (block p0 size mem) = size.
Proof. unfold block. rewrite map_length, seq_length. reflexivity. Qed.
Lemma block_nth p0 size mem k : k < size -> nth_error (block p0 size mem) k = Some (mem (p0 + Z.of_nat k)%Z).
Proof.
  intros H. unfold block. rewrite nth_error_map. rewrite nth_error_nth' with (d := 0) by (rewrite seq_length; exact H).
  rewrite seq_nth by exact H. reflexivity.
Qed.

(** ** Texts of lists *)
Local Open Scope string_scope.
(** A comma or a closing bracket comes next. *)
Definition item_end (r : string) : Prop := (exists r', r = ", " ++ r') \/ (exists r', r = "]" ++ r').
Section Lists.
  Context {A : Type} (text : A -> string) (good : A -> Prop).
  Hypothesis no_bracket : forall a r r', good a -> text a ++ r <> "]" ++ r'.
  Hypothesis inj : forall a b r1 r2, good a -> good b -> item_end r1 -> item_end r2 ->
    text a ++ r1 = text b ++ r2 -> a = b /\ r1 = r2.
  Definition lrest (l : list string) (r : string) : string :=
    match l with [] => "]" ++ r | _ => ", " ++ join ", " l ++ "]" ++ r end.
  Lemma ljoin_cons x l r : join ", " (x :: l) ++ "]" ++ r = x ++ lrest l r.
  Proof. destruct l as [|y l]; [reflexivity|]. cbn [join lrest]. rewrite !app_assoc_s. reflexivity. Qed.
  Lemma lrest_end l r : item_end (lrest l r).
  Proof. destruct l; [right|left]; eexists; reflexivity. Qed.
  Lemma lrest_inj l l' r1 r2 : Forall good l -> Forall good l' ->
    lrest (map text l) r1 = lrest (map text l') r2 -> l = l' /\ r1 = r2.
  Proof.
    intros H. revert l'. induction H as [|a l Ha Hl IH]; intros l' H' E.
    - destruct l' as [|b l']; cbn [map lrest] in E; [injection E as E; auto|discriminate].
    - destruct l' as [|b l']; cbn [map lrest] in E; [discriminate|]. apply app_inv_s in E. rewrite !ljoin_cons in E.
      inversion H' as [|? ? Hb Hl']; subst. apply inj in E; auto using lrest_end. destruct E as [-> E].
      destruct (IH l' Hl' E) as [-> ->]. auto.
  Qed.
  Lemma ljoin_inj l l' r1 r2 : Forall good l -> Forall good l' ->
    join ", " (map text l) ++ "]" ++ r1 = join ", " (map text l') ++ "]" ++ r2 -> l = l' /\ r1 = r2.
  Proof.
    intros H H' E. destruct l as [|a l], l' as [|b l']; cbn [map] in E.
    - injection E as E. auto.
    - exfalso. rewrite ljoin_cons in E. inversion H'; subst. eapply no_bracket; [|symmetry; exact E]. assumption.
    - exfalso. rewrite ljoin_cons in E. inversion H; subst. eapply no_bracket; [|exact E]. assumption.
    - rewrite !ljoin_cons in E. inversion H; subst. inversion H'; subst. apply inj in E; auto using lrest_end.
      destruct E as [-> E]. apply lrest_inj in E; auto. destruct E as [-> ->]. auto.
  Qed.
End Lists.

Lemma txt_no_bracket t r r' : printable t -> txt t ++ r <> "]" ++ r'.
Proof.
  intros H E. pose proof (txt_head t H) as Hh. destruct (txt t) as [|c s]; [discriminate|].
  simpl in E, Hh. injection E as -> _. discriminate.
Qed.
Lemma item_end_stopf r : item_end r -> stopf r.
Proof. intros [[r' ->]|[r' ->]]; (split; [reflexivity|intros r2 E; discriminate]). Qed.
Lemma txt_item_inj t u r1 r2 : printable t -> printable u -> item_end r1 -> item_end r2 ->
  txt t ++ r1 = txt u ++ r2 -> t = u /\ r1 = r2.
Proof.
  intros Ht Hu H1 H2 E. eapply (full_all (tree_size t)); eauto using item_end_stopf.
Qed.
(** The text of a row. *)
Definition row_text (row : list tree) : string := repr_list (map txt row).
Lemma row_item_inj (r r' : list tree) s1 s2 : Forall printable r -> Forall printable r' -> item_end s1 -> item_end s2 ->
  row_text r ++ s1 = row_text r' ++ s2 -> r = r' /\ s1 = s2.
Proof.
  intros H H' _ _ E. unfold row_text, repr_list in E. rewrite !app_assoc_s in E. apply app_inv_s in E.
  apply (ljoin_inj txt printable) in E; auto using txt_no_bracket, txt_item_inj.
Qed.
Lemma row_no_bracket (r : list tree) s s' : Forall printable r -> row_text r ++ s <> "]" ++ s'.
Proof. discriminate. Qed.
Lemma rows_inj rows rows' s s' : Forall (Forall printable) rows -> Forall (Forall printable) rows' ->
  repr_list (map row_text rows) ++ s = repr_list (map row_text rows') ++ s' -> rows = rows' /\ s = s'.
Proof.
  intros H H' E. unfold repr_list in E. rewrite !app_assoc_s in E. apply app_inv_s in E.
  apply (ljoin_inj row_text (Forall printable)) in E; auto using row_no_bracket, row_item_inj.
Qed.
