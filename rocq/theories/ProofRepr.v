(** * The raw representation reads back: proofs for C57 *)
From Coq Require Import DecimalString DecimalZ.
From Verif Require Import Py SpecEval ModelTree SpecTree ProofBase ModelCas SpecPrint ProofPrint ModelRepr SpecRepr.
Local Open Scope string_scope.

Lemma skip_app p s : skip p (p ++ s) = Some s.
Proof. induction p as [|c p IH]; [reflexivity|]. cbn [append skip]. rewrite Ascii.eqb_refl. exact IH. Qed.

Lemma read_escaped q c s : q = sq \/ q = dq ->
  read_char (escape_char q c ++ s) = Some (c, s) /\
  exists d r, escape_char q c ++ s = String d r /\ Ascii.eqb d q = false.
Proof.
  intros [-> | ->]; destruct c as [[] [] [] [] [] [] [] []]; (split; [vm_compute; reflexivity|]);
    (eexists; eexists; split; [vm_compute; reflexivity|vm_compute; reflexivity]).
Qed.

Lemma escape_char_length q c : (1 <= String.length (escape_char q c))%nat.
Proof.
  unfold escape_char. repeat match goal with |- context [if ?b then _ else _] => destruct b end; simpl; lia.
Qed.

Lemma length_app_s a b : String.length (a ++ b) = (String.length a + String.length b)%nat.
Proof. induction a as [|c a IH]; simpl; lia. Qed.

Lemma read_escape q t : q = sq \/ q = dq -> forall s fuel, (String.length t < fuel)%nat ->
  read_chars fuel q (escape q t ++ String q s) = Some (t, s).
Proof.
  intros Hq. induction t as [|c t IH]; intros s [|fuel] Hf; cbn [String.length] in Hf; try lia.
  - cbn. rewrite Ascii.eqb_refl. reflexivity.
  - cbn [escape]. rewrite app_assoc_s. cbn [read_chars].
    destruct (read_escaped q c (escape q t ++ String q s) Hq) as (Er & d & r & E & En).
    rewrite E in *. rewrite En, Er, IH; [reflexivity|lia].
Qed.

Lemma escape_length q t : (String.length t <= String.length (escape q t))%nat.
Proof.
  induction t as [|c t IH]; [simpl; lia|]. cbn [escape String.length]. rewrite length_app_s.
  pose proof (escape_char_length q c). lia.
Qed.

Lemma quote_for_or s : quote_for s = sq \/ quote_for s = dq.
Proof. unfold quote_for. destruct (has_char sq s && negb (has_char dq s)); auto. Qed.

Lemma span_stop stop a s : all_chars (fun c => negb (stop c)) a = true -> head_is stop s = true ->
  span_until stop (a ++ s) = (a, s).
Proof.
  intros Ha Hs. induction a as [|c a IH]; cbn [append span_until all_chars] in *.
  - destruct s as [|c s]; [discriminate|]. cbn [span_until]. simpl in Hs. rewrite Hs. reflexivity.
  - apply andb_prop in Ha as [H1 H2]. apply negb_true_iff in H1. rewrite H1, IH; auto.
Qed.

Lemma all_chars_imp (p q : ascii -> bool) s : (forall c, p c = true -> q c = true) -> all_chars p s = true -> all_chars q s = true.
Proof.
  intros H. induction s as [|c s IH]; [reflexivity|]. cbn [all_chars]. intros E.
  apply andb_prop in E as [E1 E2]. rewrite (H c E1), (IH E2). reflexivity.
Qed.

Lemma digit_not_close c : is_digit c = true -> Ascii.eqb ")" c = false.
Proof. destruct c as [[] [] [] [] [] [] [] []]; vm_compute; congruence. Qed.

Lemma int_not_quote n s : head_is (fun c => Ascii.eqb c "'" || Ascii.eqb c (ascii_of_nat 34))%bool (str_int n ++ s) = false.
Proof.
  apply (head_not (fun c => is_digit c || Ascii.eqb c "-")%bool).
  - intros c. destruct c as [[] [] [] [] [] [] [] []]; vm_compute; congruence.
  - apply head_app, int_head.
Qed.

Lemma read_value_repr v s : read_value (repr_value v ++ ")" ++ s) = Some (v, ")" ++ s).
Proof.
  destruct v as [n|t]; cbn [repr_value str_value].
  - assert (Hh := int_not_quote n (")" ++ s)).
    assert (Hall : all_chars (fun c => negb (Ascii.eqb ")" c)) (str_int n) = true).
    { destruct (str_int_form n) as (neg & d & -> & Hd & _).
      assert (Hd' : all_chars (fun c => negb (Ascii.eqb ")" c)) d = true).
      { eapply all_chars_imp; [|exact Hd]. intros c Hc. apply digit_not_close in Hc. rewrite Hc. reflexivity. }
      destruct neg; [cbn [append all_chars]; rewrite Hd'; reflexivity|exact Hd']. }
    assert (Hs := span_stop (Ascii.eqb ")") (str_int n) (")" ++ s) Hall eq_refl).
    unfold read_value. destruct (str_int n ++ ")" ++ s) as [|c r] eqn:E.
    + cbn [span_until] in Hs. discriminate.
    + cbn [head_is] in Hh. rewrite Hh, Hs. unfold str_int. rewrite NilEmpty.isi, DecimalZ.of_to. reflexivity.
  - unfold repr_str. cbn [append read_value].
    replace (Ascii.eqb (quote_for t) "'" || Ascii.eqb (quote_for t) (ascii_of_nat 34))%bool with true
      by (destruct (quote_for_or t) as [-> | ->]; reflexivity).
    rewrite app_assoc_s. cbn [append].
    rewrite read_escape; [reflexivity|apply quote_for_or|].
    rewrite length_app_s. pose proof (escape_length (quote_for t) t). lia.
Qed.

Section Read.
  Variable ns : string -> option atype.

  Lemma read_tree_S fuel s : read_tree ns (S fuel) s =
    match skip "Tr(" s with
    | Some r => match read_atom ns r with
                | Some (a, r1) => match skip ")" r1 with Some r2 => Some (Atm a, r2) | None => None end
                | None => None
                end
    | None => match skip "Tree(" s with
              | Some r => match read_trees ns fuel r with Some (l, r1) => Some (Node l, r1) | None => None end
              | None => None
              end
    end.
  Proof. reflexivity. Qed.
  Lemma read_trees_S fuel s : read_trees ns (S fuel) s =
    match read_tree ns fuel s with
    | None => None
    | Some (t, r) => match skip ", " r with
                     | Some r1 => match read_trees ns fuel r1 with Some (l, r2) => Some (t :: l, r2) | None => None end
                     | None => match skip ")" r with Some r1 => Some ([t], r1) | None => None end
                     end
    end.
  Proof. reflexivity. Qed.

  Lemma no_paren s : (forall s1 s2, s <> s1 ++ "(" ++ s2) -> all_chars (fun c => negb (Ascii.eqb "(" c)) s = true.
  Proof.
    induction s as [|c s IH]; intros H; [reflexivity|]. cbn [all_chars]. apply andb_true_intro. split.
    - destruct (Ascii.eqb_spec "(" c) as [<-|]; [|reflexivity]. destruct (H "" s). reflexivity.
    - apply IH. intros s1 s2 E. apply (H (String c s1) s2). cbn [append]. rewrite E. reflexivity.
  Qed.

  Lemma read_atom_repr a s : ns (ty_name (atom_type a)) = Some (atom_type a) ->
    (forall s1 s2, ty_name (atom_type a) <> s1 ++ "(" ++ s2) ->
    read_atom ns (atom_repr a ++ s) = Some (a, s).
  Proof.
    intros Hns Hp. unfold read_atom, atom_repr. rewrite app_assoc_s, app_assoc_s.
    rewrite span_stop; [|apply no_paren, Hp|reflexivity]. rewrite Hns, skip_app, app_assoc_s, read_value_repr, skip_app.
    destruct a; reflexivity.
  Qed.

  Lemma in_scope_child cs c : in_scope ns (Node cs) -> In c cs -> in_scope ns c.
  Proof. intros H Hc a Ha. apply H. eapply reach_child; [simpl; tauto|exact Hc|exact Ha]. Qed.

  Lemma join_cons2 sep x y l : join sep (x :: y :: l) = x ++ sep ++ join sep (y :: l).
  Proof. reflexivity. Qed.

  Lemma read_tree_repr t : in_scope ns t -> forall s r fuel, tree_repr t = Ok s -> (String.length s < fuel)%nat ->
    read_tree ns fuel (s ++ r) = Some (t, r).
  Proof.
    induction t as [a|cs IH] using tree_ind_all; intros Hsc s r [|fuel] Hs Hf; try lia.
    - assert (E : s = "Tr(" ++ atom_repr a ++ ")") by (symmetry; cbn [tree_repr children tree_value bind] in Hs; congruence).
      subst s. rewrite read_tree_S. rewrite app_assoc_s, skip_app, app_assoc_s.
      destruct (Hsc a) as [H1 H2]; [constructor; simpl; tauto|].
      rewrite read_atom_repr by assumption. rewrite skip_app. reflexivity.
    - destruct cs as [|c0 cs0]; [discriminate|]. remember (c0 :: cs0) as cs eqn:Ecs.
      assert (Hm : exists l, mapM tree_repr cs = Ok l /\ s = "Tree(" ++ join ", " l ++ ")").
      { subst cs. cbn [tree_repr children] in Hs. destruct (mapM tree_repr (c0 :: cs0)) as [l|]; [|discriminate].
        exists l. split; [reflexivity|]. cbn [bind] in Hs. congruence. }
      destruct Hm as (l & Hm & ->). clear Hs.
      rewrite read_tree_S. replace (skip "Tr(" (("Tree(" ++ join ", " l ++ ")") ++ r)) with (@None string) by reflexivity.
      rewrite app_assoc_s, skip_app.
      assert (Hl : forall cs l fuel, cs <> [] -> (forall c, In c cs -> in_scope ns c) ->
        (forall c, In c cs -> in_scope ns c -> forall s r fuel, tree_repr c = Ok s -> (String.length s < fuel)%nat ->
            read_tree ns fuel (s ++ r) = Some (c, r)) ->
        mapM tree_repr cs = Ok l -> (S (String.length (join ", " l)) < fuel)%nat ->
        read_trees ns fuel ((join ", " l ++ ")") ++ r) = Some (cs, r)).
      { clear. intros cs. induction cs as [|c cs IHc]; intros l fuel Hne Hsc IH Hm Hf; [congruence|].
        cbn [mapM] in Hm. destruct (tree_repr c) as [sc|] eqn:Ec; [|discriminate]. cbn [bind] in Hm.
        destruct (mapM tree_repr cs) as [l'|] eqn:El; [|discriminate]. injection Hm as <-.
        destruct fuel as [|fuel]; [lia|]. rewrite read_trees_S.
        assert (Hsc' := Hsc c (or_introl eq_refl)). specialize (IH c (or_introl eq_refl)) as IH1.
        destruct cs as [|c1 cs1].
        - injection El as <-. cbn [join] in *. rewrite app_assoc_s, (IH1 Hsc' sc (")" ++ r) fuel Ec) by lia.
          replace (skip ", " (")" ++ r)) with (@None string) by reflexivity. rewrite skip_app. reflexivity.
        - destruct l' as [|s1 l1]; [cbn [mapM] in El; destruct (tree_repr c1); [cbn [bind] in El; destruct (mapM tree_repr cs1)|]; discriminate|].
          rewrite join_cons2 in *. rewrite !length_app_s in Hf. cbn [String.length] in Hf.
          rewrite !app_assoc_s, (IH1 Hsc' sc _ fuel Ec) by lia.
          rewrite skip_app. rewrite <- app_assoc_s, (IHc (s1 :: l1)); [reflexivity|discriminate| | |reflexivity|lia].
          + intros c2 H2. apply Hsc. right. exact H2.
          + intros c2 H2. apply IH. right. exact H2. }
      rewrite (Hl cs l); [reflexivity|subst; discriminate| | |exact Hm|].
      + intros c Hc. eapply in_scope_child; eauto.
      + exact IH.
      + cbn [String.length append] in Hf. rewrite length_app_s in Hf. simpl in Hf. lia.
  Qed.

  Lemma eval_repr_back t s : in_scope ns t -> tree_repr t = Ok s -> py_eval ns s = Some t.
  Proof.
    intros Hsc Hs. unfold py_eval. rewrite <- (app_nil_s s) at 2.
    rewrite (read_tree_repr t Hsc s "" _ Hs); [reflexivity|lia].
  Qed.
End Read.

Lemma tree_repr_iff t : (exists s, tree_repr t = Ok s) <-> whole t.
Proof.
  induction t as [a|cs IH] using tree_ind_all.
  - split; intros _; [apply whole_atom|]. eexists. reflexivity.
  - destruct cs as [|h args].
    + split; [intros (s & H); discriminate|]. intros H. destruct (whole_nil H).
    + rewrite whole_node. transitivity (exists l, mapM tree_repr (h :: args) = Ok l).
      * change (tree_repr (Node (h :: args))) with (do l <- mapM tree_repr (h :: args); Ok ("Tree(" ++ join ", " l ++ ")")).
        destruct (mapM tree_repr (h :: args)) as [l|]; cbn [bind]; split; intros (s & H); try discriminate; eexists; reflexivity.
      * rewrite mapM_some_iff. rewrite Forall_forall. split.
        -- intros H. split; [apply IH; [left; reflexivity|apply H; left; reflexivity]|].
           apply Forall_forall. intros c Hc. apply IH; [right; exact Hc|apply H; right; exact Hc].
        -- intros [H1 H2] c Hc. rewrite Forall_forall in H2. apply IH; [exact Hc|]. destruct Hc as [<-|Hc]; auto.
Qed.

From Verif Require Import ProofTopo ProofTree.

(** A scope for the atom types of two expressions. *)
Definition types_of (l : list tree) : list atype :=
  flat_map (fun t => match t with Atm a => [atom_type a] | Node _ => [] end) l.
Definition scope_of (l : list tree) (name : string) : option atype :=
  find (fun T => String.eqb (ty_name T) name) (types_of l).

Lemma types_of_in l T : In T (types_of l) <-> exists a, In (Atm a) l /\ atom_type a = T.
Proof.
  unfold types_of. rewrite in_flat_map. split.
  - intros ([a|cs] & Hl & HT); [|destruct HT]. destruct HT as [<-|[]]. eauto.
  - intros (a & Hl & <-). exists (Atm a). split; [exact Hl|left; reflexivity].
Qed.

Lemma tree_repr_inj e1 e2 s :
  (forall a b, reach true [] e1 (Atm a) \/ reach true [] e2 (Atm a) ->
     reach true [] e1 (Atm b) \/ reach true [] e2 (Atm b) ->
     ty_name (atom_type a) = ty_name (atom_type b) -> atom_type a = atom_type b) ->
  (forall a s1 s2, reach true [] e1 (Atm a) \/ reach true [] e2 (Atm a) -> ty_name (atom_type a) <> s1 ++ "(" ++ s2) ->
  tree_repr e1 = Ok s -> tree_repr e2 = Ok s -> e1 = e2.
Proof.
  intros Hn Hp H1 H2.
  destruct (topological_sort_full e1 true) as (l1 & _ & _ & Hl1 & _).
  destruct (topological_sort_full e2 true) as (l2 & _ & _ & Hl2 & _).
  set (l := ((l1 ++ [e1]) ++ (l2 ++ [e2]))%list).
  assert (Hl : forall u, In u l <-> reach true [] e1 u \/ reach true [] e2 u).
  { intros u. unfold l. rewrite in_app_iff, Hl1, Hl2. reflexivity. }
  assert (Hs : forall a, reach true [] e1 (Atm a) \/ reach true [] e2 (Atm a) ->
    scope_of l (ty_name (atom_type a)) = Some (atom_type a)).
  { intros a Ha. unfold scope_of. destruct (find _ (types_of l)) as [T|] eqn:E.
    - apply find_some in E as [HT E]. apply String.eqb_eq in E. apply types_of_in in HT as (b & Hb & <-).
      apply Hl in Hb. rewrite (Hn b a Hb Ha E). reflexivity.
    - exfalso. eapply find_none in E; [|apply types_of_in; exists a; split; [apply Hl, Ha|reflexivity]].
      rewrite String.eqb_refl in E. discriminate. }
  assert (E1 : py_eval (scope_of l) s = Some e1).
  { apply eval_repr_back; [|exact H1]. intros a Ha. split; [apply Hs; left; exact Ha|intros; apply Hp; left; exact Ha]. }
  assert (E2 : py_eval (scope_of l) s = Some e2).
  { apply eval_repr_back; [|exact H2]. intros a Ha. split; [apply Hs; right; exact Ha|intros; apply Hp; right; exact Ha]. }
  congruence.
Qed.

(** [repr_raises] in ModelEval.v, where the text does not matter, is whether [tree_repr] raises. *)
Lemma repr_raises_eq t : ModelEval.repr_raises t = (do _ <- tree_repr t; Ok tt).
Proof.
  induction t as [a|cs IH] using tree_ind_all; [reflexivity|]. destruct cs as [|c cs]; [reflexivity|].
  change (tree_repr (Node (c :: cs))) with (do l <- mapM tree_repr (c :: cs); Ok ("Tree(" ++ join ", " l ++ ")")).
  change (ModelEval.repr_raises (Node (c :: cs))) with (do _ <- mapM ModelEval.repr_raises (c :: cs); Ok tt).
  assert (E : (do _ <- mapM ModelEval.repr_raises (c :: cs); Ok tt) = (do _ <- mapM tree_repr (c :: cs); Ok tt)).
  { revert IH. induction (c :: cs) as [|x l IHl]; intros IH; [reflexivity|]. cbn [mapM]. rewrite (IH x (or_introl eq_refl)).
    destruct (tree_repr x); cbn [bind]; [|reflexivity]. specialize (IHl (fun y Hy => IH y (or_intror Hy))).
    destruct (mapM ModelEval.repr_raises l), (mapM tree_repr l); cbn [bind] in *; congruence. }
  rewrite E. destruct (mapM tree_repr (c :: cs)); reflexivity.
Qed.
