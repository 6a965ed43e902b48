(** * C90. The lists a program holds and its matrices never share anything. *)
From Verif Require Import Py ModelTree SpecTree ProofBase ModelDiff ModelSym ModelCas ModelMatrix SpecMatrix ProofMatrix
  ProofSympy ModelLists SpecLists ProofLists PropsMatrix Samples.
Local Open Scope string_scope.

(** C90. [reached s k]: some program has run, [s] is the store and [k] what it holds: lists and matrices; see
    SpecLists.v. Whatever the program then does, to lists it passed to Matrix(...), to lists tolist() gave it and
    to any others, a matrix it holds has the same entries. *)
Theorem C90_matrices_keep_their_entries s k s' k' m : reached s k -> In m (mats k) -> runs s k s' k' ->
  In m (mats k') /\ entries_now m s' = entries_now m s /\ forall i j, entry_now m i j s' = entry_now m i j s.
Proof.
  intros Hr Hm Hs. pose proof (reached_inv _ _ Hr) as Hi. destruct (proj2 Hi m Hm) as [[l Hw] _].
  destruct (runs_keeps _ _ _ _ _ _ Hs Hi Hm Hw) as (H1 & H2 & H3). split; [exact H1|]. split.
  - destruct (entries_spec _ _ _ Hw) as (rows & _ & E1 & ->), (entries_spec _ _ _ H2) as (rows' & _ & E2 & ->). rewrite H3 in E2. congruence.
  - intros i j. rewrite (entry_spec _ _ _ i j Hw), (entry_spec _ _ _ i j H2), H3. reflexivity.
Qed.

(** Matrix(L) takes what L contains at that moment: these are the entries ever after. *)
Theorem C90_constructor_copies s k v m s' : reached s k -> available s (roots k) v -> s_matrix_new v s = (Ok m, s') ->
  exists loc ts, v = UList loc /\
    Forall2 (Forall2 (fun u t => expressify (as_pyobj u) = Ok t)) (rows_of s loc) ts /\
    forall s2 k2, runs s' (hold_matrix (Ok m) k) s2 k2 -> entries_now m s2 = Ok (map (map uexpr) ts).
Proof.
  intros Hr Hv E. destruct (new_sim v s) as [H|(m0 & l & d & s1 & E1 & Hn & Hh)].
  { destruct (H empty_heap) as (x & E1 & _). congruence. }
  rewrite E1 in E. injection E as -> ->. destruct (Hh empty_heap) as (m' & h' & E2 & Hsame).
  destruct (matrix_new_cases (as_pyrows s v) empty_heap) as [(rows & nc & ts & Ep & Hne & Hl & Hts)|(x & Ex & _)]; [|congruence].
  destruct v as [o|loc]; [discriminate|]. exists loc, ts. split; [reflexivity|]. split.
  - injection Ep as Ep. unfold rows_of. clear -Ep Hts. revert rows ts Ep Hts. induction (contents s loc) as [|u us IH]; intros rows ts Ep Hts.
    + destruct rows; [|discriminate]. inversion Hts. constructor.
    + destruct rows as [|row rows]; [discriminate|]. cbn [map] in Ep. injection Ep as E1 E2. inversion Hts as [|? t ? ts' Ht Hts' X1 X2]; subst.
      cbn [map]. constructor; [|eapply IH; eauto]. destruct u as [o|r]; [discriminate|]. cbn [as_pyrow] in E1. injection E1 as <-.
      clear -Ht. revert t Ht. induction (contents s r) as [|u us IH]; intros t Ht; inversion Ht; subst; constructor; auto.
  - assert (Hd : does s k s' (hold_matrix (Ok m) k)) by (apply does_call; eapply call_new; eauto).
    assert (Hr' : reached s' (hold_matrix (Ok m) k)) by (eapply runs_more; eauto).
    intros s2 k2 H2. destruct (C90_matrices_keep_their_entries _ _ _ _ m Hr' (or_introl eq_refl) H2) as (_ & -> & _).
    destruct (C42_construction_round_trip empty_heap [] rows nc ts (steps_none _ _) Hne Hl Hts) as (m2 & h2 & E3 & Hh2 & _ & _ & Hto).
    rewrite Ep, E3 in E2. injection E2 as -> ->.
    destruct (Hto h' [m'] (steps_none _ _)) as [Et _].
    destruct (entries_same s' m h' m' l) as (rows' & E4 & ->).
    + apply Hn.
    + apply (history_wf _ _ Hh2). left. reflexivity.
    + exact Hsame.
    + congruence.
Qed.

(** tolist() makes new lists: one for each row, all different, which nothing else refers to. *)
Theorem C90_tolist_makes_new_lists s k m : reached s k -> In m (mats k) ->
  exists l rows s', s_tolist m s = (Ok l, s') /\ reached s' (hold_list (Ok l) k) /\
    contents s' l = map UList rows /\ length rows = m_nrows m /\ NoDup (l :: rows) /\
    (forall q, In q (l :: rows) -> ~ reach s (roots k) q /\ forall m', In m' (mats k) -> m_elements m' <> q) /\
    (forall q, In q (l :: rows) -> length (s_lists s) <= q) /\
    forall i r, nth_error rows i = Some r -> length (contents s' r) = m_ncols m /\
      forall j v, nth_error (contents s' r) j = Some v -> entry_now m (Z.of_nat i) (Z.of_nat j) s = Ok v.
Proof.
  intros Hr Hm. pose proof (reached_inv _ _ Hr) as Hi. destruct (proj2 Hi m Hm) as [[l Hw] _].
  destruct (s_tolist_spec s m l Hw) as (ts & Hsh & Hc & _ & E).
  destruct (rows_of_tolist s m l ts Hw Hsh) as [Er Ec].
  exists (length (s_lists s) + m_nrows m), (seq (length (s_lists s)) (m_nrows m)). eexists. split; [exact E|].
  assert (Hge : forall q, In q (length (s_lists s) + m_nrows m :: seq (length (s_lists s)) (m_nrows m)) -> length (s_lists s) <= q).
  { intros q [<-|Hq]; [lia|]. apply in_seq in Hq. lia. }
  split; [eapply runs_more; [exact Hr|]; apply does_call; eapply call_tolist; eauto|].
  split; [exact Ec|]. split; [apply seq_length|]. split; [|split; [|split; [exact Hge|]]].
  - constructor; [|apply seq_NoDup]. intros H. apply in_seq in H. lia.
  - intros q Hq. apply Hge in Hq. split.
    + intros H. apply (reach_bounded _ _ _ (proj1 Hi)) in H. lia.
    + intros m' Hm'. destruct (proj2 Hi m' Hm') as [[l' (H & _)] _]. lia.
  - intros i r Hri. assert (Hin : i < m_nrows m) by (rewrite <- (seq_length (m_nrows m) (length (s_lists s))); apply nth_error_Some; congruence).
    apply nth_error_nth with (d := 0) in Hri. rewrite seq_nth in Hri by exact Hin. subst r. destruct Hsh as [Hs1 Hs2].
    assert (Er2 : contents (mkStore (s_lists s ++ map (map uexpr) ts ++ [map UList (seq (length (s_lists s)) (m_nrows m))]) (s_dicts s)) (length (s_lists s) + i) = map uexpr (nth i ts [])).
    { unfold contents. cbn [s_lists]. rewrite nth_mid by (rewrite map_length; lia). change [] with (map uexpr []) at 1. apply map_nth. }
    rewrite Er2. assert (Hrow : length (nth i ts []) = m_ncols m) by (apply Hs2, nth_In; lia). rewrite map_length. split; [exact Hrow|].
    intros j v Hj. assert (Hj2 : j < m_ncols m) by (rewrite <- Hrow, <- (map_length uexpr); apply nth_error_Some; congruence).
    apply nth_error_nth with (d := uexpr zero) in Hj. rewrite map_nth in Hj. subst v.
    rewrite (entry_spec s m l _ _ Hw).
    assert (R : forall a n, a < n -> in_range (Z.of_nat a) n = true) by (intros a n Ha; apply in_range_spec; lia).
    rewrite !R by assumption. cbn [andb]. rewrite <- Hc, !Nat2Z.id. reflexivity.
Qed.

(** No call changes a list that exists. *)
Theorem C90_calls_change_no_list s k s' k' : reached s k -> call s k s' k' ->
  (forall q, q < length (s_lists s) -> contents s' q = contents s q) /\
  (forall q, reach s (roots k) q -> q < length (s_lists s) /\ contents s' q = contents s q).
Proof.
  intros Hr Hc. pose proof (reached_inv _ _ Hr) as Hi. destruct (call_inv _ _ _ _ Hc Hi) as [He _].
  assert (H : forall q, q < length (s_lists s) -> contents s' q = contents s q) by (intros q Hq; apply contents_old; assumption).
  split; [exact H|]. intros q Hq. apply (reach_bounded _ _ _ (proj1 Hi)) in Hq. auto.
Qed.

(** The calls do what ModelMatrix.v says, so that C42 - C45 hold here too. *)
Theorem C90_same_as_contents s k h ms : reached s k -> history h ms ->
  (forall v, same_result (s_matrix_new v s) (matrix_new (as_pyrows s v) h)) /\
  (forall A B A' B' func, In A (mats k) -> In B (mats k) -> In A' ms -> In B' ms -> same_matrix s A h A' -> same_matrix s B h B' ->
     same_result (s_binop A B func s) (matrix_binop A' B' func h) /\ same_result (s_add A B s) (matrix_add A' B' h)) /\
  (forall A A' sym, In A (mats k) -> In A' ms -> same_matrix s A h A' -> same_result (s_diff A sym s) (matrix_diff A' sym h)) /\
  (forall A A', In A (mats k) -> In A' ms -> same_matrix s A h A' ->
     (exists rows, tolist A' h = Ok rows /\ entries_now A s = Ok (map (map uexpr) rows)) /\
     forall i j, entry_now A i j s = (do t <- get A' i j h; Ok (uexpr t))).
Proof.
  intros Hr Hh. pose proof (reached_inv _ _ Hr) as [_ Hi]. pose proof (history_wf _ _ Hh) as Hw. split; [|split; [|split]].
  - intros v. destruct (new_sim v s) as [H|(m & l & d & s' & E & _ & H)].
    + destruct (H h) as (x & -> & ->). reflexivity.
    + destruct (H h) as (m' & h' & -> & Hs). rewrite E. exact Hs.
  - intros A B A' B' func0 HA HB HA' HB' SA SB.
    assert (G : forall func, same_result (s_binop A B func s) (matrix_binop A' B' func h)); [|split; apply G].
    intros func. clear func0. destruct (Hi A HA) as [[la WA] _], (Hi B HB) as [[lb WB] _].
    destruct (binop_sim A B func s la lb WA WB) as [[Es ->]|(m & l & d & s' & -> & _ & H)].
    + rewrite (h_binop_spec A' B' func h (Hw _ HA') (Hw _ HB')). replace (same_shape A' B') with false; [reflexivity|].
      unfold same_shape in *. destruct SA as (<- & <- & _), SB as (<- & <- & _). symmetry. exact Es.
    + destruct (H h A' B' (Hw _ HA') (Hw _ HB') SA SB) as (m' & h' & -> & Hs). exact Hs.
  - intros A A' sym HA HA' SA. destruct (Hi A HA) as [[la WA] _].
    destruct (diff_sim A sym s la WA) as [(x & -> & H)|(m & l & s' & -> & _ & _ & H)].
    + rewrite (H h A' SA). reflexivity.
    + destruct (H h A' (Hw _ HA') SA) as (m' & h' & -> & Hs). exact Hs.
  - intros A A' HA HA' SA. destruct (Hi A HA) as [[la WA] _]. split; [eapply entries_same; eauto|].
    intros i j. rewrite (entry_spec s A la i j WA). destruct (same_parts _ _ _ _ _ WA SA) as [E1 E2]. destruct SA as (S1 & S2 & _).
    destruct (inside_dec A' i j) as [Hin|Hin].
    + rewrite (get_inside h A' i j (Hw _ HA') Hin), E1, E2. destruct Hin as [H1 H2]. apply in_range_spec in H1, H2. rewrite S1, S2, H1, H2. reflexivity.
    + rewrite (get_outside h A' i j Hin), S1, S2. destruct (in_range i (m_nrows A')) eqn:E3; [destruct (in_range j (m_ncols A')) eqn:E4|]; try reflexivity.
      exfalso. apply Hin. apply in_range_spec in E3, E4. split; assumption.
Qed.

(** Through the attributes: a new matrix has its own list elements and, but for diff, its own entrymap ... *)
Theorem C90_attributes s k : reached s k ->
  (forall v m s', s_matrix_new v s = (Ok m, s') -> forall a, In a (mats k) -> m_elements a <> m_elements m /\ m_entrymap a <> m_entrymap m) /\
  (forall A B func m s', In A (mats k) -> In B (mats k) -> s_binop A B func s = (Ok m, s') ->
     forall a, In a (mats k) -> m_elements a <> m_elements m /\ m_entrymap a <> m_entrymap m) /\
  (forall A sym m s', In A (mats k) -> s_diff A sym s = (Ok m, s') ->
     m_entrymap m = m_entrymap A /\ forall a, In a (mats k) -> m_elements a <> m_elements m).
Proof.
  intros Hr. pose proof (reached_inv _ _ Hr) as [_ Hi].
  assert (Hlt : forall a, In a (mats k) -> m_elements a < length (s_lists s) /\ m_entrymap a < length (s_dicts s)).
  { intros a Ha. destruct (Hi a Ha) as [[l (H1 & H2 & _)] _]. auto. }
  split; [|split].
  - intros v m s' E a Ha. destruct (s_new_cases v s empty_heap) as [(x & E1 & _)|(nr & nc & ts & _ & E1)]; [congruence|].
    rewrite E1 in E. injection E as <- <-. cbn [m_elements m_entrymap]. specialize (Hlt a Ha). lia.
  - intros A B func m s' HA HB E a Ha. destruct (Hi A HA) as [[la WA] _], (Hi B HB) as [[lb WB] _].
    rewrite (s_binop_spec A B func s la lb WA WB) in E. destruct (same_shape A B); [|discriminate].
    injection E as <- <-. cbn [m_elements m_entrymap]. specialize (Hlt a Ha). lia.
  - intros A sym m s' HA E. rewrite s_diff_spec in E. destruct (expr_diff (m_graph A) sym 1); [|discriminate].
    injection E as <- <-. cbn [m_elements m_entrymap]. split; [reflexivity|]. intros b Ha. specialize (Hlt b Ha). lia.
Qed.

(** A program: row = [x, 0]; M = Matrix([row, row]); row[0] = y; T = M.tolist(); T[0][1] = y. *)
Definition st0 := mkStore [[uexpr x; UObj (PInt 0)]; [UList 0; UList 0]] [].
Definition mm := mkMatrix 2 2 3 (tree_call List_ [x; x]) 0.
Definition st1 := mkStore [[uexpr x; UObj (PInt 0)]; [UList 0; UList 0]; [uexpr x; uexpr x]; [uexpr x; uexpr x]] [[((0, 0), 0); ((1, 0), 1)]].
Definition st2 := mkStore [[uexpr y; UObj (PInt 0)]; [UList 0; UList 0]; [uexpr x; uexpr x]; [uexpr x; uexpr x]] [[((0, 0), 0); ((1, 0), 1)]].
Definition st3 := mkStore (s_lists st2 ++ [[uexpr x; uexpr zero]; [uexpr x; uexpr zero]; [UList 4; UList 5]])%list (s_dicts st2).
Definition st4 := mkStore (s_lists st2 ++ [[uexpr x; uexpr y]; [uexpr x; uexpr zero]; [UList 4; UList 5]])%list (s_dicts st2).
Lemma reached_1 : reached st1 (mkHeld [1; 0] [mm]).
Proof.
  eapply runs_more; [eapply runs_more; [eapply runs_more; [apply runs_none|]|]|].
  - apply (does_new _ (mkHeld [] []) [uexpr x; UObj (PInt 0)]); [|reflexivity]. intros v [<-|[<-|[]]]; exact Logic.I.
  - apply (does_new _ (mkHeld [0] []) [UList 0; UList 0]); [|reflexivity].
    intros v [<-|[<-|[]]]; apply reach_root; left; reflexivity.
  - apply does_call. apply (call_new _ (mkHeld [1; 0] []) (UList 1) (Ok mm)); [apply reach_root; left; reflexivity|]. vm_compute. reflexivity.
Qed.
Example C90_case :
  reached st1 (mkHeld [1; 0] [mm]) /\ runs st1 (mkHeld [1; 0] [mm]) st4 (mkHeld [6; 1; 0] [mm]) /\
  s_matrix_new (UList 1) st0 = (Ok mm, st1) /\ s_tolist mm st2 = (Ok 6, st3) /\
  rows_of st2 1 = [[uexpr y; UObj (PInt 0)]; [uexpr y; UObj (PInt 0)]] /\
  rows_of st4 6 = [[uexpr x; uexpr y]; [uexpr x; uexpr zero]] /\
  entries_now mm st4 = Ok [[uexpr x; uexpr zero]; [uexpr x; uexpr zero]].
Proof.
  split; [exact reached_1|]. split; [|repeat split; vm_compute; reflexivity].
  eapply runs_more; [eapply runs_more; [eapply runs_more; [apply runs_none|]|]|].
  - apply (does_change _ (mkHeld [1; 0] [mm]) 0 [uexpr y; UObj (PInt 0)]); [apply reach_root; right; left; reflexivity| |reflexivity].
    intros v [<-|[<-|[]]]; exact Logic.I.
  - apply does_call. apply (call_tolist _ (mkHeld [1; 0] [mm]) mm (Ok 6)); [left; reflexivity|vm_compute; reflexivity].
  - apply (does_change _ (mkHeld [6; 1; 0] [mm]) 4 [uexpr x; uexpr y]); [|intros v [<-|[<-|[]]]; exact Logic.I|reflexivity].
    apply (reach_in _ _ 6); [apply reach_root; left; reflexivity|left; reflexivity].
Qed.
(** ... and diff shares it: putting a position into M.entrymap changes an entry of the derivative too. *)
Theorem C90_entrymap_shared_refuted :
  exists s k M D s' s'', reached s k /\ In M (mats k) /\ s_diff M x s = (Ok D, s') /\ s_put (m_entrymap M) (0, 1) 0 s' = (Ok tt, s'') /\
    entry_now D 0 1 s' = Ok (uexpr zero) /\ entry_now D 0 1 s'' = Ok (uexpr one).
Proof.
  eexists st1, _, mm, _, _, _. split; [exact reached_1|]. split; [left; reflexivity|]. split; [vm_compute; reflexivity|].
  split; [reflexivity|]. split; vm_compute; reflexivity.
Qed.
Print Assumptions C90_matrices_keep_their_entries.
Print Assumptions C90_constructor_copies.
Print Assumptions C90_tolist_makes_new_lists.
Print Assumptions C90_calls_change_no_list.
Print Assumptions C90_same_as_contents.
Print Assumptions C90_attributes.
Print Assumptions C90_entrymap_shared_refuted.
