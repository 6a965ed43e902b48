(** * C94: the text of a raw Tree. *)
From Verif Require Import Py ModelTree SpecTree ProofBase ModelEval SpecEval ModelCas SpecPrint ProofPrint SpecTreeText Samples.
From Verif Require ProofTopo ProofRepr ProofSympy.
Local Open Scope string_scope.

Lemma join_concat sep l : join sep l = String.concat sep l.
Proof. induction l as [|a [|b l] IH]; reflexivity. Qed.

(** C94. str of a Tree is the text of its atom, or head(arg, ..., arg). *)
Theorem C94_text : (forall a, tree_str (Atm a) = Ok (str_value (atom_value a))) /\ tree_str (Node []) = Err AttributeError /\
  forall h args s, tree_str (tree_call h args) = Ok s <->
    exists hs l, tree_str h = Ok hs /\ Forall2 (fun a w => tree_str a = Ok w) args l /\ s = hs ++ "(" ++ String.concat ", " l ++ ")".
Proof.
  split; [reflexivity|]. split; [reflexivity|]. intros h args s. unfold tree_call. cbn [tree_str]. split.
  - destruct (tree_str h) as [hs|]; [|discriminate]. cbn [bind]. destruct (mapM tree_str args) as [l|] eqn:E; [|discriminate]. cbn [bind]. intros [= <-].
    exists hs, l. split; [reflexivity|]. split; [apply mapM_Ok_Forall2, E|]. rewrite join_concat. reflexivity.
  - intros (hs & l & -> & Hl & ->). apply mapM_Ok_Forall2 in Hl. cbn [bind]. rewrite Hl. cbn [bind]. rewrite join_concat. reflexivity.
Qed.

(** It succeeds exactly if there is no Tree() in it. *)
Theorem C94_when_str_succeeds e : (exists s, tree_str e = Ok s) <-> whole e.
Proof.
  induction e as [a|cs IH] using tree_ind_all.
  - split; [|intros _; eexists; reflexivity]. intros _ H. inversion H as [|t c s0 Hx Hc Hr]; subst. destruct Hc.
  - destruct cs as [|h args].
    + split; [intros [s H]; discriminate|]. intros H. exfalso. apply H. constructor. intros [].
    + assert (Hin : forall c, In c (h :: args) -> whole (Node (h :: args)) -> whole c).
      { intros c Hc Hw Hr. apply Hw. eapply reach_child; [intros []|exact Hc|exact Hr]. }
      split.
      * intros [s Hs] Hr. destruct C94_text as (_ & _ & G). apply G in Hs as (hs & l & Hh & Hl & _).
        inversion Hr as [|t c s0 Hx Hc Hr']; subst. cbn [kids children] in Hc.
        destruct (IH c) as [H1 _]; [exact Hc|]. apply (H1); [|exact Hr']. destruct Hc as [<-|Hc]; [eauto|].
        clear -Hl Hc. induction Hl as [|a w args l Ha _ IHl]; [destruct Hc|]. destruct Hc as [<-|Hc]; [eauto|auto].
      * intros Hw. destruct (proj2 (IH h (or_introl eq_refl)) (Hin h (or_introl eq_refl) Hw)) as [hs Hh].
        assert (Hm : exists l, mapM tree_str args = Ok l).
        { apply ProofSympy.mapM_all_iff, Forall_forall. intros a Ha. apply IH; [right; exact Ha|]. apply Hin; [right; exact Ha|exact Hw]. }
        destruct Hm as [l Hl]. cbn [tree_str]. rewrite Hh, Hl. eexists. reflexivity.
Qed.

Lemma app_nil_r_s s : s ++ "" = s.
Proof. induction s as [|c s IH]; [reflexivity|]. cbn [append]. rewrite IH. reflexivity. Qed.
(** ** Reading the text back: deterministic relations. *)
Fixpoint word (s : string) : string * string :=
  match s with
  | EmptyString => ("", "")
  | String c r => if special c then ("", s) else let (w, r') := word r in (String c w, r')
  end.
Definition starts (c : ascii) (s : string) : bool := match s with String d _ => Ascii.eqb c d | _ => false end.
Definition leaf (w : string) : tree := Atm (mkAtom T_Symbol (VStr w)).
Inductive reads : string -> tree -> string -> Prop :=
| r_tree s w r t r' : word s = (w, r) -> groups (leaf w) r t r' -> reads s t r'
with groups : tree -> string -> tree -> string -> Prop :=
| g_more acc r l r1 t r2 : reads_args r l r1 -> groups (Node (acc :: l)) r1 t r2 -> groups acc (String "(" r) t r2
| g_end acc s : starts "(" s = false -> groups acc s acc s
with reads_args : string -> list tree -> string -> Prop :=
| a_none r : reads_args (String ")" r) [] r
| a_some s l r : starts ")" s = false -> reads_list s l r -> reads_args s l r
with reads_list : string -> list tree -> string -> Prop :=
| l_last s t r : reads s t (String ")" r) -> reads_list s [t] r
| l_more s t r l r2 : reads s t (String "," (String " " r)) -> reads_list r l r2 -> reads_list s (t :: l) r2.
Scheme reads_m := Induction for reads Sort Prop
  with groups_m := Induction for groups Sort Prop
  with args_m := Induction for reads_args Sort Prop
  with list_m := Induction for reads_list Sort Prop.
Combined Scheme reads_mutual from reads_m, groups_m, args_m, list_m.
Lemma reads_deterministic :
  (forall s t r, reads s t r -> forall t' r', reads s t' r' -> t' = t /\ r' = r) /\
  (forall acc s t r, groups acc s t r -> forall t' r', groups acc s t' r' -> t' = t /\ r' = r) /\
  (forall s l r, reads_args s l r -> forall l' r', reads_args s l' r' -> l' = l /\ r' = r) /\
  (forall s l r, reads_list s l r -> forall l' r', reads_list s l' r' -> l' = l /\ r' = r).
Proof.
  apply (reads_mutual (fun s t r _ => forall t' r', reads s t' r' -> t' = t /\ r' = r)
    (fun acc s t r _ => forall t' r', groups acc s t' r' -> t' = t /\ r' = r)
    (fun s l r _ => forall l' r', reads_args s l' r' -> l' = l /\ r' = r)
    (fun s l r _ => forall l' r', reads_list s l' r' -> l' = l /\ r' = r)).
  - intros s w r t r' Hw _ IH t2 r2 H. inversion H as [s0 w0 r0 t0 r0' Hw' Hg]; subst. rewrite Hw in Hw'. injection Hw' as <- <-. auto.
  - intros acc r l r1 t r2 _ IH1 _ IH2 t' r' H. inversion H as [acc' r0 l0 r10 t0 r20 Ha Hg|acc' s Hs]; subst; [|discriminate].
    destruct (IH1 _ _ Ha) as [-> ->]. auto.
  - intros acc s Hs t' r' H. inversion H; subst; [discriminate|auto].
  - intros r l' r' H. inversion H as [|s l r0 Hs Hl]; subst; [auto|discriminate].
  - intros s l r Hs _ IH l' r' H. inversion H; subst; [discriminate|auto].
  - intros s t r _ IH l' r' H. inversion H as [s0 t0 r0 H0|s0 t0 r0 l0 r2 H0 H1]; subst.
    + destruct (IH _ _ H0) as [-> E]. injection E as <-. auto.
    + destruct (IH _ _ H0) as [_ E]. discriminate.
  - intros s t r l r2 _ IH1 _ IH2 l' r' H. inversion H as [s0 t0 r0 H0|s0 t0 r0 l0 r20 H0 H1]; subst.
    + destruct (IH1 _ _ H0) as [_ E]. discriminate.
    + destruct (IH1 _ _ H0) as [-> E]. injection E as <-. destruct (IH2 _ _ H1) as [-> ->]. auto.
Qed.

Definition ends_word (s : string) : bool := match s with EmptyString => true | String c _ => special c end.
Lemma word_app w r : no_special w = true -> ends_word r = true -> word (w ++ r) = (w, r).
Proof.
  intros Hw Hr. induction w as [|c w IH]; cbn [append word].
  - destruct r as [|c r]; [reflexivity|]. cbn in Hr |- *. rewrite Hr. reflexivity.
  - cbn [no_special] in Hw. apply andb_true_iff in Hw as [H1 H2]. apply negb_true_iff in H1. rewrite H1, IH by exact H2. reflexivity.
Qed.
Lemma text_starts e : plain_atoms e -> forall s, tree_str e = Ok s -> exists c r, s = String c r /\ special c = false.
Proof.
  induction e as [a|cs IH] using tree_ind_all; intros Hp s Hs.
  - injection Hs as <-. destruct (Hp a) as [H1 H2]; [constructor; intros []|]. destruct (str_value (atom_value a)) as [|c r]; [congruence|].
    exists c, r. split; [reflexivity|]. cbn in H2. apply andb_true_iff in H2 as [H2 _]. apply negb_true_iff, H2.
  - destruct cs as [|h args]; [discriminate|]. apply (proj2 (proj2 C94_text)) in Hs as (hs & l & Hh & _ & ->).
    destruct (IH h (or_introl eq_refl)) with (s := hs) as (c & r & -> & Hc); [|exact Hh|eexists; eexists; split; [reflexivity|exact Hc]].
    intros a Ha. apply Hp. eapply reach_child; [intros []|left; reflexivity|exact Ha].
Qed.
Lemma text_reads e : plain_atoms e -> forall s r t r', tree_str e = Ok s -> ends_word r = true -> groups (erase e) r t r' -> reads (s ++ r) t r'.
Proof.
  induction e as [a|cs IH] using tree_ind_all; intros Hp s r t r' Hs Hr Hg.
  - injection Hs as <-. destruct (Hp a) as [_ H2]; [constructor; intros []|]. eapply r_tree; [apply word_app; [exact H2|exact Hr]|exact Hg].
  - destruct cs as [|h args]; [discriminate|]. apply (proj2 (proj2 C94_text)) in Hs as (hs & l & Hh & Hl & ->).
    assert (Hsub : forall c, In c (h :: args) -> plain_atoms c).
    { intros c Hc a Ha. apply Hp. eapply reach_child; [intros []|exact Hc|exact Ha]. }
    rewrite !app_assoc_s. apply (IH h (or_introl eq_refl) (Hsub h (or_introl eq_refl)) hs _ t r' Hh); [reflexivity|].
    cbn [append]. cbn [erase map] in Hg. eapply g_more; [|exact Hg]. clear Hg Hh Hp. cbn [append].
    destruct Hl as [|a w args l Ha Hl]; [constructor|]. apply a_some.
    { destruct (text_starts a (Hsub a (or_intror (or_introl eq_refl))) w Ha) as (c & q & -> & Hc).
      destruct l; cbn [String.concat append starts]; (destruct (Ascii.eqb_spec ")" c) as [<-|]; [discriminate|reflexivity]). }
    assert (G : forall args l, Forall2 (fun a w => tree_str a = Ok w) args l -> forall a w, tree_str a = Ok w -> incl (a :: args) (h :: a :: args) ->
      (forall c, In c (a :: args) -> plain_atoms c /\ forall s r t r', tree_str c = Ok s -> ends_word r = true -> groups (erase c) r t r' -> reads (s ++ r) t r') ->
      reads_list (String.concat ", " (w :: l) ++ String ")" r) (map erase (a :: args)) r).
    { clear. induction 1 as [|b v args l Hb Hl IHl]; intros a w Ha _ Hc.
      - cbn [String.concat map]. apply l_last. apply (proj2 (Hc a (or_introl eq_refl))); [exact Ha|reflexivity|apply g_end; reflexivity].
      - change (String.concat ", " (w :: v :: l)) with (w ++ ", " ++ String.concat ", " (v :: l)). rewrite !app_assoc_s. cbn [map append].
        eapply l_more; [apply (proj2 (Hc a (or_introl eq_refl))); [exact Ha|reflexivity|apply g_end; reflexivity]|].
        apply (IHl b v Hb); [intros q Hq; right; exact Hq|]. intros c Hi. apply Hc. right. exact Hi. }
    apply (G args l Hl a w Ha); [intros q Hq; right; exact Hq|]. intros c Hc. split; [apply Hsub; right; exact Hc|].
    apply IH; [right; exact Hc|apply Hsub; right; exact Hc].
Qed.

(** The text determines the tree up to the types of the atoms, if the texts of the atoms are not empty and contain
    no parenthesis or comma. *)
Theorem C94_str_determines_tree e1 e2 s : plain_atoms e1 -> plain_atoms e2 -> tree_str e1 = Ok s -> tree_str e2 = Ok s -> erase e1 = erase e2.
Proof.
  intros P1 P2 H1 H2.
  assert (G : forall e, plain_atoms e -> tree_str e = Ok s -> reads s (erase e) "").
  { intros e P H. rewrite <- (app_nil_r_s s). eapply text_reads; [exact P|exact H|reflexivity|apply g_end; reflexivity]. }
  exact (proj1 (proj1 reads_deterministic s _ _ (G e2 P2 H2) _ _ (G e1 P1 H1))).
Qed.
Theorem C94_types_do_not_show e1 e2 : erase e1 = erase e2 -> tree_str e1 = tree_str e2.
Proof.
  revert e2. induction e1 as [a|cs IH] using tree_ind_all; intros [b|ds] E; try discriminate; [cbn in *; congruence|].
  injection E as E. destruct cs as [|h args], ds as [|g us]; try discriminate; [reflexivity|]. cbn [map] in E. injection E as E1 E2.
  cbn [tree_str]. rewrite (IH h (or_introl eq_refl) g E1).
  assert (G : forall l m, incl l (h :: args) -> map erase l = map erase m -> mapM tree_str l = mapM tree_str m).
  { induction l as [|a l IHl]; intros [|b m] Hi Em; try discriminate; [reflexivity|]. cbn [map] in Em. injection Em as Ea Em. cbn [mapM].
    rewrite (IH a (Hi a (or_introl eq_refl)) b Ea), (IHl m); [reflexivity|intros q Hq; apply Hi; right; exact Hq|exact Em]. }
  rewrite (G args us); [reflexivity|intros q Hq; right; exact Hq|exact E2].
Qed.
(** The conditions are needed, and the types are lost. *)
Theorem C94_ambiguous_refuted :
  (tree_str (tree_call f []) = Ok "f()" /\ tree_str (tree_call f [sym ""]) = Ok "f()" /\ erase (tree_call f []) <> erase (tree_call f [sym ""])) /\
  (tree_str (tree_call f [x; y]) = Ok "f(x, y)" /\ tree_str (tree_call f [sym "x, y"]) = Ok "f(x, y)" /\ erase (tree_call f [x; y]) <> erase (tree_call f [sym "x, y"])) /\
  (tree_str (tree_call f [x]) = Ok "f(x)" /\ tree_str (tree_call (sym "f") [Function "x"]) = Ok "f(x)" /\ tree_call f [x] <> tree_call (sym "f") [Function "x"]).
Proof. repeat split; try reflexivity; discriminate. Qed.
(** f(x)(g(1), y) and f(x, g(1), y). *)
Example C94_case :
  let e := tree_call (tree_call f [x]) [tree_call g [int 1]; y] in
  plain_atoms e /\ tree_str e = Ok "f(x)(g(1), y)" /\ whole e /\
  tree_str (tree_call f [x; tree_call g [int 1]; y]) = Ok "f(x, g(1), y)".
Proof.
  cbv zeta. split; [|split; [reflexivity|split; [|reflexivity]]].
  - intros a Ha. apply ProofTopo.post_reach in Ha. cbn in Ha.
    repeat destruct Ha as [Ha|Ha]; try contradiction; try discriminate Ha; injection Ha as <-; (split; [vm_compute; discriminate|reflexivity]).
  - intros H. apply ProofTopo.post_reach in H. cbn in H. repeat (destruct H as [H|H]; [discriminate H|]). exact H.
Qed.
Print Assumptions C94_text.
Print Assumptions C94_when_str_succeeds.
Print Assumptions C94_str_determines_tree.
Print Assumptions C94_types_do_not_show.
Print Assumptions C94_ambiguous_refuted.
