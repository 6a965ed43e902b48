(** * C117: the printed text is as long as the tree, not as short as the graph. *)
From Verif Require Import Py ModelTree SpecTree ProofBase ProofTopo ModelEval SpecEval ProofEval ModelCas ModelApi SpecPrint ProofBin ProofCas SpecTextSize Samples.
From Verif Require ProofRepr ProofPrint PropsTreeText PropsCas ProofSympy.
Local Open Scope string_scope.

Lemma between_arg lo hi h args a : names_between lo hi (Node (h :: args)) -> In a args -> names_between lo hi a.
Proof. intros [H1 H2] Ha. split; [intros b Hb; apply H1|intros h' l w Hb; apply (H2 h' l)]; (eapply reach_arg; [exact Ha|exact Hb]). Qed.

Lemma join_length sep l : (String.length (join sep l) + match l with [] => 0 | _ => String.length sep end = list_sum (map (fun w => String.length w + String.length sep) l))%nat.
Proof.
  rewrite PropsTreeText.join_concat. induction l as [|a l IH]; [reflexivity|]. cbn [map list_sum fold_right]. fold (list_sum (map (fun w => (String.length w + String.length sep)%nat) l)).
  destruct l as [|b l]; [cbn; lia|]. change (String.concat sep (a :: b :: l)) with (a ++ sep ++ String.concat sep (b :: l)). rewrite !ProofRepr.length_app_s. lia.
Qed.

Definition text_ok (lo hi c : nat) (f : tree -> res string) (t : tree) := forall w, names_between lo hi t -> f t = Ok w ->
  (String.length w + c <= (hi + 2 * c) * tree_size t /\ (lo = 1 -> tree_size t <= String.length w))%nat.
Lemma sum_upper lo hi c f args ts d : (d <= c)%nat -> Forall (text_ok lo hi c f) args -> (forall a, In a args -> names_between lo hi a) -> Forall2 (fun a w => f a = Ok w) args ts ->
  (list_sum (map (fun w => String.length w + d) ts) <= (hi + 2 * c) * list_sum (map tree_size args) /\ (lo = 1 -> list_sum (map tree_size args) <= list_sum (map (fun w => String.length w + d) ts)) /\
   (lo = 1 -> list_sum (map tree_size args) <= list_sum (map (fun w => String.length w) ts)))%nat.
Proof.
  intros Hd IH Hn H. induction H as [|a w args ts Ha H IHl]; [cbn; lia|]. inversion IH as [|? ? K1 K2]; subst.
  destruct (K1 w (Hn a (or_introl eq_refl)) Ha) as [U L]. destruct (IHl K2 (fun b Hb => Hn b (or_intror Hb))) as (U' & L' & L''). cbn [map list_sum fold_right] in *.
  fold (list_sum (map tree_size args)) (list_sum (map (fun w => (String.length w + d)%nat) ts)) (list_sum (map (fun w => String.length w) ts)) in *. nia.
Qed.
Lemma call_text lo hi c f h args ts w pre d sep post : Forall (text_ok lo hi c f) args -> names_between lo hi (Node (h :: args)) -> Forall2 (fun a w => f a = Ok w) args ts ->
  w = pre ++ join sep ts ++ post -> String.length sep = d -> (d <= c -> 1 <= String.length pre + String.length post <= hi + c ->
  String.length w + c <= (hi + 2 * c) * tree_size (Node (h :: args)) /\ (lo = 1 -> tree_size (Node (h :: args)) <= String.length w))%nat.
Proof.
  intros IH Hn H -> Hs Hd Hp. destruct (sum_upper lo hi c f args ts d Hd IH (fun a Ha => between_arg _ _ _ _ _ Hn Ha) H) as (U & L & L').
  pose proof (join_length sep ts) as J. rewrite Hs in J. rewrite !ProofRepr.length_app_s. cbn [tree_size].
  assert (K : (lo = 1 -> list_sum (map tree_size args) <= String.length (join sep ts))%nat).
  { intros Hl. specialize (L' Hl). clear - L' J. assert (E : (list_sum (map (fun w => String.length w) ts) <= String.length (join sep ts))%nat); [|lia].
    clear. rewrite PropsTreeText.join_concat. induction ts as [|a [|b l] IH]; [cbn; lia|cbn; lia|]. change (String.concat sep (a :: b :: l)) with (a ++ sep ++ String.concat sep (b :: l)).
    rewrite !ProofRepr.length_app_s. cbn [map list_sum fold_right] in *. lia. }
  split; [|intros Hl; specialize (K Hl); lia]. destruct ts; nia.
Qed.
Lemma power_text lo hi c f args b e : Forall (text_ok lo hi c f) args -> names_between lo hi (Node (Pow :: args)) -> Forall2 (fun a w => f a = Ok w) args [b; e] ->
  (String.length b + String.length e + 2 * c <= (hi + 2 * c) * list_sum (map tree_size args) /\ (lo = 1 -> list_sum (map tree_size args) <= String.length b + String.length e) /\
   tree_size (Node (Pow :: args)) = S (list_sum (map tree_size args)))%nat.
Proof.
  intros IH Hn H. destruct (sum_upper lo hi c f args _ c (Nat.le_refl c) IH (fun a Ha => between_arg _ _ _ _ _ Hn Ha) H) as (U & L & L').
  cbn [map list_sum fold_right] in U, L'. split; [lia|]. split; [intros Hl; specialize (L' Hl); lia|reflexivity].
Qed.
Lemma pretty_ok lo hi t : text_ok lo hi 3 pretty t.
Proof.
  induction t as [a|cs IH] using tree_ind_all; intros w Hn Hw.
  - cbn [pretty] in Hw. injection Hw as <-. destruct Hn as [Hn _]. specialize (Hn a (reach_refl _)). cbn [tree_size]. lia.
  - destruct cs as [|h args]; [discriminate|]. assert (IHa : Forall (text_ok lo hi 3 pretty) args) by (apply Forall_forall; intros a Ha; apply IH; right; exact Ha). clear IH.
    cbn [pretty] in Hw. destruct (mapM pretty args) as [ts|] eqn:E; [|discriminate]. cbn [bind] in Hw. apply mapM_Ok_Forall2 in E.
    destruct (tree_eqb h Add); [injection Hw as <-; eapply (call_text lo hi 3 pretty h args ts _ "(" 3 " + " ")"); try eassumption; try reflexivity; cbn; lia|].
    destruct (tree_eqb h Mul); [injection Hw as <-; eapply (call_text lo hi 3 pretty h args ts _ "(" 1 "*" ")"); try eassumption; try reflexivity; cbn; lia|].
    destruct (tree_eqb_spec h Pow) as [->|_].
    + destruct ts as [|b [|e [|? ?]]]; try discriminate. injection Hw as <-. 
      destruct (power_text lo hi 3 pretty args b e IHa Hn E) as (U & L & ->). rewrite !ProofRepr.length_app_s. cbn [String.length]. split; [|intros Hl; specialize (L Hl)]; lia.
    + destruct (tree_str h) as [hs|] eqn:Eh; [|discriminate]. cbn [bind] in Hw. injection Hw as <-. pose proof (proj2 Hn h args hs (reach_refl _) Eh).
      eapply (call_text lo hi 3 pretty h args ts _ (hs ++ "(") 2 ", " ")"); try eassumption; try reflexivity; [rewrite ProofPrint.app_assoc_s; reflexivity|lia|rewrite ProofRepr.length_app_s; cbn; lia].
Qed.
Lemma latex_ok lo hi t : text_ok lo hi 8 latex t.
Proof.
  induction t as [a|cs IH] using tree_ind_all; intros w Hn Hw.
  - cbn [latex] in Hw. destruct (_ || _ || _)%bool in Hw; [|discriminate]. injection Hw as <-. destruct Hn as [Hn _]. specialize (Hn a (reach_refl _)). cbn [tree_size]. lia.
  - destruct cs as [|h args]; [discriminate|]. assert (IHa : Forall (text_ok lo hi 8 latex) args) by (apply Forall_forall; intros a Ha; apply IH; right; exact Ha). clear IH.
    cbn [latex] in Hw. destruct (mapM latex args) as [ts|] eqn:E; [|discriminate]. cbn [bind] in Hw. apply mapM_Ok_Forall2 in E.
    destruct (tree_eqb h Add); [injection Hw as <-; eapply (call_text lo hi 8 latex h args ts _ "(" 3 " + " ")"); try eassumption; try reflexivity; cbn; lia|].
    destruct (tree_eqb h Mul); [injection Hw as <-; eapply (call_text lo hi 8 latex h args ts _ "(" 8 " \times " ")"); try eassumption; try reflexivity; cbn; lia|].
    destruct (tree_eqb_spec h Pow) as [->|_].
    { destruct ts as [|b [|e [|? ?]]]; try discriminate. injection Hw as <-.
      destruct (power_text lo hi 8 latex args b e IHa Hn E) as (U & L & ->). rewrite !ProofRepr.length_app_s. cbn [String.length]. rewrite !ProofRepr.length_app_s. cbn [String.length]. split; [|intros Hl; specialize (L Hl)]; lia. }
    destruct (tree_eqb h sin); [destruct ts as [|b [|? ?]]; try discriminate; injection Hw as <-; eapply (call_text lo hi 8 latex h args [b] _ "\sin(" 3 " + " ")"); try eassumption; try reflexivity; cbn; lia|].
    destruct (tree_eqb h cos); [destruct ts as [|b [|? ?]]; try discriminate; injection Hw as <-; eapply (call_text lo hi 8 latex h args [b] _ "\cos(" 3 " + " ")"); try eassumption; try reflexivity; cbn; lia|].
    destruct (tree_str h) as [hs|] eqn:Eh; [|discriminate]. cbn [bind] in Hw. injection Hw as <-. pose proof (proj2 Hn h args hs (reach_refl _) Eh).
    eapply (call_text lo hi 8 latex h args ts _ (hs ++ "(") 2 ", " ")"); try eassumption; try reflexivity; [rewrite ProofPrint.app_assoc_s; reflexivity|lia|rewrite ProofRepr.length_app_s; cbn; lia].
Qed.

(** C117. [count_ops_tree] bounds the length of the text from both sides. *)
Theorem C117_str lo hi e w n : names_between lo hi e -> eval_repr e = Ok w -> count_ops_tree e = Ok n ->
  (Z.of_nat (String.length w) <= (Z.of_nat hi + 6) * n - 3)%Z /\ (lo = 1%nat -> (n <= Z.of_nat (String.length w))%Z).
Proof.
  intros Hn Hw Hc. pose proof (proj1 (PropsCas.C40_when_str_succeeds e) (ex_intro _ w Hw)) as [Hp _]. apply PropsCas.C40_text in Hw.
  rewrite count_ops_tree_spec in Hc by (intros H; apply Hp, reach_false_true, H). injection Hc as <-.
  destruct (pretty_ok lo hi e w Hn Hw) as [U L]. split; [lia|intros Hl; specialize (L Hl); lia].
Qed.
Theorem C117_latex lo hi e w n : names_between lo hi e -> eval_latex e = Ok w -> count_ops_tree e = Ok n ->
  (Z.of_nat (String.length w) <= (Z.of_nat hi + 16) * n - 8)%Z /\ (lo = 1%nat -> (n <= Z.of_nat (String.length w))%Z).
Proof.
  intros Hn Hw Hc. pose proof (proj1 (PropsCas.C41_when_latex_succeeds e) (ex_intro _ w Hw)) as [Hp _]. apply PropsCas.C41_latex_text in Hw.
  rewrite count_ops_tree_spec in Hc by (intros H; apply Hp, reach_false_true, H). injection Hc as <-.
  destruct (latex_ok lo hi e w Hn Hw) as [U L]. split; [lia|intros Hl; specialize (L Hl); lia].
Qed.
(** So the text of the documented family of expressions is exponentially longer than the expression is large in memory. *)
Lemma family_names n : names_between 1 3 (make_expression n).
Proof.
  assert (H1 : forall k, String.length (str_value (VInt k)) = String.length (str_value (VInt k))) by reflexivity. clear H1.
  induction n as [|n IH].
  - split; [intros a Ha|intros h args w Ha]; apply reach_leaf in Ha; try reflexivity; [injection Ha as ->; cbn; lia|discriminate].
  - assert (Hs : make_expression (S n) = Node [Add; Node [Pow; make_expression n; Integer 2]; make_expression n]) by reflexivity. rewrite Hs. split.
    + intros a Ha. apply reach_node_inv in Ha as [Ha|(b & [<-|[<-|[]]] & Ha)]; [discriminate| |exact (proj1 IH a Ha)].
      apply reach_node_inv in Ha as [Ha|(b & [<-|[<-|[]]] & Ha)]; [discriminate|exact (proj1 IH a Ha)|]. apply reach_leaf in Ha; [injection Ha as ->; cbn; lia|reflexivity].
    + intros h args w Ha Hw. apply reach_node_inv in Ha as [Ha|(b & [<-|[<-|[]]] & Ha)]; [injection Ha as -> ->; injection Hw as <-; cbn; lia| |exact (proj2 IH h args w Ha Hw)].
      apply reach_node_inv in Ha as [Ha|(b & [<-|[<-|[]]] & Ha)]; [injection Ha as -> ->; injection Hw as <-; cbn; lia|exact (proj2 IH h args w Ha Hw)|]. apply reach_leaf in Ha; [discriminate|reflexivity].
Qed.
Theorem C117_family n : (1 <= n)%nat -> exists w l g, eval_repr (make_expression n) = Ok w /\ eval_latex (make_expression n) = Ok l /\ count_ops_graph (make_expression n) = Ok g /\
  g = (2 * Z.of_nat n + 2)%Z /\ (2 ^ (Z.of_nat n + 2) - 3 <= Z.of_nat (String.length w))%Z /\ (2 ^ (Z.of_nat n + 2) - 3 <= Z.of_nat (String.length l))%Z /\
  (Z.of_nat (String.length w) <= 9 * 2 ^ (Z.of_nat n + 2))%Z.
Proof.
  intros Hn. pose proof (family_names n) as Hf. destruct (PropsCas.C38_documented_growth n) as [Ht Hg]. specialize (Hg Hn).
  assert (Ew : exists w, pretty (make_expression n) = Ok w).
  { clear. induction n as [|n [w IH]]; [eexists; reflexivity|]. assert (Hs : make_expression (S n) = Node [Add; Node [Pow; make_expression n; Integer 2]; make_expression n]) by reflexivity. rewrite Hs.
    cbn [pretty mapM bind]. rewrite IH. eexists. reflexivity. }
  assert (El : exists w, latex (make_expression n) = Ok w).
  { clear. induction n as [|n [w IH]]; [eexists; reflexivity|]. assert (Hs : make_expression (S n) = Node [Add; Node [Pow; make_expression n; Integer 2]; make_expression n]) by reflexivity. rewrite Hs.
    cbn [latex mapM bind]. rewrite IH. eexists. reflexivity. }
  destruct Ew as [w Ew], El as [l El]. apply PropsCas.C40_text in Ew. apply PropsCas.C41_latex_text in El. exists w, l, (2 * Z.of_nat n + 2)%Z.
  destruct (C117_str _ _ _ _ _ Hf Ew Ht) as [U L]. destruct (C117_latex _ _ _ _ _ Hf El Ht) as [_ L']. specialize (L eq_refl). specialize (L' eq_refl).
  repeat split; auto. lia.
Qed.
(** A case: for (x**2 + sin(x))*x the bounds are 8 and 9*8 - 3 characters, the text has 19; for n = 3 the graph has 8 nodes, the tree 29, the text 64 characters. *)
Example C117_case : names_between 1 3 (Node [Mul; Node [Add; Node [Pow; x; int 2]; Node [sin; x]]; x]) /\
  eval_repr (Node [Mul; Node [Add; Node [Pow; x; int 2]; Node [sin; x]]; x]) = Ok "((x**2 + sin(x))*x)" /\ count_ops_tree (Node [Mul; Node [Add; Node [Pow; x; int 2]; Node [sin; x]]; x]) = Ok 8%Z /\
  (exists w, eval_repr (make_expression 3) = Ok w /\ String.length w = 64) /\ count_ops_tree (make_expression 3) = Ok 29%Z /\ count_ops_graph (make_expression 3) = Ok 8%Z.
Proof.
  assert (K : forall t, reach false [] (Node [Mul; Node [Add; Node [Pow; x; int 2]; Node [sin; x]]; x]) t -> In t (postorder false [] (Node [Mul; Node [Add; Node [Pow; x; int 2]; Node [sin; x]]; x]))) by (intros t; apply post_reach).
  split; [|split; [vm_compute; reflexivity|split; [vm_compute; reflexivity|split; [eexists; split; vm_compute; reflexivity|split; vm_compute; reflexivity]]]].
  split.
  - intros a Ha. apply K in Ha. vm_compute in Ha. repeat (destruct Ha as [Ha|Ha]; [try discriminate Ha; injection Ha as <-; vm_compute; lia|]). destruct Ha.
  - intros h args w Ha Hw. apply K in Ha. vm_compute in Ha. repeat (destruct Ha as [Ha|Ha]; [try discriminate Ha; injection Ha as <- <-; vm_compute in Hw; injection Hw as <-; cbn; lia|]). destruct Ha.
Qed.
Print Assumptions C117_family.
