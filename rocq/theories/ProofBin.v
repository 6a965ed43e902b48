(** * bin_expand: proofs for C39 *)
From Coq Require Import Reals Lra.
From Verif Require Import Py ModelTree SpecTree ProofBase ProofTopo ModelEval SpecEval ProofEval ModelDiff ModelSym
  ModelCas SpecCas SpecPrint SpecReal ProofReal.

Definition bin_op (h : tree) (vs : list tree) : res tree :=
  if tree_eqb h Add then reduce (call2 Add) vs
  else if tree_eqb h Mul then reduce (call2 Mul) vs
  else Ok (tree_call h vs).
Definition bin_leaf (t : tree) : res tree :=
  match t with Atm a => Ok (Atm a) | Node _ => Err AttributeError end.

Lemma bin_expand_meaning e v : bin_expand e = Ok v <-> meaning bin_leaf bin_op e = Ok v.
Proof.
  unfold bin_expand, evaluate. rewrite eval_forward_meaning.
  rewrite (meaning_ext _ bin_leaf _ bin_op e); [reflexivity| |].
  - intros s _ Hs. destruct s; reflexivity.
  - intros h args vs _ _. unfold eval_operation, bin_expand_ev. cbn [ev_operations add_opn].
    unfold bin_op. rewrite (dict_get_set _ tree_eqb_spec), (dict_get_set _ tree_eqb_spec).
    destruct (tree_eqb_spec h Mul) as [->|_]; [reflexivity|].
    destruct (tree_eqb_spec h Add) as [->|_]; reflexivity.
Qed.

Lemma reach_node_inv h args s : reach false [] (Node (h :: args)) s ->
  s = Node (h :: args) \/ exists a, In a args /\ reach false [] a s.
Proof. intros H. inversion H as [|t c s' _ Hc Hr]; subst; [auto|]. right. exists c. auto. Qed.
Lemma reach_arg h args a s : In a args -> reach false [] a s -> reach false [] (Node (h :: args)) s.
Proof. intros Ha Hr. eapply reach_child; [intros []|exact Ha|exact Hr]. Qed.
Lemma reach_refl t : reach false [] t t. Proof. constructor. intros []. Qed.
Lemma reach_leaf t s : children t = [] -> reach false [] t s -> s = t.
Proof. intros Ht H. inversion H as [|t' c s' _ Hc Hr]; subst; [reflexivity|]. unfold kids in Hc. rewrite Ht in Hc. destruct Hc. Qed.

Lemma nest_reach h r : forall acc s, reach false [] (fold_left (call2 h) r acc) s ->
  (exists u w, s = Node [h; u; w]) \/ reach false [] acc s \/ exists a, In a r /\ reach false [] a s.
Proof.
  induction r as [|a r IH]; simpl; intros acc s H; [auto|].
  destruct (IH _ _ H) as [H1|[H1|(b & Hb & H1)]].
  - auto.
  - apply reach_node_inv in H1 as [->|(b & [<-|[<-|[]]] & H1)]; [left; eauto|auto|]. right. right. eauto.
  - right. right. eauto.
Qed.

Local Open Scope R_scope.
Lemma nest_add env r : forall acc, reval env (fold_left (call2 Add) r acc) =
  match reval env acc, all_defined (reval env) r with
  | Some v, Some vs => Some (v + fold_right Rplus 0 vs) | _, _ => None end.
Proof.
  induction r as [|a r IH]; intros acc; simpl fold_left.
  - simpl. destruct (reval env acc); [|reflexivity]. f_equal. ring.
  - rewrite IH. unfold call2, tree_call. cbn [reval all_defined].
    destruct (reval env acc) as [v|]; [|reflexivity]. destruct (reval env a) as [w|]; [|reflexivity].
    change (rop Add [v; w]) with (Some (v + (w + 0))).
    destruct (all_defined (reval env) r); [|reflexivity]. cbn [fold_right]. f_equal. ring.
Qed.
Lemma nest_mul env r : forall acc, reval env (fold_left (call2 Mul) r acc) =
  match reval env acc, all_defined (reval env) r with
  | Some v, Some vs => Some (v * fold_right Rmult 1 vs) | _, _ => None end.
Proof.
  induction r as [|a r IH]; intros acc; simpl fold_left.
  - simpl. destruct (reval env acc); [|reflexivity]. f_equal. ring.
  - rewrite IH. unfold call2, tree_call. cbn [reval all_defined].
    destruct (reval env acc) as [v|]; [|reflexivity]. destruct (reval env a) as [w|]; [|reflexivity].
    change (rop Mul [v; w]) with (Some (v * (w * 1))).
    destruct (all_defined (reval env) r); [|reflexivity]. cbn [fold_right]. f_equal. ring.
Qed.
Local Close Scope R_scope.

Definition good (t : tree) := binary t /\ proper t.

Lemma good_nest h r acc : h = Add \/ h = Mul -> good acc -> (forall a, In a r -> good a) ->
  good (fold_left (call2 h) r acc).
Proof.
  intros Hh [Hb Hp] Hr. split.
  - intros h' args Hre Hh'. destruct (nest_reach h r acc _ Hre) as [(u & w & E)|[H|(a & Ha & H)]].
    + injection E as _ ->. reflexivity.
    + exact (Hb _ _ H Hh').
    + exact (proj1 (Hr a Ha) _ _ H Hh').
  - intros Hre. destruct (nest_reach h r acc _ Hre) as [(u & w & E)|[H|(a & Ha & H)]]; [discriminate|exact (Hp H)|].
    exact (proj2 (Hr a Ha) H).
Qed.

Lemma bin_result e : forall e', meaning bin_leaf bin_op e = Ok e' ->
  good e' /\ no_empty e /\ proper e /\ forall env, reval env e' = reval env e.
Proof.
  induction e as [a|cs IH] using tree_ind_all; intros e' H.
  - injection H as <-. 
    assert (Hl : forall s, reach false [] (Atm a) s -> s = Atm a) by (intros s Hs; apply (reach_leaf (Atm a) s eq_refl Hs)).
    split; [split|split; [|split]].
    + intros h args Hr. apply Hl in Hr. discriminate.
    + intros Hr. apply Hl in Hr. discriminate.
    + intros h _ Hr. apply Hl in Hr. discriminate.
    + intros Hr. apply Hl in Hr. discriminate.
    + reflexivity.
  - destruct cs as [|h args]; [discriminate|]. cbn [meaning] in H.
    destruct (mapM (meaning bin_leaf bin_op) args) as [vs|x] eqn:E; [|discriminate]. cbn [bind] in H.
    apply mapM_Ok_Forall2 in E.
    assert (IH' : Forall2 (fun a v => good v /\ no_empty a /\ proper a /\ forall env, reval env v = reval env a) args vs).
    { assert (IHa : forall a, In a args -> forall e', meaning bin_leaf bin_op a = Ok e' ->
         good e' /\ no_empty a /\ proper a /\ forall env, reval env e' = reval env a) by (intros; apply IH; [right; assumption|assumption]).
      clear -E IHa. induction E as [|a v args vs Hv _ IHE]; constructor; [apply IHa; [left; reflexivity|exact Hv]|].
      apply IHE. intros; apply IHa; [right; assumption|assumption]. }
    clear IH E.
    assert (Hgood : forall v, In v vs -> good v).
    { clear -IH'. induction IH' as [|a v args vs Hv _ IHv]; [intros ? []|]. intros w [<-|Hw]; [apply Hv|auto]. }
    assert (Hsub : forall a, In a args -> no_empty a /\ proper a).
    { clear -IH'. induction IH' as [|a v args vs Hv _ IHv]; [intros ? []|]. intros w [<-|Hw]; [tauto|auto]. }
    assert (Hval : forall env, all_defined (reval env) vs = all_defined (reval env) args).
    { intros env. clear -IH'. induction IH' as [|a v args vs Hv _ IHv]; [reflexivity|]. cbn [all_defined].
      rewrite IHv. destruct Hv as (_ & _ & _ & Hv). rewrite Hv. reflexivity. }
    assert (Hlen : length args = length vs) by (clear -IH'; induction IH'; simpl; congruence).
    assert (Hproper : proper (Node (h :: args))).
    { intros Hr. apply reach_node_inv in Hr as [Hr|(a & Ha & Hr)]; [discriminate|]. apply (proj2 (Hsub a Ha)), Hr. }
    assert (Hne : args <> [] \/ (h <> Add /\ h <> Mul) -> no_empty (Node (h :: args))).
    { intros Hc h' Hh' Hr. apply reach_node_inv in Hr as [Hr|(a & Ha & Hr)].
      - injection Hr as -> <-. destruct Hc as [Hc|[H1 H2]]; [congruence|destruct Hh'; contradiction].
      - apply (proj1 (Hsub a Ha) h' Hh'), Hr. }
    unfold bin_op in H. destruct (tree_eqb_spec h Add) as [->|Hna].
    + destruct vs as [|v vs]; [discriminate|]. simpl in H. injection H as <-.
      destruct args as [|a args]; [discriminate|].
      split; [|split; [|split]].
      * apply good_nest; [auto|apply Hgood; left; reflexivity|intros; apply Hgood; right; assumption].
      * apply Hne. left. discriminate.
      * exact Hproper.
      * intros env. rewrite nest_add. specialize (Hval env). cbn [all_defined] in Hval.
        cbn [reval]. cbn [all_defined]. rewrite <- Hval.
        destruct (reval env v) as [w|]; [|reflexivity]. destruct (all_defined (reval env) vs); reflexivity.
    + destruct (tree_eqb_spec h Mul) as [->|Hnm].
      * destruct vs as [|v vs]; [discriminate|]. simpl in H. injection H as <-.
        destruct args as [|a args]; [discriminate|].
        split; [|split; [|split]].
        -- apply good_nest; [auto|apply Hgood; left; reflexivity|intros; apply Hgood; right; assumption].
        -- apply Hne. left. discriminate.
        -- exact Hproper.
        -- intros env. rewrite nest_mul. specialize (Hval env). cbn [all_defined] in Hval.
           cbn [reval]. cbn [all_defined]. rewrite <- Hval.
           destruct (reval env v) as [w|]; [|reflexivity]. destruct (all_defined (reval env) vs); reflexivity.
      * injection H as <-. split; [split|split; [|split]].
        -- intros h' args' Hr Hh'. apply reach_node_inv in Hr as [Hr|(a & Ha & Hr)].
           ++ injection Hr as -> ->. destruct Hh'; contradiction.
           ++ exact (proj1 (Hgood a Ha) _ _ Hr Hh').
        -- intros Hr. apply reach_node_inv in Hr as [Hr|(a & Ha & Hr)]; [discriminate|]. exact (proj2 (Hgood a Ha) Hr).
        -- apply Hne. right. auto.
        -- exact Hproper.
        -- intros env. unfold tree_call. cbn [reval]. rewrite Hval. reflexivity.
Qed.

Lemma bin_total e : no_empty e -> proper e -> exists e', meaning bin_leaf bin_op e = Ok e'.
Proof.
  induction e as [a|cs IH] using tree_ind_all; intros Hn Hp; [eexists; reflexivity|].
  destruct cs as [|h args]; [exfalso; apply Hp, reach_refl|]. cbn [meaning].
  assert (Hm : exists vs, mapM (meaning bin_leaf bin_op) args = Ok vs /\ length vs = length args).
  { assert (IH' : forall a, In a args -> exists e', meaning bin_leaf bin_op a = Ok e').
    { intros a Ha. apply IH; [right; exact Ha| |].
      - intros h' Hh' Hr. apply (Hn h' Hh'). eapply reach_arg; eauto.
      - intros Hr. apply Hp. eapply reach_arg; eauto. }
    clear -IH'. induction args as [|a args IHa]; [exists []; split; reflexivity|]. cbn [mapM].
    destruct (IH' a (or_introl eq_refl)) as (v & ->). cbn [bind].
    destruct IHa as (vs & -> & Hl); [intros; apply IH'; right; assumption|]. exists (v :: vs). split; [reflexivity|simpl; congruence]. }
  destruct Hm as (vs & -> & Hl). cbn [bind]. unfold bin_op.
  destruct (tree_eqb_spec h Add) as [->|_].
  { destruct vs as [|v vs]; [|eexists; reflexivity]. exfalso. destruct args; [|discriminate].
    apply (Hn Add (or_introl eq_refl)), reach_refl. }
  destruct (tree_eqb_spec h Mul) as [->|_]; [|eexists; reflexivity].
  destruct vs as [|v vs]; [|eexists; reflexivity]. exfalso. destruct args; [|discriminate].
  apply (Hn Mul (or_intror eq_refl)), reach_refl.
Qed.

Lemma bin_id e : binary e -> proper e -> meaning bin_leaf bin_op e = Ok e.
Proof.
  induction e as [a|cs IH] using tree_ind_all; intros Hb Hp; [reflexivity|].
  destruct cs as [|h args]; [exfalso; apply Hp, reach_refl|]. cbn [meaning].
  assert (Hm : mapM (meaning bin_leaf bin_op) args = Ok args).
  { assert (IH' : forall a, In a args -> meaning bin_leaf bin_op a = Ok a).
    { intros a Ha. apply IH; [right; exact Ha| |].
      - intros h' args' Hr Hh'. apply (Hb h' args'); [|exact Hh']. eapply reach_arg; eauto.
      - intros Hr. apply Hp. eapply reach_arg; eauto. }
    clear -IH'. induction args as [|a args IHa]; [reflexivity|]. cbn [mapM].
    rewrite (IH' a) by (left; reflexivity). cbn [bind]. rewrite IHa; [reflexivity|]. intros; apply IH'; right; assumption. }
  rewrite Hm. cbn [bind]. unfold bin_op.
  destruct (tree_eqb_spec h Add) as [->|_].
  { pose proof (Hb Add args (reach_refl _) (or_introl eq_refl)) as Hl. destruct args as [|a [|b [|]]]; try discriminate. reflexivity. }
  destruct (tree_eqb_spec h Mul) as [->|_]; [|reflexivity].
  pose proof (Hb Mul args (reach_refl _) (or_intror eq_refl)) as Hl. destruct args as [|a [|b [|]]]; try discriminate. reflexivity.
Qed.

Lemma bin_expand_result e e' : bin_expand e = Ok e' ->
  binary e' /\ bin_expand e' = Ok e' /\ forall env, reval env e' = reval env e.
Proof.
  intros H. apply bin_expand_meaning, bin_result in H as ((Hb & Hp) & _ & _ & Hv).
  split; [exact Hb|]. split; [|exact Hv]. apply bin_expand_meaning, bin_id; assumption.
Qed.

Lemma bin_expand_cases e : proper e ->
  (no_empty e /\ exists e', bin_expand e = Ok e') \/ (~ no_empty e /\ bin_expand e = Err TypeError).
Proof.
  intros Hp. destruct (bin_expand e) as [e'|x] eqn:E.
  - left. split; [|eauto]. apply bin_expand_meaning, bin_result in E. tauto.
  - right. split.
    + intros Hn. destruct (bin_total e Hn Hp) as (e' & H). apply bin_expand_meaning in H. congruence.
    + unfold bin_expand, evaluate in E. apply eval_forward_Err in E as [(s & Hr & Hs & E)|(h & args & vs & Hr & Hl & E)].
      * exfalso. destruct s as [a|[|h args]]; [discriminate| |discriminate]. exact (Hp Hr).
      * assert (Eb : eval_operation bin_expand_ev h vs = bin_op h vs).
        { unfold eval_operation, bin_expand_ev. cbn [ev_operations add_opn].
          unfold bin_op. rewrite (dict_get_set _ tree_eqb_spec), (dict_get_set _ tree_eqb_spec).
          destruct (tree_eqb_spec h Mul) as [->|_]; [reflexivity|].
          destruct (tree_eqb_spec h Add) as [->|_]; reflexivity. }
        rewrite Eb in E. unfold bin_op in E.
        destruct (tree_eqb h Add); [destruct vs; simpl in E; congruence|].
        destruct (tree_eqb h Mul); [destruct vs; simpl in E; congruence|]. discriminate.
Qed.
