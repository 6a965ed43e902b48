(** * Evaluation *)
From Verif Require Import Py ModelTree SpecTree ModelEval SpecEval ProofBase ProofTopo ProofGraph ProofSubs ProofTree Samples.

Lemma meaning_leaf {V} (leaf : tree -> res V) op t : children t = [] -> meaning leaf op t = leaf t.
Proof. destruct t as [a|[|h args]]; simpl; congruence. Qed.

Lemma meaning_node {V} (leaf : tree -> res V) op t : children t <> [] ->
  meaning leaf op t = do vs <- mapM (meaning leaf op) (args_of t); op (head_of t) vs.
Proof. destruct t as [a|[|h args]]; simpl; intros H; [congruence|congruence|reflexivity]. Qed.

Lemma meaning_ext {V} (leaf leaf' : tree -> res V) op op' t :
  (forall s, reach false [] t s -> children s = [] -> leaf s = leaf' s) ->
  (forall h args vs, reach false [] t (Node (h :: args)) -> length vs = length args ->
     op h vs = op' h vs) ->
  meaning leaf op t = meaning leaf' op' t.
Proof.
  induction t as [a|cs IH] using tree_ind_all; intros Hl Ho.
  - simpl. apply Hl; [constructor; intros []|reflexivity].
  - destruct cs as [|h args].
    + simpl. apply Hl; [constructor; intros []|reflexivity].
    + simpl. assert (E : mapM (meaning leaf op) args = mapM (meaning leaf' op') args).
      { apply mapM_ext. intros c Hc. apply IH; [right; exact Hc| |].
        - intros s Hs. apply Hl. eapply reach_child; [intros []|exact Hc|exact Hs].
        - intros h' args' vs Hs. apply (Ho h' args' vs). eapply reach_child; [intros []|exact Hc|exact Hs]. }
      rewrite E. destruct (mapM (meaning leaf' op') args) as [vs|x] eqn:Ev; cbn [bind]; [|reflexivity].
      apply (Ho h args); [constructor; intros []|]. apply mapM_length in Ev. congruence.
Qed.

Section Ev.
  Context {V : Type} (is_none : V -> bool).
  Implicit Type (ev : evaluator V).

  (** ** forward evaluation = meaning *)
  Lemma eval_forward_order ev values e :
    eval_forward is_none ev values e =
    do vs <- mapM (meaning (eval_leaf is_none ev values) (eval_operation ev)) (forder e); last_item vs.
  Proof.
    unfold eval_forward. destruct (forward_graph_spec e) as (hs & -> & _). cbn [bind].
    cbn [g_atoms g_operations].
    set (sem := meaning (eval_leaf is_none ev values) (eval_operation ev)).
    assert (Hn : forall s, In s (filter compound (tsort e [])) ->
              sem s = do vs <- mapM sem (args_of s); eval_operation ev (head_of s) vs).
    { intros s Hs. apply meaning_node. apply filter_In in Hs as [_ Hs].
      unfold compound, childless in Hs. destruct (children s); [discriminate|congruence]. }
    pose proof (run_graph (eval_operation ev) sem e Hn hs) as H. cbn [g_atoms] in H.
    rewrite <- H.
    replace (mapM (eval_leaf is_none ev values) (filter childless (tsort e [])))
        with (mapM sem (filter childless (tsort e []))).
    + destruct (mapM sem (filter childless (tsort e []))); reflexivity.
    + apply mapM_ext. intros c Hc. apply filter_In in Hc as [_ Hc]. apply meaning_leaf.
      unfold childless in Hc. destruct (children c); [reflexivity|discriminate].
  Qed.

  Lemma eval_forward_meaning ev values e v :
    eval_forward is_none ev values e = Ok v <->
    meaning (eval_leaf is_none ev values) (eval_operation ev) e = Ok v.
  Proof.
    rewrite eval_forward_order. apply (graph_eval_iff (eval_operation ev)).
    intros s Hs. apply meaning_node. apply filter_In in Hs as [_ Hs].
    unfold compound, childless in Hs. destruct (children s); [discriminate|congruence].
  Qed.

  (** ** recursive evaluation *)
  Lemma eval_recursive_meaning ev values e :
    (forall s v, reach false [] e s -> dict_get tree_eqb values s = Some v ->
       children s = [] /\ is_none v = false) ->
    eval_recursive ev values e = meaning (eval_leaf is_none ev values) (eval_operation ev) e.
  Proof.
    induction e as [a|cs IH] using tree_ind_all; intros Hv.
    - simpl. unfold eval_leaf. destruct (dict_get tree_eqb values (Atm a)) as [v|] eqn:E; [|reflexivity].
      destruct (Hv (Atm a) v) as [_ ->]; [constructor; intros []|exact E|reflexivity].
    - destruct cs as [|h args].
      + simpl. unfold eval_leaf. destruct (dict_get tree_eqb values (Node [])) as [v|] eqn:E; [|reflexivity].
        destruct (Hv (Node []) v) as [_ ->]; [constructor; intros []|exact E|reflexivity].
      + cbn [eval_recursive meaning].
        destruct (dict_get tree_eqb values (Node (h :: args))) as [v|] eqn:E.
        { destruct (Hv (Node (h :: args)) v) as [H _]; [constructor; intros []|exact E|discriminate H]. }
        assert (Em : mapM (eval_recursive ev values) args =
                mapM (meaning (eval_leaf is_none ev values) (eval_operation ev)) args).
        { apply mapM_ext. intros c Hc. apply IH; [right; exact Hc|]. intros s v Hs.
          apply Hv. eapply reach_child; [intros []|exact Hc|exact Hs]. }
        rewrite Em. reflexivity.
  Qed.

  Lemma forward_eq_recursive ev values e :
    (forall s v, reach false [] e s -> dict_get tree_eqb values s = Some v ->
       children s = [] /\ is_none v = false) ->
    forall v, eval_forward is_none ev values e = Ok v <-> eval_recursive ev values e = Ok v.
  Proof. intros H v. rewrite eval_forward_meaning, eval_recursive_meaning by exact H. reflexivity. Qed.

  (** ** errors of the forward evaluation are errors of a subexpression's rule *)
  Lemma mapM_Err {A B} (h : A -> res B) l x : mapM h l = Err x -> exists a, In a l /\ h a = Err x.
  Proof.
    induction l as [|a l IH]; simpl; [discriminate|].
    destruct (h a) as [b|x'] eqn:E; cbn [bind].
    - destruct (mapM h l) as [bs|x']; cbn [bind]; [discriminate|].
      intros [= ->]. destruct IH as (a' & Ha & Hx); [reflexivity|]. eauto.
    - intros [= ->]. eauto.
  Qed.

  Lemma meaning_Err leaf op e x : meaning (V:=V) leaf op e = Err x ->
    (exists s, reach false [] e s /\ children s = [] /\ leaf s = Err x) \/
    (exists h args vs, reach false [] e (Node (h :: args)) /\
        mapM (meaning leaf op) args = Ok vs /\ op h vs = Err x).
  Proof.
    induction e as [a|cs IH] using tree_ind_all; intros H.
    - left. exists (Atm a). split; [constructor; intros []|]. auto.
    - destruct cs as [|h args].
      + left. exists (Node []). split; [constructor; intros []|]. auto.
      + simpl in H. destruct (mapM (meaning leaf op) args) as [vs|x'] eqn:E; cbn [bind] in H.
        * right. exists h, args, vs. split; [constructor; intros []|]. auto.
        * injection H as ->. apply mapM_Err in E as (c & Hc & Ex).
          destruct (IH c (or_intror Hc) Ex) as [(s & Hr & Hs)|(h' & args' & vs & Hr & Hs)].
          -- left. exists s. split; [|exact Hs]. eapply reach_child; [intros []|exact Hc|exact Hr].
          -- right. exists h', args', vs. split; [|exact Hs].
             eapply reach_child; [intros []|exact Hc|exact Hr].
  Qed.

  Lemma eval_forward_Err ev values e x : eval_forward is_none ev values e = Err x ->
    (exists s, reach false [] e s /\ children s = [] /\ eval_leaf is_none ev values s = Err x) \/
    (exists h args vs, reach false [] e (Node (h :: args)) /\ length vs = length args /\
        eval_operation ev h vs = Err x).
  Proof.
    intros H.
    assert (Hm : exists s, reach false [] e s /\
               meaning (eval_leaf is_none ev values) (eval_operation ev) s = Err x).
    { rewrite eval_forward_order in H.
      destruct (mapM (meaning (eval_leaf is_none ev values) (eval_operation ev)) (forder e))
        as [vs|x'] eqn:E; cbn [bind] in H.
      - exfalso. apply mapM_length in E. destruct (forder_last e) as (l & Hl). rewrite Hl in E.
        rewrite app_length in E. destruct (last_item_nonempty vs) as (v & Hv); [|congruence].
        intros ->. simpl in E. lia.
      - injection H as ->. apply mapM_Err in E as (s & Hs & Ex). exists s.
        split; [apply forder_In, Hs|exact Ex]. }
    destruct Hm as (s & Hs & Hx). apply meaning_Err in Hx as [(u & Hr & Hu)|(h & args & vs & Hr & Hv & Hx)].
    - left. exists u. split; [eapply reach_trans; eauto|exact Hu].
    - right. exists h, args, vs. split; [eapply reach_trans; eauto|]. split; [|exact Hx].
      apply mapM_length in Hv. congruence.
  Qed.

  Lemma meaning_sub_ok leaf op e s v : meaning (V:=V) leaf op e = Ok v -> reach false [] e s ->
    exists w, meaning leaf op s = Ok w.
  Proof.
    intros Hv Hr. revert v Hv. induction Hr as [t|t c s _ Hc Hr IH]; intros v Hv; [eauto|].
    unfold kids in Hc. destruct t as [a|[|h args]]; simpl in Hc; try tauto.
    simpl in Hv. destruct (mapM (meaning leaf op) args) as [vs|x] eqn:E; [|discriminate].
    apply mapM_Ok_Forall2 in E. clear Hv. induction E as [|a b l l' Hab Hrest IH']; [destruct Hc|].
    destruct Hc as [->|Hc]; [eauto|auto].
  Qed.

  (** ** C17 *)
  Lemma eval_forward_values_irrelevant ev values values' e :
    (forall s, reach false [] e s -> children s = [] ->
       eval_leaf is_none ev values s = eval_leaf is_none ev values' s) ->
    eval_forward is_none ev values e = eval_forward is_none ev values' e.
  Proof.
    intros H. rewrite !eval_forward_order.
    assert (E : mapM (meaning (eval_leaf is_none ev values) (eval_operation ev)) (forder e) =
                mapM (meaning (eval_leaf is_none ev values') (eval_operation ev)) (forder e)).
    { apply mapM_ext. intros t Ht. apply forder_In in Ht. apply meaning_ext; [|reflexivity].
      intros s Hs. apply H. eapply reach_trans; eauto. }
    rewrite E. reflexivity.
  Qed.

  (** ** C18 *)
  Lemma reach_false_true e s : reach false [] e s -> reach true [] e s.
  Proof.
    induction 1 as [t Ht|t c s Ht Hc _ IH]; [constructor; exact Ht|]. eapply reach_child; [exact Ht| |exact IH].
    unfold kids in *. destruct (children t); [destruct Hc|right; exact Hc].
  Qed.
  Lemma reach_true_trans e s u : reach true [] e s -> reach true [] s u -> reach true [] e u.
  Proof. intros H. induction H as [t Ht|t c s Ht Hc _ IH]; intros H'; [exact H'|eapply reach_child; [exact Ht|exact Hc|apply IH, H']]. Qed.
  Lemma whole_child t c : whole t -> In c (children t) -> whole c.
  Proof. intros H Hc Hr. apply H. eapply reach_child; [intros []|exact Hc|exact Hr]. Qed.
  Lemma repr_fine t : whole t -> repr_raises t = Ok tt.
  Proof.
    induction t as [a|cs IH] using tree_ind_all; intros H; [reflexivity|]. destruct cs as [|c cs]; [exfalso; apply H; constructor; intros []|].
    cbn [repr_raises]. assert (E : exists l, mapM repr_raises (c :: cs) = Ok l); [|destruct E as [l ->]; reflexivity].
    assert (Hw : forall x, In x (c :: cs) -> whole x) by (intros x Hx; eapply whole_child; [exact H|exact Hx]).
    clear H. induction (c :: cs) as [|x l IHl]; [exists []; reflexivity|]. cbn [mapM].
    rewrite (IH x) by (try apply Hw; left; reflexivity). cbn [bind]. destruct IHl as [m ->]; [intros y Hy; apply IH; right; exact Hy|intros y Hy; apply Hw; right; exact Hy|]. eexists. reflexivity.
  Qed.
  Lemma eval_no_rule ev values e :
    (forall s v, dict_get tree_eqb values s = Some v -> is_none v = false) ->
    whole e -> rules_total ev e ->
    ((exists v, eval_forward is_none ev values e = Ok v) /\
     (forall s, reach false [] e s -> has_rule ev values s)) \/
    (eval_forward is_none ev values e = Err NoEvaluationRuleError /\
     exists s, reach false [] e s /\ ~ has_rule ev values s).
  Proof.
    intros Hnone Hwh (Hgo & Hga & Hop & Hat).
    assert (Hp : proper e) by (intros Hr; apply Hwh, reach_false_true, Hr).
    assert (Hhead : forall h args, reach false [] e (Node (h :: args)) -> repr_raises h = Ok tt).
    { intros h args Hr. apply repr_fine. intros Hn. apply Hwh. eapply reach_true_trans; [apply reach_false_true, Hr|].
      eapply reach_child; [intros []|left; reflexivity|exact Hn]. }
    assert (Hleaf : forall s, reach false [] e s -> children s = [] ->
      (exists v, eval_leaf is_none ev values s = Ok v /\ has_rule ev values s) \/
      (eval_leaf is_none ev values s = Err NoEvaluationRuleError /\ ~ has_rule ev values s)).
    { intros s Hr Hs. destruct s as [a|[|]]; simpl in Hs; [|exfalso; exact (Hp Hr)|discriminate].
      unfold eval_leaf, has_rule. destruct (dict_get tree_eqb values (Atm a)) as [v|] eqn:E.
      - left. exists v. rewrite (Hnone _ _ E). split; [reflexivity|]. left. discriminate.
      - unfold eval_atom. simpl.
        destruct (dict_get atype_eqb (ev_atoms ev) (atom_type a)) as [c|] eqn:Ea.
        + destruct (Hat a c Hr Ea) as (v & Hv). left. exists v. split; [exact Hv|].
          right; left; discriminate.
        + destruct (Hga (Atm a)) as [H|(v & Hv)].
          * right. rewrite H. split; [reflexivity|]. intros [H1|[H1|H1]]; congruence.
          * left. exists v. split; [exact Hv|]. right; right. intros H. rewrite H in Hv. discriminate. }
    assert (Hnode : forall h args vs, reach false [] e (Node (h :: args)) -> length vs = length args ->
      (exists v, eval_operation ev h vs = Ok v /\ has_rule ev values (Node (h :: args))) \/
      (eval_operation ev h vs = Err NoEvaluationRuleError /\ ~ has_rule ev values (Node (h :: args)))).
    { intros h args vs Hr Hl. unfold eval_operation, has_rule.
      destruct (dict_get tree_eqb (ev_operations ev) h) as [[c star]|] eqn:E.
      - destruct (Hop h args vs c star Hr Hl E) as (v & Hv). left. exists v.
        split; [|left; discriminate]. destruct star; exact Hv.
      - destruct (Hgo h args vs Hr Hl) as [H|(v & Hv)].
        + right. rewrite H. unfold generic_operation_error. rewrite (Hhead h args Hr). split; [reflexivity|]. intros [H1|H1]; congruence.
        + left. exists v. split; [exact Hv|]. right. intros H. rewrite H in Hv. unfold generic_operation_error in Hv. destruct (repr_raises h); discriminate. }
    destruct (eval_forward is_none ev values e) as [v|x] eqn:Ef.
    - left. split; [eauto|]. intros s Hr. apply eval_forward_meaning in Ef.
      destruct (meaning_sub_ok _ _ _ _ _ Ef Hr) as (w & Hw).
      destruct s as [a|[|h args]].
      + destruct (Hleaf (Atm a) Hr eq_refl) as [(v' & _ & H)|[H _]]; [exact H|].
        simpl in Hw. congruence.
      + exfalso. exact (Hp Hr).
      + simpl in Hw.
        destruct (mapM (meaning (eval_leaf is_none ev values) (eval_operation ev)) args) as [vs|x] eqn:Em;
          [|discriminate]. cbn [bind] in Hw.
        assert (Hl : length vs = length args) by (apply mapM_length in Em; congruence).
        destruct (Hnode h args vs Hr Hl) as [(v' & _ & H)|[H _]]; [exact H|congruence].
    - right. apply eval_forward_Err in Ef as [(s & Hr & Hs & Hx)|(h & args & vs & Hr & Hl & Hx)].
      + destruct (Hleaf s Hr Hs) as [(v & Hv & _)|[Hv Hn]]; [congruence|].
        split; [congruence|]. eauto.
      + destruct (Hnode h args vs Hr Hl) as [(v & Hv & _)|[Hv Hn]]; [congruence|].
        split; [congruence|]. eauto.
  Qed.

  (** ** C19 *)
  Definition call_of ev values (s : tree) (c : event V) : Prop :=
    match s with
    | Node (h :: args) => exists vs, mapM (eval_forward is_none ev values) args = Ok vs /\ c = CallOp h vs
    | _ => c = CallAtom s
    end.

  Lemma mapM_forward ev values args vs :
    mapM (meaning (eval_leaf is_none ev values) (eval_operation ev)) args = Ok vs ->
    mapM (eval_forward is_none ev values) args = Ok vs.
  Proof.
    revert vs. induction args as [|a args IH]; simpl; intros vs; [auto|].
    destruct (meaning (eval_leaf is_none ev values) (eval_operation ev) a) as [v|x] eqn:E; [|discriminate].
    cbn [bind]. destruct (mapM _ args) as [ws|x]; [|discriminate]. cbn [bind]. intros [= <-].
    apply eval_forward_meaning in E. rewrite E. cbn [bind]. rewrite (IH ws eq_refl). reflexivity.
  Qed.

  Lemma traced_leaves_spec ev values l : forall tr stack,
    (forall s, In s l -> children s = []) ->
    exists p q cs, filter (needs_call is_none values) l = p ++ q /\
      Forall2 (call_of ev values) p cs /\
      fst (traced_leaves is_none ev values l tr stack) = tr ++ cs /\
      snd (traced_leaves is_none ev values l tr stack) =
        (do vs <- mapM (eval_leaf is_none ev values) l; Ok (stack ++ vs)) /\
      (is_ok (snd (traced_leaves is_none ev values l tr stack)) = true -> q = []).
  Proof.
    induction l as [|t l IH]; intros tr stack Hl.
    - exists [], [], []. simpl. rewrite !app_nil_r. auto.
    - assert (Ht : children t = []) by (apply Hl; left; reflexivity).
      assert (Hl' : forall s, In s l -> children s = []) by (intros; apply Hl; right; assumption).
      cbn [traced_leaves filter mapM].
      unfold needs_call at 1. rewrite Ht. unfold eval_leaf at 1.
      assert (Hcall : call_of ev values t (CallAtom t))
        by (destruct t as [a|[|]]; [reflexivity|reflexivity|discriminate]).
      destruct (dict_get tree_eqb values t) as [v|] eqn:Ev; [destruct (is_none v) eqn:En|];
        [| |].
      2:{ destruct (IH tr (stack ++ [v]) Hl') as (p & q & cs & E1 & E2 & E3 & E4 & E5).
          exists p, q, cs. rewrite E4. repeat (split; [assumption|]).
          split; [|rewrite <- E4; exact E5].
          cbn [bind]. destruct (mapM _ l); cbn [bind]; [|reflexivity]. rewrite <- app_assoc. reflexivity. }
      all: destruct (eval_atom ev t) as [w|x] eqn:Ea; cbn [bind].
      all: try (destruct (IH (tr ++ [CallAtom t]) (stack ++ [w]) Hl') as (p & q & cs & E1 & E2 & E3 & E4 & E5);
          exists (t :: p), q, (CallAtom t :: cs);
          split; [cbn [app]; congruence|]; split; [constructor; assumption|];
          split; [rewrite E3, <- app_assoc; reflexivity|];
          split; [|exact E5];
          rewrite E4; destruct (mapM (eval_leaf is_none ev values) l); cbn [bind];
            [rewrite <- app_assoc; reflexivity|reflexivity]).
      all: exists [t], (filter (needs_call is_none values) l), [CallAtom t];
          split; [reflexivity|]; split; [repeat constructor; exact Hcall|];
          split; [reflexivity|]; split; [reflexivity|]; discriminate.
  Qed.

  Lemma traced_ops_spec ev values e :
    let sem := meaning (eval_leaf is_none ev values) (eval_operation ev) in
    forall q p tr stack,
    filter compound (tsort e []) = p ++ q ->
    mapM sem (filter childless (tsort e []) ++ p) = Ok stack ->
    exists q1 q2 cs, q = q1 ++ q2 /\ Forall2 (call_of ev values) q1 cs /\
      fst (traced_ops ev (map (op_of (forder e)) q) tr stack) = tr ++ cs /\
      snd (traced_ops ev (map (op_of (forder e)) q) tr stack) =
        foldM (run_op (eval_operation ev)) (map (op_of (forder e)) q) stack /\
      (is_ok (snd (traced_ops ev (map (op_of (forder e)) q) tr stack)) = true -> q2 = []).
  Proof.
    intros sem. induction q as [|s q IH]; intros p tr stack E Hst.
    - exists [], [], []. simpl. rewrite app_nil_r. auto.
    - cbn [map traced_ops foldM]. 
      replace (op_of (forder e) s) with (head_of s, map (index_of (forder e)) (args_of s)) by reflexivity.
      unfold run_op at 1. cbn [fst snd].
      assert (Hargs : forall c, In c (args_of s) -> In c (filter childless (tsort e []) ++ p)).
      { intros c Hc. eapply forder_args_before; eauto. }
      assert (Hlook : mapM (getitem stack) (map (index_of (forder e)) (args_of s)) = mapM sem (args_of s)).
      { rewrite <- (lookup_args sem (filter childless (tsort e []) ++ p) stack (args_of s) Hst Hargs).
        rewrite !mapM_map. apply mapM_ext. intros c Hc. unfold forder. rewrite E, app_assoc.
        rewrite index_of_app_l by (apply Hargs, Hc). reflexivity. }
      assert (Hs : compound s = true).
      { assert (H : In s (filter compound (tsort e []))) by (rewrite E; apply in_or_app; right; left; reflexivity).
        apply filter_In in H; tauto. }
      assert (Hsn : children s <> []).
      { unfold compound, childless in Hs. destruct (children s); [discriminate|congruence]. }
      assert (Hsem : sem s = do vs <- mapM sem (args_of s); eval_operation ev (head_of s) vs)
        by (apply meaning_node, Hsn).
      assert (Hall : exists vs, mapM sem (args_of s) = Ok vs).
      { apply mapM_Ok_Forall2 in Hst.
        assert (Hok : forall c, In c (filter childless (tsort e []) ++ p) -> exists v, sem c = Ok v).
        { clear -Hst. induction Hst; [intros c []|]. intros c [<-|Hc]; eauto. }
        revert Hargs. generalize (args_of s) as l. induction l as [|c l IHl]; intros Hargs; [exists []; reflexivity|].
        destruct (Hok c) as (v & Hv); [apply Hargs; left; reflexivity|].
        destruct IHl as (vs & Hvs); [intros c' Hc'; apply Hargs; right; exact Hc'|].
        exists (v :: vs). simpl. rewrite Hv. cbn [bind]. rewrite Hvs. reflexivity. }
      destruct Hall as (vs & Hvs). rewrite Hvs in Hsem. cbn [bind] in Hsem.
      rewrite Hlook, Hvs. cbn [bind].
      assert (Hcall : call_of ev values s (CallOp (head_of s) vs)).
      { destruct s as [a|[|h args]]; try (simpl in Hsn; congruence).
        exists vs. split; [|reflexivity]. apply mapM_forward, Hvs. }
      rewrite <- Hsem. destruct (sem s) as [v|x] eqn:Es; cbn [bind].
      + destruct (IH (p ++ [s]) (tr ++ [CallOp (head_of s) vs]) (stack ++ [v]))
          as (q1 & q2 & cs & E1 & E2 & E3 & E4 & E5).
        { rewrite <- app_assoc. exact E. }
        { rewrite app_assoc, mapM_app, Hst. cbn [bind mapM]. rewrite Es. reflexivity. }
        exists (s :: q1), q2, (CallOp (head_of s) vs :: cs).
        split; [cbn [app]; congruence|]. split; [constructor; assumption|].
        split; [rewrite E3, <- app_assoc; reflexivity|]. split; [exact E4|exact E5].
      + exists [s], q, [CallOp (head_of s) vs]. split; [reflexivity|].
        split; [repeat constructor; exact Hcall|]. split; [reflexivity|]. split; [reflexivity|discriminate].
  Qed.

  Lemma filter_all {A} (h : A -> bool) l : (forall a, In a l -> h a = true) -> filter h l = l.
  Proof.
    induction l as [|a l IH]; simpl; intros H; [reflexivity|].
    rewrite (H a) by (left; reflexivity). f_equal. apply IH. intros; apply H; right; assumption.
  Qed.

  Lemma eval_traced_spec ev values e :
    exists order called rest,
      is_topological_order false [] e order /\
      filter (needs_call is_none values) order = called ++ rest /\
      Forall2 (call_of ev values) called (fst (eval_traced is_none ev values e)) /\
      snd (eval_traced is_none ev values e) = eval_forward is_none ev values e /\
      (is_ok (eval_forward is_none ev values e) = true -> rest = []).
  Proof.
    exists (forder e).
    assert (Hnodes : filter (needs_call is_none values) (filter compound (tsort e [])) =
                     filter compound (tsort e [])).
    { apply filter_all. intros s Hs. apply filter_In in Hs as [_ Hs].
      unfold needs_call. unfold compound, childless in Hs. destruct (children s); [discriminate|reflexivity]. }
    unfold eval_traced, eval_forward. destruct (forward_graph_spec e) as (hs & -> & _). cbn [bind].
    cbn [g_atoms g_operations].
    destruct (traced_leaves_spec ev values (filter childless (tsort e [])) [] [])
      as (p & q & cs & E1 & E2 & E3 & E4 & E5).
    { intros s Hs. apply filter_In in Hs as [_ Hs]. unfold childless in Hs.
      destruct (children s); [reflexivity|discriminate]. }
    destruct (traced_leaves is_none ev values (filter childless (tsort e [])) [] []) as [tr r] eqn:Et.
    cbn [fst snd] in *. subst tr. cbn [app] in *.
    assert (Eleaf : mapM (eval_leaf is_none ev values) (filter childless (tsort e [])) =
              mapM (meaning (eval_leaf is_none ev values) (eval_operation ev)) (filter childless (tsort e []))).
    { apply mapM_ext. intros c Hc. apply filter_In in Hc as [_ Hc]. symmetry. apply meaning_leaf.
      unfold childless in Hc. destruct (children c); [reflexivity|discriminate]. }
    destruct (mapM (eval_leaf is_none ev values) (filter childless (tsort e []))) as [stack|x] eqn:El.
    - cbn [bind] in E4. subst r. specialize (E5 eq_refl). subst q. rewrite app_nil_r in E1.
      destruct (traced_ops_spec ev values e (filter compound (tsort e [])) [] cs stack)
        as (q1 & q2 & cs' & F1 & F2 & F3 & F4 & F5); [reflexivity|rewrite app_nil_r; symmetry; exact Eleaf|].
      cbn [bind]. rewrite <- F4.
      destruct (traced_ops ev (map (op_of (forder e)) (filter compound (tsort e []))) cs stack)
        as [tr' r'] eqn:Eo. cbn [fst snd] in *. subst tr'.
      exists (p ++ q1), q2. split; [apply forder_order|].
      split. { unfold forder. rewrite filter_app, Hnodes, E1, F1, app_assoc. reflexivity. }
      destruct r' as [stack'|x]; cbn [fst snd bind].
      + split; [apply Forall2_app; assumption|]. split; [reflexivity|]. intros _. apply F5. reflexivity.
      + split; [apply Forall2_app; assumption|]. split; [reflexivity|]. discriminate.
    - cbn [bind] in E4. subst r. cbn [bind fst snd is_ok].
      exists p, (q ++ filter compound (tsort e [])). split; [apply forder_order|].
      split. { unfold forder. rewrite filter_app, Hnodes, E1, app_assoc. reflexivity. }
      split; [exact E2|]. split; [reflexivity|discriminate].
  Qed.

  (** ** C20 *)
  Lemma atype_eqb_spec' t1 t2 : reflect (t1 = t2) (atype_eqb t1 t2).
  Proof. apply atype_eqb_spec. Qed.

  Lemma eval_forward_ext ev ev' values values' e :
    (forall s, reach false [] e s -> children s = [] ->
       eval_leaf is_none ev values s = eval_leaf is_none ev' values' s) ->
    (forall h args vs, reach false [] e (Node (h :: args)) -> length vs = length args ->
       eval_operation ev h vs = eval_operation ev' h vs) ->
    eval_forward is_none ev values e = eval_forward is_none ev' values' e.
  Proof.
    intros Hl Ho. rewrite !eval_forward_order.
    assert (E : mapM (meaning (eval_leaf is_none ev values) (eval_operation ev)) (forder e) =
                mapM (meaning (eval_leaf is_none ev' values') (eval_operation ev')) (forder e)).
    { apply mapM_ext. intros t Ht. apply forder_In in Ht. apply meaning_ext.
      - intros s Hs. apply Hl. eapply reach_trans; eauto.
      - intros h args vs Hs. apply (Ho h args vs). eapply reach_trans; eauto. }
    rewrite E. reflexivity.
  Qed.

  Lemma eval_forward_call ev values h args v :
    eval_forward is_none ev values (tree_call h args) = Ok v <->
    exists vs, mapM (eval_forward is_none ev values) args = Ok vs /\ eval_operation ev h vs = Ok v.
  Proof.
    rewrite eval_forward_meaning. cbn [tree_call meaning].
    split.
    - destruct (mapM _ args) as [vs|x] eqn:E; cbn [bind]; [|discriminate].
      intros H. exists vs. split; [apply mapM_forward, E|exact H].
    - intros (vs & E & H).
      assert (E' : mapM (meaning (eval_leaf is_none ev values) (eval_operation ev)) args = Ok vs).
      { clear H. revert vs E. induction args as [|a args IH]; simpl; intros vs; [auto|].
        destruct (eval_forward is_none ev values a) as [w|x] eqn:Ea; [|discriminate]. cbn [bind].
        destruct (mapM (eval_forward is_none ev values) args) as [ws|x]; [|discriminate]. cbn [bind].
        intros [= <-]. apply eval_forward_meaning in Ea. rewrite Ea. cbn [bind].
        rewrite (IH ws eq_refl). reflexivity. }
      rewrite E'. exact H.
  Qed.

  (** The first failure of an evaluation, as a value of the recursion. *)
  Lemma eval_forward_fails ev values e x : eval_forward is_none ev values e = Err x ->
    exists s, reach false [] e s /\ meaning (eval_leaf is_none ev values) (eval_operation ev) s = Err x.
  Proof.
    intros H. rewrite eval_forward_order in H.
    destruct (mapM (meaning (eval_leaf is_none ev values) (eval_operation ev)) (forder e)) as [vs|x'] eqn:E; cbn [bind] in H.
    - exfalso. apply mapM_length in E. destruct (forder_last e) as (l & Hl). rewrite Hl in E.
      rewrite app_length in E. destruct (last_item_nonempty vs) as (v & Hv); [|congruence].
      intros ->. simpl in E. lia.
    - injection H as ->. apply mapM_Err in E as (s & Hs & Ex). exists s. split; [apply forder_In, Hs|exact Ex].
  Qed.
  (** When the arguments have values, the outcome is that of the operation. *)
  Lemma eval_forward_call_eq ev values h args vs :
    mapM (eval_forward is_none ev values) args = Ok vs ->
    eval_forward is_none ev values (tree_call h args) = eval_operation ev h vs.
  Proof.
    intros Hvs. destruct (eval_forward is_none ev values (tree_call h args)) as [v|x] eqn:E.
    - apply eval_forward_call in E as (vs' & E & H). congruence.
    - apply eval_forward_fails in E as (s & Hr & Hs).
      assert (Hargs : Forall2 (fun a v => meaning (eval_leaf is_none ev values) (eval_operation ev) a = Ok v) args vs).
      { apply mapM_Ok_Forall2 in Hvs. clear -Hvs. induction Hvs; constructor; auto. apply eval_forward_meaning. assumption. }
      inversion Hr as [t Ht|t c u _ Hc Hcu]; subst.
      + cbn [tree_call meaning] in Hs. replace (mapM _ args) with (Ok vs : res (list V)) in Hs; [cbn [bind] in Hs; congruence|].
        clear -Hargs. induction Hargs as [|a v args vs Ha _ IH]; [reflexivity|]. cbn [mapM]. rewrite Ha. cbn [bind]. rewrite <- IH. reflexivity.
      + exfalso. unfold kids in Hc. cbn [tree_call children tl] in Hc.
        assert (Hw : exists w, meaning (eval_leaf is_none ev values) (eval_operation ev) c = Ok w).
        { clear -Hargs Hc. induction Hargs as [|a v args vs Ha _ IH]; [destruct Hc|]. destruct Hc as [<-|Hc]; eauto. }
        destruct Hw as (w & Hw). destruct (meaning_sub_ok _ _ _ _ _ Hw Hcu) as (w' & Hw'). congruence.
  Qed.

  Lemma eval_operation_add ev h c star h' vs :
    eval_operation (mkEval (ev_atoms ev) (dict_set tree_eqb (ev_operations ev) h (c, star))
           (ev_generic_operation ev) (ev_generic_atom ev)) h' vs =
    if tree_eqb h' h then c (if star : bool then map AVal vs else [ASeq vs]) else eval_operation ev h' vs.
  Proof.
    unfold eval_operation. cbn [ev_operations ev_generic_operation].
    rewrite (dict_get_set _ tree_eqb_spec).
    destruct (tree_eqb h' h); [destruct star; reflexivity|reflexivity].
  Qed.

  Lemma eval_atom_add ev t func a :
    eval_atom (add_atom ev t func) (Atm a) =
    if atype_eqb (atom_type a) t then func (atom_value a) else eval_atom ev (Atm a).
  Proof.
    unfold eval_atom, add_atom. cbn [tree_value bind ev_atoms ev_generic_atom].
    rewrite (dict_get_set _ atype_eqb_spec). destruct (atype_eqb (atom_type a) t); reflexivity.
  Qed.

  Lemma eval_forward_leaf ev values t v : children t = [] ->
    (eval_forward is_none ev values t = Ok v <-> eval_leaf is_none ev values t = Ok v).
  Proof. intros H. rewrite eval_forward_meaning, meaning_leaf by exact H. reflexivity. Qed.

  Lemma eval_forward_leaf_eq ev values t : children t = [] ->
    eval_forward is_none ev values t = eval_leaf is_none ev values t.
  Proof.
    intros H. rewrite eval_forward_order. unfold forder, tsort.
    rewrite post_unfold by (intros []). unfold kids. rewrite H. cbn [tl flat_map app keep_first filter].
    unfold compound, childless. rewrite H. cbn [negb app mapM].
    rewrite meaning_leaf by exact H. destruct (eval_leaf is_none ev values t); reflexivity.
  Qed.

  (** ** C22 *)
  Lemma meaning_subst ev values s r w e :
    children s = [] ->
    eval_forward is_none ev values r = Ok w -> is_none w = false ->
    (forall h args, reach false [] e (Node (h :: args)) -> ~ occurs s h) ->
    forall v,
    meaning (eval_leaf is_none ev values) (eval_operation ev) (subst [s] [r] e) = Ok v <->
    meaning (eval_leaf is_none ev (dict_set tree_eqb values s w)) (eval_operation ev) e = Ok v.
  Proof.
    intros Hs Hr Hw.
    assert (Hsub_leaf : forall t, children t = [] ->
       meaning (eval_leaf is_none ev values) (eval_operation ev) (subst [s] [r] t) =
       meaning (eval_leaf is_none ev (dict_set tree_eqb values s w)) (eval_operation ev) t).
    { intros t Ht. rewrite (meaning_leaf _ _ t Ht). unfold eval_leaf at 2.
      rewrite (dict_get_set _ tree_eqb_spec).
      assert (E : subst [s] [r] t = if tree_eqb t s then r else t).
      { destruct t as [a|[|]]; try discriminate; cbn [subst replacement map]; [destruct (tree_eqb (Atm a) s)|destruct (tree_eqb (Node []) s)]; reflexivity. }
      rewrite E. destruct (tree_eqb t s).
      - rewrite Hw. apply eval_forward_meaning. exact Hr.
      - rewrite meaning_leaf by exact Ht. reflexivity. }
    induction e as [a|cs IH] using tree_ind_all; intros Hh v.
    - rewrite Hsub_leaf by reflexivity. reflexivity.
    - destruct cs as [|h args].
      + rewrite Hsub_leaf by reflexivity. reflexivity.
      + assert (Hhs : ~ occurs s h) by (apply (Hh h args); constructor; intros []).
        assert (E : subst [s] [r] (Node (h :: args)) = Node (h :: map (subst [s] [r]) args)).
        { cbn [subst replacement]. destruct (tree_eqb_spec (Node (h :: args)) s) as [<-|_]; [discriminate|].
          assert (Hd : depb [s] h = false).
          { destruct (depb [s] h) eqn:Ed; [|reflexivity]. exfalso.
            apply depb_occurs in Ed as (a & [<-|[]] & Ho). contradiction. }
          cbn [map]. rewrite (subst_nodep h [s] [r] h Hd). reflexivity. }
        rewrite E. cbn [meaning]. rewrite mapM_map.
        assert (Em : forall vs, mapM (fun a => meaning (eval_leaf is_none ev values) (eval_operation ev) (subst [s] [r] a)) args = Ok vs <->
                     mapM (meaning (eval_leaf is_none ev (dict_set tree_eqb values s w)) (eval_operation ev)) args = Ok vs).
        { assert (IH' : forall c, In c args -> forall v,
            meaning (eval_leaf is_none ev values) (eval_operation ev) (subst [s] [r] c) = Ok v <->
            meaning (eval_leaf is_none ev (dict_set tree_eqb values s w)) (eval_operation ev) c = Ok v).
          { intros c Hc v0. apply IH; [right; exact Hc|]. intros h' args' Hr'. apply (Hh h' args').
            eapply reach_child; [intros []|exact Hc|exact Hr']. }
          clear -IH'. induction args as [|c args IHa]; simpl; [tauto|]. intros vs.
          specialize (IHa (fun c' H => IH' c' (or_intror H))).
          specialize (IH' c (or_introl eq_refl)).
          revert IH'.
          generalize (meaning (eval_leaf is_none ev values) (eval_operation ev) (subst [s] [r] c)) as A.
          generalize (meaning (eval_leaf is_none ev (dict_set tree_eqb values s w)) (eval_operation ev) c) as B.
          revert IHa.
          generalize (mapM (fun a => meaning (eval_leaf is_none ev values) (eval_operation ev) (subst [s] [r] a)) args) as C.
          generalize (mapM (meaning (eval_leaf is_none ev (dict_set tree_eqb values s w)) (eval_operation ev)) args) as D.
          clear. intros D C HDC B A HBA.
          destruct A as [a|xa], B as [b|xb]; cbn [bind].
          - pose proof (proj1 (HBA a) eq_refl) as [= ->].
            destruct C as [cc|xc], D as [dd|xd]; cbn [bind].
            + pose proof (proj1 (HDC cc) eq_refl) as [= ->]. reflexivity.
            + pose proof (proj1 (HDC cc) eq_refl); discriminate.
            + pose proof (proj2 (HDC dd) eq_refl); discriminate.
            + split; discriminate.
          - pose proof (proj1 (HBA a) eq_refl); discriminate.
          - pose proof (proj2 (HBA b) eq_refl); discriminate.
          - split; discriminate. }
        split; intros H.
        * destruct (mapM (fun a => _) args) as [vs|x] eqn:E1; cbn [bind] in H; [|discriminate].
          rewrite (proj1 (Em vs) eq_refl). exact H.
        * destruct (mapM (meaning (eval_leaf is_none ev (dict_set tree_eqb values s w)) _) args) as [vs|x] eqn:E1;
            cbn [bind] in H; [|discriminate].
          rewrite (proj2 (Em vs) eq_refl). exact H.
  Qed.
End Ev.

(** ** Forms used in PropsEval.v *)
Section Ev2.
  Context {V : Type} (is_none : V -> bool).

  Lemma eval_leaf_usable ev values s :
    eval_leaf is_none ev values s =
    match usable is_none values s with Some v => Ok v | None => eval_atom ev s end.
  Proof.
    unfold eval_leaf, usable. destruct (dict_get tree_eqb values s) as [v|]; [|reflexivity].
    destruct (is_none v); reflexivity.
  Qed.

  Lemma only_atom_values_matter (ev : evaluator V) values values' e :
    (forall s, reach false [] e s -> children s = [] -> usable is_none values s = usable is_none values' s) ->
    eval_forward is_none ev values e = eval_forward is_none ev values' e.
  Proof.
    intros H. apply eval_forward_values_irrelevant. intros s Hr Hs.
    rewrite !eval_leaf_usable, (H s Hr Hs). reflexivity.
  Qed.

  Lemma compound_values_ignored (ev : evaluator V) values e c v :
    children c <> [] ->
    eval_forward is_none ev (dict_set tree_eqb values c v) e = eval_forward is_none ev values e.
  Proof.
    intros Hc. apply only_atom_values_matter. intros s _ Hs. unfold usable.
    rewrite (dict_get_set_other _ tree_eqb_spec); [reflexivity|]. intros ->. contradiction.
  Qed.

  Lemma none_values_ignored (ev : evaluator V) values e s v :
    dict_get tree_eqb values s = None -> is_none v = true ->
    eval_forward is_none ev (dict_set tree_eqb values s v) e = eval_forward is_none ev values e.
  Proof.
    intros Hs Hv. apply only_atom_values_matter. intros t _ _. unfold usable.
    rewrite (dict_get_set _ tree_eqb_spec). destruct (tree_eqb_spec t s) as [->|]; [|reflexivity].
    rewrite Hs, Hv. reflexivity.
  Qed.

  Lemma add_op_effect (ev ev' : evaluator V) (h : tree) (c : callable V) (star : bool) :
    ev' = (if star then add_op1 ev h c else add_opn ev h c) ->
    (forall values args vs,
       mapM (eval_forward is_none ev' values) args = Ok vs ->
       eval_forward is_none ev' values (tree_call h args) = c (if star then map AVal vs else [ASeq vs])) /\
    (forall values e, (forall args, ~ reach false [] e (tree_call h args)) ->
       eval_forward is_none ev' values e = eval_forward is_none ev values e).
  Proof.
    intros ->.
    assert (Hop : forall h' vs, eval_operation (if star then add_op1 ev h c else add_opn ev h c) h' vs =
        if tree_eqb h' h then c (if star then map AVal vs else [ASeq vs]) else eval_operation ev h' vs).
    { intros h' vs. destruct star; [apply (eval_operation_add ev h c true)|apply (eval_operation_add ev h c false)]. }
    split.
    - intros values args vs Hvs. rewrite (eval_forward_call_eq is_none _ values h args vs Hvs), Hop, tree_eqb_refl. reflexivity.
    - intros values e He. apply eval_forward_ext.
      + intros s _ _. destruct star; reflexivity.
      + intros h' args vs Hr _. rewrite Hop. destruct (tree_eqb_spec h' h) as [->|_]; [|reflexivity].
        exfalso. exact (He args Hr).
  Qed.

  Lemma add_atom_effect (ev : evaluator V) (t : atype) (func : pyval -> res V) :
    (forall values a, atom_type a = t -> dict_get tree_eqb values (Atm a) = None ->
       eval_forward is_none (add_atom ev t func) values (Atm a) = func (atom_value a)) /\
    (forall values e, (forall a, reach false [] e (Atm a) -> atom_type a <> t) ->
       eval_forward is_none (add_atom ev t func) values e = eval_forward is_none ev values e).
  Proof.
    split.
    - intros values a Ha Hv. rewrite eval_forward_leaf_eq by reflexivity.
      unfold eval_leaf. rewrite Hv, eval_atom_add.
      destruct (atype_eqb_spec (atom_type a) t); [reflexivity|contradiction].
    - intros values e He. apply eval_forward_ext; [|reflexivity].
      intros s Hr Hs. rewrite !eval_leaf_usable. destruct (usable is_none values s); [reflexivity|].
      destruct s as [a|cs]; [|reflexivity]. rewrite eval_atom_add.
      destruct (atype_eqb_spec (atom_type a) t) as [E|]; [|reflexivity].
      exfalso. exact (He a Hr E).
  Qed.

  Lemma add_op_twice (ev : evaluator V) (h : tree) (c1 c2 : callable V) (s1 s2 : bool) values e :
    eval_forward is_none
      (if s2 then add_op1 (if s1 then add_op1 ev h c1 else add_opn ev h c1) h c2
       else add_opn (if s1 then add_op1 ev h c1 else add_opn ev h c1) h c2) values e =
    eval_forward is_none (if s2 then add_op1 ev h c2 else add_opn ev h c2) values e.
  Proof.
    apply eval_forward_ext.
    - intros s _ _. destruct s1, s2; reflexivity.
    - intros h' args vs _ _. destruct s1, s2; unfold add_op1, add_opn; rewrite !eval_operation_add;
        destruct (tree_eqb h' h); reflexivity.
  Qed.

  Lemma eval_subst (ev : evaluator V) values s r w e e' :
    children s = [] ->
    eval_forward is_none ev values r = Ok w -> is_none w = false ->
    (forall h args, reach false [] e (Node (h :: args)) -> ~ occurs s h) ->
    (do sf <- subs_new e [s]; subs_call sf [r]) = Ok e' ->
    forall v, eval_forward is_none ev values e' = Ok v <->
              eval_forward is_none ev (dict_set tree_eqb values s w) e = Ok v.
  Proof.
    intros Hs Hr Hw Hh He' v.
    assert (E : e' = subst [s] [r] e).
    { assert (Hc : (do sf <- subs_new e [s]; subs_call sf [r]) = Ok (subst [s] [r] e)).
      { apply subs_correct_iff; [reflexivity|]. intros [<-|[]].
        destruct s; cbn [subst replacement]; rewrite tree_eqb_refl; reflexivity. }
      congruence. }
    rewrite E, !eval_forward_meaning. apply meaning_subst; assumption.
  Qed.
End Ev2.

Lemma transformer_identity (ev : evaluator tree) e :
  ev_generic_operation ev = ev_generic_operation new_transformer ->
  ev_generic_atom ev = ev_generic_atom new_transformer ->
  (forall h args, reach false [] e (Node (h :: args)) -> dict_get tree_eqb (ev_operations ev) h = None) ->
  (forall a, reach false [] e (Atm a) -> dict_get atype_eqb (ev_atoms ev) (atom_type a) = None) ->
  proper e ->
  evaluate (fun _ => false) ev e None = Ok e.
Proof.
  intros Hgo Hga Hop Hat Hp. unfold evaluate. apply eval_forward_meaning. unfold proper in Hp.
  induction e as [a|cs IH] using tree_ind_all.
  - cbn [meaning]. unfold eval_leaf, eval_atom. simpl.
    rewrite (Hat a) by (constructor; intros []). rewrite Hga. reflexivity.
  - destruct cs as [|h args].
    + exfalso. apply Hp. constructor. intros [].
    + cbn [meaning].
      assert (E : mapM (meaning (eval_leaf (fun _ => false) ev []) (eval_operation ev)) args = Ok args).
      { assert (Hall : forall c, In c args -> meaning (eval_leaf (fun _ => false) ev []) (eval_operation ev) c = Ok c).
        { intros c Hc.
          assert (Hr : forall u, reach false [] c u -> reach false [] (Node (h :: args)) u).
          { intros u Hu. eapply reach_child; [intros []|exact Hc|exact Hu]. }
          apply IH; [right; exact Hc| | |]; eauto. }
        clear -Hall. induction args as [|c args IHa]; simpl; [reflexivity|].
        rewrite Hall by (left; reflexivity). cbn [bind]. rewrite IHa by (intros; apply Hall; right; assumption).
        reflexivity. }
      rewrite E. cbn [bind]. unfold eval_operation.
      rewrite (Hop h args) by (constructor; intros []). rewrite Hgo. reflexivity.
Qed.

Lemma eval_error_source {V} (is_none : V -> bool) (ev : evaluator V) values e x :
  eval_forward is_none ev values e = Err x ->
  (exists s, reach false [] e s /\ children s = [] /\
     usable is_none values s = None /\ eval_atom ev s = Err x) \/
  (exists h args vs, reach false [] e (Node (h :: args)) /\
     mapM (eval_forward is_none ev values) args = Ok vs /\ eval_operation ev h vs = Err x).
Proof.
  intros H. apply eval_forward_fails in H as (t & Ht & H).
  apply meaning_Err in H as [(s & Hr & Hs & Hx)|(h & args & vs & Hr & Hvs & Hx)]; [left|right].
  - exists s. split; [eapply reach_trans; eauto|]. split; [exact Hs|]. rewrite eval_leaf_usable in Hx.
    destruct (usable is_none values s); [discriminate|auto].
  - exists h, args, vs. split; [eapply reach_trans; eauto|]. split; [apply mapM_forward, Hvs|exact Hx].
Qed.

Lemma reach_sample h args : reach false [] e_shared (Node (h :: args)) ->
  (h = f /\ length args = 3) \/ (h = g /\ length args = 2).
Proof.
  rewrite <- post_reach. simpl.
  intros [H|[H|[H|[H|[H|[H|[H|[H|[]]]]]]]]]; try discriminate; injection H as <- <-; auto.
Qed.

Lemma C18_sample :
  whole e_shared /\ rules_total ev_sample e_shared /\
  eval_forward nn ev_sample vals_sample e_shared = Ok 33%Z /\
  eval_forward nn ev_sample [(x, 3%Z)] e_shared = Err NoEvaluationRuleError.
Proof.
  split; [|split; [|split; reflexivity]].
  - unfold whole. rewrite <- post_reach. simpl. intuition discriminate.
  - split; [intros; left; reflexivity|]. split; [intros; left; reflexivity|]. split.
    + intros h args vs c star Hr Hl. apply reach_sample in Hr as [[-> Hl']|[-> Hl']].
      * intros [= <- <-]. simpl. eauto.
      * intros [= <- <-]. rewrite Hl' in Hl. destruct vs as [|v [|w [|]]]; try discriminate. simpl. eauto.
    + intros a c Hr. rewrite <- post_reach in Hr. simpl in Hr.
      destruct Hr as [H|[H|[H|[H|[H|[H|[H|[H|[]]]]]]]]]; try discriminate; injection H as <-; discriminate.
Qed.
