(** * The size of the generated code: proofs for C73 *)
From Coq Require Import Permutation.
From Verif Require Import Py ModelTree SpecTree ProofBase ProofTopo ProofTree ProofGraph ModelEval SpecEval ProofEval ModelDiff ModelSym ModelCas
  SpecPrint ProofBin SpecCost SpecLLVM SpecLambdify ProofLLVM SpecCodeSize.

Lemma operations_length es ops ops' : operations_of es ops -> operations_of es ops' -> length ops = length ops'.
Proof.
  intros [N1 H1] [N2 H2]. apply Permutation_length, NoDup_Permutation; [exact N1|exact N2|].
  intros s. rewrite H1, H2. reflexivity.
Qed.
Lemma compound_iff s : compound s = true <-> children s <> [].
Proof. destruct s as [a|[|h l]]; cbn; split; try discriminate; try congruence; auto. Qed.
Lemma tsort_operations e : operations_of [e] (filter compound (tsort e [])).
Proof.
  split.
  - apply NoDup_filter. unfold tsort. apply keep_first_NoDup.
  - intros s. rewrite filter_In, compound_iff. unfold tsort. rewrite keep_first_In, post_reach. split.
    + intros [H1 H2]. split; [exists e; split; [left; reflexivity|exact H1]|exact H2].
    + intros [(e' & [<-|[]] & H1) H2]. auto.
Qed.

(** Every binary operation comes from one argument link of the original expression. *)
Fixpoint prefixes (h acc : tree) (r : list tree) : list tree :=
  match r with [] => [] | a :: r' => call2 h acc a :: prefixes h (call2 h acc a) r' end.
Lemma prefixes_length h r : forall acc, length (prefixes h acc r) = length r.
Proof. induction r as [|a r IH]; intros acc; cbn [prefixes length]; [reflexivity|rewrite IH; reflexivity]. Qed.
Definition news (t : tree) : list tree :=
  match t with
  | Node (h :: args) =>
      match mapM (meaning bin_leaf bin_op) args with
      | Ok vs => if tree_eqb h Add then match vs with v :: r => prefixes Add v r | [] => [] end
                 else if tree_eqb h Mul then match vs with v :: r => prefixes Mul v r | [] => [] end
                 else [tree_call h vs]
      | Err _ => []
      end
  | _ => []
  end.
Lemma news_length t : kids false t <> [] -> length (news t) <= length (kids false t).
Proof.
  destruct t as [a|[|h args]]; cbn [news]; intros H; try (cbn; lia). unfold kids in *. cbn [children tl] in *.
  destruct (mapM (meaning bin_leaf bin_op) args) as [vs|] eqn:E; [|cbn; lia]. apply mapM_Ok_Forall2, Forall2_len in E.
  destruct (tree_eqb h Add); [|destruct (tree_eqb h Mul)].
  - destruct vs; rewrite ?prefixes_length; cbn [length] in *; lia.
  - destruct vs; rewrite ?prefixes_length; cbn [length] in *; lia.
  - destruct args; [congruence|]. cbn [length] in *. lia.
Qed.
Lemma nest_reach_prefix h r : forall acc s, reach false [] (fold_left (call2 h) r acc) s ->
  In s (prefixes h acc r) \/ reach false [] acc s \/ exists a, In a r /\ reach false [] a s.
Proof.
  induction r as [|a r IH]; cbn [fold_left prefixes]; intros acc s H; [auto|].
  destruct (IH _ _ H) as [H1|[H1|(b & Hb & H1)]].
  - left. right. exact H1.
  - apply reach_node_inv in H1 as [->|(b & [<-|[<-|[]]] & H1)]; [left; left; reflexivity|auto|].
    right. right. exists a. split; [left; reflexivity|exact H1].
  - right. right. exists b. split; [right; exact Hb|exact H1].
Qed.
Lemma reduce_reach h vs e' s : reduce (call2 h) vs = Ok e' -> reach false [] e' s ->
  In s (match vs with v :: r => prefixes h v r | [] => [] end) \/ exists v, In v vs /\ reach false [] v s.
Proof.
  destruct vs as [|v r]; intros H Hr; [discriminate|]. cbn [reduce] in H. injection H as <-.
  apply nest_reach_prefix in Hr as [Hr|[Hr|(a & Ha & Hr)]]; [auto| |].
  - right. exists v. split; [left; reflexivity|exact Hr].
  - right. exists a. split; [right; exact Ha|exact Hr].
Qed.
Lemma news_covers e : forall e', meaning bin_leaf bin_op e = Ok e' -> forall s, reach false [] e' s -> children s <> [] ->
  exists t, reach false [] e t /\ In s (news t).
Proof.
  induction e as [a|cs IH] using tree_ind_all; intros e' H s Hr Hs.
  - injection H as <-. apply reach_leaf in Hr; [|reflexivity]. subst. destruct Hs; reflexivity.
  - destruct cs as [|h args]; [discriminate|]. cbn [meaning] in H.
    destruct (mapM (meaning bin_leaf bin_op) args) as [vs|x] eqn:E; [|discriminate]. cbn [bind] in H.
    assert (G : In s (news (Node (h :: args))) \/ exists v, In v vs /\ reach false [] v s).
    { cbn [news]. rewrite E. unfold bin_op in H. destruct (tree_eqb h Add); [|destruct (tree_eqb h Mul)].
      - exact (reduce_reach _ _ _ _ H Hr).
      - exact (reduce_reach _ _ _ _ H Hr).
      - injection H as <-. apply reach_node_inv in Hr as [->|Hr]; [left; left; reflexivity|right; exact Hr]. }
    destruct G as [G|(v & Hv & G)]; [exists (Node (h :: args)); split; [apply reach_refl|exact G]|].
    apply mapM_Ok_Forall2 in E. assert (Ha : exists a, In a args /\ meaning bin_leaf bin_op a = Ok v).
    { clear - E Hv. induction E as [|a w l l' Haw _ IH]; [destruct Hv|]. destruct Hv as [->|Hv]; [exists a; split; [left; reflexivity|exact Haw]|].
      destruct (IH Hv) as (b & Hb & Hbv). exists b. split; [right; exact Hb|exact Hbv]. }
    destruct Ha as (a & Ha & Hav). destruct (IH a (or_intror Ha) v Hav s G Hs) as (t & Ht & Hin).
    exists t. split; [exact (reach_arg h args a t Ha Ht)|exact Hin].
Qed.
Lemma flat_map_length_le {X} (f g : X -> nat) l : (forall x, In x l -> f x <= g x) -> list_sum (map f l) <= list_sum (map g l).
Proof.
  induction l as [|a l IH]; intros H; [cbn; lia|]. cbn [map list_sum fold_right]. change (fold_right Nat.add 0) with list_sum.
  specialize (H a (or_introl eq_refl)) as Ha. specialize (IH (fun x Hx => H x (or_intror Hx))). lia.
Qed.
Lemma flat_map_len {X Y} (f : X -> list Y) l : length (flat_map f l) = list_sum (map (fun x => length (f x)) l).
Proof. induction l as [|a l IH]; [reflexivity|]. cbn [flat_map map list_sum fold_right]. rewrite app_length, IH. reflexivity. Qed.

(** [es]: expressions whose expansions are [es'], in which all calls have arguments. *)
Lemma expanded_size es es' ops l : Forall2 (fun e e' => meaning bin_leaf bin_op e = Ok e') es es' ->
  operations_of es' ops -> (forall s, (exists e, In e es /\ reach false [] e s) -> In s l) ->
  (forall h args, In (Node (h :: args)) l -> args <> []) ->
  length ops <= links l.
Proof.
  intros H [Hnd Hops] Hl Hk.
  assert (Hincl : incl ops (flat_map news l)).
  { intros s Hs. apply Hops in Hs as [(e' & He' & Hr) Hc]. apply in_flat_map.
    assert (G : exists e, In e es /\ meaning bin_leaf bin_op e = Ok e').
    { clear - H He'. induction H as [|a w l l' Haw _ IH]; [destruct He'|]. destruct He' as [->|Hv]; [exists a; split; [left; reflexivity|exact Haw]|].
      destruct (IH Hv) as (b & Hb & Hbv). exists b. split; [right; exact Hb|exact Hbv]. }
    destruct G as (e & He & Hm). destruct (news_covers e e' Hm s Hr Hc) as (t & Ht & Hin). exists t. split; [|exact Hin].
    apply Hl. exists e. auto. }
  apply (NoDup_incl_length Hnd) in Hincl. etransitivity; [exact Hincl|]. rewrite flat_map_len. unfold links.
  apply flat_map_length_le. intros t Ht. destruct t as [a|[|h args]]; [cbn; lia..|]. apply news_length. exact (Hk h args Ht).
Qed.
Lemma machine_args mc symargs vals h args : machine_value mc symargs vals (Node (h :: args)) <> None -> args <> [].
Proof.
  intros H ->. apply H. rewrite machine_value_node. cbn [opt_map]. unfold machine_op.
  destruct (tree_eqb h Add); [reflexivity|]. destruct (tree_eqb h Mul); [reflexivity|]. destruct (tree_eqb h Pow); [reflexivity|].
  destruct (tree_eqb h sin); [reflexivity|]. destruct (tree_eqb h cos); reflexivity.
Qed.

(** ** Derivatives of binary expressions are binary *)
From Verif Require Import SpecDiff ProofDiff SpecCas ProofCas ProofCasDiff ProofSwell.
Definition narrow (t : tree) : Prop := forall x, reach false [] t x -> length (kids false x) <= 2.
Lemma narrow_node h l : length l <= 2 -> (forall c, In c l -> narrow c) -> narrow (Node (h :: l)).
Proof. intros Hl Hc x Hx. apply ProofBin.reach_node_inv in Hx as [->|(a & Ha & Hx)]; [exact Hl|exact (Hc a Ha x Hx)]. Qed.
Lemma narrow_leaf t : children t = [] -> narrow t.
Proof. intros Ht x Hx. apply ProofBin.reach_leaf in Hx; [|exact Ht]. subst. unfold kids. rewrite Ht. cbn. lia. Qed.
Lemma narrow_total terms : length terms <= 2 -> (forall c, In c terms -> narrow c) -> narrow (total cas_diff terms).
Proof.
  destruct terms as [|t [|t2 r]]; cbn [total]; intros Hl Hc.
  - apply narrow_leaf. reflexivity.
  - apply Hc. left. reflexivity.
  - apply narrow_node; assumption.
Qed.
Lemma narrow_times r d : narrow r -> narrow d -> narrow (times r d).
Proof.
  intros Hr Hd. unfold times. destruct (tree_eqb d zero); [apply narrow_leaf; reflexivity|].
  destruct (tree_eqb d one); [exact Hr|]. apply narrow_node; [cbn; lia|]. intros c [<-|[<-|[]]]; assumption.
Qed.
Lemma binary_arg h args a : binary (Node (h :: args)) -> In a args -> binary a.
Proof. intros H Ha h' args' Hr. apply H. eapply ProofBin.reach_arg; eauto. Qed.
Lemma arith_narrow e : arith e -> binary e -> narrow e.
Proof.
  intros He. induction He as [n|s'|args Har IH|args Har IH|a Ha IH|a Ha IH|a b Ha Hb IHa IHb] using arith_ind_all; intros Hbin.
  - apply narrow_leaf. reflexivity.
  - apply narrow_leaf. reflexivity.
  - apply narrow_node; [rewrite (Hbin Add args (ProofBin.reach_refl _)) by auto; lia|]. intros c Hc. rewrite Forall_forall in IH.
    apply IH; [exact Hc|eapply binary_arg; eauto].
  - apply narrow_node; [rewrite (Hbin Mul args (ProofBin.reach_refl _)) by auto; lia|]. intros c Hc. rewrite Forall_forall in IH.
    apply IH; [exact Hc|eapply binary_arg; eauto].
  - apply narrow_node; [cbn; lia|]. intros c [<-|[]]. apply IH. eapply binary_arg; [exact Hbin|left; reflexivity].
  - apply narrow_node; [cbn; lia|]. intros c [<-|[]]. apply IH. eapply binary_arg; [exact Hbin|left; reflexivity].
  - apply narrow_node; [cbn; lia|]. intros c [<-|[<-|[]]]; [apply IHa|apply IHb]; (eapply binary_arg; [exact Hbin|]); cbn; auto.
Qed.
Lemma set_nth_len (l : list tree) i d : length (set_nth l i d) = length l.
Proof. revert i. induction l as [|a l IH]; intros [|i]; cbn [set_nth length]; auto. Qed.
Lemma deriv_narrow s e : arith e -> binary e -> forall d, deriv cas_diff (Symbol s) e = Ok d -> narrow d.
Proof.
  intros He. induction He as [n|s'|args Har IH|args Har IH|a Ha IH|a Ha IH|a b Ha Hb IHa IHb] using arith_ind_all; intros Hbin d Hd.
  - rewrite atom_D in Hd. injection Hd as <-. apply narrow_leaf. reflexivity.
  - rewrite sym_D in Hd. injection Hd as <-. destruct (String.eqb s' s); apply narrow_leaf; reflexivity.
  - rewrite D_add in Hd. destruct (mapM (deriv cas_diff (Symbol s)) args) as [ds|] eqn:E; [|discriminate]. cbn [bind] in Hd. injection Hd as <-.
    apply mapM_Ok_Forall2 in E. pose proof (Forall2_len _ _ _ E) as Hl. rewrite (Hbin Add args (ProofBin.reach_refl _)) in Hl by auto.
    apply narrow_total.
    + rewrite map_length. pose proof (dependent_length ds). lia.
    + intros t Ht. apply in_map_iff in Ht as (id & <- & Hid). apply dependent_in in Hid. rewrite Forall_forall in IH.
      clear Hl. assert (Hb : forall a, In a args -> binary a) by (intros; eapply binary_arg; eauto). clear Hbin Har.
      induction E as [|a d args ds Ha E IHE]; [destruct Hid|]. destruct Hid as [<-|Hid].
      * eapply (IH a); [left; reflexivity|apply Hb; left; reflexivity|exact Ha].
      * apply IHE; [intros; eapply IH; eauto; right; assumption|exact Hid|intros; apply Hb; right; assumption].
  - rewrite D_mul in Hd. destruct (mapM (deriv cas_diff (Symbol s)) args) as [ds|] eqn:E; [|discriminate]. cbn [bind] in Hd. injection Hd as <-.
    apply mapM_Ok_Forall2 in E. pose proof (Forall2_len _ _ _ E) as Hl. pose proof (Hbin Mul args (ProofBin.reach_refl _)) as H2. rewrite H2 in Hl by auto.
    assert (Hb : forall a, In a args -> binary a) by (intros; eapply binary_arg; eauto). rewrite Forall_forall in IH, Har.
    apply narrow_total.
    + rewrite map_length. pose proof (dependent_length ds). lia.
    + intros t Ht. apply in_map_iff in Ht as (id & <- & Hid). apply narrow_node; [rewrite set_nth_len; rewrite H2 by auto; lia|].
      intros c Hc. apply set_nth_in in Hc as [->|Hc].
      * apply dependent_in in Hid. clear H2 Hl Hbin. induction E as [|a d args ds Ha E IHE]; [destruct Hid|]. destruct Hid as [<-|Hid].
        -- eapply (IH a); [left; reflexivity|apply Hb; left; reflexivity|exact Ha].
        -- apply IHE; [intros; apply Har; right; assumption|intros; eapply IH; eauto; right; assumption|intros; apply Hb; right; assumption|exact Hid].
      * apply arith_narrow; [apply Har, Hc|apply Hb, Hc].
  - rewrite D_sin in Hd. destruct (deriv cas_diff (Symbol s) a) as [da|] eqn:E; [|discriminate]. cbn [bind] in Hd. injection Hd as <-.
    assert (Hba : binary a) by (eapply binary_arg; [exact Hbin|left; reflexivity]).
    apply narrow_times; [|apply (IH Hba da eq_refl)]. apply narrow_node; [cbn; lia|]. intros c [<-|[]]. apply arith_narrow; assumption.
  - rewrite D_cos in Hd. destruct (deriv cas_diff (Symbol s) a) as [da|] eqn:E; [|discriminate]. cbn [bind] in Hd. injection Hd as <-.
    assert (Hba : binary a) by (eapply binary_arg; [exact Hbin|left; reflexivity]).
    apply narrow_times; [|apply (IH Hba da eq_refl)]. apply narrow_node; [cbn; lia|]. intros c [<-|[<-|[]]]; [apply narrow_leaf; reflexivity|].
    apply narrow_node; [cbn; lia|]. intros c [<-|[]]. apply arith_narrow; assumption.
  - assert (Hba : binary a) by (eapply binary_arg; [exact Hbin|left; reflexivity]).
    assert (Hbb : binary b) by (eapply binary_arg; [exact Hbin|right; left; reflexivity]).
    rewrite D_pow in Hd. destruct (deriv cas_diff (Symbol s) a) as [da|] eqn:E; [|discriminate]. cbn [bind] in Hd.
    destruct (deriv cas_diff (Symbol s) b) as [db|] eqn:E2; [|discriminate]. cbn [bind] in Hd. destruct (tree_eqb db zero); [|discriminate]. injection Hd as <-.
    apply narrow_times; [|apply (IHa Hba da eq_refl)].
    apply narrow_node; [cbn; lia|]. intros c [<-|[<-|[]]]; [apply arith_narrow; assumption|].
    apply narrow_node; [cbn; lia|]. intros c [<-|[<-|[]]]; [apply arith_narrow; assumption|].
    apply narrow_node; [cbn; lia|]. intros c [<-|[<-|[]]]; [apply arith_narrow; assumption|apply narrow_leaf; reflexivity].
Qed.
Lemma news_narrow t : length (kids false t) <= 2 -> length (news t) <= 1.
Proof.
  destruct t as [a|[|h args]]; cbn [news]; intros H; try (cbn; lia). unfold kids in *. cbn [children tl] in *.
  destruct (mapM (meaning bin_leaf bin_op) args) as [vs|] eqn:E; [|cbn; lia]. apply mapM_Ok_Forall2, Forall2_len in E.
  destruct (tree_eqb h Add); [|destruct (tree_eqb h Mul)].
  - destruct vs; rewrite ?prefixes_length; cbn [length] in *; lia.
  - destruct vs; rewrite ?prefixes_length; cbn [length] in *; lia.
  - cbn [length]. lia.
Qed.
Lemma narrow_size e e' ops l : meaning bin_leaf bin_op e = Ok e' -> operations_of [e'] ops ->
  (forall s, In s l <-> reach false [] e s) -> narrow e -> length ops <= length l.
Proof.
  intros H [Hnd Hops] Hl Hn.
  assert (Hincl : incl ops (flat_map news l)).
  { intros s Hs. apply Hops in Hs as [(e2 & [<-|[]] & Hr) Hc]. apply in_flat_map.
    destruct (news_covers e e' H s Hr Hc) as (t & Ht & Hin). exists t. split; [apply Hl, Ht|exact Hin]. }
  apply (NoDup_incl_length Hnd) in Hincl. etransitivity; [exact Hincl|]. rewrite flat_map_len.
  assert (G : forall t, In t l -> length (news t) <= 1) by (intros t Ht; apply news_narrow, Hn, Hl, Ht).
  clear - G. induction l as [|t l IH]; [cbn; lia|]. cbn [map list_sum fold_right length]. change (fold_right Nat.add 0) with list_sum.
  specialize (G t (or_introl eq_refl)) as Gt. specialize (IH (fun x Hx => G x (or_intror Hx))). lia.
Qed.
