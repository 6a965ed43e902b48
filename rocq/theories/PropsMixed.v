(** * Repeated differentiation by several symbols: C64. *)
From Coq Require Import Reals Lra.
From Verif Require Import Py ModelTree SpecTree ProofBase ModelDiff SpecDiff ProofDiff ModelSym ModelCas SpecCas
  ProofCasDiff SpecReal ProofReal ProofJets Samples.
Local Open Scope string_scope.

(** ** No new variable exponents *)
Lemma hve_total ts s : has_variable_exponent (total cas_diff ts) s -> exists t, In t ts /\ has_variable_exponent t s.
Proof.
  destruct ts as [|t [|t2 ts]]; cbn [total]; intros H.
  - elim (hve_leaf zero s eq_refl H).
  - exists t. split; [left; reflexivity|exact H].
  - apply hve_node in H; [exact H|discriminate].
Qed.
Lemma hve_times r d s : has_variable_exponent (times r d) s -> has_variable_exponent r s \/ has_variable_exponent d s.
Proof.
  unfold times. destruct (tree_eqb d zero); [intros H; elim (hve_leaf zero s eq_refl H)|]. destruct (tree_eqb d one); [auto|].
  intros H. apply hve_node in H as (a & [<-|[<-|[]]] & H); [auto|auto|discriminate].
Qed.
Lemma dep_in ds id : In id (dependent zero ds) -> In (snd id) ds.
Proof. destruct id as [i d]. unfold dependent. intros H. apply filter_In in H as [H _]. apply in_combine_r in H. exact H. Qed.
Lemma set_nth_mem l i d c : In c (set_nth l i d) -> c = d \/ In c l.
Proof.
  revert i. induction l as [|a l IH]; intros [|i]; cbn [set_nth]; [tauto|tauto| |].
  - intros [<-|H]; [left; reflexivity|right; right; exact H].
  - intros [<-|H]; [right; left; reflexivity|]. destruct (IH i H); [auto|right; right; assumption].
Qed.
Lemma deriv_exponents s e s' : arith e -> forall d, deriv cas_diff (Symbol s) e = Ok d -> has_variable_exponent d s' -> has_variable_exponent e s'.
Proof.
  assert (Hl : forall (args ds : list tree) d, Forall2 (fun a d => deriv cas_diff (Symbol s) a = Ok d) args ds -> In d ds ->
    exists a, In a args /\ deriv cas_diff (Symbol s) a = Ok d).
  { intros args ds d E Hid. induction E as [|a d' args ds Ha E IHE]; [destruct Hid|]. destruct Hid as [<-|Hid].
    - exists a. split; [left; reflexivity|exact Ha].
    - destruct (IHE Hid) as (a' & Ha' & Hd). exists a'. split; [right; exact Ha'|exact Hd]. }
  intros He. induction He as [n|t|args Har IH|args Har IH|a Ha IH|a Ha IH|a b Ha Hb IHa IHb] using arith_ind_all; intros d Hd H.
  - rewrite atom_D in Hd. injection Hd as <-. elim (hve_leaf zero s' eq_refl H).
  - rewrite sym_D in Hd. injection Hd as <-. destruct (String.eqb t s); [elim (hve_leaf one s' eq_refl H)|elim (hve_leaf zero s' eq_refl H)].
  - rewrite D_add in Hd. destruct (mapM (deriv cas_diff (Symbol s)) args) as [ds|] eqn:E; [|discriminate]. cbn [bind] in Hd. injection Hd as <-.
    apply mapM_Ok_Forall2 in E. apply hve_total in H as (t & Ht & H). apply in_map_iff in Ht as (id & <- & Hid). apply dep_in in Hid.
    destruct (Hl args ds _ E Hid) as (a & Hin & Hda). rewrite Forall_forall in IH. apply hve_node; [discriminate|]. exists a. split; [exact Hin|]. eapply IH; eauto.
  - rewrite D_mul in Hd. destruct (mapM (deriv cas_diff (Symbol s)) args) as [ds|] eqn:E; [|discriminate]. cbn [bind] in Hd. injection Hd as <-.
    apply mapM_Ok_Forall2 in E. apply hve_total in H as (t & Ht & H). apply in_map_iff in Ht as (id & <- & Hid). apply dep_in in Hid.
    rewrite Forall_forall in IH. apply hve_node; [discriminate|]. apply hve_node in H as (c & Hc & H); [|discriminate].
    apply set_nth_mem in Hc as [->|Hc]; [|eauto]. destruct (Hl args ds _ E Hid) as (a & Hin & Hda). exists a. split; [exact Hin|]. eapply IH; eauto.
  - rewrite D_sin in Hd. destruct (deriv cas_diff (Symbol s) a) as [da|] eqn:E; [|discriminate]. cbn [bind] in Hd. injection Hd as <-.
    apply hve_node; [discriminate|]. exists a. split; [left; reflexivity|]. apply hve_times in H as [H|H]; [|eauto].
    apply hve_node in H as (c & [<-|[]] & H); [exact H|discriminate].
  - rewrite D_cos in Hd. destruct (deriv cas_diff (Symbol s) a) as [da|] eqn:E; [|discriminate]. cbn [bind] in Hd. injection Hd as <-.
    apply hve_node; [discriminate|]. exists a. split; [left; reflexivity|]. apply hve_times in H as [H|H]; [|eauto].
    apply hve_node in H as (c & [<-|[<-|[]]] & H); [elim (hve_leaf negone s' eq_refl H)| |discriminate].
    apply hve_node in H as (c & [<-|[]] & H); [exact H|discriminate].
  - rewrite D_pow in Hd. destruct (deriv cas_diff (Symbol s) a) as [da|] eqn:Ea; [|discriminate].
    destruct (deriv cas_diff (Symbol s) b) as [db|] eqn:Eb; [|discriminate]. cbn [bind] in Hd.
    destruct (tree_eqb db zero); [|discriminate]. injection Hd as <-. apply hve_pow. apply hve_times in H as [H|H]; [|eauto].
    apply hve_node in H as (c & [<-|[<-|[]]] & H); [auto| |discriminate]. apply hve_pow in H as [H|[H|H]]; [|auto|].
    + apply contains_node in H as (c & [<-|[<-|[]]] & H); [auto|]. elim (contains_int _ _ H).
    + apply hve_node in H as (c & [<-|[<-|[]]] & H); [auto|elim (hve_leaf negone s' eq_refl H)|discriminate].
Qed.

(** e.diff(s1).diff(s2)... *)
Fixpoint diff_by (e : tree) (ss : list string) : res tree :=
  match ss with
  | [] => Ok e
  | s :: r => do d <- expr_diff e (Symbol s) 1; diff_by d r
  end.
(** C64. If e can be differentiated by each of some symbols then it can be differentiated by any sequence of them. *)
Theorem C64_repeated_derivatives_exist e ss : arith e -> (forall s, In s ss -> exists d, expr_diff e (Symbol s) 1 = Ok d) ->
  exists d, diff_by e ss = Ok d.
Proof.
  intros He H. assert (H' : forall s, In s ss -> ~ has_variable_exponent e s).
  { intros s Hs. destruct (H s Hs) as (d & Hd). rewrite expr_diff_one in Hd. destruct (diff_succeeds s e He) as [(_ & _ & _ & Hn)|[E _]]; [exact Hn|congruence]. }
  clear H. revert e He H'. induction ss as [|s ss IH]; intros e He H; [exists e; reflexivity|]. cbn [diff_by]. rewrite expr_diff_one.
  destruct (diff_succeeds s e He) as [(d & Hd & Ar & _)|[_ E]]; [|elim (H s (or_introl eq_refl) E)]. rewrite Hd. cbn [bind]. apply (IH d Ar).
  intros s' Hs' Hv. apply (H s' (or_intror Hs')). apply diff_forward_deriv in Hd. exact (deriv_exponents s e s' He d Hd Hv).
Qed.
(** The order of two differentiations does not matter for the value. *)
Theorem C64_mixed_derivatives_agree env e x y ex ey exy eyx v vx vy w w' :
  expr_diff e (Symbol x) 1 = Ok ex -> expr_diff ex (Symbol y) 1 = Ok exy ->
  expr_diff e (Symbol y) 1 = Ok ey -> expr_diff ey (Symbol x) 1 = Ok eyx ->
  reval env e = Some v -> reval env ex = Some vx -> reval env ey = Some vy ->
  reval env exy = Some w -> reval env eyx = Some w' -> w = w'.
Proof.
  rewrite !expr_diff_one, !diff_forward_deriv. intros Hx Hxy Hy Hyx Hv Hvx Hvy Hw Hw'.
  assert (G : forall x y ex ey exy vx vy w, deriv cas_diff (Symbol x) e = Ok ex -> deriv cas_diff (Symbol y) ex = Ok exy ->
    deriv cas_diff (Symbol y) e = Ok ey -> reval env ex = Some vx -> reval env ey = Some vy -> reval env exy = Some w ->
    aval J (denv (dual RA) (denv RA env y) x) e = Some ((v, vy), (vx, w))).
  { clear - Hv. intros x y ex ey exy vx vy w Hx Hxy Hy Hvx Hvy Hw.
    pose proof (reval_arith env e v Hv) as He. pose proof (reval_arith env ex vx Hvx) as Hex.
    apply (dual_value (dual RA) (denv RA env y) x e He ex Hx).
    - apply (dual_value RA env y e He ey Hy); rewrite aval_real; assumption.
    - apply (dual_value RA env y ex Hex exy Hxy); rewrite aval_real; assumption. }
  pose proof (G x y ex ey exy vx vy w Hx Hxy Hy Hvx Hvy Hw) as J1.
  pose proof (G y x ey ex eyx vy vx w' Hy Hyx Hx Hvy Hvx Hw') as J2.
  assert (E : ((v, vx), (vy, w')) = swap ((v, vy), (vx, w))).
  { revert J1 J2. apply jets_swap. intros s. unfold swap, denv. cbn [fst snd dual a0 a1 RA].
    destruct (String.eqb s x), (String.eqb s y); reflexivity. }
  injection E as ->. reflexivity.
Qed.
(** sin(x*y)*x**2, at x = 2, y = 3. *)
Example C64_case :
  let e := m_mul (call1 sin (m_mul x y)) (m_pow x (int 2)) in let env := upd (fun _ => 3%R) "x" 2%R in
  exists ex ey exy eyx v vx vy w w', expr_diff e (Symbol "x") 1 = Ok ex /\ expr_diff ex (Symbol "y") 1 = Ok exy /\
    expr_diff e (Symbol "y") 1 = Ok ey /\ expr_diff ey (Symbol "x") 1 = Ok eyx /\
    reval env e = Some v /\ reval env ex = Some vx /\ reval env ey = Some vy /\ reval env exy = Some w /\ reval env eyx = Some w' /\
    exy <> eyx /\ diff_by e ["x"; "y"; "x"; "x"] <> Err KeyError.
Proof.
  cbv zeta. do 9 eexists. split; [vm_compute; reflexivity|]. split; [vm_compute; reflexivity|].
  split; [vm_compute; reflexivity|]. split; [vm_compute; reflexivity|].
  assert (P : forall b r, reval (upd (fun _ => 3%R) "x" 2%R) b = Some r -> reval (upd (fun _ => 3%R) "x" 2%R) (Node [Pow; x; b]) = Some (Rpower 2 r)).
  { intros b r Hb. apply reval_node. exists [2%R; r]. split; [constructor; [reflexivity|constructor; [exact Hb|constructor]]|].
    change (rpow 2 r = Some (Rpower 2 r)). unfold rpow. destruct (Rlt_dec 0 2) as [_|n]; [reflexivity|exfalso; apply n; lra]. }
  assert (M : forall l vs, Forall2 (fun a w => reval (upd (fun _ => 3%R) "x" 2%R) a = Some w) l vs -> reval (upd (fun _ => 3%R) "x" 2%R) (Node (Mul :: l)) = Some (fold_right Rmult 1%R vs)).
  { intros l vs H. apply reval_node. exists vs. split; [exact H|reflexivity]. }
  assert (A : forall l vs, Forall2 (fun a w => reval (upd (fun _ => 3%R) "x" 2%R) a = Some w) l vs -> reval (upd (fun _ => 3%R) "x" 2%R) (Node (Add :: l)) = Some (fold_right Rplus 0%R vs)).
  { intros l vs H. apply reval_node. exists vs. split; [exact H|reflexivity]. }
  assert (S1 : forall a v, reval (upd (fun _ => 3%R) "x" 2%R) a = Some v -> reval (upd (fun _ => 3%R) "x" 2%R) (Node [sin; a]) = Some (Rtrigo_def.sin v)).
  { intros a v H. apply reval_node. exists [v]. split; [constructor; [exact H|constructor]|reflexivity]. }
  assert (C1 : forall a v, reval (upd (fun _ => 3%R) "x" 2%R) a = Some v -> reval (upd (fun _ => 3%R) "x" 2%R) (Node [cos; a]) = Some (Rtrigo_def.cos v)).
  { intros a v H. apply reval_node. exists [v]. split; [constructor; [exact H|constructor]|reflexivity]. }
  repeat split; try (vm_compute; discriminate).
  all: repeat (first [apply M|apply A|apply P|apply S1|apply C1|reflexivity|constructor]).
Qed.
Print Assumptions C64_repeated_derivatives_exist.
Print Assumptions C64_mixed_derivatives_agree.
