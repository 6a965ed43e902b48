(** * Code generation for matrices: proofs for C48 *)
From Coq Require Import SpecFloat Permutation.
From Verif Require Import Py ModelTree SpecTree ProofBase ProofTopo ProofGraph ModelEval SpecEval ProofEval ModelDiff ModelSym
  ModelCas SpecPrint ProofBin ProofPrint ProofTree ModelMatrix ModelSympy SpecMatrix ProofMatrix ProofSympy ModelLLVM SpecLLVM SpecLambdify ProofLex ProofFloat ProofLLVM.
Local Open Scope string_scope.

Lemma insert_perm a l : Permutation (insert_item a l) (a :: l).
Proof.
  induction l as [|b l IH]; [reflexivity|]. cbn [insert_item]. destruct (item_le a b); [reflexivity|].
  rewrite IH. apply perm_swap.
Qed.
Lemma sort_perm l : Permutation (sort_items l) l.
Proof. induction l as [|a l IH]; [reflexivity|]. unfold sort_items in *. cbn [fold_right]. rewrite insert_perm, IH. reflexivity. Qed.

(** ** The stores *)
Fixpoint gen_stores (ncols : nat) (ids : list operand) (indices : list nat) (cnt : nat) (items : list (pos * nat)) : res (list instr) :=
  match items with
  | [] => Ok []
  | ((i, j), n) :: r =>
      do k <- getitem indices n;
      do o <- getitem ids k;
      do l <- gen_stores ncols ids indices (S cnt) r;
      Ok (IGep (tmp cnt) "_out" (Z.of_nat (i * ncols + j)) :: IStore o (tmp cnt) :: l)
  end.
Lemma store_fold ncols ids indices items : forall cnt ins,
  match gen_stores ncols ids indices cnt items with
  | Ok sts => foldM (llvm_store ncols (map opstr ids) indices) items (cnt, map istr ins) = Ok (cnt + length items, map istr (ins ++ sts)%list)
  | Err x => foldM (llvm_store ncols (map opstr ids) indices) items (cnt, map istr ins) = Err x
  end.
Proof.
  induction items as [|[[i j] n] items IH]; intros cnt ins; cbn [gen_stores foldM].
  - rewrite app_nil_r, Nat.add_0_r. reflexivity.
  - unfold llvm_store at 1 3. cbv beta iota zeta. destruct (getitem indices n) as [k|] eqn:Ek; [|reflexivity]. cbn [bind].
    unfold getitem. rewrite nth_error_map. destruct (nth_error ids k) as [o|]; cbn [option_map of_option bind]; [|reflexivity].
    assert (E : forall l1 l2, istr (IGep (tmp cnt) "_out" (Z.of_nat (i * ncols + j))) = l1 -> istr (IStore o (tmp cnt)) = l2 ->
      (map istr ins ++ [l1; l2])%list = map istr (ins ++ [IGep (tmp cnt) "_out" (Z.of_nat (i * ncols + j)); IStore o (tmp cnt)])%list).
    { intros l1 l2 <- <-. rewrite map_app. reflexivity. }
    rewrite (E _ _); [|rewrite temp_tmp; reflexivity|rewrite temp_tmp; reflexivity].
    specialize (IH (S cnt) (ins ++ [IGep (tmp cnt) "_out" (Z.of_nat (i * ncols + j)); IStore o (tmp cnt)])%list).
    destruct (gen_stores ncols ids indices (S cnt) items) as [sts|x]; cbn [bind]; rewrite IH; [|reflexivity].
    cbn [length]. rewrite <- app_assoc. cbn [app]. f_equal. f_equal. lia.
Qed.
(** The memory after the stores. *)
Definition stored_mem (ncols : nat) (p0 : Z) (val : nat -> spec_float) (items : list (pos * nat)) (m : memory) : memory :=
  fold_left (fun m it => set_mem m (p0 + Z.of_nat (fst (fst it) * ncols + snd (fst it))) (val (snd it))) items m.
Lemma exec_stores mc ncols ids indices p0 val items : forall cnt sts r m,
  gen_stores ncols ids indices cnt items = Ok sts ->
  lookup r "_out" = Some (VP p0) -> (forall k, cnt <= k -> lookup r (tmp k) = None) ->
  (forall p n k o, In (p, n) items -> getitem indices n = Ok k -> getitem ids k = Ok o -> operand_value r o = Some (val n)) ->
  exists r', exec_list mc sts r m = Some (r', stored_mem ncols p0 val items m).
Proof.
  induction items as [|[[i j] n] items IH]; intros cnt sts r m H Hout Hfree Hval; cbn [gen_stores] in H.
  - injection H as <-. exists r. reflexivity.
  - destruct (getitem indices n) as [k|] eqn:Ek; [|discriminate]. cbn [bind] in H.
    destruct (getitem ids k) as [o|] eqn:Eo; [|discriminate]. cbn [bind] in H.
    destruct (gen_stores ncols ids indices (S cnt) items) as [l|] eqn:El; [|discriminate]. injection H as <-.
    cbn [exec_list exec]. rewrite Hout. unfold define. rewrite (Hfree cnt (le_n _)).
    assert (Hv : operand_value ((tmp cnt, VP (p0 + Z.of_nat (i * ncols + j))) :: r) o = Some (val n)).
    { apply operand_cons; [|apply Hfree; lia]. eapply Hval; eauto. left. reflexivity. }
    rewrite Hv. unfold lookup at 1. cbn [dict_get]. rewrite String.eqb_refl.
    destruct (IH (S cnt) l ((tmp cnt, VP (p0 + Z.of_nat (i * ncols + j))) :: r) (set_mem m (p0 + Z.of_nat (i * ncols + j)) (val n)) El) as (r' & E).
    + apply lookup_cons_other; [exact Hout|apply Hfree; lia].
    + intros k' Hk'. unfold lookup. cbn [dict_get]. destruct (String.eqb_spec (tmp k') (tmp cnt)) as [E|]; [apply tmp_inj in E; lia|].
      apply Hfree. lia.
    + intros p n' k' o' Hin H1 H2. apply operand_cons; [|apply Hfree; lia]. eapply Hval; eauto. right. exact Hin.
    + exists r'. rewrite E. reflexivity.
Qed.
Lemma stored_mem_other ncols p0 val items : forall m k,
  (forall p n, In (p, n) items -> k <> (p0 + Z.of_nat (fst p * ncols + snd p))%Z) -> stored_mem ncols p0 val items m k = m k.
Proof.
  induction items as [|[p n] items IH]; intros m k H; [reflexivity|]. unfold stored_mem in *. cbn [fold_left fst snd]. rewrite IH.
  - unfold set_mem. destruct (Z.eqb_spec k (p0 + Z.of_nat (fst p * ncols + snd p))) as [E|]; [|reflexivity].
    destruct (H p n (or_introl eq_refl) E).
  - intros p' n' Hin. apply (H p' n'). right. exact Hin.
Qed.
Lemma flat_inj nc i j k l : j < nc -> l < nc -> i * nc + j = k * nc + l -> i = k /\ j = l.
Proof.
  intros Hj Hl E. assert (i = k); [|split; [assumption|subst; lia]].
  pose proof (Nat.div_add_l i nc j ltac:(lia)) as E1. pose proof (Nat.div_add_l k nc l ltac:(lia)) as E2.
  rewrite (Nat.div_small j nc) in E1 by lia. rewrite (Nat.div_small l nc) in E2 by lia. rewrite E in E1. lia.
Qed.
Lemma stored_mem_at ncols p0 val items : NoDup (map fst items) -> (forall p n, In (p, n) items -> snd p < ncols) ->
  forall m p n, In (p, n) items -> stored_mem ncols p0 val items m (p0 + Z.of_nat (fst p * ncols + snd p))%Z = val n.
Proof.
  intros Hnd Hr. induction items as [|[q k] items IH]; intros m p n Hin; [destruct Hin|].
  inversion Hnd as [|? ? Hq Hnd']; subst. cbn [fst] in Hq. unfold stored_mem. cbn [fold_left fst snd].
  fold (stored_mem ncols p0 val items (set_mem m (p0 + Z.of_nat (fst q * ncols + snd q)) (val k))).
  destruct Hin as [E|Hin].
  - injection E as -> ->. rewrite stored_mem_other.
    + unfold set_mem. rewrite Z.eqb_refl. reflexivity.
    + intros p' n' Hin' E. assert (E' : fst p * ncols + snd p = fst p' * ncols + snd p') by lia.
      destruct (flat_inj ncols _ _ _ _ (Hr p n (or_introl eq_refl)) (Hr p' n' (or_intror Hin')) E') as [E1 E2].
      apply Hq. apply in_map_iff. exists (p', n'). split; [|exact Hin']. cbn [fst]. destruct p, p'; cbn [fst snd] in *; congruence.
  - apply IH; [exact Hnd'| |exact Hin]. intros p' n' Hin'. apply (Hr p' n'). right. exact Hin'.
Qed.

Lemma stores_shape ncols ids indices bound : forall items cnt sts, gen_stores ncols ids indices cnt items = Ok sts ->
  Forall op_ok ids -> (forall p n, In (p, n) items -> (Z.of_nat (fst p * ncols + snd p) < bound)%Z) -> (bound <= 2 ^ 31)%Z ->
  Forall instr_ok sts /\ flat_map defines sts = map tmp (seq cnt (length items)) /\
  forall before, (forall x, In (OLocal x) ids -> In x before) -> In "_out" before ->
    forall front i back, sts = (front ++ i :: back)%list -> forall x, In x (uses i) -> In x (before ++ flat_map defines front)%list.
Proof.
  induction items as [|[[i j] n] items IH]; intros cnt sts H Hids Hb Hbound; cbn [gen_stores] in H.
  - injection H as <-. split; [constructor|]. split; [reflexivity|]. intros before _ _ front i back E. destruct front; discriminate.
  - destruct (getitem indices n) as [k|] eqn:Ek; [|discriminate]. cbn [bind] in H.
    destruct (getitem ids k) as [o|] eqn:Eo; [|discriminate]. cbn [bind] in H.
    destruct (gen_stores ncols ids indices (S cnt) items) as [l|] eqn:El; [|discriminate]. injection H as <-.
    destruct (IH (S cnt) l El Hids) as (H1 & H2 & H3); [intros p n' Hin; apply (Hb p n'); right; exact Hin|exact Hbound|].
    assert (Ho : In o ids) by (unfold getitem in Eo; destruct (nth_error ids k) eqn:E; [|discriminate]; injection Eo as <-; eapply nth_error_In; eauto).
    split; [|split].
    + constructor; [|constructor; [|exact H1]].
      * cbn [instr_ok]. split; [apply tmp_legal|]. split; [split; [discriminate|reflexivity]|].
        specialize (Hb (i, j) n (or_introl eq_refl)). cbn [fst snd] in Hb. lia.
      * cbn [instr_ok]. split; [rewrite Forall_forall in Hids; apply Hids, Ho|apply tmp_legal].
    + cbn [flat_map defines app length seq map]. rewrite H2. reflexivity.
    + intros before Hbe Hout front u back E x Hx. destruct front as [|f1 front]; cbn [app] in E; injection E as E1 E.
      * subst u. destruct Hx as [<-|[]]. apply in_or_app. left. exact Hout.
      * subst f1. cbn [flat_map defines app]. destruct front as [|f2 front]; cbn [app] in E; injection E as E1 E.
        -- subst u. cbn [flat_map app]. cbn [uses] in Hx. apply in_app_or in Hx as [Hx|[<-|[]]].
           ++ destruct o as [y|b]; [|destruct Hx]. destruct Hx as [<-|[]]. apply in_or_app. left. apply Hbe, Ho.
           ++ apply in_or_app. right. left. reflexivity.
        -- subst f2. cbn [flat_map defines app].
           assert (G : In x ((before ++ [tmp cnt]) ++ flat_map defines front)%list).
           { apply (H3 (before ++ [tmp cnt])%list) with (i := u) (back := back); [| |exact E|exact Hx].
             - intros y Hy. apply in_or_app. left. apply Hbe, Hy.
             - apply in_or_app. left. exact Hout. }
           rewrite <- app_assoc in G. exact G.
Qed.

(** ** _to_llvm_f64_matrix *)
Definition matrix_func (names : list string) (ins : list instr) : func :=
  mkFunc true "jit_func1" ((PDoublePtr, "_out") :: map (pair PDouble) names) (ins ++ [IRetVoid])%list.
Lemma list_expand elts e' : bin_expand (tree_call List_ elts) = Ok e' <->
  exists elts', e' = Node (List_ :: elts') /\ mapM (meaning bin_leaf bin_op) elts = Ok elts'.
Proof.
  rewrite bin_expand_meaning. unfold tree_call. cbn [meaning].
  destruct (mapM (meaning bin_leaf bin_op) elts) as [es|] eqn:E; cbn [bind].
  - unfold bin_op. change (tree_eqb List_ Add) with false. change (tree_eqb List_ Mul) with false. cbv iota. split.
    + intros H. injection H as <-. exists es. split; reflexivity.
    + intros (es' & -> & H). injection H as ->. reflexivity.
  - split; [discriminate|]. intros (es' & _ & H). discriminate.
Qed.
Lemma last_node e h args : e = Node (h :: args) -> exists p, filter compound (tsort e []) = (p ++ [e])%list.
Proof.
  intros ->. destruct (forder_last (Node (h :: args))) as (l & El). unfold forder in El.
  destruct (filter compound (tsort (Node (h :: args)) [])) as [|s p _] using rev_ind.
  - exfalso. rewrite app_nil_r in El. assert (Hin : In (Node (h :: args)) (filter childless (tsort (Node (h :: args)) []))) by (rewrite El; apply in_or_app; right; left; reflexivity).
    apply filter_In in Hin as [_ Hin]. discriminate.
  - rewrite app_assoc in El. apply app_inj_tail in El as [_ ->]. eauto.
Qed.
Lemma removelast_app1 {X} (l : list X) x : removelast (l ++ [x])%list = l.
Proof. rewrite removelast_app by discriminate. cbn [removelast]. apply app_nil_r. Qed.

Lemma mapM_bin l vs : mapM (meaning bin_leaf bin_op) l = Ok vs -> mapM bin_expand l = Ok vs.
Proof.
  revert vs. induction l as [|a l IH]; intros vs H; cbn [mapM] in *; [exact H|].
  destruct (meaning bin_leaf bin_op a) as [v|] eqn:E; [|discriminate]. apply bin_expand_meaning in E. rewrite E. cbn [bind] in *.
  destruct (mapM (meaning bin_leaf bin_op) l) as [ws|]; [|discriminate]. rewrite (IH ws eq_refl). exact H.
Qed.
Lemma stores_length ncols ids indices items : forall cnt sts, gen_stores ncols ids indices cnt items = Ok sts -> length sts = 2 * length items.
Proof.
  induction items as [|[[i j] n] items IH]; intros cnt sts H; cbn [gen_stores] in H; [injection H as <-; reflexivity|].
  destruct (getitem indices n) as [k|]; [|discriminate]. cbn [bind] in H.
  destruct (getitem ids k) as [o|]; [|discriminate]. cbn [bind] in H.
  destruct (gen_stores ncols ids indices (S cnt) items) as [l|] eqn:El; [|discriminate]. injection H as <-.
  cbn [length]. rewrite (IH _ _ El). lia.
Qed.
(** The two instructions that store an entry. *)
Definition store_of (ncols : nat) (item : pos * nat) (code : list instr) : Prop :=
  exists p o, code = [IGep p "_out" (Z.of_nat (fst (fst item) * ncols + snd (fst item))); IStore o p].
Lemma stores_each ncols ids indices items : forall cnt sts, gen_stores ncols ids indices cnt items = Ok sts ->
  exists codes, sts = concat codes /\ Forall2 (store_of ncols) items codes.
Proof.
  induction items as [|[[i j] n] items IH]; intros cnt sts H; cbn [gen_stores] in H; [injection H as <-; exists []; split; [reflexivity|constructor]|].
  destruct (getitem indices n) as [k|]; [|discriminate]. cbn [bind] in H.
  destruct (getitem ids k) as [o|]; [|discriminate]. cbn [bind] in H.
  destruct (gen_stores ncols ids indices (S cnt) items) as [l|] eqn:El; [|discriminate]. injection H as <-.
  destruct (IH _ _ El) as (codes & -> & Hc). exists ([IGep (tmp cnt) "_out" (Z.of_nat (i * ncols + j)); IStore o (tmp cnt)] :: codes).
  split; [reflexivity|]. constructor; [exists (tmp cnt), o; reflexivity|exact Hc].
Qed.
(** What the generator does, up to the stores. *)
Lemma matrix_struct_full symargs names m h text h' : wf h m ->
  mapM tree_str symargs = Ok names -> NoDup names -> Forall legal names -> (forall k, ~ In (tmp k) names) -> ~ In "_out" names ->
  (Z.of_nat (m_nrows m) * Z.of_nat (m_ncols m) <= 2 ^ 31)%Z ->
  to_llvm_f64_matrix symargs m h = (Ok text, h') ->
  h' = h /\ exists ins, let f := matrix_func names ins in
    text = llvm_header ++ join newline (func_lines f) /\ func_ok f /\ ssa f /\
    (exists elts', mapM bin_expand (elems h m) = Ok elts' /\
      S (length ins) = length (filter compound (tsort (Node (List_ :: elts')) [])) + 2 * length (emap h m)) /\
    (exists front sts, ins = (front ++ concat sts)%list /\ Forall computes front /\ Forall2 (store_of (m_ncols m)) (sort_items (emap h m)) sts) /\
    forall mc vals mem p0, length vals = length symargs ->
      exists vs, Forall2 (fun t v => machine_value mc symargs vals t = Some v) (elems h m) vs /\
        run_func mc decls f (VP p0 :: map VF vals) mem =
          Some (None, stored_mem (m_ncols m) p0 (fun n => nth n vs S754_nan) (sort_items (emap h m)) mem).
Proof.
  intros (_ & _ & Hgraph & Hgood) Hn Hnd Hleg Hfresh Hout Hsize H. unfold to_llvm_f64_matrix in H. rewrite Hgraph in H.
  unfold hbind, hlift, hret, read_dict in H.
  destruct (bin_expand (tree_call List_ (elems h m))) as [e'|] eqn:Eb; [|discriminate].
  pose proof (bin_expand_result _ _ Eb) as (Hbin & _). apply list_expand in Eb as (elts' & -> & Em).
  set (e' := Node (List_ :: elts')) in *.
  destruct (forward_graph_spec e') as (hs & Eg & _). rewrite Eg in H. cbn [g_atoms g_operations] in H.
  destruct (argnames_spec symargs names Hn) as (d & Ed & Hd). rewrite Ed in H.
  set (A := filter childless (tsort e' [])) in *. set (N := filter compound (tsort e' [])) in *.
  destruct (mapM (atom_identifier symargs d) A) as [identifiers|] eqn:Ei; [|discriminate].
  rewrite (params_ok symargs names d Hn Hd) in H.
  destruct (atoms_op symargs names d A identifiers Hn Hd) as (ids & -> & Hao); [|exact Ei|].
  { intros a Ha. apply filter_In in Ha as [_ Ha]. exact Ha. }
  destruct (last_node e' List_ elts' eq_refl) as (p & EN). fold N in EN.
  rewrite EN, map_app in H. cbn [map] in H. rewrite removelast_app1, last_item_app in H.
  set (pnames := "_out" :: names).
  assert (Hnames : forall a nm, In a symargs -> tree_str a = Ok nm -> In nm pnames /\ legal nm).
  { intros a nm Ha Hs. assert (Hin : In nm names).
    { clear - Hn Ha Hs. apply mapM_Ok_Forall2 in Hn. induction Hn as [|s n l l' H1 H2 IH]; [destruct Ha|].
      destruct Ha as [->|Ha]; [left; congruence|right; apply IH, Ha]. }
    split; [right; exact Hin|]. rewrite Forall_forall in Hleg. apply Hleg, Hin. }
  assert (Hfresh' : forall k, ~ In (tmp k) pnames) by (intros k [E|Hin]; [discriminate E|exact (Hfresh k Hin)]).
  pose proof (inv_start symargs e' pnames Hnames ids Hao) as Hinv.
  destruct (foldM llvm_op (map (op_of (forder e')) p) (map opstr ids, [])) as [s'|] eqn:Ef; [|discriminate].
  destruct (inv_run symargs e' Hbin pnames Hfresh' [e'] p [] ids [] s') as (ids' & ins & -> & Hinv'); [exact EN|exact Hinv|exact Ef|].
  cbn [app] in Hinv'. fold (emap h m) in H.
  change (op_of (forder e') e') with (List_, map (index_of (forder e')) elts') in H. cbv beta iota in H. fold (emap h m) in H.
  set (indices := map (index_of (forder e')) elts') in *.
  pose proof (store_fold (m_ncols m) ids' indices (sort_items (emap h m)) (length (map istr ins)) ins) as Hst.
  destruct (gen_stores (m_ncols m) ids' indices (length (map istr ins)) (sort_items (emap h m))) as [sts|] eqn:Es; rewrite Hst in H; [|discriminate].
  injection H as <- <-. split; [reflexivity|]. rewrite map_length in Es.
  exists (ins ++ sts)%list. cbv zeta. destruct Hinv' as [H1 H2 H3 H4 H5 H6 H7 H8 H9]. fold A N in H1, H8.
  assert (Hb : forall q n, In (q, n) (sort_items (emap h m)) -> (Z.of_nat (fst q * m_ncols m + snd q) < Z.of_nat (m_nrows m) * Z.of_nat (m_ncols m))%Z).
  { intros q n Hin. apply (Permutation_in _ (sort_perm _)) in Hin. destruct Hgood as (_ & _ & Hr).
    destruct (Hr q) as [R1 R2]; [apply in_map_iff; exists (q, n); auto|]. nia. }
  destruct (stores_shape _ _ _ _ _ _ _ Es H3 Hb Hsize) as (S1 & S2 & S3).
  assert (Emap : map snd (f_params (matrix_func names (ins ++ sts))) = pnames).
  { cbn [matrix_func f_params map snd]. rewrite map_map. cbn [snd]. rewrite map_id. reflexivity. }
  split; [|split; [|split; [|split; [|split]]]].
  - f_equal. unfold func_lines, matrix_func. cbn [f_void f_name f_params f_body]. rewrite !map_app. cbn [map].
    rewrite <- !app_assoc. reflexivity.
  - split; [apply jit_legal|]. split; cbn [matrix_func f_params f_body].
    + constructor; [cbn [snd]; split; [discriminate|reflexivity]|]. apply Forall_forall. intros q Hq.
      apply in_map_iff in Hq as (nm & <- & Hnm). rewrite Forall_forall in Hleg. apply Hleg, Hnm.
    + apply Forall_app. split; [|repeat constructor]. apply Forall_app. split; [exact H4|exact S1].
  - split; rewrite Emap; cbn [matrix_func f_body].
    + rewrite !flat_map_app. cbn [flat_map defines]. rewrite app_nil_r, H5, S2, <- map_app, <- seq_app.
      apply NoDup_app; [constructor; assumption|apply FinFun.Injective_map_NoDup; [intros a b; apply tmp_inj|apply seq_NoDup]|].
      intros x Hx Hx'. apply in_map_iff in Hx' as (k & <- & _). exact (Hfresh' k Hx).
    + intros front i back E x Hx. destruct back as [|b back _] using rev_ind.
      * apply app_inj_tail in E as [<- <-]. destruct Hx.
      * rewrite app_comm_cons, app_assoc in E. apply app_inj_tail in E as [E _].
        assert (G : (exists back1, ins = (front ++ i :: back1)%list) \/ exists f2, front = (ins ++ f2)%list /\ sts = (f2 ++ i :: back)%list).
        { clear - E. revert front E. induction ins as [|a ins IH]; intros front E.
          - right. exists front. split; [reflexivity|exact E].
          - destruct front as [|f front]; cbn [app] in E; injection E as E1 E.
            + subst a. left. exists ins. reflexivity.
            + subst f. destruct (IH front E) as [(b1 & ->)|(f2 & -> & E2)]; [left; eexists; reflexivity|right; exists f2; split; [reflexivity|exact E2]]. }
        destruct G as [(b1 & E1)|(f2 & -> & E2)]; [exact (H7 _ _ _ E1 x Hx)|].
        rewrite flat_map_app, app_assoc. apply (S3 (pnames ++ flat_map defines ins)%list) with (i := i) (back := back); [exact H6| |exact E2|exact Hx].
        left. reflexivity.
  - exists elts'. split; [apply mapM_bin, Em|]. fold e' N. rewrite EN, !app_length. cbn [length].
    rewrite (stores_length _ _ _ _ _ _ Es), (Permutation_length (sort_perm (emap h m))), H2. lia.
  - destruct (stores_each _ _ _ _ _ _ Es) as (codes & -> & Hc). exists ins, codes. auto.
  - intros mc vals mem p0 Hl. unfold run_func. cbn [matrix_func f_params f_void f_body bind_params has_ptype]. unfold define. cbn [lookup dict_get].
    destruct (bind_params_env symargs names vals [("_out", VP p0)] Hnd Hn Hl) as (r0 & -> & G1 & G2 & G3).
    { intros x Hx. unfold lookup. cbn [dict_get]. destruct (String.eqb_spec x "_out") as [->|]; [contradiction|reflexivity]. }
    assert (Henv : good_env symargs pnames vals r0).
    { split; [exact G1|]. intros x Hx. destruct (G2 x Hx) as [|E]; [right; assumption|]. unfold lookup in E. cbn [dict_get] in E.
      destruct (String.eqb_spec x "_out") as [->|]; [left; reflexivity|destruct E; reflexivity]. }
    destruct (H8 mc vals r0 mem Hl Henv) as (ws & r & F1 & F2 & F3 & F4 & F5).
    (* the values of the elements *)
    assert (Hbefore : forall c, In c elts' -> In c (A ++ p)).
    { intros c Hc. apply (forder_args_before e' p e' [] c); [exact EN|exact Hc]. }
    assert (Hfo : forder e' = ((A ++ p) ++ [e'])%list) by (unfold forder; fold A N; rewrite EN, app_assoc; reflexivity).
    assert (Hvs : exists vs, Forall2 (fun t v => machine_value mc symargs vals t = Some v) elts' vs /\
              forall n k o v, nth_error vs n = Some v -> getitem indices n = Ok k -> getitem ids' k = Ok o -> operand_value r o = Some v).
    { unfold indices. rewrite Hfo. clear - Hbefore F1 F3. clearbody A. clearbody e'. induction elts' as [|c cs IH].
      - exists []. split; [constructor|]. intros [|n] k o v E; discriminate.
      - destruct IH as (vs & K1 & K2); [intros c' Hc'; apply Hbefore; right; exact Hc'|].
        assert (Hin : In c (A ++ p)) by (apply Hbefore; left; reflexivity).
        assert (G : exists v, machine_value mc symargs vals c = Some v /\ forall o, getitem ids' (index_of (A ++ p) c) = Ok o -> operand_value r o = Some v).
        { apply index_of_nth in Hin. set (k := index_of (A ++ p) c) in *. clearbody k. clear - F1 F3 Hin.
          revert k ws ids' F1 F3 Hin. induction (A ++ p)%list as [|t l IH]; intros [|k] ws ids' F1 F3 Hin; try discriminate;
            inversion F1; subst; inversion F3; subst.
          - injection Hin as ->. eexists. split; [eassumption|]. intros o Ho. injection Ho as <-. assumption.
          - cbn [nth_error] in Hin. match goal with H1 : Forall2 _ l _, H2 : Forall2 _ _ _ |- _ => exact (IH k _ _ H1 H2 Hin) end. }
        destruct G as (v & Gv & Go). exists (v :: vs). split; [constructor; assumption|].
        intros [|n] k o w E1 E2 E3; cbn [map] in E2.
        + injection E1 as <-. unfold getitem in E2. cbn [nth_error of_option] in E2. injection E2 as <-.
          rewrite index_of_app_l in E3 by exact Hin. apply Go, E3.
        + eapply K2; [exact E1| |exact E3]. exact E2. }
    destruct Hvs as (vs & K1 & K2).
    assert (K1' : Forall2 (fun t v => machine_value mc symargs vals t = Some v) (elems h m) vs).
    { apply mapM_Ok_Forall2 in Em. clear - Em K1. revert vs K1. induction Em as [|a b l l' Hab _ IH]; intros vs K1; inversion K1; subst; constructor; [|auto].
      rewrite <- (bin_machine mc symargs vals a b Hab). assumption. }
    exists vs. split; [exact K1'|].
    destruct (exec_stores mc (m_ncols m) ids' indices p0 (fun n => nth n vs S754_nan) (sort_items (emap h m)) (length ins) sts r mem Es) as (r' & Ex).
    + apply F5, G3. reflexivity.
    + intros k Hk. destruct (lookup r (tmp k)) eqn:E; [exfalso|reflexivity].
      assert (Hin : In (tmp k) (pnames ++ flat_map defines ins)) by (apply F4; congruence).
      apply in_app_or in Hin as [Hin|Hin]; [exact (Hfresh' _ Hin)|]. rewrite H5 in Hin. apply in_map_iff in Hin as (k' & Ek & Hk').
      apply tmp_inj in Ek. apply in_seq in Hk'. lia.
    + intros q n k o Hin E1 E2. apply (K2 n k o); [|exact E1|exact E2]. apply nth_error_nth'.
      rewrite <- (Forall2_len _ _ _ K1'). apply (Permutation_in _ (sort_perm _)) in Hin.
      destruct Hgood as (_ & Hs & _). apply (in_map snd) in Hin. rewrite Hs in Hin. apply in_seq in Hin. cbn [snd] in Hin. lia.
    + assert (E : exec_list mc (ins ++ sts)%list r0 mem = Some (r', stored_mem (m_ncols m) p0 (fun n => nth n vs S754_nan) (sort_items (emap h m)) mem)).
      { rewrite exec_list_app, F2. exact Ex. }
      rewrite (exec_body_app _ _ _ _ _ _ _ _ E). reflexivity.
Qed.
Lemma matrix_struct symargs names m h text h' : wf h m ->
  mapM tree_str symargs = Ok names -> NoDup names -> Forall legal names -> (forall k, ~ In (tmp k) names) -> ~ In "_out" names ->
  (Z.of_nat (m_nrows m) * Z.of_nat (m_ncols m) <= 2 ^ 31)%Z ->
  to_llvm_f64_matrix symargs m h = (Ok text, h') ->
  h' = h /\ exists ins, let f := matrix_func names ins in
    text = llvm_header ++ join newline (func_lines f) /\ func_ok f /\ ssa f /\
    forall mc vals mem p0, length vals = length symargs ->
      exists vs, Forall2 (fun t v => machine_value mc symargs vals t = Some v) (elems h m) vs /\
        run_func mc decls f (VP p0 :: map VF vals) mem =
          Some (None, stored_mem (m_ncols m) p0 (fun n => nth n vs S754_nan) (sort_items (emap h m)) mem).
Proof.
  intros Hw Hn Hnd Hleg Hfresh Hout Hsize H.
  destruct (matrix_struct_full symargs names m h text h' Hw Hn Hnd Hleg Hfresh Hout Hsize H) as (E & ins & H1 & H2 & H3 & _ & _ & H4).
  split; [exact E|]. exists ins. auto.
Qed.

Lemma stores_total ncols (identifiers : list string) indices : forall items cnt ins,
  (forall p n, In (p, n) items -> n < length indices) -> (forall k, In k indices -> k < length identifiers) ->
  exists r, foldM (llvm_store ncols identifiers indices) items (cnt, ins) = Ok r.
Proof.
  induction items as [|[[i j] n] items IH]; intros cnt ins Hn Hk; cbn [foldM]; [eauto|].
  unfold llvm_store at 1. cbv beta iota zeta. unfold getitem at 1.
  destruct (nth_error indices n) as [k|] eqn:Ek; [|apply nth_error_None in Ek; specialize (Hn (i, j) n (or_introl eq_refl)); lia].
  cbn [of_option bind]. unfold getitem at 1.
  destruct (nth_error identifiers k) as [o|] eqn:Eo; [|apply nth_error_None in Eo; apply nth_error_In in Ek; specialize (Hk k Ek); lia].
  cbn [of_option bind]. apply IH; [|exact Hk]. intros p n' Hin. apply (Hn p n'). right. exact Hin.
Qed.
Lemma matrix_total symargs names m h mc vals : wf h m -> mapM tree_str symargs = Ok names -> length vals = length symargs ->
  (forall t, In t (elems h m) -> machine_value mc symargs vals t <> None) ->
  exists text, to_llvm_f64_matrix symargs m h = (Ok text, h).
Proof.
  intros (_ & _ & Hgraph & Hgood) Hn Hl Hv. unfold to_llvm_f64_matrix. rewrite Hgraph. unfold hbind, hlift, hret, read_dict.
  assert (G : exists elts', mapM (meaning bin_leaf bin_op) (elems h m) = Ok elts' /\ length elts' = length (elems h m) /\
                forall t, In t elts' -> machine_value mc symargs vals t <> None).
  { clear - Hv. induction (elems h m) as [|t l IH]; [exists []; repeat split; intros ? []|].
    destruct IH as (es & E & Hlen & Hes); [intros u Hu; apply Hv; right; exact Hu|].
    destruct (machine_value mc symargs vals t) as [v|] eqn:Et; [|destruct (Hv t (or_introl eq_refl) Et)].
    destruct (machine_bin mc symargs vals t v Et) as (t' & Ht'). exists (t' :: es). cbn [mapM]. rewrite Ht', E. cbn [bind length].
    repeat split; [lia|]. intros u [<-|Hu]; [|apply Hes, Hu]. rewrite (bin_machine mc symargs vals t t' Ht'). congruence. }
  destruct G as (elts' & Em & Hlen & Hes).
  assert (Eb : bin_expand (tree_call List_ (elems h m)) = Ok (Node (List_ :: elts'))) by (apply list_expand; eauto).
  rewrite Eb. pose proof (bin_expand_result _ _ Eb) as (Hbin & _). set (e' := Node (List_ :: elts')) in *.
  destruct (forward_graph_spec e') as (hs & Eg & _). rewrite Eg. cbn [g_atoms g_operations].
  destruct (argnames_spec symargs names Hn) as (d & Ed & Hd). rewrite Ed.
  destruct (last_node e' List_ elts' eq_refl) as (p & EN).
  assert (Hfo : forder e' = ((filter childless (tsort e' []) ++ p) ++ [e'])%list) by (unfold forder; rewrite EN, app_assoc; reflexivity).
  destruct (gen_total symargs d mc vals e' Hl Hbin Hd p [e'] EN) as (identifiers & Ei & ids & ins & Ef & Hli).
  { intros s Hs. assert (Hr : reach false [] e' s) by (apply forder_In; rewrite Hfo; apply in_or_app; left; exact Hs).
    apply reach_node_inv in Hr as [->|(a & Ha & Hr)].
    - exfalso. pose proof (forder_NoDup e') as Hnd. rewrite Hfo in Hnd. apply NoDup_remove_2 in Hnd. apply Hnd. rewrite app_nil_r. exact Hs.
    - destruct (machine_value mc symargs vals a) as [v|] eqn:Ea; [|destruct (Hes a Ha Ea)]. exact (machine_sub mc symargs vals a v Ea s Hr). }
  rewrite Ei, (params_ok symargs names d Hn Hd). rewrite EN, map_app. cbn [map]. rewrite removelast_app1, last_item_app, Ef.
  change (op_of (forder e') e') with (List_, map (index_of (forder e')) elts'). cbv beta iota.
  destruct (stores_total (m_ncols m) ids (map (index_of (forder e')) elts') (sort_items (nth (m_entrymap m) (h_dicts h) [])) (length ins) ins) as ([c l] & Es).
  - intros q n Hin. apply (Permutation_in _ (sort_perm _)) in Hin. fold (emap h m) in Hin. rewrite map_length, Hlen.
    destruct Hgood as (_ & Hs & _). apply (in_map snd) in Hin. rewrite Hs in Hin. apply in_seq in Hin. cbn [snd] in Hin. lia.
  - intros k Hk. apply in_map_iff in Hk as (c & <- & Hc).
    assert (Hin : In c (filter childless (tsort e' []) ++ p)) by (apply (forder_args_before e' p e' [] c); [exact EN|exact Hc]).
    rewrite Hfo, index_of_app_l by exact Hin. apply index_of_lt in Hin. apply mapM_length in Ei. rewrite Hli, Ei, <- app_length. exact Hin.
  - rewrite Es. eauto.
Qed.
Lemma matrix_accepts symargs m h text h' : wf h m -> to_llvm_f64_matrix symargs m h = (Ok text, h') ->
  exists names, mapM tree_str symargs = Ok names /\
  forall mc vals, length vals = length symargs -> forall t, In t (elems h m) -> machine_value mc symargs vals t <> None.
Proof.
  intros (_ & _ & Hgraph & Hgood) H. unfold to_llvm_f64_matrix in H. rewrite Hgraph in H.
  unfold hbind, hlift, hret, read_dict in H.
  destruct (bin_expand (tree_call List_ (elems h m))) as [e'|] eqn:Eb; [|discriminate].
  pose proof (bin_expand_result _ _ Eb) as (Hbin & _). apply list_expand in Eb as (elts' & -> & Em).
  set (e' := Node (List_ :: elts')) in *.
  destruct (forward_graph_spec e') as (hs & Eg & _). rewrite Eg in H. cbn [g_atoms g_operations] in H.
  destruct (llvm_argnames symargs) as [d|] eqn:Ed; [|discriminate]. destruct (argnames_ok symargs d Ed) as (names & Hn).
  exists names. split; [exact Hn|]. destruct (argnames_spec symargs names Hn) as (d' & Ed' & Hd). replace d' with d in * by congruence.
  destruct (mapM (atom_identifier symargs d) _) as [identifiers|] eqn:Ei; [|discriminate].
  rewrite (params_ok symargs names d Hn Hd) in H.
  destruct (last_node e' List_ elts' eq_refl) as (p & EN).
  rewrite EN, map_app in H. cbn [map] in H. rewrite removelast_app1 in H.
  destruct (foldM llvm_op (map (op_of (forder e')) p) (identifiers, [])) as [s'|] eqn:Ef; [|discriminate].
  intros mc vals Hl t Ht.
  apply mapM_Ok_Forall2 in Em. assert (G : exists t', In t' elts' /\ meaning bin_leaf bin_op t = Ok t').
  { clear - Em Ht. induction Em as [|a b l l' Hab _ IH]; [destruct Ht|]. destruct Ht as [->|Ht]; [exists b; split; [left; reflexivity|exact Hab]|].
    destruct (IH Ht) as (t' & H1 & H2). exists t'. split; [right; exact H1|exact H2]. }
  destruct G as (t' & Hin & Hm). rewrite <- (bin_machine mc symargs vals t t' Hm).
  apply (compiled_value symargs names d e' identifiers p [e'] s' mc vals); auto.
  intros u Hu. assert (Hr : reach false [] e' u) by (eapply reach_arg; eauto).
  assert (Hfo : forder e' = ((filter childless (tsort e' []) ++ p) ++ [e'])%list) by (unfold forder; rewrite EN, app_assoc; reflexivity).
  apply forder_In in Hr. rewrite Hfo in Hr. apply in_app_or in Hr as [Hr|[<-|[]]]; [exact Hr|exfalso].
  (* e' is not below one of its arguments *)
  assert (Hsz : forall a b, reach false [] a b -> tsize b <= tsize a).
  { intros a b Hab. induction Hab as [|a c b _ Hc _ IH]; [lia|]. assert (In c (children a)).
    { unfold kids in Hc. destruct (children a); [destruct Hc|right; exact Hc]. } pose proof (tsize_child c a H0). lia. }
  specialize (Hsz _ _ Hu). assert (tsize t' < tsize e') by (apply tsize_child; right; exact Hin). lia.
Qed.
