(** * The size of the generated code: C73. *)
From Coq Require Import SpecFloat Permutation.
From Verif Require Import Py ModelTree SpecTree ProofBase ProofTopo ProofTree ProofGraph ModelEval SpecEval ModelDiff ModelSym ModelCas SpecCas SpecPrint
  ProofCas ProofCasDiff ProofDiff ModelMatrix SpecMatrix ProofMatrix ProofSympy PropsMatrix ModelLLVM SpecLLVM SpecLambdify ProofLex ProofLLVM ProofLLVMMatrix PropsLLVM
  ProofBin SpecCost ProofSwell PropsCost SpecCodeSize ProofCodeSize Samples.
Local Open Scope string_scope.

(** C73. One instruction for every distinct operation of the expression (after sums and products have been
    split into binary ones), and the return. *)
Theorem C73_one_instruction_per_operation symargs e text : good_names symargs -> to_llvm_f64 symargs e = Ok text ->
  exists items f e', parse text = Some items /\ functions items = [f] /\ bin_expand e = Ok e' /\
    forall ops, operations_of [e'] ops -> length (f_body f) = length ops + 1.
Proof.
  intros (names & Hn & Hnd & Hleg & Hfresh) H.
  destruct (to_llvm_struct_full symargs names e text H Hn Hnd Hleg Hfresh) as (ins & o & Et & Hok & _ & Hlen & _). cbv zeta in *.
  rewrite Et, (parse_module _ Hok). unfold to_llvm_f64 in H. destruct (bin_expand e) as [e'|] eqn:Eb; [|discriminate].
  eexists _, _, e'. repeat (split; [reflexivity|]). intros ops Hops. cbn [scalar_func f_body]. rewrite app_length. cbn [length].
  rewrite (Hlen e' eq_refl), (operations_length _ _ _ Hops (tsort_operations e')). reflexivity.
Qed.
Lemma accepted_args symargs e text h args : to_llvm_f64 symargs e = Ok text -> reach false [] e (Node (h :: args)) -> args <> [].
Proof.
  intros H Hr. apply to_llvm_accepts in H as (names & Hn & H).
  pose (mc := mkMachine (fun a _ => a) (fun a _ => a) (fun a _ => a) (fun a => a) (fun a => a)).
  destruct (H mc (repeat S754_nan (length symargs)) (repeat_length _ _)) as (v & Hv).
  eapply machine_args, machine_sub; [exact Hv|exact Hr].
Qed.
(** So it is linear in the number of argument links of the graph, however large the tree is. *)
Theorem C73_linear symargs e text le : good_names symargs -> to_llvm_f64 symargs e = Ok text ->
  topological_sort e false [] = Ok le ->
  exists items f, parse text = Some items /\ functions items = [f] /\ length (f_body f) <= links le + 1.
Proof.
  intros Hg H Hle. destruct (C73_one_instruction_per_operation symargs e text Hg H) as (items & f & e' & H1 & H2 & Hb & H3).
  exists items, f. split; [exact H1|]. split; [exact H2|].
  rewrite (H3 _ (tsort_operations e')). apply Nat.add_le_mono_r.
  destruct (topological_sort_full e false) as (l1 & E1 & _ & Hr & _). rewrite Hle in E1. injection E1 as E1. rewrite <- E1 in Hr.
  apply (expanded_size [e] [e']); [repeat constructor; apply bin_expand_meaning, Hb|apply tsort_operations| |].
  - intros s (e2 & [<-|[]] & Hs). apply Hr, Hs.
  - intros h args Hin. apply Hr in Hin. eapply accepted_args; eauto.
Qed.
Lemma links_case : topological_sort e_code false [] = Ok [x; call1 sin x; int 2; m_pow (call1 sin x) (int 2); int 3; y; tree_call Mul [int 3; x; y]; e_code].
Proof. vm_compute. reflexivity. Qed.
Example C73_case : good_names [y; z; x] /\ (exists text, to_llvm_f64 [y; z; x] e_code = Ok text) /\
  links [x; call1 sin x; int 2; m_pow (call1 sin x) (int 2); int 3; y; tree_call Mul [int 3; x; y]; e_code] = 9 /\
  exists text items f, to_llvm_f64 [y; z; x] e_code = Ok text /\ parse text = Some items /\ functions items = [f] /\ length (f_body f) = 7.
Proof.
  split; [exact good_names_case|]. split; [eexists; vm_compute; reflexivity|]. split; [reflexivity|].
  eexists _, _, _. split; [vm_compute; reflexivity|]. split; [vm_compute; reflexivity|]. split; reflexivity.
Qed.
Print Assumptions C73_one_instruction_per_operation.
Print Assumptions C73_linear.

(** If sums and products are binary, there is at most one instruction for every distinct subexpression. *)
Theorem C73_binary symargs e text n : good_names symargs -> arith e -> binary e -> to_llvm_f64 symargs e = Ok text ->
  count_ops_graph e = Ok n ->
  exists items f, parse text = Some items /\ functions items = [f] /\ (Z.of_nat (length (f_body f)) <= n + 1)%Z.
Proof.
  intros Hg Ha Hbin H Hn. destruct (C73_one_instruction_per_operation symargs e text Hg H) as (items & f & e' & H1 & H2 & Hb & H3).
  exists items, f. split; [exact H1|]. split; [exact H2|].
  rewrite (H3 _ (tsort_operations e')). unfold count_ops_graph in Hn.
  destruct (topological_sort_full e false) as (l1 & E1 & _ & Hr & _). rewrite E1 in Hn. cbn [bind] in Hn. injection Hn as <-.
  pose proof (narrow_size e e' _ (l1 ++ [e]) (proj1 (bin_expand_meaning _ _) Hb) (tsort_operations e') Hr (arith_narrow e Ha Hbin)). lia.
Qed.
(** The code of a derivative is linear in the size of the graph, too. *)
Theorem C73_derivative symargs s e d text n : good_names symargs -> arith e -> binary e ->
  expr_diff e (Symbol s) 1 = Ok d -> to_llvm_f64 symargs d = Ok text -> count_ops_graph e = Ok n ->
  exists items f, parse text = Some items /\ functions items = [f] /\ (Z.of_nat (length (f_body f)) <= 5 * n + 4)%Z.
Proof.
  intros Hg Ha Hbin Hd H Hn. destruct (C73_one_instruction_per_operation symargs d text Hg H) as (items & f & e' & H1 & H2 & Hb & H3).
  exists items, f. split; [exact H1|]. split; [exact H2|].
  rewrite (H3 _ (tsort_operations e')).
  destruct (topological_sort_full d false) as (l1 & E1 & _ & Hr & _).
  assert (Hm : count_ops_graph d = Ok (Z.of_nat (length (l1 ++ [d])))) by (unfold count_ops_graph; rewrite E1; reflexivity).
  pose proof (C59_binary_expressions s e d n _ Ha Hbin Hd Hn Hm) as Hle.
  assert (Hnar : narrow d) by (apply (deriv_narrow s e Ha Hbin); rewrite expr_diff_one, diff_forward_deriv in Hd; exact Hd).
  pose proof (narrow_size d e' _ (l1 ++ [d]) (proj1 (bin_expand_meaning _ _) Hb) (tsort_operations e') Hr Hnar). lia.
Qed.
Lemma family_ok n : arith (make_expression n) /\ binary (make_expression n).
Proof.
  induction n as [|n [IH1 IH2]]; cbn [make_expression].
  - split; [constructor|]. intros h args Hr. apply ProofBin.reach_leaf in Hr; [discriminate|reflexivity].
  - split.
    + apply ar_add. repeat constructor; assumption.
    + intros h args Hr Hh. apply ProofBin.reach_node_inv in Hr as [E|(a & [<-|[<-|[]]] & Hr)]; [injection E as -> ->; reflexivity| |exact (IH2 h args Hr Hh)].
      apply ProofBin.reach_node_inv in Hr as [E|(a & [<-|[<-|[]]] & Hr)].
      * injection E as -> ->. reflexivity.
      * exact (IH2 h args Hr Hh).
      * apply ProofBin.reach_leaf in Hr; [discriminate|reflexivity].
Qed.
(** The documented family: trees of 2^(n+2)-3 nodes (C38), but code of at most 2n+3 instructions. *)
Theorem C73_documented_family n text : 1 <= n -> to_llvm_f64 [x] (make_expression n) = Ok text ->
  exists items f, parse text = Some items /\ functions items = [f] /\ length (f_body f) <= 2 * n + 3.
Proof.
  intros Hn H. destruct n as [|n]; [lia|]. pose proof (make_graph n) as Hg.
  assert (Hx : good_names [x]).
  { exists ["x"]. split; [reflexivity|]. split; [repeat constructor; intros []|]. split; [repeat constructor; discriminate|]. intros k [E|[]]; discriminate. }
  destruct (family_ok (S n)) as [Ha Hb]. destruct (C73_binary [x] _ text _ Hx Ha Hb H Hg) as (items & f & H1 & H2 & H3).
  exists items, f. split; [exact H1|]. split; [exact H2|]. lia.
Qed.
Example C73_case_family : exists text items f d text' items' f', to_llvm_f64 [x] (make_expression 5) = Ok text /\ parse text = Some items /\
  functions items = [f] /\ length (f_body f) = 11 /\ count_ops_graph (make_expression 5) = Ok 12%Z /\ count_ops_tree (make_expression 5) = Ok 125%Z /\
  expr_diff (make_expression 5) x 1 = Ok d /\ to_llvm_f64 [x] d = Ok text' /\ parse text' = Some items' /\ functions items' = [f'] /\
  length (f_body f') = 29.
Proof. do 7 eexists. do 10 (split; [vm_compute; reflexivity|]). vm_compute. reflexivity. Qed.
Print Assumptions C73_binary.
Print Assumptions C73_derivative.
Print Assumptions C73_documented_family.

(** Matrices: one instruction for every distinct operation in the stored entries, two for every stored entry, and
    the return. [ps]: the positions of the stored entries; [es]: the stored entries. *)
Definition stored_positions (h : heap) (m : matrix) (ps : list (Z * Z)) : Prop :=
  NoDup ps /\ forall i j, In (i, j) ps <-> inside m i j /\ stored m i j h.
Definition stored_entries (h : heap) (m : matrix) (es : list tree) : Prop :=
  forall t, In t es <-> exists i j, inside m i j /\ stored m i j h /\ get m i j h = Ok t.
Lemma mapM_in {A B} (f : A -> res B) l vs b : mapM f l = Ok vs -> In b vs <-> exists a, In a l /\ f a = Ok b.
Proof.
  intros H. apply mapM_Ok_Forall2 in H. induction H as [|a w l l' Haw _ IH]; [split; [intros []|intros (a & [] & _)]|]. split.
  - intros [<-|Hb]; [exists a; split; [left; reflexivity|exact Haw]|]. apply IH in Hb as (a' & Ha' & Hb). exists a'. split; [right; exact Ha'|exact Hb].
  - intros (a' & [<-|Ha'] & Hb); [left; congruence|]. right. apply IH. eauto.
Qed.
Lemma stored_positions_length h m ps : wf h m -> stored_positions h m ps -> length ps = length (emap h m).
Proof.
  intros (_ & _ & _ & Hnd & _ & Hr) [Hps Hin].
  pose (z := fun p : pos => (Z.of_nat (fst p), Z.of_nat (snd p))).
  transitivity (length (map z (map fst (emap h m)))); [|rewrite !map_length; reflexivity].
  apply Permutation_length, NoDup_Permutation; [exact Hps| |].
  - apply FinFun.Injective_map_NoDup; [|exact Hnd]. intros [a b] [c d] E. cbn [fst snd] in E. injection E as E1 E2.
    apply Nat2Z.inj in E1, E2. congruence.
  - intros [i j]. rewrite Hin, in_map_iff. unfold stored. fold (emap h m). split.
    + intros [Hi Hs]. exists (Z.to_nat i, Z.to_nat j). cbn [fst snd]. unfold inside in Hi. split; [|exact Hs]. unfold z. cbn [fst snd]. f_equal; apply Z2Nat.id; lia.
    + intros ([a b] & E & Hs). cbn [fst snd] in E. injection E as <- <-. rewrite !Nat2Z.id. split; [|exact Hs].
      destruct (Hr _ Hs) as [R1 R2]. cbn [fst snd] in *. unfold inside. lia.
Qed.
Theorem C73_matrix h ms m symargs text h' es ps : history h ms -> In m ms ->
  good_names symargs -> (forall s, In s symargs -> tree_str s <> Ok "_out") ->
  (Z.of_nat (m_nrows m) * Z.of_nat (m_ncols m) <= 2 ^ 31)%Z ->
  to_llvm_f64_matrix symargs m h = (Ok text, h') ->
  stored_positions h m ps -> stored_entries h m es ->
  exists items f es', parse text = Some items /\ functions items = [f] /\ mapM bin_expand es = Ok es' /\
    forall ops, operations_of es' ops -> length (f_body f) = length ops + 2 * length ps + 1.
Proof.
  intros Hh Hm (names & Hn & Hnd & Hleg & Hfresh) Hout Hsize H Hps Hes. pose proof (history_wf _ _ Hh _ Hm) as Hw.
  assert (Hout' : ~ In "_out" names).
  { intros Hin. apply mapM_Ok_Forall2 in Hn. clear - Hn Hin Hout. induction Hn as [|s n l l' Hs _ IH]; [destruct Hin|].
    destruct Hin as [->|Hin]; [exact (Hout s (or_introl eq_refl) Hs)|]. apply IH; [intros s' Hs'; apply Hout; right; exact Hs'|exact Hin]. }
  destruct (matrix_struct_full symargs names m h text h' Hw Hn Hnd Hleg Hfresh Hout' Hsize H)
    as (_ & ins & Et & Hok & _ & (elts' & Em & Hlen) & _ & _). cbv zeta in *.
  assert (Hsame : forall t, In t es <-> In t (elems h m)).
  { intros t. rewrite (Hes t). split.
    - intros (i & j & Hi & Hs & Hg). destruct (stored_entry h m i j Hw Hi Hs) as (n & _ & Hlt & Hg'). rewrite Hg in Hg'. injection Hg' as ->. apply nth_In, Hlt.
    - intros Ht. apply elems_stored; assumption. }
  assert (Ee : exists es', mapM bin_expand es = Ok es').
  { assert (G : forall t, In t es -> exists t', bin_expand t = Ok t').
    { intros t Ht. apply Hsame in Ht. apply mapM_Ok_Forall2 in Em. clear - Em Ht. induction Em as [|a b l l' Hab _ IH]; [destruct Ht|].
      destruct Ht as [->|Ht]; [eauto|apply IH, Ht]. }
    clear - G. induction es as [|t es IH]; [exists []; reflexivity|]. destruct (G t (or_introl eq_refl)) as (t' & Ht).
    destruct IH as (es' & IH); [intros u Hu; apply G; right; exact Hu|]. exists (t' :: es'). cbn [mapM]. rewrite Ht. cbn [bind]. rewrite IH. reflexivity. }
  destruct Ee as (es' & Ees). rewrite Et, (parse_module _ Hok). eexists _, _, es'. do 2 (split; [reflexivity|]). split; [exact Ees|].
  intros ops Hops. assert (Hops' : operations_of [Node (List_ :: elts')] (Node (List_ :: elts') :: ops)).
  { destruct Hops as [N Hops]. split.
    - constructor; [|exact N]. intros Hin. apply Hops in Hin as [(t & Ht & Hr) _].
      apply (mapM_in _ _ _ _ Ees) in Ht as (a & Ha & Hb). apply Hsame in Ha.
      assert (Ht : In t elts') by (apply (mapM_in _ _ _ _ Em); eauto).
      apply reach_tsize in Hr. assert (tsize t < tsize (Node (List_ :: elts'))) by (apply (kids_tsize false); exact Ht).
      destruct Hr as [E|Hr]; [rewrite <- E in *|]; lia.
    - intros s. cbn [In]. rewrite Hops. split.
      + intros [<-|[(t & Ht & Hr) Hc]]; [split; [exists (Node (List_ :: elts')); split; [left; reflexivity|apply ProofBin.reach_refl]|discriminate]|].
        split; [|exact Hc]. exists (Node (List_ :: elts')). split; [left; reflexivity|]. apply (ProofBin.reach_arg _ _ t); [|exact Hr].
        apply (mapM_in _ _ _ _ Ees) in Ht as (a & Ha & Hb). apply Hsame in Ha. apply (mapM_in _ _ _ _ Em). eauto.
      + intros [(t & [<-|[]] & Hr) Hc]. apply ProofBin.reach_node_inv in Hr as [->|(t & Ht & Hr)]; [left; reflexivity|]. right.
        split; [|exact Hc]. exists t. split; [|exact Hr]. apply (mapM_in _ _ _ _ Em) in Ht as (a & Ha & Hb). apply Hsame in Ha.
        apply (mapM_in _ _ _ _ Ees). eauto. }
  cbn [matrix_func f_body]. rewrite app_length. cbn [length].
  rewrite <- (operations_length _ _ _ Hops' (tsort_operations _)) in Hlen. cbn [length] in Hlen.
  rewrite (stored_positions_length h m ps Hw Hps). lia.
Qed.
Example C73_case_matrix : history heap_ab [mat_b; mat_a] /\ stored_positions heap_ab mat_a [(0, 0); (1, 0); (1, 1)]%Z /\
  stored_entries heap_ab mat_a [x; int 3; y].
Proof.
  assert (Hw : wf heap_ab mat_a) by (apply (history_wf _ _ history_ab); right; left; reflexivity).
  split; [exact history_ab|]. split.
  - split; [repeat constructor; cbn [In]; intuition discriminate|]. intros i j. unfold inside, stored. cbn [mat_a m_nrows m_ncols]. split.
    + intros [E|[E|[E|[]]]]; injection E as <- <-; (split; [lia|vm_compute; auto]).
    + intros [Hi Hs]. assert (Ei : (i = 0 \/ i = 1)%Z) by lia. assert (Ej : (j = 0 \/ j = 1)%Z) by lia.
      destruct Ei as [->| ->], Ej as [->| ->]; vm_compute in Hs; cbn [In]; auto; intuition discriminate.
  - intros t. split.
    + intros [<-|[<-|[<-|[]]]].
      * exists 0%Z, 0%Z. split; [unfold inside; cbn; lia|]. split; [vm_compute; auto|reflexivity].
      * exists 1%Z, 0%Z. split; [unfold inside; cbn; lia|]. split; [vm_compute; auto|reflexivity].
      * exists 1%Z, 1%Z. split; [unfold inside; cbn; lia|]. split; [vm_compute; auto|reflexivity].
    + intros (i & j & Hi & Hs & Hg). destruct (stored_entry heap_ab mat_a i j Hw Hi Hs) as (n & _ & Hlt & Hg').
      rewrite Hg in Hg'. injection Hg' as ->. apply (nth_In (elems heap_ab mat_a)), Hlt.
Qed.
Print Assumptions C73_matrix.
