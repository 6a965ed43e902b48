(** * Properties of the generated LLVM IR: C46 - C51. *)
From Coq Require Import SpecFloat Reals Lra Permutation Sorted.
From Verif Require Import Py ModelTree SpecTree ProofBase ModelEval SpecEval ModelDiff ModelSym ModelCas ModelMatrix SpecMatrix
  ProofMatrix ProofSympy PropsMatrix ModelLLVM SpecLLVM SpecLambdify ProofLex ProofFloat ProofLLVM ProofLLVMMatrix ProofF64 Samples.
Local Open Scope string_scope.

(** C46. [good_names symargs]: the arguments have distinct and legal names; [machine_value]: the value of an
    expression, computed with the operations of a machine. See SpecLambdify.v; [run_text]: SpecLLVM.v. *)
Theorem C46_code_computes_the_expression symargs e text :
  good_names symargs -> to_llvm_f64 symargs e = Ok text ->
  forall mc vals m, length vals = length symargs ->
  exists v, machine_value mc symargs vals e = Some v /\
    run_text mc text "jit_func1" (map VF vals) m = Some (Some v, m).
Proof.
  intros (names & Hn & Hnd & Hleg & Hfresh) H mc vals m Hl.
  destruct (to_llvm_struct symargs names e text H Hn Hnd Hleg Hfresh) as (ins & o & Et & Hok & _ & Hrun). cbv zeta in *.
  destruct (Hrun mc vals m Hl) as (v & Hv & Hr). exists v. split; [exact Hv|].
  unfold run_text. rewrite Et, (parse_module _ Hok). exact Hr.
Qed.
(** Code is generated exactly if the arguments can be printed and the value is defined. *)
Theorem C46_accepted symargs e :
  (exists text, to_llvm_f64 symargs e = Ok text) <->
  (exists names, mapM tree_str symargs = Ok names) /\
  forall mc vals, length vals = length symargs -> exists v, machine_value mc symargs vals e = Some v.
Proof.
  split.
  - intros [text H]. apply to_llvm_accepts in H as (names & Hn & H). split; [eauto|exact H].
  - intros [(names & Hn) H]. pose (mc := mkMachine (fun a _ => a) (fun a _ => a) (fun a _ => a) (fun a => a) (fun a => a)).
    pose (vals := repeat S754_nan (length symargs)). assert (Hl : length vals = length symargs) by apply repeat_length.
    destruct (H mc vals Hl) as (v & Hv). exact (to_llvm_total symargs names mc vals e v Hn Hl Hv).
Qed.
(** sin(x)**2 + 3*x*y + sin(x), of three arguments, in an odd order. *)
Definition e_code := tree_call Add [m_pow (call1 sin x) (int 2); tree_call Mul [int 3; x; y]; call1 sin x].
Definition three : spec_float := S754_finite false (3 * 2 ^ 51) (-51).
Definition two : spec_float := S754_finite false (2 ^ 52) (-51).
Lemma good_names_case : good_names [y; z; x].
Proof.
  exists ["y"; "z"; "x"]. split; [reflexivity|]. split.
  { repeat (apply NoDup_cons; [cbn [In]; intuition discriminate|]). apply NoDup_nil. }
  split; [repeat constructor; discriminate|]. intros k [H|[H|[H|[]]]]; discriminate.
Qed.
Example C46_case : good_names [y; z; x] /\ (exists text, to_llvm_f64 [y; z; x] e_code = Ok text) /\
  (forall mc a b c, machine_value mc [y; z; x] [a; b; c] e_code =
     Some (mc_add mc (mc_add mc (mc_pow mc (mc_sin mc c) two) (mc_mul mc (mc_mul mc three c) a)) (mc_sin mc c))) /\
  to_llvm_f64 [x] (m_add x y) = Err LLVMNotImplementedError /\ to_llvm_f64 [x] (call1 f x) = Err LLVMNotImplementedError /\
  to_llvm_f64 [x] (tree_call Add []) = Err TypeError.
Proof.
  split; [exact good_names_case|]. split; [eexists; vm_compute; reflexivity|]. split; [intros; reflexivity|].
  repeat split; vm_compute; reflexivity.
Qed.
Print Assumptions C46_code_computes_the_expression.
Print Assumptions C46_accepted.

(** C47. The text is a module with one function. Its parameters are the arguments, under their names, and
    all names are defined once and before use. *)
Theorem C47_scalar_ssa symargs e text : good_names symargs -> to_llvm_f64 symargs e = Ok text ->
  exists items f names, parse text = Some items /\ functions items = [f] /\ ssa f /\
    f_name f = "jit_func1" /\ f_void f = false /\
    mapM tree_str symargs = Ok names /\ f_params f = map (pair PDouble) names.
Proof.
  intros (names & Hn & Hnd & Hleg & Hfresh) H.
  destruct (to_llvm_struct symargs names e text H Hn Hnd Hleg Hfresh) as (ins & o & Et & Hok & Hssa & _). cbv zeta in *.
  rewrite Et, (parse_module _ Hok). eexists _, _, names. repeat (split; [reflexivity|]). split; [exact Hssa|]. auto.
Qed.
Theorem C47_matrix_ssa h ms m symargs text h' : history h ms -> In m ms ->
  good_names symargs -> (forall s, In s symargs -> tree_str s <> Ok "_out") ->
  (Z.of_nat (m_nrows m) * Z.of_nat (m_ncols m) <= 2 ^ 31)%Z ->
  to_llvm_f64_matrix symargs m h = (Ok text, h') ->
  exists items f names, parse text = Some items /\ functions items = [f] /\ ssa f /\
    f_name f = "jit_func1" /\ f_void f = true /\
    mapM tree_str symargs = Ok names /\ f_params f = (PDoublePtr, "_out") :: map (pair PDouble) names.
Proof.
  intros Hh Hm (names & Hn & Hnd & Hleg & Hfresh) Hout Hsize H.
  assert (Hout' : ~ In "_out" names).
  { intros Hin. apply mapM_Ok_Forall2 in Hn. clear - Hn Hin Hout. induction Hn as [|s n l l' Hs _ IH]; [destruct Hin|].
    destruct Hin as [->|Hin]; [exact (Hout s (or_introl eq_refl) Hs)|]. apply IH; [intros s' Hs'; apply Hout; right; exact Hs'|exact Hin]. }
  destruct (matrix_struct symargs names m h text h' (history_wf _ _ Hh _ Hm) Hn Hnd Hleg Hfresh Hout' Hsize H)
    as (_ & ins & Et & Hok & Hssa & _). cbv zeta in *.
  rewrite Et, (parse_module _ Hok). eexists _, _, names. repeat (split; [reflexivity|]). split; [exact Hssa|]. auto.
Qed.
Example C47_case : good_names [y; z; x] /\ (exists text, to_llvm_f64 [y; z; x] e_code = Ok text) /\
  history heap_ab [mat_b; mat_a] /\ (forall s, In s [y; z; x] -> tree_str s <> Ok "_out") /\
  exists text, to_llvm_f64_matrix [y; z; x] mat_a heap_ab = (Ok text, heap_ab).
Proof.
  split; [exact good_names_case|]. split; [eexists; vm_compute; reflexivity|]. split; [exact history_ab|].
  split; [|eexists; vm_compute; reflexivity]. intros s [<-|[<-|[<-|[]]]]; discriminate.
Qed.
(** Finding: with other names the text is accepted by the generator, but it is not valid LLVM, or it defines a
    name twice. First: Symbol(".0") clashes with the first temporary. *)
Definition twice (text : string) : Prop := exists items f, parse text = Some items /\ functions items = [f] /\
  ~ NoDup (map snd (f_params f) ++ flat_map defines (f_body f))%list.
Theorem C47_names_clash_refuted :
  (exists text, to_llvm_f64 [sym ".0"; x] (m_add (sym ".0") x) = Ok text /\ twice text /\
     forall mc vals m, run_text mc text "jit_func1" vals m = None) /\
  (** the same argument given twice *)
  (exists text, to_llvm_f64 [x; x] x = Ok text /\ twice text /\ forall mc vals m, run_text mc text "jit_func1" vals m = None) /\
  (** two different symbols: in LLVM, \78 is x *)
  (exists text, to_llvm_f64 [x; sym "\78"] x = Ok text /\ twice text /\ forall mc vals m, run_text mc text "jit_func1" vals m = None) /\
  (** a symbol and a function of the same name *)
  (exists text, to_llvm_f64 [f; sym "f"] f = Ok text /\ twice text /\ forall mc vals m, run_text mc text "jit_func1" vals m = None) /\
  (** a name with a quote; the empty name *)
  (exists text, to_llvm_f64 [sym (String (Ascii.ascii_of_nat 34) "x")] (int 1) = Ok text /\ parse text = None) /\
  (exists text, to_llvm_f64 [sym ""] (int 1) = Ok text /\ parse text = None) /\
  (** matrices: Symbol("_out") *)
  (exists m h text, matrix_new (PRows [PRow [PInt 1]]) empty_heap = (Ok m, h) /\
     to_llvm_f64_matrix [sym "_out"] m h = (Ok text, h) /\ twice text).
Proof.
  assert (G : forall f l, (map snd (f_params f) ++ flat_map defines (f_body f))%list = l -> 
     (exists x r, l = x :: r /\ In x r)%list -> ~ NoDup (map snd (f_params f) ++ flat_map defines (f_body f))%list).
  { intros f l -> (x & r & -> & Hin) Hnd. inversion Hnd; contradiction. }
  repeat split.
  - eexists. split; [vm_compute; reflexivity|]. split; [|intros mc [|[|] [|[|] [|]]] m; vm_compute; reflexivity].
    eexists _, _. split; [vm_compute; reflexivity|]. split; [reflexivity|]. eapply G; [reflexivity|]. eexists _, _. split; [reflexivity|]. cbn. auto.
  - eexists. split; [vm_compute; reflexivity|]. split; [|intros mc [|[|] [|[|] [|]]] m; vm_compute; reflexivity].
    eexists _, _. split; [vm_compute; reflexivity|]. split; [reflexivity|]. eapply G; [reflexivity|]. eexists _, _. split; [reflexivity|]. cbn. auto.
  - eexists. split; [vm_compute; reflexivity|]. split; [|intros mc [|[|] [|[|] [|]]] m; vm_compute; reflexivity].
    eexists _, _. split; [vm_compute; reflexivity|]. split; [reflexivity|]. eapply G; [reflexivity|]. eexists _, _. split; [reflexivity|]. cbn. auto.
  - eexists. split; [vm_compute; reflexivity|]. split; [|intros mc [|[|] [|[|] [|]]] m; vm_compute; reflexivity].
    eexists _, _. split; [vm_compute; reflexivity|]. split; [reflexivity|]. eapply G; [reflexivity|]. eexists _, _. split; [reflexivity|]. cbn. auto.
  - eexists. split; [vm_compute; reflexivity|]. vm_compute; reflexivity.
  - eexists. split; [vm_compute; reflexivity|]. vm_compute; reflexivity.
  - eexists _, _, _. split; [vm_compute; reflexivity|]. split; [vm_compute; reflexivity|].
    eexists _, _. split; [vm_compute; reflexivity|]. split; [reflexivity|]. eapply G; [reflexivity|]. eexists _, _. split; [reflexivity|]. cbn. auto.
Qed.
(** Names are written into the code as they are. With the following name for the argument, the code for the constant 7
    is valid, but it is the code of two functions, and the one that lambdify calls returns its argument. *)
Definition injected : string :=
  "x" ++ quote ++ ")" ++ newline ++ "{" ++ newline ++ "ret double %" ++ quote ++ "x" ++ quote ++ newline ++ "}" ++ newline ++
  "define double @" ++ quote ++ "other" ++ quote ++ "(double %" ++ quote ++ "x".
Theorem C47_injection_refuted : exists text items f g,
  to_llvm_f64 [sym injected] (int 7) = Ok text /\ parse text = Some items /\ functions items = [f; g] /\
  f_name f = "jit_func1" /\ f_name g = "other" /\ ssa f /\ ssa g /\
  forall mc v m, run_func mc (declared items) f [VF v] m = Some (Some v, m).
Proof.
  eexists _, _, _, _. split; [vm_compute; reflexivity|]. split; [vm_compute; reflexivity|]. split; [reflexivity|].
  split; [reflexivity|]. split; [reflexivity|].
  assert (H : forall (i : instr) front j back, [i] = (front ++ j :: back)%list -> front = [] /\ i = j).
  { intros i [|a front] j back E; [injection E as -> _; auto|]. destruct front; discriminate. }
  split; [|split].
  - split; [repeat constructor; intros []|]. cbn [f_body f_params]. intros front i back E x Hx. apply H in E as [-> <-].
    cbn in Hx |- *. exact Hx.
  - split; [repeat constructor; intros []|]. cbn [f_body f_params]. intros front i back E x Hx. apply H in E as [-> <-].
    destruct Hx.
  - reflexivity.
Qed.
Print Assumptions C47_scalar_ssa.
Print Assumptions C47_matrix_ssa.
Print Assumptions C47_names_clash_refuted.
Print Assumptions C47_injection_refuted.

(** C48. The output of a matrix starts at [p0]; the entry [i, j] is at [p0 + i*ncols + j]. *)
Lemma stored_entry h m i j : wf h m -> inside m i j -> stored m i j h ->
  exists n, In ((Z.to_nat i, Z.to_nat j), n) (emap h m) /\ n < length (elems h m) /\ get m i j h = Ok (nth n (elems h m) zero).
Proof.
  intros Hw Hin Hs. assert (Hs' := Hs). unfold stored in Hs. fold (emap h m) in Hs. apply (entry_some h m i j Hin Hw) in Hs'.
  rewrite (get_inside h m i j Hw Hin). unfold entry. destruct (dict_get pos_eqb (emap h m) (Z.to_nat i, Z.to_nat j)) as [n|] eqn:E; [|congruence].
  exists n. destruct Hw as (_ & _ & _ & Hg). split; [apply dget_some_in; exact E|]. split; [eapply good_lt; eauto|reflexivity].
Qed.
Lemma elems_stored h m t : wf h m -> In t (elems h m) -> exists i j, inside m i j /\ stored m i j h /\ get m i j h = Ok t.
Proof.
  intros Hw Ht. assert (Hw' := Hw). destruct Hw as (_ & _ & _ & Hnd & Hs & Hr). apply In_nth with (d := zero) in Ht as (n & Hn & Et).
  assert (Hin : In n (map snd (emap h m))) by (rewrite Hs; apply in_seq; lia).
  apply in_map_iff in Hin as ([[i j] n'] & E & Hin). cbn [snd] in E. subst n'.
  assert (Hin' : In (i, j) (map fst (emap h m))) by (apply in_map_iff; exists (i, j, n); auto).
  destruct (Hr _ Hin') as [Hi Hj]. cbn [fst snd] in *. exists (Z.of_nat i), (Z.of_nat j).
  assert (Hins : inside m (Z.of_nat i) (Z.of_nat j)) by (unfold inside; lia). split; [exact Hins|].
  split; [unfold stored; rewrite !Nat2Z.id; exact Hin'|]. rewrite (get_inside h m _ _ Hw' Hins), !Nat2Z.id. unfold entry.
  destruct (dict_get pos_eqb (emap h m) (i, j)) as [n'|] eqn:E; [|destruct (proj1 (dget_none _ _) E Hin')].
  apply dget_some_in in E. f_equal. rewrite <- Et. f_equal.
  clear - Hnd E Hin. induction (emap h m) as [|[p k] d IH]; [destruct E|]. inversion Hnd as [|? ? Hp Hd]; subst. cbn [fst] in Hp.
  destruct E as [E|E], Hin as [H|H]; try congruence; [..|apply IH; assumption].
  - injection E as -> ->. destruct Hp. apply in_map_iff. exists ((i, j), n). auto.
  - injection H as -> ->. destruct Hp. apply in_map_iff. exists ((i, j), n'). auto.
Qed.
Lemma fills_wf h m symargs text h' : wf h m ->
  good_names symargs -> (forall s, In s symargs -> tree_str s <> Ok "_out") ->
  (Z.of_nat (m_nrows m) * Z.of_nat (m_ncols m) <= 2 ^ 31)%Z ->
  to_llvm_f64_matrix symargs m h = (Ok text, h') ->
  h' = h /\
  forall mc vals mem p0, length vals = length symargs ->
  let place i j := (p0 + (i * Z.of_nat (m_ncols m) + j))%Z in
  exists mem', run_text mc text "jit_func1" (VP p0 :: map VF vals) mem = Some (None, mem') /\
    (forall i j, inside m i j -> stored m i j h ->
       exists t v, get m i j h = Ok t /\ machine_value mc symargs vals t = Some v /\ mem' (place i j) = v) /\
    (forall k, (forall i j, inside m i j -> stored m i j h -> k <> place i j) -> mem' k = mem k).
Proof.
  intros Hw (names & Hn & Hnd & Hleg & Hfresh) Hout Hsize H.
  assert (Hout' : ~ In "_out" names).
  { intros Hin. apply mapM_Ok_Forall2 in Hn. clear - Hn Hin Hout. induction Hn as [|s n l l' Hs _ IH]; [destruct Hin|].
    destruct Hin as [->|Hin]; [exact (Hout s (or_introl eq_refl) Hs)|]. apply IH; [intros s' Hs'; apply Hout; right; exact Hs'|exact Hin]. }
  destruct (matrix_struct symargs names m h text h' Hw Hn Hnd Hleg Hfresh Hout' Hsize H) as (-> & ins & Et & Hok & _ & Hrun).
  cbv zeta in *. split; [reflexivity|]. intros mc vals mem p0 Hl.
  destruct (Hrun mc vals mem p0 Hl) as (vs & Hvs & Hr). eexists. split.
  - unfold run_text. rewrite Et, (parse_module _ Hok). exact Hr.
  - assert (Hw' := Hw). destruct Hw' as (_ & _ & _ & Hndk & Hs & Hrange).
    assert (Hperm := sort_perm (emap h m)). split.
    + intros i j Hin Hst. destruct (stored_entry h m i j Hw Hin Hst) as (n & Hd & Hn' & Hg).
      exists (nth n (elems h m) zero), (nth n vs S754_nan). split; [exact Hg|]. split.
      * clear - Hvs Hn'. revert n Hn'. induction Hvs as [|t v l l' Ht _ IH]; intros n Hn; [cbn [length] in Hn; lia|].
        destruct n as [|n]; [exact Ht|]. apply IH. cbn [length] in Hn. lia.
      * unfold inside in Hin. replace (p0 + (i * Z.of_nat (m_ncols m) + j))%Z with
          (p0 + Z.of_nat (fst (Z.to_nat i, Z.to_nat j) * m_ncols m + snd (Z.to_nat i, Z.to_nat j)))%Z by (cbn [fst snd]; nia).
        apply (stored_mem_at (m_ncols m) p0 (fun n => nth n vs S754_nan)).
        -- apply (Permutation_NoDup (l := map fst (emap h m))); [apply Permutation_map, Permutation_sym, Hperm|exact Hndk].
        -- intros p k Hpk. apply (Permutation_in _ Hperm) in Hpk. apply (Hrange p). apply in_map_iff. exists (p, k). auto.
        -- apply (Permutation_in _ (Permutation_sym Hperm)). exact Hd.
    + intros k Hk. apply stored_mem_other. intros p n Hpn. apply (Permutation_in _ Hperm) in Hpn.
      assert (Hp : In p (map fst (emap h m))) by (apply in_map_iff; exists (p, n); auto). destruct (Hrange p Hp) as [H1 H2].
      specialize (Hk (Z.of_nat (fst p)) (Z.of_nat (snd p))). rewrite Nat2Z.inj_add, Nat2Z.inj_mul. apply Hk.
      * unfold inside. lia.
      * unfold stored. rewrite !Nat2Z.id. fold (emap h m). destruct p. exact Hp.
Qed.
Theorem C48_code_fills_the_output h ms m symargs text h' : history h ms -> In m ms ->
  good_names symargs -> (forall s, In s symargs -> tree_str s <> Ok "_out") ->
  (Z.of_nat (m_nrows m) * Z.of_nat (m_ncols m) <= 2 ^ 31)%Z ->
  to_llvm_f64_matrix symargs m h = (Ok text, h') ->
  h' = h /\
  forall mc vals mem p0, length vals = length symargs ->
  let place i j := (p0 + (i * Z.of_nat (m_ncols m) + j))%Z in
  exists mem', run_text mc text "jit_func1" (VP p0 :: map VF vals) mem = Some (None, mem') /\
    (forall i j, inside m i j -> stored m i j h ->
       exists t v, get m i j h = Ok t /\ machine_value mc symargs vals t = Some v /\ mem' (place i j) = v) /\
    (forall k, (forall i j, inside m i j -> stored m i j h -> k <> place i j) -> mem' k = mem k).
Proof. intros Hh Hm. exact (fills_wf h m symargs text h' (history_wf _ _ Hh _ Hm)). Qed.
Lemma zeros_wf h m symargs text h' : wf h m ->
  good_names symargs -> (forall s, In s symargs -> tree_str s <> Ok "_out") -> ~ In (Integer 0) symargs ->
  (Z.of_nat (m_nrows m) * Z.of_nat (m_ncols m) <= 2 ^ 31)%Z ->
  to_llvm_f64_matrix symargs m h = (Ok text, h') ->
  forall mc vals mem p0, length vals = length symargs ->
  let size := (Z.of_nat (m_nrows m) * Z.of_nat (m_ncols m))%Z in
  (forall k, (p0 <= k < p0 + size)%Z -> mem k = S754_zero false) ->
  exists mem', run_text mc text "jit_func1" (VP p0 :: map VF vals) mem = Some (None, mem') /\
    (forall i j, inside m i j -> exists t, get m i j h = Ok t /\
       machine_value mc symargs vals t = Some (mem' (p0 + (i * Z.of_nat (m_ncols m) + j))%Z)) /\
    (forall k, ~ (p0 <= k < p0 + size)%Z -> mem' k = mem k).
Proof.
  intros Hw Hg Hout Hz Hsize H mc vals mem p0 Hl size Hmem.
  destruct (fills_wf h m symargs text h' Hw Hg Hout Hsize H) as (_ & Hrun).
  destruct (Hrun mc vals mem p0 Hl) as (mem' & Hr & Hst & Hoth). exists mem'. split; [exact Hr|]. split.
  - intros i j Hin. destruct (in_dec (fun p q => reflect_dec _ _ (pos_eqb_spec p q)) (Z.to_nat i, Z.to_nat j) (map fst (emap h m))) as [Hs|Hs].
    + destruct (Hst i j Hin Hs) as (t & v & Ht & Hv & <-). eauto.
    + exists zero. split; [apply (not_stored h m i j Hin Hw Hs)|].
      assert (E : machine_value mc symargs vals zero = Some (S754_zero false)).
      { change (machine_value mc symargs vals zero) with (match argument symargs vals zero with Some v => Some v | None => constant 0 end).
        rewrite (argument_none symargs vals zero Hz). reflexivity. }
      rewrite E. f_equal. symmetry. rewrite Hoth; [apply Hmem; unfold size, inside in *; nia|].
      intros i' j' Hin' Hs' Heq. unfold inside in *. assert (i' * Z.of_nat (m_ncols m) + j' = i * Z.of_nat (m_ncols m) + j)%Z by lia.
      assert (Hij : Z.to_nat i' = Z.to_nat i /\ Z.to_nat j' = Z.to_nat j) by (apply (flat_inj (m_ncols m)); nia).
      destruct Hij as [E1 E2]. apply Hs. unfold stored in Hs'. rewrite <- E1, <- E2. exact Hs'.
  - intros k Hk. apply Hoth. intros i j Hin _ ->. apply Hk. unfold size, inside in *. nia.
Qed.
(** As lambdify does it: the output is full of zeros at first. Then at the end it holds the values of all entries. *)
Theorem C48_zeros h ms m symargs text h' : history h ms -> In m ms ->
  good_names symargs -> (forall s, In s symargs -> tree_str s <> Ok "_out") -> ~ In (Integer 0) symargs ->
  (Z.of_nat (m_nrows m) * Z.of_nat (m_ncols m) <= 2 ^ 31)%Z ->
  to_llvm_f64_matrix symargs m h = (Ok text, h') ->
  forall mc vals mem p0, length vals = length symargs ->
  let size := (Z.of_nat (m_nrows m) * Z.of_nat (m_ncols m))%Z in
  (forall k, (p0 <= k < p0 + size)%Z -> mem k = S754_zero false) ->
  exists mem', run_text mc text "jit_func1" (VP p0 :: map VF vals) mem = Some (None, mem') /\
    (forall i j, inside m i j -> exists t, get m i j h = Ok t /\
       machine_value mc symargs vals t = Some (mem' (p0 + (i * Z.of_nat (m_ncols m) + j))%Z)) /\
    (forall k, ~ (p0 <= k < p0 + size)%Z -> mem' k = mem k).
Proof. intros Hh Hm. exact (zeros_wf h m symargs text h' (history_wf _ _ Hh _ Hm)). Qed.
(** What is accepted. *)
Theorem C48_accepted h ms m symargs : history h ms -> In m ms ->
  ((exists text, to_llvm_f64_matrix symargs m h = (Ok text, h)) <->
   (exists names, mapM tree_str symargs = Ok names) /\
   forall mc vals, length vals = length symargs -> forall i j, inside m i j -> stored m i j h ->
     exists t v, get m i j h = Ok t /\ machine_value mc symargs vals t = Some v).
Proof.
  intros Hh Hm. pose proof (history_wf _ _ Hh _ Hm) as Hw. split.
  - intros (text & H). destruct (matrix_accepts symargs m h text h Hw H) as (names & Hn & Hv). split; [eauto|].
    intros mc vals Hl i j Hin Hs. destruct (stored_entry h m i j Hw Hin Hs) as (n & _ & Hlt & Hg).
    destruct (machine_value mc symargs vals (nth n (elems h m) zero)) as [v|] eqn:E; [eauto|].
    destruct (Hv mc vals Hl _ (nth_In _ _ Hlt) E).
  - intros [(names & Hn) H]. pose (mc := mkMachine (fun a _ => a) (fun a _ => a) (fun a _ => a) (fun a => a) (fun a => a)).
    pose (vals := repeat S754_nan (length symargs)). assert (Hl : length vals = length symargs) by apply repeat_length.
    apply (matrix_total symargs names m h mc vals Hw Hn Hl). intros t Ht.
    destruct (elems_stored h m t Hw Ht) as (i & j & Hin & Hs & Hg). destruct (H mc vals Hl i j Hin Hs) as (t' & v & Hg' & Hv). congruence.
Qed.
(** The stores: exactly one for each stored entry, one row after another, in the order of the columns, after all
    computations and before the return. *)
Lemma sort_strict l : NoDup (map fst l) -> StronglySorted (fun a b : pos * nat => fst (fst a) < fst (fst b) \/ fst (fst a) = fst (fst b) /\ snd (fst a) < snd (fst b)) (sort_items l).
Proof.
  assert (I : forall a m, ~ In (fst a) (map fst m) ->
    StronglySorted (fun a b : pos * nat => fst (fst a) < fst (fst b) \/ fst (fst a) = fst (fst b) /\ snd (fst a) < snd (fst b)) m ->
    StronglySorted (fun a b : pos * nat => fst (fst a) < fst (fst b) \/ fst (fst a) = fst (fst b) /\ snd (fst a) < snd (fst b)) (insert_item a m)).
  { intros [[i j] n] m Hn H. induction H as [|[[k l'] q] m Hs IH Hf]; cbn [insert_item]; [repeat constructor|].
    unfold item_le. cbn [map In fst] in Hn. destruct (Nat.eqb_spec i k) as [->|Hik].
    - destruct (Nat.eqb_spec j l') as [->|Hjl]; [destruct Hn; left; reflexivity|]. destruct (Nat.ltb_spec j l') as [Hlt|Hge].
      + constructor; [constructor; assumption|]. constructor; [right; cbn; lia|]. eapply Forall_impl; [|exact Hf]. cbn. lia.
      + constructor; [apply IH; tauto|]. apply Forall_forall. intros x Hx. apply (Permutation_in _ (insert_perm _ _)) in Hx as [<-|Hx]; [cbn; lia|].
        rewrite Forall_forall in Hf. apply Hf, Hx.
    - destruct (Nat.ltb_spec i k) as [Hlt|Hge].
      + constructor; [constructor; assumption|]. constructor; [left; cbn; lia|]. eapply Forall_impl; [|exact Hf]. cbn. lia.
      + constructor; [apply IH; tauto|]. apply Forall_forall. intros x Hx. apply (Permutation_in _ (insert_perm _ _)) in Hx as [<-|Hx]; [cbn; lia|].
        rewrite Forall_forall in Hf. apply Hf, Hx. }
  induction l as [|a l IH]; intros H; [constructor|]. cbn [map] in H. inversion H; subst. unfold sort_items in *. cbn [fold_right]. apply I; [|auto].
  intros Hin. apply (Permutation_in _ (Permutation_map fst (sort_perm l))) in Hin. contradiction.
Qed.
Theorem C48_stores_in_order h ms m symargs text h' : history h ms -> In m ms ->
  good_names symargs -> (forall s, In s symargs -> tree_str s <> Ok "_out") ->
  (Z.of_nat (m_nrows m) * Z.of_nat (m_ncols m) <= 2 ^ 31)%Z ->
  to_llvm_f64_matrix symargs m h = (Ok text, h') ->
  exists items f front places stores, parse text = Some items /\ functions items = [f] /\
    f_body f = (front ++ concat stores ++ [IRetVoid])%list /\
    (forall i, In i front -> match i with IFadd _ _ _ | IFmul _ _ _ | ICall _ _ _ => True | _ => False end) /\
    Forall2 (fun k store => exists p v, store = [IGep p "_out" k; IStore v p]) places stores /\
    StronglySorted Z.lt places /\
    (forall k, In k places <-> exists i j, inside m i j /\ stored m i j h /\ k = (i * Z.of_nat (m_ncols m) + j)%Z).
Proof.
  intros Hh Hm (names & Hn & Hnd & Hleg & Hfresh) Hout Hsize H. pose proof (history_wf _ _ Hh _ Hm) as Hw.
  assert (Hout' : ~ In "_out" names).
  { intros Hin. apply mapM_Ok_Forall2 in Hn. clear - Hn Hin Hout. induction Hn as [|s n l l' Hs _ IH]; [destruct Hin|].
    destruct Hin as [->|Hin]; [exact (Hout s (or_introl eq_refl) Hs)|]. apply IH; [intros s' Hs'; apply Hout; right; exact Hs'|exact Hin]. }
  destruct (matrix_struct_full symargs names m h text h' Hw Hn Hnd Hleg Hfresh Hout' Hsize H)
    as (_ & ins & Et & Hok & _ & _ & (front & codes & -> & Hf & Hc) & _). cbv zeta in *.
  destruct Hw as (_ & _ & _ & Hkeys & _ & Hr).
  pose (place := fun it : pos * nat => Z.of_nat (fst (fst it) * m_ncols m + snd (fst it))).
  rewrite Et, (parse_module _ Hok). eexists _, _, front, (map place (sort_items (emap h m))), codes. do 2 (split; [reflexivity|]).
  split; [cbn [matrix_func f_body]; rewrite <- app_assoc; reflexivity|]. split; [intros i Hi; rewrite Forall_forall in Hf; apply (Hf i Hi)|]. split; [|split].
  - clear - Hc. induction Hc as [|it code its codes H _ IH]; constructor; [|exact IH]. destruct H as (p & o & ->). exists p, o. reflexivity.
  - pose proof (sort_strict _ Hkeys) as Hs.
    assert (Hb : forall it, In it (sort_items (emap h m)) -> snd (fst it) < m_ncols m).
    { intros it Hit. apply (Permutation_in _ (sort_perm _)) in Hit. apply (in_map fst) in Hit. apply Hr in Hit. apply Hit. }
    revert Hb Hs. generalize (sort_items (emap h m)). clear - place. intros its Hb Hs.
    induction Hs as [|a l Hs IH Ha]; [constructor|]. cbn [map]. constructor; [apply IH; intros it Hit; apply Hb; right; exact Hit|].
    apply Forall_forall. intros k Hk. apply in_map_iff in Hk as (b & <- & Hb'). rewrite Forall_forall in Ha. specialize (Ha b Hb').
    pose proof (Hb a (or_introl eq_refl)). pose proof (Hb b (or_intror Hb')). unfold place. nia.
  - intros k. rewrite in_map_iff. unfold stored, inside. fold (emap h m). split.
    + intros ([[i j] n] & <- & Hit). apply (Permutation_in _ (sort_perm _)) in Hit. apply (in_map fst) in Hit. cbn [fst] in Hit. pose proof (Hr _ Hit) as [R1 R2]. cbn [fst snd] in R1, R2.
      exists (Z.of_nat i), (Z.of_nat j). rewrite !Nat2Z.id. split; [lia|]. split; [exact Hit|]. unfold place. cbn [fst snd]. lia.
    + intros (i & j & Hij & Hs & ->). apply in_map_iff in Hs as ([p n] & Ep & Hin). cbn [fst] in Ep. subst p. exists ((Z.to_nat i, Z.to_nat j), n).
      split; [unfold place; cbn [fst snd]; lia|]. apply (Permutation_in _ (Permutation_sym (sort_perm _))), Hin.
Qed.
Example C48_case : history heap_ab [mat_b; mat_a] /\ In mat_a [mat_b; mat_a] /\ good_names [y; z; x] /\
  (forall s, In s [y; z; x] -> tree_str s <> Ok "_out") /\ ~ In (Integer 0) [y; z; x] /\
  (Z.of_nat (m_nrows mat_a) * Z.of_nat (m_ncols mat_a) <= 2 ^ 31)%Z /\
  exists text, to_llvm_f64_matrix [y; z; x] mat_a heap_ab = (Ok text, heap_ab) /\
    forall mc a b c, exists mem', run_text mc text "jit_func1" [VP 100; VF a; VF b; VF c] (fun _ => S754_zero false) = Some (None, mem') /\
      map mem' [99; 100; 101; 102; 103; 104]%Z = [S754_zero false; c; S754_zero false; three; a; S754_zero false].
Proof.
  split; [exact history_ab|]. split; [right; left; reflexivity|]. split; [exact good_names_case|].
  split; [intros s [<-|[<-|[<-|[]]]]; discriminate|]. split; [intros [H|[H|[H|[]]]]; discriminate|]. split; [vm_compute; discriminate|].
  eexists. split; [vm_compute; reflexivity|]. intros mc a b c. eexists. split; [vm_compute; reflexivity|]. vm_compute. reflexivity.
Qed.
Print Assumptions C48_code_fills_the_output.
Print Assumptions C48_zeros.
Print Assumptions C48_accepted.
Print Assumptions C48_stores_in_order.

(** C49. Where eval_f64 gives a value, the generated code gives the same, if the machine's operations are those
    of Python ([agrees], see SpecLambdify.v) and sums have two terms. *)
Lemma f64_machine o mc symargs vals e v : agrees o mc -> (forall s, In s symargs -> s <> Node []) ->
  two_terms e -> eval_f64 o e (Some (combine symargs vals)) = Ok v -> machine_value mc symargs vals e = Some v.
Proof.
  intros (Hi & Ha & Hm & Hp & Hs & Hc) Hne Ht H. apply eval_f64_meaning in H.
  assert (Hget : forall t, dict_get tree_eqb (combine symargs vals) t = argument symargs vals t).
  { clear - Hne. intros t. revert vals. induction symargs as [|s ss IH]; intros [|w ws]; try reflexivity. cbn [combine dict_get argument].
    rewrite IH; [reflexivity|]. intros u Hu. apply Hne. right. exact Hu. }
  revert v H. induction e as [a|cs IH] using tree_ind_all; intros v H.
  - cbn [meaning] in H. unfold f64_leaf in H. rewrite Hget in H. cbn [machine_value machine_leaf].
    destruct (argument symargs vals (Atm a)) as [w|]; [congruence|]. destruct a as [ty [n|s]].
    + destruct (atype_eqb ty T_Integer); [apply Hi, H|discriminate].
    + destruct (atype_eqb ty T_Integer); discriminate.
  - destruct cs as [|h args].
    + cbn [meaning] in H. unfold f64_leaf in H. rewrite Hget in H.
      destruct (argument symargs vals (Node [])) as [w|] eqn:E; [|discriminate]. exfalso.
      clear - E Hne. revert vals E. induction symargs as [|s ss IH]; intros [|u vals] E; try discriminate.
      cbn [argument] in E. destruct (tree_eqb_spec (Node []) s) as [<-|_]; [exact (Hne _ (or_introl eq_refl) eq_refl)|].
      apply (IH (fun u Hu => Hne u (or_intror Hu)) _ E).
    + cbn [meaning] in H. destruct (mapM (meaning (f64_leaf o (combine symargs vals)) (f64_op o)) args) as [vs|] eqn:Em; [|discriminate].
      cbn [bind] in H. rewrite machine_value_node.
      assert (Evs : opt_map (machine_value mc symargs vals) args = Some vs).
      { assert (IH' : forall a, In a args -> forall v, meaning (f64_leaf o (combine symargs vals)) (f64_op o) a = Ok v -> machine_value mc symargs vals a = Some v).
        { intros a Hin. apply (IH a (or_intror Hin)). intros l. split; intros Hr; apply (Ht l); (eapply ProofBin.reach_arg; [exact Hin|exact Hr]). }
        clear - Em IH'. revert vs Em. induction args as [|a l IHl]; intros vs Em; [injection Em as <-; reflexivity|].
        cbn [mapM] in Em. destruct (meaning _ _ a) as [w|] eqn:E; [|discriminate]. cbn [bind] in Em.
        destruct (mapM _ l) as [ws|] eqn:El; [|discriminate]. injection Em as <-. cbn [opt_map].
        rewrite (IH' a (or_introl eq_refl) w E), (IHl (fun b Hb => IH' b (or_intror Hb)) ws eq_refl). reflexivity. }
      rewrite Evs. assert (Hlen : length args = length vs) by (apply mapM_length in Em; congruence).
      unfold f64_op in H. unfold machine_op. destruct (Ht args) as [H2 H1].
      destruct (tree_eqb_spec h cos) as [->|_].
      { destruct vs as [|w [|]]; try discriminate. apply Hc in H as ->. reflexivity. }
      destruct (tree_eqb_spec h sin) as [->|_].
      { destruct vs as [|w [|]]; try discriminate. apply Hs in H as ->. reflexivity. }
      destruct (tree_eqb_spec h Pow) as [->|_].
      { destruct vs as [|w [|w2 [|]]]; try discriminate. apply Hp in H as ->. reflexivity. }
      destruct (tree_eqb_spec h Mul) as [->|_].
      { change (tree_eqb Mul Add) with false. cbv iota. destruct vs as [|w r].
        - exfalso. apply H1; [apply ProofBin.reach_refl|]. destruct args; [reflexivity|discriminate].
        - apply Hm in H as ->. reflexivity. }
      destruct (tree_eqb_spec h Add) as [->|_]; [|destruct (repr_raises h); discriminate].
      rewrite H2 in Hlen by apply ProofBin.reach_refl. destruct vs as [|w [|w2 [|]]]; try discriminate. apply Ha in H as ->. reflexivity.
Qed.
Theorem C49_code_agrees_with_eval_f64 o mc symargs vals e v : agrees o mc -> good_names symargs -> length vals = length symargs ->
  two_terms e -> eval_f64 o e (Some (combine symargs vals)) = Ok v ->
  exists text, to_llvm_f64 symargs e = Ok text /\
    forall m, run_text mc text "jit_func1" (map VF vals) m = Some (Some v, m).
Proof.
  intros Ho Hg Hl Ht H. assert (Hg' := Hg). destruct Hg' as (names & Hn & _).
  assert (Hne : forall s, In s symargs -> s <> Node []).
  { intros s Hs ->. apply mapM_Ok_Forall2 in Hn. clear - Hn Hs. induction Hn as [|s n l l' H _ IH]; [destruct Hs|].
    destruct Hs as [->|Hs]; [discriminate|apply IH, Hs]. }
  pose proof (f64_machine o mc symargs vals e v Ho Hne Ht H) as Hv.
  destruct (to_llvm_total symargs names mc vals e v Hn Hl Hv) as (text & Et). exists text. split; [exact Et|]. intros m.
  destruct (C46_code_computes_the_expression symargs e text Hg Et mc vals m Hl) as (v' & Hv' & Hr). congruence.
Qed.
(** A machine and the primitives of a Python that runs on it; (x + 3)**2 * sin(y). *)
Definition mc_case : machine := mkMachine (SFadd 53 1024) (SFmul 53 1024) (SFmul 53 1024) (fun a => a) (fun a => a).
Definition o_case : float_ops spec_float := mkFloat _ float_of_int
  (fun vs => match vs with [a; b] => Ok (SFadd 53 1024 a b) | _ => Err ValueError end)
  (fun vs => match vs with a :: r => Ok (fold_left (SFmul 53 1024) r a) | [] => float_of_int 1 end)
  (fun a b => Ok (SFmul 53 1024 a b)) (fun a => Ok a) (fun a => Ok a).
Definition e_agree := m_mul (m_pow (m_add x (int 3)) (int 2)) (call1 sin y).
Example C49_case : agrees o_case mc_case /\ good_names [y; z; x] /\ two_terms e_agree /\
  exists v, eval_f64 o_case e_agree (Some (combine [y; z; x] [two; S754_nan; three])) = Ok v /\ double_value v = 24%R.
Proof.
  split; [|split; [exact good_names_case|split]].
  - repeat split; try (intros; cbn in *; congruence).
    intros n v H. cbn [o_case fl_of_int] in H. rewrite float_of_int_constant in H. destruct (constant n); cbn in H; congruence.
  - intros args. split; intros H.
    + unfold e_agree, m_mul, m_pow, m_add, call1, call2, tree_call in H.
      repeat match type of H with
      | reach false [] (Node _) _ => apply ProofBin.reach_node_inv in H as [H|(? & [<-|[<-|[]]] & H)]
      | reach false [] (Node _) _ => apply ProofBin.reach_node_inv in H as [H|(? & [<-|[]] & H)]
      | reach false [] _ _ => apply ProofBin.reach_leaf in H; [|reflexivity]
      end; try discriminate. injection H as ->. reflexivity.
    + intros ->. unfold e_agree, m_mul, m_pow, m_add, call1, call2, tree_call in H.
      repeat match type of H with
      | reach false [] (Node _) _ => apply ProofBin.reach_node_inv in H as [H|(? & [<-|[<-|[]]] & H)]
      | reach false [] (Node _) _ => apply ProofBin.reach_node_inv in H as [H|(? & [<-|[]] & H)]
      | reach false [] _ _ => apply ProofBin.reach_leaf in H; [|reflexivity]
      end; try discriminate.
  - eexists. split; [vm_compute; reflexivity|]. unfold double_value. cbn [powerRZ]. 
    match goal with |- (_ * / ?p ^ ?n)%R = _ => idtac | _ => idtac end. simpl. lra.
Qed.
(** Finding: surplus arguments. sin(x, y) is compiled as sin(x), but eval_f64 raises TypeError. *)
Theorem C49_surplus_arguments_refuted :
  let e := tree_call sin [x; y] in
  exists text, to_llvm_f64 [x; y] e = Ok text /\
    (forall mc a b m, run_text mc text "jit_func1" [VF a; VF b] m = Some (Some (mc_sin mc a), m)) /\
    forall (o : float_ops spec_float) a b, eval_f64 o e (Some (combine [x; y] [a; b])) = Err TypeError.
Proof. eexists. split; [vm_compute; reflexivity|]. split; [intros; vm_compute; reflexivity|]. intros; vm_compute; reflexivity. Qed.
Print Assumptions C49_code_agrees_with_eval_f64.
Print Assumptions C49_surplus_arguments_refuted.

(** C50. The code generated for the constant n returns n, if |n| <= 2**53... *)
Theorem C50_constants_exact symargs n : good_names symargs -> ~ In (Integer n) symargs -> (Z.abs n <= 2 ^ 53)%Z ->
  exists text v, to_llvm_f64 symargs (Integer n) = Ok text /\ double_value v = IZR n /\
    forall mc vals m, length vals = length symargs -> run_text mc text "jit_func1" (map VF vals) m = Some (Some v, m).
Proof.
  intros Hg Hni Hn. destruct (constant_exact n Hn) as (v & Hc & Hv).
  assert (E : forall mc vals, machine_value mc symargs vals (Integer n) = Some v).
  { intros mc vals. change (machine_value mc symargs vals (Integer n)) with (match argument symargs vals (Integer n) with Some v => Some v | None => constant n end).
    rewrite (argument_none symargs vals _ Hni). exact Hc. }
  destruct (proj2 (C46_accepted symargs (Integer n))) as (text & Ht).
  { split; [destruct Hg as (names & H & _); eauto|]. intros mc vals _. eauto. }
  exists text, v. split; [exact Ht|]. split; [exact Hv|]. intros mc vals m Hl.
  destruct (C46_code_computes_the_expression symargs _ text Hg Ht mc vals m Hl) as (w & Hw & Hr). congruence.
Qed.
(** ... and otherwise the nearest double; OverflowError exactly if there is none. *)
Theorem C50_constants_nearest symargs n : good_names symargs -> ~ In (Integer n) symargs ->
  ((Z.abs n < 2 ^ 1024 - 2 ^ 970)%Z ->
   exists text v, to_llvm_f64 symargs (Integer n) = Ok text /\ nearest (IZR n) v /\
     forall mc vals m, length vals = length symargs -> run_text mc text "jit_func1" (map VF vals) m = Some (Some v, m)) /\
  ((2 ^ 1024 - 2 ^ 970 <= Z.abs n)%Z <-> to_llvm_f64 symargs (Integer n) = Err OverflowError).
Proof.
  intros Hg Hni.
  assert (E : forall mc vals, machine_value mc symargs vals (Integer n) = constant n).
  { intros mc vals. change (machine_value mc symargs vals (Integer n)) with (match argument symargs vals (Integer n) with Some v => Some v | None => constant n end).
    rewrite (argument_none symargs vals _ Hni). reflexivity. }
  assert (G : forall v, constant n = Some v -> exists text, to_llvm_f64 symargs (Integer n) = Ok text /\
    forall mc vals m, length vals = length symargs -> run_text mc text "jit_func1" (map VF vals) m = Some (Some v, m)).
  { intros v Hc. destruct (proj2 (C46_accepted symargs (Integer n))) as (text & Ht).
    { split; [destruct Hg as (names & H & _); eauto|]. intros mc vals _. rewrite E. eauto. }
    exists text. split; [exact Ht|]. intros mc vals m Hl.
    destruct (C46_code_computes_the_expression symargs _ text Hg Ht mc vals m Hl) as (w & Hw & Hr). congruence. }
  split; [|split].
  - intros Hlt. destruct (constant n) as [v|] eqn:Hc; [|apply constant_none in Hc; lia].
    destruct (G v eq_refl) as (text & Ht & Hr). exists text, v. split; [exact Ht|]. split; [apply constant_nearest, Hc|exact Hr].
  - intros Hge. apply constant_none in Hge. destruct Hg as (names & Hn & _). unfold to_llvm_f64.
    change (bin_expand (Integer n)) with (Ok (Integer n)). cbn [bind]. change (forward_graph (Integer n)) with (Ok (mkGraph [Integer n] [] [])). cbn [bind g_atoms mapM].
    destruct (argnames_spec symargs names Hn) as (d & -> & _). cbn [bind]. unfold atom_identifier.
    destruct (mem (Integer n) symargs) eqn:Em; [exfalso; apply Hni; apply mem_true; exact Em|].
    cbn [tree_value Integer Tr bind atom_type atom_value]. change (atype_eqb T_Integer T_Integer) with true. cbn [double_to_hex].
    rewrite float_of_int_constant, Hge. reflexivity.
  - intros He. apply constant_none. destruct (constant n) as [v|]; [|reflexivity].
    destruct (G v eq_refl) as (text & Ht & _). congruence.
Qed.
Example C50_case : good_names [y; z; x] /\ ~ In (Integer (- 2 ^ 53)) [y; z; x] /\ (Z.abs (- 2 ^ 53) <= 2 ^ 53)%Z /\
  constant (2 ^ 53 + 1) = Some (S754_finite false (2 ^ 52) 1) /\ constant (2 ^ 53 + 3) = Some (S754_finite false (2 ^ 52 + 2) 1) /\
  double_to_hex (VInt (-3)) = Ok "0xc008000000000000".
Proof.
  split; [exact good_names_case|]. split; [intros [H|[H|[H|[]]]]; discriminate|]. split; [vm_compute; discriminate|]. repeat split; vm_compute; reflexivity.
Qed.
Print Assumptions C50_constants_exact.
Print Assumptions C50_constants_nearest.

(** C51. Finding: for Add(2**53, 1, 1), eval_f64 and the generated code differ, because math.fsum rounds once
    and the code twice. *)
Definition e_sum := tree_call Add [int (2 ^ 53); int 1; int 1].
Definition text_sum := Eval vm_compute in match to_llvm_f64 [] e_sum with Ok t => t | Err _ => "" end.
Lemma run_sum mc m : run_text mc text_sum "jit_func1" [] m =
  Some (Some (mc_add mc (mc_add mc (S754_finite false (2 ^ 52) 1) (S754_finite false (2 ^ 52) (-52))) (S754_finite false (2 ^ 52) (-52))), m).
Proof. vm_compute. reflexivity. Qed.
Lemma value_one : double_value (S754_finite false (2 ^ 52) (-52)) = 1%R.
Proof.
  unfold double_value. change (powerRZ 2 (-52)) with (/ 2 ^ 52)%R. rewrite pow_IZR.
  change (IZR (2 ^ Z.of_nat 52)) with (IZR (Zpos (2 ^ 52))). apply Rinv_r. apply IZR_neq. discriminate.
Qed.
Lemma value_at_1 p : double_value (S754_finite false p 1) = IZR (2 * Zpos p).
Proof. unfold double_value. rewrite powerRZ_1, mult_IZR. ring. Qed.
Theorem C51_sums_differ_refuted o mc : fsum_rounds o -> (forall n, fl_of_int o n = of_option OverflowError (constant n)) -> ieee_add mc ->
  forall v, eval_f64 o e_sum None = Ok v ->
  exists text w, to_llvm_f64 [] e_sum = Ok text /\ (forall m, run_text mc text "jit_func1" [] m = Some (Some w, m)) /\
    double_value v = IZR (2 ^ 53 + 2) /\ double_value w = IZR (2 ^ 53).
Proof.
  intros Hf Hi Ha v H. rewrite eval_f64_none in H. apply eval_f64_meaning in H.
  assert (Hr : f64_op o Add [S754_finite false (2 ^ 52) 1; S754_finite false (2 ^ 52) (-52); S754_finite false (2 ^ 52) (-52)] = Ok v).
  { change (bind (mapM (f64_leaf o []) [Integer (2 ^ 53); Integer 1; Integer 1]) (f64_op o Add) = Ok v) in H.
    assert (L : forall n, f64_leaf o [] (Integer n) = of_option OverflowError (constant n)) by (intros n; rewrite <- Hi; reflexivity).
    cbn [mapM] in H. rewrite !L in H. exact H. }
  change (fl_fsum o [S754_finite false (2 ^ 52) 1; S754_finite false (2 ^ 52) (-52); S754_finite false (2 ^ 52) (-52)] = Ok v) in Hr. clear H.
  exists text_sum, (S754_finite false (2 ^ 52) 1). split; [vm_compute; reflexivity|]. split; [|split].
  - intros m. rewrite run_sum, !Ha. vm_compute. reflexivity.
  - apply Hf in Hr.
    + destruct Hr as (_ & _ & Hmin & _). specialize (Hmin (S754_finite false (2 ^ 52 + 1) 1)).
      assert (E1 : sum_of [S754_finite false (2 ^ 52) 1; S754_finite false (2 ^ 52) (-52); S754_finite false (2 ^ 52) (-52)] = IZR (2 ^ 53 + 2)).
      { unfold sum_of. cbn [map fold_right]. rewrite value_one, value_at_1, Rplus_0_r, <- !plus_IZR. reflexivity. }
      assert (E2 : double_value (S754_finite false (2 ^ 52 + 1) 1) = IZR (2 ^ 53 + 2)).
      { rewrite value_at_1. reflexivity. }
      rewrite E1, E2 in Hmin. replace (IZR (2 ^ 53 + 2) - IZR (2 ^ 53 + 2))%R with 0%R in Hmin by ring. rewrite Rabs_R0 in Hmin.
      assert (Hz : (Rabs (double_value v - IZR (2 ^ 53 + 2)) <= 0)%R).
      { apply Hmin; [|exact I]. vm_compute. repeat split; try discriminate. right. discriminate. }
      pose proof (Rabs_pos (double_value v - IZR (2 ^ 53 + 2))) as Hp.
      destruct (Req_dec (double_value v - IZR (2 ^ 53 + 2)) 0) as [Hq|Hq]; [lra|]. apply Rabs_pos_lt in Hq. lra.
    + intros a [<-|[<-|[<-|[]]]]; (split; [vm_compute; repeat split; try discriminate; right; discriminate|exact I]).
  - rewrite value_at_1. reflexivity.
Qed.
(** Such primitives exist: the sum of the exact values, rounded once. *)
Definition scaled (f : spec_float) : Z :=
  match f with S754_finite s m e => ((if s then -1 else 1) * (Zpos m * 2 ^ (e + 1074)))%Z | _ => 0%Z end.
Definition is_finite (f : spec_float) : bool := match f with S754_zero _ | S754_finite _ _ _ => true | _ => false end.
Definition exact_fsum (vs : list spec_float) : res spec_float :=
  if forallb is_finite vs then
    match binary_normalize 53 1024 (fold_right Z.add 0 (map scaled vs))%Z (-1074) false with
    | S754_infinity _ | S754_nan => Err OverflowError
    | f => Ok f
    end
  else Err ValueError.
Definition o_exact : float_ops spec_float := mkFloat _ (fun n => of_option OverflowError (constant n)) exact_fsum
  (fun _ => Err ValueError) (fun _ _ => Err ValueError) (fun _ => Err ValueError) (fun _ => Err ValueError).
Example C51_case : fsum_rounds o_exact /\ ieee_add mc_case /\
  exists v, eval_f64 o_exact e_sum None = Ok v /\ double_value v = IZR (2 ^ 53 + 2).
Proof.
  split; [|split; [intros a b; reflexivity|]].
  - intros vs v Hvs H. cbn [fl_fsum o_exact] in H. unfold exact_fsum in H. destruct (forallb is_finite vs); [|discriminate].
    assert (E : sum_of vs = Defs.F2R (Defs.Float Zaux.radix2 (fold_right Z.add 0 (map scaled vs))%Z (-1074))).
    { clear H. induction vs as [|a vs IH]; [unfold sum_of, Defs.F2R; cbn; ring|].
      unfold sum_of in *. cbn [map fold_right]. rewrite IH by (intros b Hb; apply Hvs; right; exact Hb).
      unfold Defs.F2R. cbn [Defs.Fnum Defs.Fexp]. rewrite plus_IZR, Rmult_plus_distr_r. f_equal.
      destruct (Hvs a (or_introl eq_refl)) as [Hd _]. clear - Hd. destruct a as [s|s| |s m e]; [cbn [double_value scaled]; ring..|].
      rewrite (double_scaled s m e Hd). reflexivity. }
    rewrite E. apply (normalize_nearest _ _ false); destruct (binary_normalize _ _ _ _ _); try discriminate; injection H as <-; try reflexivity; exact I.
  - eexists. split; [vm_compute; reflexivity|]. rewrite value_at_1. reflexivity.
Qed.
Print Assumptions C51_sums_differ_refuted.
