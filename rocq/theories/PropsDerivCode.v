(** * C100: code of derivatives *)
From Coq Require Import SpecFloat Permutation.
From Verif Require Import Py ModelTree SpecTree ProofBase ProofTopo ProofTree ProofGraph ModelEval SpecEval ModelDiff SpecDiff ModelSym ModelCas SpecCas SpecPrint
  ProofCas ProofCasDiff ProofDiff ProofReal ModelMatrix SpecMatrix ModelLLVM SpecLLVM SpecLambdify ProofLex ProofLLVM PropsLLVM
  ProofBin SpecCost ProofSwell PropsCost SpecCodeSize ProofCodeSize PropsCodeSize PropsGrowth PropsPoly PropsCas PropsWide ModelRepr ModelApi SpecApi ProofApi PropsApi Samples.
Local Open Scope string_scope.

(** ** Derivatives can be computed from the arguments whenever the expression can *)
Section Machine.
  Context (mc : machine) (symargs : list tree) (vals : list spec_float).
  Notation ok t := (machine_value mc symargs vals t <> None).
  Lemma ok_args args : Forall (fun a => ok a) args <-> exists vs, opt_map (machine_value mc symargs vals) args = Some vs.
  Proof.
    induction args as [|a args [IH1 IH2]]; cbn [opt_map]; [split; [eauto|constructor]|]. split.
    - intros H. inversion H as [|? ? Ha Hr]; subst. destruct (machine_value mc symargs vals a); [|contradiction].
      destruct (IH1 Hr) as (vs & ->). eauto.
    - intros (vs & H). destruct (machine_value mc symargs vals a) eqn:Ea; [|discriminate].
      destruct (opt_map (machine_value mc symargs vals) args) as [ws|]; [|discriminate]. constructor; [congruence|apply IH2; eauto].
  Qed.
  Lemma opt_map_len args vs : opt_map (machine_value mc symargs vals) args = Some vs -> length vs = length args.
  Proof. intros H. apply opt_map_Forall2 in H. symmetry. apply (Forall2_len _ _ _ H). Qed.
  Lemma ok_node h args : ok (Node (h :: args)) -> Forall (fun a => ok a) args.
  Proof.
    rewrite machine_value_node. intros H. apply ok_args. destruct (opt_map (machine_value mc symargs vals) args) as [vs|]; [eauto|contradiction].
  Qed.
  Lemma ok_sum h args : h = Add \/ h = Mul -> ok (Node (h :: args)) <-> args <> [] /\ Forall (fun a => ok a) args.
  Proof.
    intros Hh. split.
    - intros H. split; [|exact (ok_node h args H)]. apply (machine_args mc symargs vals h args H).
    - intros [Hne Ha]. rewrite machine_value_node. apply ok_args in Ha as (vs & E). rewrite E. pose proof (opt_map_len _ _ E) as Hl.
      destruct vs as [|v vs]; [destruct args; [contradiction|discriminate]|]. destruct Hh as [-> | ->]; discriminate.
  Qed.
  Lemma ok_int n : (n = 0 \/ n = 1 \/ n = -1)%Z -> ok (Integer n).
  Proof.
    intros Hn. unfold Integer, Tr. cbn [machine_value machine_leaf]. destruct (argument symargs vals _); [discriminate|].
    destruct Hn as [->|[->| ->]]; vm_compute; discriminate.
  Qed.
  Lemma ok_total ts : Forall (fun t => ok t) ts -> ok (total cas_diff ts).
  Proof.
    intros H. destruct ts as [|t [|t2 ts]]; cbn [total]; [apply ok_int; auto|inversion H; assumption|].
    change (ok (Node (Add :: t :: t2 :: ts))). apply ok_sum; [auto|]. split; [discriminate|exact H].
  Qed.
  Lemma ok_times r d : ok r -> ok d -> ok (times r d).
  Proof.
    intros Hr Hd. unfold times. destruct (tree_eqb d zero); [apply ok_int; auto|]. destruct (tree_eqb d one); [exact Hr|].
    apply ok_sum; [auto|]. split; [discriminate|]. repeat constructor; assumption.
  Qed.
  Lemma ok_dependent ds id : Forall (fun t => ok t) ds -> In id (dependent zero ds) -> ok (snd id).
  Proof.
    destruct id as [i d]. intros H Hin. unfold dependent in Hin. apply filter_In in Hin as [Hin _]. apply in_combine_r in Hin.
    rewrite Forall_forall in H. apply H, Hin.
  Qed.
  Lemma set_nth_nil (args : list tree) i t : set_nth args i t = [] -> args = [].
  Proof. destruct args as [|a args]; [reflexivity|]. destruct i; discriminate. Qed.
  Lemma deriv_ok s e : arith e -> ok e -> forall d, deriv cas_diff (Symbol s) e = Ok d -> ok d.
  Proof.
    assert (Hl : forall args ds, Forall (fun e => ok e -> forall d, deriv cas_diff (Symbol s) e = Ok d -> ok d) args ->
      Forall (fun a => ok a) args -> mapM (deriv cas_diff (Symbol s)) args = Ok ds -> Forall (fun d => ok d) ds).
    { intros args ds IH Ho E. apply mapM_Ok_Forall2 in E. induction E as [|a d args ds Hd _ IHE]; [constructor|].
      inversion IH; inversion Ho; subst. constructor; eauto. }
    intros He. induction He as [n|s'|args Har IH|args Har IH|a Ha IH|a Ha IH|a b Ha Hb IHa IHb] using arith_ind_all; intros Ho d Hd.
    - rewrite atom_D in Hd. injection Hd as <-. apply ok_int. auto.
    - rewrite sym_D in Hd. injection Hd as <-. destruct (String.eqb s' s); apply ok_int; auto.
    - rewrite D_add in Hd. destruct (mapM (deriv cas_diff (Symbol s)) args) as [ds|] eqn:E; [|discriminate]. cbn [bind] in Hd. injection Hd as <-.
      apply ok_total, Forall_forall. intros t Ht. apply in_map_iff in Ht as (id & <- & Hid). apply (ok_dependent ds); [|exact Hid].
      exact (Hl args ds IH (ok_node _ _ Ho) E).
    - rewrite D_mul in Hd. destruct (mapM (deriv cas_diff (Symbol s)) args) as [ds|] eqn:E; [|discriminate]. cbn [bind] in Hd. injection Hd as <-.
      apply ok_total, Forall_forall. intros t Ht. apply in_map_iff in Ht as ([i dt] & <- & Hid). cbn [fst snd].
      pose proof (ok_dependent ds _ (Hl args ds IH (ok_node _ _ Ho) E) Hid) as Hdt. cbn [snd] in Hdt.
      apply ok_sum in Ho as [Hne Hargs]; [|auto]. apply ok_sum; [auto|]. split; [intros H; apply Hne, (set_nth_nil args i dt H)|].
      clear -Hargs Hdt. revert i. induction Hargs as [|a args Ha Hr IHr]; intros i; [constructor|]. destruct i; cbn [set_nth]; constructor; auto.
    - rewrite D_sin in Hd. destruct (deriv cas_diff (Symbol s) a) as [da|] eqn:E; [|discriminate]. cbn [bind] in Hd. injection Hd as <-.
      pose proof (ok_node _ _ Ho) as Hoa. inversion Hoa as [|? ? Hoa1 _]; subst. apply ok_times; [|exact (IH Hoa1 da eq_refl)].
      rewrite machine_value_node. cbn [opt_map]. destruct (machine_value mc symargs vals a); [discriminate|contradiction].
    - rewrite D_cos in Hd. destruct (deriv cas_diff (Symbol s) a) as [da|] eqn:E; [|discriminate]. cbn [bind] in Hd. injection Hd as <-.
      pose proof (ok_node _ _ Ho) as Hoa. inversion Hoa as [|? ? Hoa1 _]; subst. apply ok_times; [|exact (IH Hoa1 da eq_refl)].
      apply ok_sum; [auto|]. split; [discriminate|]. constructor; [apply ok_int; auto|]. constructor; [|constructor].
      rewrite machine_value_node. cbn [opt_map]. destruct (machine_value mc symargs vals a); [discriminate|contradiction].
    - rewrite D_pow in Hd. destruct (deriv cas_diff (Symbol s) a) as [da|] eqn:E; [|discriminate].
      destruct (deriv cas_diff (Symbol s) b) as [db|] eqn:Eb; [|discriminate]. cbn [bind] in Hd.
      destruct (tree_eqb_spec db zero) as [->|]; [|discriminate]. injection Hd as <-.
      pose proof (ok_node _ _ Ho) as Hoa. inversion Hoa as [|? ? Hoa1 Hor]; subst. inversion Hor as [|? ? Hob _]; subst.
      apply ok_times; [|exact (IHa Hoa1 da eq_refl)]. apply ok_sum; [auto|]. split; [discriminate|]. constructor; [exact Hob|]. constructor; [|constructor].
      assert (Hadd : ok (Node [Add; b; negone])) by (apply ok_sum; [auto|]; split; [discriminate|]; constructor; [exact Hob|constructor; [apply ok_int; auto|constructor]]).
      rewrite machine_value_node. cbn [opt_map]. destruct (machine_value mc symargs vals a); [|contradiction].
      destruct (machine_value mc symargs vals (Node [Add; b; negone])); [discriminate|contradiction].
  Qed.
  Lemma expr_diff_ok s k : forall e d, arith e -> ok e -> expr_diff e (Symbol s) (Z.of_nat k) = Ok d -> arith d /\ ok d.
  Proof.
    induction k as [|k IH]; intros e d Ha Ho Hd.
    - injection Hd as <-. auto.
    - unfold expr_diff in Hd. rewrite Nat2Z.id in Hd. cbn [repeatM] in Hd. rewrite sym_diff_call_one in Hd.
      destruct (diff_forward e (Symbol s) cas_diff) as [e1|] eqn:E; [|discriminate]. cbn [bind] in Hd.
      apply (IH e1 d).
      + destruct (diff_succeeds s e Ha) as [(d1 & E1 & Ha1 & _)|[E1 _]]; congruence.
      + apply diff_forward_deriv in E. exact (deriv_ok s e Ha Ho e1 E).
      + unfold expr_diff. rewrite Nat2Z.id. exact Hd.
  Qed.
End Machine.

(** C100. If code can be generated for an arithmetic expression, it can be generated for all its derivatives. *)
Theorem C100_derivatives_compile symargs e s k d : arith e ->
  (exists text, to_llvm_f64 symargs e = Ok text) -> expr_diff e (Symbol s) (Z.of_nat k) = Ok d ->
  exists text, to_llvm_f64 symargs d = Ok text.
Proof.
  intros Ha He Hd. apply C46_accepted in He as [Hn He]. apply C46_accepted. split; [exact Hn|]. intros mc vals Hl.
  destruct (He mc vals Hl) as (v & Hv). destruct (expr_diff_ok mc symargs vals s k e d Ha ltac:(congruence) Hd) as [_ Ho].
  destruct (machine_value mc symargs vals d) as [w|]; [eauto|contradiction].
Qed.
(** The code of the [k]-th derivative is polynomial in [k] and linear in the graph of the expression. *)
Theorem C100_code_size symargs e s k n d : good_names symargs -> arith e -> binary e ->
  (exists text, to_llvm_f64 symargs e = Ok text) -> count_ops_graph e = Ok n ->
  expr_diff e (Symbol s) (Z.of_nat k) = Ok d ->
  exists text items f, to_llvm_f64 symargs d = Ok text /\ parse text = Some items /\ functions items = [f] /\
    (Z.of_nat (length (f_body f)) <= 5 * n * (Z.of_nat k + 1) ^ 4 + 4)%Z.
Proof.
  intros Hg Ha Hb He Hn Hd. destruct (C100_derivatives_compile symargs e s k d Ha He Hd) as (text & Ht). destruct (graph_total d) as [m Hm].
  destruct (C95_repeated_derivative s e k d n m Ha Hb Hd Hn Hm) as (Ha' & Hb' & _).
  pose proof (C96_repeated_derivative s e k d n m Ha Hb Hd Hn Hm) as H96.
  destruct (C73_binary symargs d text m Hg Ha' Hb' Ht Hm) as (items & f0 & Hp & Hf & Hl). exists text, items, f0. repeat split; try assumption. lia.
Qed.
(** With bin_expand first, the same holds for sums and products of any width. [l]: the distinct subexpressions. *)
Theorem C100_expand_first symargs e e' s k l d : good_names symargs -> arith e ->
  (exists text, to_llvm_f64 symargs e = Ok text) -> bin_expand e = Ok e' -> topological_sort e false [] = Ok l ->
  expr_diff e' (Symbol s) (Z.of_nat k) = Ok d ->
  exists text items f, to_llvm_f64 symargs d = Ok text /\ parse text = Some items /\ functions items = [f] /\
    (Z.of_nat (length (f_body f)) <= 5 * Z.of_nat (length l + links l) * (Z.of_nat k + 1) ^ 4 + 4)%Z.
Proof.
  intros Hg Ha He Hb Hl Hd. destruct (graph_total e') as [n Hn]. pose proof (C98_bin_expand_size e e' l n Hb Hl Hn) as Hs.
  destruct (C39_bin_expand e e' Hb) as (Hbin & Hid & _). assert (Ha' : arith e') by (apply (bin_arith e Ha), bin_expand_meaning, Hb).
  assert (He' : exists text, to_llvm_f64 symargs e' = Ok text).
  { destruct He as (text & He). exists text. rewrite <- He. unfold to_llvm_f64. rewrite Hid, Hb. reflexivity. }
  destruct (C100_code_size symargs e' s k n d Hg Ha' Hbin He' Hn Hd) as (text & items & f0 & Ht & Hp & Hf & Hsz).
  exists text, items, f0. repeat split; try assumption. assert (0 <= (Z.of_nat k + 1) ^ 4)%Z by (apply Z.pow_nonneg; lia). nia.
Qed.
(** So lambdify accepts e.diff(x, k) whenever it accepts e. *)
Theorem C100_lambdify {code : Type} (mc : machine) (load : string -> res code) call_f64 call_fill symargs e s k d h f h' :
  faithful mc load call_f64 call_fill -> good_names symargs -> arith e ->
  lambdify load (map OExpr symargs) (OExpr e) h = (Ok f, h') -> expr_diff e (Symbol s) (Z.of_nat k) = Ok d ->
  exists f', lambdify load (map OExpr symargs) (OExpr d) h = (Ok f', h).
Proof.
  intros Hp Hg Ha Hl Hd. destruct (C65_lambdify_expression mc load call_f64 call_fill Hp symargs e h Hg) as [He Hr].
  destruct (Hr f h' Hl) as [-> _]. apply (C65_lambdify_expression mc load call_f64 call_fill Hp symargs d h Hg).
  intros mc' vals Hlen. destruct (proj1 He ltac:(eauto) mc' vals Hlen) as (v & Hv).
  destruct (expr_diff_ok mc' symargs vals s k e d Ha ltac:(congruence) Hd) as [_ Ho].
  destruct (machine_value mc' symargs vals d) as [w|]; [eauto|contradiction].
Qed.
(** The second derivative of sin(x)**2 + sin(x), of three arguments; and 10**400, which no double represents, has the derivative 0. *)
Definition e_twice : tree := m_add (m_pow (call1 sin x) (int 2)) (call1 sin x).
Example C100_case : good_names [y; z; x] /\ arith e_twice /\ binary e_twice /\ count_ops_graph e_twice = Ok 5%Z /\
  (exists text, to_llvm_f64 [y; z; x] e_twice = Ok text) /\
  (exists d text items f, expr_diff e_twice x 2 = Ok d /\ to_llvm_f64 [y; z; x] d = Ok text /\ parse text = Some items /\
     functions items = [f] /\ length (f_body f) = 16) /\
  to_llvm_f64 [x] (int (10 ^ 400)) = Err OverflowError /\ expr_diff (int (10 ^ 400)) x 1 = Ok (int 0) /\
  exists text, to_llvm_f64 [x] (int 0) = Ok text.
Proof.
  split; [exact good_names_case|]. split; [repeat constructor|]. split; [apply (C39_bin_expand e_twice e_twice); reflexivity|].
  split; [reflexivity|]. split; [eexists; vm_compute; reflexivity|]. split.
  { do 4 eexists. do 4 (split; [vm_compute; reflexivity|]). reflexivity. }
  split; [vm_compute; reflexivity|]. split; [vm_compute; reflexivity|]. eexists; vm_compute; reflexivity.
Qed.
Print Assumptions C100_derivatives_compile.
Print Assumptions C100_code_size.
Print Assumptions C100_expand_first.
Print Assumptions C100_lambdify.
