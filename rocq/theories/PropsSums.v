(** * Sums of floating point numbers: C63. *)
From Coq Require Import SpecFloat Reals Lra Permutation.
From Verif Require Import Py ModelTree SpecTree ProofBase ModelEval SpecEval ModelDiff ModelSym ModelCas
  ModelLLVM SpecLLVM SpecLambdify ProofFloat ProofLLVM ProofF64 ProofSums PropsLLVM Samples.
Local Open Scope string_scope.

(** C63. eval_f64 gives for a sum the double nearest to the exact sum of the values of its terms, if math.fsum is
    correctly rounded ([fsum_rounds], [nearest]: SpecLambdify.v)... *)
Theorem C63_sums_are_rounded_once o args values v : fsum_rounds o -> eval_f64 o (tree_call Add args) (Some values) = Ok v ->
  exists vs, Forall2 (fun t w => eval_f64 o t (Some values) = Ok w) args vs /\
    ((forall w, In w vs -> is_double w /\ finite w) -> nearest (sum_of vs) v).
Proof.
  intros Hf H. apply eval_f64_meaning in H. cbn [tree_call meaning] in H. destruct (mapM _ args) as [vs|] eqn:E; [|discriminate]. cbn [bind] in H.
  exists vs. split.
  - apply mapM_Ok_Forall2 in E. clear - E. induction E as [|t w l l' Hw _ IH]; constructor; [|exact IH]. apply eval_f64_meaning, Hw.
  - intros Hd. exact (Hf vs v Hd H).
Qed.
(** ... so the order of the terms does not matter. *)
Theorem C63_order_of_terms_irrelevant o args args' values v v' : fsum_rounds o -> Permutation args args' ->
  (forall t w, In t args -> eval_f64 o t (Some values) = Ok w -> is_double w /\ finite w) ->
  eval_f64 o (tree_call Add args) (Some values) = Ok v -> eval_f64 o (tree_call Add args') (Some values) = Ok v' ->
  double_value v = double_value v'.
Proof.
  intros Hf Hp Hd H H'. destruct (C63_sums_are_rounded_once o args values v Hf H) as (vs & Hvs & Hn).
  destruct (C63_sums_are_rounded_once o args' values v' Hf H') as (vs' & Hvs' & Hn').
  assert (Hfin : forall l ws, (forall t, In t l -> In t args) -> Forall2 (fun t w => eval_f64 o t (Some values) = Ok w) l ws -> forall w, In w ws -> is_double w /\ finite w).
  { clear - Hd. intros l ws Hin H. induction H as [|t w l ws E _ IH]; [intros w []|]. intros u [<-|Hu]; [|apply IH; [intros s Hs; apply Hin; right; exact Hs|exact Hu]].
    apply (Hd t); [apply Hin; left; reflexivity|exact E]. }
  specialize (Hn (Hfin args vs (fun t Ht => Ht) Hvs)).
  specialize (Hn' (Hfin args' vs' (fun t Ht => Permutation_in t (Permutation_sym Hp) Ht) Hvs')).
  assert (Hpv : Permutation vs vs').
  { destruct (Permutation_Forall2 Hp Hvs) as (vs2 & Hp2 & Hvs2). replace vs' with vs2; [exact Hp2|]. clear - Hvs2 Hvs'.
    revert vs' Hvs'. induction Hvs2 as [|t w l l' E _ IH]; intros vs' H'; inversion H'; subst; [reflexivity|]. f_equal; [congruence|apply IH; assumption]. }
  rewrite (sum_perm _ _ Hpv) in Hn. exact (nearest_same _ _ _ Hn Hn').
Qed.
(** For a sum of two symbols the generated code computes the same number. *)
Theorem C63_two_terms_agree o mc s t a b v : fsum_rounds o -> ieee_add mc -> good_names [s; t] ->
  is_double a -> finite a -> is_double b -> finite b ->
  (forall u, In u [s; t] -> exists n, u = Symbol n) -> s <> t ->
  eval_f64 o (m_add s t) (Some (combine [s; t] [a; b])) = Ok v ->
  exists text w, to_llvm_f64 [s; t] (m_add s t) = Ok text /\
    (forall m, run_text mc text "jit_func1" [VF a; VF b] m = Some (Some w, m)) /\
    (finite w -> double_value w = double_value v).
Proof.
  intros Hf Ha Hg Da Fa Db Fb Hs Hne H.
  destruct (Hs s (or_introl eq_refl)) as (ns & Es). destruct (Hs t (or_intror (or_introl eq_refl))) as (nt & Et).
  assert (Hv : fl_fsum o [a; b] = Ok v).
  { apply eval_f64_meaning in H. unfold m_add, call2 in H. cbn [tree_call meaning mapM] in H.
    assert (L1 : meaning (f64_leaf o (combine [s; t] [a; b])) (f64_op o) s = Ok a).
    { subst s. transitivity (f64_leaf o (combine [Symbol ns; t] [a; b]) (Symbol ns)); [reflexivity|]. unfold f64_leaf. cbn [combine dict_get]. destruct (tree_eqb_spec (Symbol ns) (Symbol ns)); [reflexivity|contradiction]. }
    assert (L2 : meaning (f64_leaf o (combine [s; t] [a; b])) (f64_op o) t = Ok b).
    { subst t. transitivity (f64_leaf o (combine [s; Symbol nt] [a; b]) (Symbol nt)); [reflexivity|]. unfold f64_leaf. cbn [combine dict_get]. destruct (tree_eqb_spec (Symbol nt) s) as [E|_]; [congruence|].
      destruct (tree_eqb_spec (Symbol nt) (Symbol nt)); [reflexivity|contradiction]. }
    rewrite L1, L2 in H. exact H. }
  assert (Hm : machine_value mc [s; t] [a; b] (m_add s t) = Some (mc_add mc a b)).
  { unfold m_add, call2. cbn [tree_call machine_value opt_map].
    assert (L1 : machine_value mc [s; t] [a; b] s = Some a).
    { subst s. change (machine_value mc [Symbol ns; t] [a; b] (Symbol ns)) with (match argument [Symbol ns; t] [a; b] (Symbol ns) with Some v => Some v | None => None end).
      cbn [argument]. destruct (tree_eqb_spec (Symbol ns) (Symbol ns)); [reflexivity|contradiction]. }
    assert (L2 : machine_value mc [s; t] [a; b] t = Some b).
    { subst t. change (machine_value mc [s; Symbol nt] [a; b] (Symbol nt)) with (match argument [s; Symbol nt] [a; b] (Symbol nt) with Some v => Some v | None => None end).
      cbn [argument]. destruct (tree_eqb_spec (Symbol nt) s) as [E|_]; [congruence|].
      destruct (tree_eqb_spec (Symbol nt) (Symbol nt)); [reflexivity|contradiction]. }
    rewrite L1, L2. reflexivity. }
  assert (Hg' := Hg). destruct Hg' as (names & Hn & _).
  destruct (to_llvm_total [s; t] names mc [a; b] _ _ Hn eq_refl Hm) as (text & Htx).
  exists text, (mc_add mc a b). split; [exact Htx|]. split.
  - intros m. destruct (C46_code_computes_the_expression [s; t] _ text Hg Htx mc [a; b] m eq_refl) as (w & Hw & Hr).
    rewrite Hm in Hw. injection Hw as <-. exact Hr.
  - intros Fw. rewrite Ha in *. apply (nearest_same (double_value a + double_value b)); [apply add_nearest; assumption|].
    replace (double_value a + double_value b)%R with (sum_of [a; b]) by (unfold sum_of; cbn [map fold_right]; ring).
    apply Hf; [|exact Hv]. intros u [<-|[<-|[]]]; auto.
Qed.
(** Finding: in the generated code the order of the terms does matter: 2**53 + 1 + 1 and 1 + 1 + 2**53 differ. *)
Theorem C63_code_depends_on_order_refuted mc : ieee_add mc ->
  Permutation [int (2 ^ 53); int 1; int 1] [int 1; int 1; int (2 ^ 53)] /\
  exists text text' w w', to_llvm_f64 [] (tree_call Add [int (2 ^ 53); int 1; int 1]) = Ok text /\
    to_llvm_f64 [] (tree_call Add [int 1; int 1; int (2 ^ 53)]) = Ok text' /\
    (forall m, run_text mc text "jit_func1" [] m = Some (Some w, m)) /\ (forall m, run_text mc text' "jit_func1" [] m = Some (Some w', m)) /\
    double_value w = IZR (2 ^ 53) /\ double_value w' = IZR (2 ^ 53 + 2).
Proof.
  intros Ha. split; [exact (Permutation_cons_append [int 1; int 1] (int (2 ^ 53)))|].
  eexists. eexists. exists (S754_finite false (2 ^ 52) 1), (S754_finite false (2 ^ 52 + 1) 1).
  split; [vm_compute; reflexivity|]. split; [vm_compute; reflexivity|]. split; [|split; [|split]].
  - intros m. transitivity (Some (Some (mc_add mc (mc_add mc (S754_finite false (2 ^ 52) 1) (S754_finite false (2 ^ 52) (-52))) (S754_finite false (2 ^ 52) (-52))), m)); [vm_compute; reflexivity|].
    rewrite !Ha. vm_compute. reflexivity.
  - intros m. transitivity (Some (Some (mc_add mc (mc_add mc (S754_finite false (2 ^ 52) (-52)) (S754_finite false (2 ^ 52) (-52))) (S754_finite false (2 ^ 52) 1)), m)); [vm_compute; reflexivity|].
    rewrite !Ha. vm_compute. reflexivity.
  - rewrite value_at_1. reflexivity.
  - rewrite value_at_1. reflexivity.
Qed.
(** x + 2**53 + y, for x = y = 1, and its terms in another order. *)
Example C63_case : fsum_rounds o_exact /\ ieee_add mc_case /\ good_names [x; y] /\
  let one_ := S754_finite false (2 ^ 52) (-52) in let values := combine [x; y] [one_; one_] in
  eval_f64 o_exact (tree_call Add [x; int (2 ^ 53); y]) (Some values) = Ok (S754_finite false (2 ^ 52 + 1) 1) /\
  eval_f64 o_exact (tree_call Add [y; x; int (2 ^ 53)]) (Some values) = Ok (S754_finite false (2 ^ 52 + 1) 1) /\
  (forall t w, In t [x; int (2 ^ 53); y] -> eval_f64 o_exact t (Some values) = Ok w -> is_double w /\ finite w) /\
  eval_f64 o_exact (m_add x y) (Some values) = Ok (S754_finite false (2 ^ 52) (-51)).
Proof.
  destruct C51_case as (H1 & H2 & _). split; [exact H1|]. split; [exact H2|]. split.
  { exists ["x"; "y"]. split; [reflexivity|]. split; [repeat (apply NoDup_cons; [cbn [In]; intuition discriminate|]); apply NoDup_nil|].
    split; [repeat constructor; discriminate|]. intros k [H|[H|[]]]; discriminate. }
  cbv zeta. split; [vm_compute; reflexivity|]. split; [vm_compute; reflexivity|]. split; [|vm_compute; reflexivity].
  assert (D : forall m e, Z.leb (2 ^ 52) (Zpos m) && Z.ltb (Zpos m) (2 ^ 53) && Z.leb (-1074) e && Z.leb e 971 = true -> is_double (S754_finite false m e) /\ finite (S754_finite false m e)).
  { intros m e H. apply andb_prop in H as [H H4]. apply andb_prop in H as [H H3]. apply andb_prop in H as [H1' H2'].
    apply Z.leb_le in H1', H3, H4. apply Z.ltb_lt in H2'. cbn [is_double finite]. repeat split; try assumption. right. exact H1'. }
  intros t w [<-|[<-|[<-|[]]]] H; vm_compute in H; injection H as <-; apply D; vm_compute; reflexivity.
Qed.
Print Assumptions C63_sums_are_rounded_once.
Print Assumptions C63_order_of_terms_irrelevant.
Print Assumptions C63_two_terms_agree.
Print Assumptions C63_code_depends_on_order_refuted.
