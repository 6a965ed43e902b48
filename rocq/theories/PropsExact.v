(** * Integer arithmetic in floating point: C74. *)
From Coq Require Import SpecFloat Reals Lra.
From Verif Require Import Py ModelTree SpecTree ProofBase ModelEval SpecEval ModelDiff ModelSym ModelCas ModelLLVM SpecLLVM SpecLambdify
  ProofFloat ProofLLVM ProofF64 ProofSums PropsLLVM SpecExact ProofExact Samples.
Local Open Scope string_scope.

(** C74. A polynomial with integer coefficients at integers: if nothing exceeds 2**53 ([fits]), the generated code
    returns its mathematical value... *)
Theorem C74_code_exact mc symargs ns vals e n : ieee_add mc -> ieee_mul mc -> good_names symargs ->
  length vals = length symargs -> Forall2 is_int vals ns -> int_value symargs ns e = Some n -> fits symargs ns e ->
  exists text v, to_llvm_f64 symargs e = Ok text /\ (forall m, run_text mc text "jit_func1" (map VF vals) m = Some (Some v, m)) /\ is_int v n.
Proof.
  intros Ha Hm Hg Hl Hv Hn Hf. destruct (machine_int mc symargs ns vals Ha Hm Hv e n Hf Hn) as (v & Ev & Hi).
  assert (Hg' := Hg). destruct Hg' as (names & Hnm & _). destruct (to_llvm_total symargs names mc vals e v Hnm Hl Ev) as (text & Ht).
  exists text, v. split; [exact Ht|]. split; [|exact Hi]. intros m.
  destruct (C46_code_computes_the_expression symargs e text Hg Ht mc vals m Hl) as (w & Hw & Hr). congruence.
Qed.
(** ... and so does eval_f64. *)
Theorem C74_eval_exact o symargs ns vals e n v : fsum_rounds o -> prod_rounds o -> ints_rounds o ->
  Forall2 is_int vals ns -> int_value symargs ns e = Some n -> fits symargs ns e ->
  eval_f64 o e (Some (combine symargs vals)) = Ok v -> is_int v n.
Proof. intros Hs Hp Hi Hv Hn Hf H. apply eval_f64_meaning in H. exact (f64_int o symargs ns vals Hs Hp Hi Hv e n v Hf Hn H). Qed.

(** (x + 3)*(x - 3)*y + 5*y, for x = 1000000, y = -7 *)
Definition e_int := tree_call Add [tree_call Mul [m_add x (int 3); m_add x (m_mul (int (-1)) (int 3)); y]; m_mul (int 5) y].
Definition o_ints : float_ops spec_float := mkFloat _ (fun n => of_option OverflowError (constant n)) exact_fsum
  (fun vs => match vs with a :: r => Ok (fold_left (SFmul 53 1024) r a) | [] => Err TypeError end)
  (fun _ _ => Err ValueError) (fun _ => Err ValueError) (fun _ => Err ValueError).
Definition mc_ints := mkMachine (SFadd 53 1024) (SFmul 53 1024) (fun a _ => a) (fun a => a) (fun a => a).
Definition v_million := S754_finite false (15625 * 2 ^ 39) (-33).
Definition v_seven := S754_finite true (7 * 2 ^ 50) (-50).
(** [fits] can be decided. *)
Definition small (symargs : list tree) (ns : list Z) (t : tree) : bool :=
  match int_value symargs ns t with Some n => (Z.abs n <=? 2 ^ 53)%Z | None => true end.
Definition fits_b (symargs : list tree) (ns : list Z) (e : tree) : bool :=
  forallb (fun s => small symargs ns s && match s with
    | Node (h :: args) => forallb (fun k => small symargs ns (Node (h :: firstn k args))) (seq 0 (length args))
    | _ => true end) (postorder false [] e).
Lemma fits_decided symargs ns e : fits_b symargs ns e = true -> fits symargs ns e.
Proof.
  intros H. unfold fits_b in H. rewrite forallb_forall in H. split.
  - intros s n Hr Hn. apply ProofTopo.post_reach, H in Hr. apply andb_prop in Hr as [Hr _]. unfold small in Hr. rewrite Hn in Hr. apply Z.leb_le, Hr.
  - intros h args k n Hr Hn. apply ProofTopo.post_reach, H in Hr. apply andb_prop in Hr as [Hr Hp]. rewrite forallb_forall in Hp.
    destruct (Nat.lt_ge_cases k (length args)) as [Hk|Hk].
    + specialize (Hp k). unfold small in Hp. rewrite Hn in Hp. apply Z.leb_le, Hp, in_seq. lia.
    + rewrite firstn_all2 in Hn by exact Hk. unfold small in Hr. rewrite Hn in Hr. apply Z.leb_le, Hr.
Qed.
Example C74_case : fsum_rounds o_ints /\ prod_rounds o_ints /\ ints_rounds o_ints /\ ieee_add mc_ints /\ ieee_mul mc_ints /\
  good_names [x; y] /\ Forall2 is_int [v_million; v_seven] [1000000; -7]%Z /\
  int_value [x; y] [1000000; -7]%Z e_int = Some (-6999999999972)%Z /\ fits [x; y] [1000000; -7]%Z e_int /\
  exists v, eval_f64 o_ints e_int (Some (combine [x; y] [v_million; v_seven])) = Ok v.
Proof.
  destruct C51_case as (H1 & _). split; [exact H1|]. split; [intros a r v H; injection H as <-; reflexivity|].
  split; [intros n v H; cbn [o_ints fl_of_int] in H; destruct (constant n); [injection H as <-; reflexivity|discriminate]|].
  split; [intros a b; reflexivity|]. split; [intros a b; reflexivity|]. split.
  { exists ["x"; "y"]. split; [reflexivity|]. split; [repeat (apply NoDup_cons; [cbn [In]; intuition discriminate|]); apply NoDup_nil|].
    split; [repeat constructor; discriminate|]. intros k [H|[H|[]]]; discriminate. }
  split.
  { constructor; [|constructor; [|constructor]]; (apply constant_is_int; [lia|vm_compute; reflexivity]). }
  split; [vm_compute; reflexivity|]. split; [|eexists; vm_compute; reflexivity].
  apply fits_decided. vm_compute. reflexivity.
Qed.
Print Assumptions C74_code_exact.
Print Assumptions C74_eval_exact.
