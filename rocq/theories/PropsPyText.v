(** * C69: the printed text, read as Python *)
From Coq Require Import Reals.
From Verif Require Import Py ModelTree ModelEval ModelCas ModelMatrix ModelApi SpecTree SpecEval SpecCas SpecPrint SpecReal SpecApi SpecPyText
  ProofBase ProofPrint ProofBin ProofPyText ProofPyEval PropsCas Samples.
Local Open Scope string_scope.

(** The text is a Python expression, and if Python can evaluate it to an expression or an int then the value is the
    same for all values of the symbols. *)
Theorem C69_text_is_python ns e : readable ns e -> exists s p, eval_repr e = Ok s /\ reads_as s p /\
  forall h o h' e', eval_python ns p h = (Ok o, h') -> expression_of o = Some e' ->
    forall env v, reval env e = Some v -> reval env e' = Some v.
Proof.
  intros H. exists (txt e), (ast e). split; [apply eval_repr_eq, (readable_ok ns e H)|]. split; [apply (text_reads_as ns e H)|].
  intros h o h' e' E He env v Hv. apply (text_value ns e H env v Hv h o h' E). exact He.
Qed.
(** If Python does no arithmetic on ints by itself, evaluating the text succeeds, and gives [bin_expand e]. *)
Theorem C69_text_rebuilds ns e : readable ns e -> no_folding e -> exists s p o e',
  eval_repr e = Ok s /\ reads_as s p /\ (forall h, eval_python ns p h = (Ok o, h)) /\
  expression_of o = Some e' /\ bin_expand e = Ok e'.
Proof.
  intros H Hf. destruct (text_rebuilds ns e H Hf) as (o & e' & A & B & C & _). exists (txt e), (ast e), o, e'.
  split; [apply eval_repr_eq, (readable_ok ns e H)|]. split; [apply (text_reads_as ns e H)|]. split; [exact A|]. split; [exact C|].
  apply bin_expand_meaning, B.
Qed.
(** In particular an expression of binary sums and products is read back as itself. *)
Theorem C69_binary_text_reads_back ns e : readable ns e -> no_folding e -> proper e -> binary e -> exists s p o,
  eval_repr e = Ok s /\ reads_as s p /\ (forall h, eval_python ns p h = (Ok o, h)) /\ expression_of o = Some e.
Proof.
  intros H Hf Hp Hb. destruct (C69_text_rebuilds ns e H Hf) as (s & p & o & e' & A & B & C & D & E).
  rewrite (C39_binary_unchanged e Hp Hb) in E. injection E as <-. eauto 10.
Qed.
(** Findings. A sum of ints is evaluated by Python, a negative power of an int gives a float, and the text of a power of a
    negative number is read as the negative of a power. *)
Definition all_symbols (s : string) : option obj :=
  if existsb (String.eqb s) ["f"; "g"; "sin"; "cos"] then Some (OExpr (Function s)) else Some (OExpr (Symbol s)).
Theorem C69_integers_fold_refuted :
  (readable all_symbols (m_add (int 2) (int 3)) /\ bin_expand (m_add (int 2) (int 3)) = Ok (m_add (int 2) (int 3)) /\
   exists p, reads_as "(2 + 3)" p /\ eval_repr (m_add (int 2) (int 3)) = Ok "(2 + 3)" /\
     forall h, eval_python all_symbols p h = (Ok (OInt 5), h)) /\
  (readable all_symbols (m_pow (int 2) (int (-1))) /\
   exists p, reads_as "2**-1" p /\ eval_repr (m_pow (int 2) (int (-1))) = Ok "2**-1" /\
     forall h, eval_python all_symbols p h = (Ok OOther, h)).
Proof.
  split.
  - assert (H : readable all_symbols (m_add (int 2) (int 3))) by (apply rd_add; [discriminate|repeat constructor]).
    split; [exact H|]. split; [reflexivity|]. eexists. split; [apply (text_reads_as _ _ H)|]. split; reflexivity.
  - assert (H : readable all_symbols (m_pow (int 2) (int (-1)))).
    { apply rd_pow; [constructor|constructor|intros [l E]; discriminate|intros (n & Hn & E); injection E as <-; lia]. }
    split; [exact H|]. eexists. split; [apply (text_reads_as _ _ H)|]. split; reflexivity.
Qed.
Theorem C69_negative_base_refuted : exists p,
  eval_repr (m_pow (int (-2)) (int 2)) = Ok "-2**2" /\ reads_as "-2**2" p /\
  (forall h, eval_python all_symbols p h = (Ok (OInt (-4)), h)) /\
  forall env, reval env (m_pow (int (-2)) (int 2)) = Some 4%R.
Proof.
  exists (PyNeg (PyBin OpPow (PyInt 2) (PyInt 2))). split; [reflexivity|]. split.
  - exists 6. intros fuel Hf. do 6 (destruct fuel as [|fuel]; [lia|]). reflexivity.
  - split; [reflexivity|]. intros env. apply ProofReal.reval_node. exists [(-2)%R; 2%R]. split; [repeat constructor|].
    change (rpow (-2) (IZR 2) = Some 4%R). rewrite (ProofReal.rpow_int (-2) 2) by (right; lia). f_equal. change (powerRZ (-2) 2) with ((-2) * ((-2) * 1))%R. ring.
Qed.
(** sin(x)**2 + 3*x*y, and a call with an int. *)
Definition e_text := Node [Add; m_pow (call1 sin x) (int 2); Node [Mul; int (-3); x; y]; Node [f; int 1; y]].
Example C69_case :
  readable all_symbols e_text /\ no_folding e_text /\ eval_repr e_text = Ok "(sin(x)**2 + (-3*x*y) + f(1, y))" /\
  exists p, parse_python 40 "(sin(x)**2 + (-3*x*y) + f(1, y))" = Some p /\ forall h, exists e',
    eval_python all_symbols p h = (Ok (OExpr e'), h) /\ bin_expand e_text = Ok e' /\
    e' = m_add (m_add (m_pow (call1 sin x) (int 2)) (m_mul (m_mul (int (-3)) x) y)) (Node [f; int 1; y]).
Proof.
  assert (K : forall s, In s ["x"; "y"; "f"; "sin"] -> python_name s).
  { intros s Hs. repeat (destruct Hs as [<-|Hs]; [split; [split; reflexivity|]; intros Hk; repeat (destruct Hk as [Hk|Hk]; [discriminate|]); exact Hk|]). destruct Hs. }
  assert (Hx : readable all_symbols x) by (apply rd_sym; [apply K; simpl; auto|reflexivity]).
  assert (Hy : readable all_symbols y) by (apply rd_sym; [apply K; simpl; auto|reflexivity]).
  split; [|split; [|split; [vm_compute; reflexivity|]]].
  - apply rd_add; [discriminate|]. repeat apply Forall_cons; [| | |apply Forall_nil].
    + apply rd_pow; [|constructor|intros [l E]; discriminate|intros (n & _ & E); discriminate].
      apply rd_call; [apply K; simpl; auto 6|discriminate|discriminate|discriminate|reflexivity|constructor; [exact Hx|constructor]].
    + apply rd_mul; [discriminate|]. repeat apply Forall_cons; [constructor|exact Hx|exact Hy|apply Forall_nil].
    + apply rd_call; [apply K; simpl; auto 6|discriminate|discriminate|discriminate|reflexivity|constructor; [constructor|constructor; [exact Hy|constructor]]].
  - intros h args Hr Hh.
    assert (A : forall t, ~ (exists n, Integer n = t) -> ~ is_integer t) by (intros t Ht [n E]; apply Ht; exists n; auto).
    apply reach_node_inv in Hr as [E|(a & [<-|[<-|[<-|[]]]] & Hr)].
    + injection E as -> ->. eexists. split; [left; reflexivity|]. intros [n E]. discriminate.
    + apply reach_node_inv in Hr as [E|(a & [<-|[<-|[]]] & Hr)].
      * injection E as -> ->. eexists. split; [left; reflexivity|]. intros [n E]. discriminate.
      * apply reach_node_inv in Hr as [E|(a & [<-|[]] & Hr)]; [injection E as -> ->; destruct Hh as [Hh|[Hh|Hh]]; discriminate|].
        apply reach_leaf in Hr; [discriminate|reflexivity].
      * apply reach_leaf in Hr; [discriminate|reflexivity].
    + apply reach_node_inv in Hr as [E|(a & [<-|[<-|[<-|[]]]] & Hr)]; try (apply reach_leaf in Hr; [discriminate|reflexivity]).
      injection E as -> ->. exists x. split; [right; left; reflexivity|]. intros [n E]. discriminate.
    + apply reach_node_inv in Hr as [E|(a & [<-|[<-|[]]] & Hr)]; try (apply reach_leaf in Hr; [discriminate|reflexivity]).
      injection E as -> ->. destruct Hh as [Hh|[Hh|Hh]]; discriminate.
  - eexists. split; [vm_compute; reflexivity|]. intros h. eexists. split; [vm_compute; reflexivity|]. split; vm_compute; reflexivity.
Qed.
Print Assumptions C69_text_is_python.
Print Assumptions C69_text_rebuilds.
Print Assumptions C69_binary_text_reads_back.
Print Assumptions C69_integers_fold_refuted.
Print Assumptions C69_negative_base_refuted.
