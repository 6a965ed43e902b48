(** * C89: printing expressions with very long integers *)
From Verif Require Import Py ModelTree SpecTree ModelCas SpecPrint ModelRepr ModelDigits SpecDigits ProofDigits Samples.
Local Open Scope string_scope.

(** C89. With CPython's limit on the digits of printed ints, str, LaTeX and raw repr are unchanged for expressions all
    of whose ints have at most that many digits; otherwise they raise ValueError, or what they raise without limit or
    both (never do they return a text). *)
Theorem C89_str limit e :
  (fits limit e -> eval_repr_lim limit e = eval_repr e) /\
  (~ fits limit e -> match eval_repr e with Ok _ => eval_repr_lim limit e = Err ValueError | Err _ => exists x, eval_repr_lim limit e = Err x end).
Proof. apply limited_spec, eval_repr_lim_limited. Qed.
Theorem C89_latex limit e :
  (fits limit e -> eval_latex_lim limit e = eval_latex e) /\
  (~ fits limit e -> match eval_latex e with Ok _ => eval_latex_lim limit e = Err ValueError | Err _ => exists x, eval_latex_lim limit e = Err x end).
Proof. apply limited_spec, eval_latex_lim_limited. Qed.
Theorem C89_repr limit e :
  (fits limit e -> tree_repr_lim limit e = tree_repr e) /\
  (~ fits limit e -> match tree_repr e with Ok _ => tree_repr_lim limit e = Err ValueError | Err _ => exists x, tree_repr_lim limit e = Err x end).
Proof. apply limited_spec, tree_repr_lim_limited. Qed.

(** x**10**639 can be printed with the limit 640 (the smallest that CPython accepts), x**10**640 cannot. *)
Example C89_case :
  fits 640 (m_pow x (int (10 ^ 639))) /\ ~ fits 640 (m_pow x (int (10 ^ 640))) /\
  eval_repr_lim 640 (m_pow x (int (10 ^ 640))) = Err ValueError /\
  eval_repr_lim 0 (m_pow x (int (10 ^ 640))) = eval_repr (m_pow x (int (10 ^ 640))).
Proof.
  split; [apply fitb_spec; vm_compute; reflexivity|]. split; [|split].
  - rewrite <- fitb_spec. vm_compute. discriminate.
  - vm_compute. reflexivity.
  - apply C89_str. left. reflexivity.
Qed.
Print Assumptions C89_str.
Print Assumptions C89_latex.
Print Assumptions C89_repr.
