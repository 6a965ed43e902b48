(** * C119: the derivatives of powers, of every order. *)
From Coq Require Import Reals Lra Lia.
From Coquelicot Require Import Hierarchy Derive ElemFct.
From Verif Require Import Py ModelTree SpecTree ProofBase ModelDiff SpecDiff ProofDiff ModelSym ModelCas SpecCas
  ProofCasDiff SpecReal ProofReal PropsReal PropsTaylor SpecPowers Samples.
Local Open Scope R_scope.

Fixpoint expo (n : Z) (j : nat) : tree := match j with O => Integer n | S j => Node [Add; expo n j; negone] end.
Fixpoint tower (s : string) (n : Z) (j k : nat) : tree := match k with O => Node [Pow; Symbol s; expo n j] | S k => Node [Mul; expo n j; tower s n (S j) k] end.
Lemma expo_deriv s n j : deriv cas_diff (Symbol s) (expo n j) = Ok zero.
Proof. induction j as [|j IH]; [reflexivity|]. cbn [expo]. rewrite D_add. cbn [mapM]. rewrite IH. reflexivity. Qed.
Lemma tower_deriv s n k : forall j, deriv cas_diff (Symbol s) (tower s n j k) = Ok (tower s n j (S k)).
Proof.
  induction k as [|k IH]; intros j.
  - cbn [tower]. rewrite D_pow, expo_deriv, sym_D, String.eqb_refl. reflexivity.
  - change (tower s n j (S k)) with (Node [Mul; expo n j; tower s n (S j) k]). rewrite D_mul. cbn [mapM]. rewrite expo_deriv, IH. reflexivity.
Qed.
Lemma tower_diff s n k : expr_diff (m_pow (Symbol s) (Integer n)) (Symbol s) (Z.of_nat k) = Ok (tower s n 0 k).
Proof.
  unfold expr_diff. rewrite Nat2Z.id. change (m_pow (Symbol s) (Integer n)) with (tower s n 0 0).
  assert (H : forall m i, repeatM (fun d => sym_diff_call cas_diff d (Symbol s) 1) m (tower s n 0 i) = Ok (tower s n 0 (m + i))).
  { induction m as [|m IH]; intros i; [reflexivity|]. cbn [repeatM]. rewrite sym_diff_call_one.
    rewrite (proj2 (diff_forward_deriv cas_diff (Symbol s) (tower s n 0 i) (tower s n 0 (S i))) (tower_deriv s n i 0)). cbn [bind]. rewrite IH. f_equal. f_equal. lia. }
  rewrite H. f_equal. f_equal. lia.
Qed.
Lemma expo_value env n j : reval env (expo n j) = Some (IZR (n - Z.of_nat j)).
Proof.
  induction j as [|j IH]; [cbn [expo]; change (reval env (Integer n)) with (Some (IZR n)); f_equal; f_equal; lia|]. cbn [expo].
  change (reval env (Node [Add; expo n j; negone])) with (match all_defined (reval env) [expo n j; negone] with Some vs => rop Add vs | None => None end).
  cbn [all_defined]. rewrite IH. change (reval env negone) with (Some (IZR (-1))). cbn. f_equal. rewrite Rplus_0_r. change (-1) with (IZR (-1)). rewrite <- plus_IZR. f_equal. lia.
Qed.
Lemma rpow_value u m : rpow u (IZR m) = if Req_EM_T u 0 then if Z_lt_dec m 0 then None else Some (powerRZ 0 m) else Some (powerRZ u m).
Proof.
  destruct (Req_EM_T u 0) as [->|Hu].
  - unfold rpow. destruct (Rlt_dec 0 0) as [H|_]; [lra|]. rewrite Int_part_IZR. destruct (Req_EM_T (IZR m) (IZR m)) as [_|H]; [|contradiction].
    destruct (Req_EM_T 0 0) as [_|H]; [|contradiction]. destruct (Z_le_dec 0 m), (Z_lt_dec m 0); try lia; reflexivity.
  - unfold rpow. destruct (Rlt_dec 0 u) as [H|H].
    + f_equal. symmetry. apply powerRZ_Rpower, H.
    + rewrite Int_part_IZR. destruct (Req_EM_T (IZR m) (IZR m)) as [_|H']; [|contradiction]. destruct (Req_EM_T u 0); [contradiction|reflexivity].
Qed.
Lemma tower_value env s n u k : forall j, reval (upd env s u) (tower s n j k) = power_derivative (n - Z.of_nat j) k u.
Proof.
  induction k as [|k IH]; intros j.
  - cbn [tower]. change (reval (upd env s u) (Node [Pow; Symbol s; expo n j])) with (match all_defined (reval (upd env s u)) [Symbol s; expo n j] with Some vs => rop Pow vs | None => None end).
    cbn [all_defined]. rewrite expo_value. change (reval (upd env s u) (Symbol s)) with (Some (upd env s u s)). unfold upd. rewrite String.eqb_refl.
    change (rop Pow [u; IZR (n - Z.of_nat j)]) with (rpow u (IZR (n - Z.of_nat j))). rewrite rpow_value. unfold power_derivative. cbn [falling Z.of_nat].
    destruct (Req_EM_T u 0); [destruct (Z_lt_dec (n - Z.of_nat j) 0); [reflexivity|]|]; rewrite Rmult_1_l, Z.sub_0_r; reflexivity.
  - change (tower s n j (S k)) with (Node [Mul; expo n j; tower s n (S j) k]).
    change (reval (upd env s u) (Node [Mul; expo n j; tower s n (S j) k])) with (match all_defined (reval (upd env s u)) [expo n j; tower s n (S j) k] with Some vs => rop Mul vs | None => None end).
    cbn [all_defined]. rewrite expo_value, IH. unfold power_derivative. cbn [falling].
    replace (n - Z.of_nat (S j))%Z with (n - Z.of_nat j - 1)%Z by lia. replace (n - Z.of_nat j - 1 - Z.of_nat k)%Z with (n - Z.of_nat j - Z.of_nat (S k))%Z by lia.
    destruct (Req_EM_T u 0).
    + destruct (Z_lt_dec (n - Z.of_nat j - 1) (Z.of_nat k)), (Z_lt_dec (n - Z.of_nat j) (Z.of_nat (S k))); try lia; [reflexivity|].
      change (rop Mul [?a; ?b]) with (Some (a * (b * 1))). f_equal. rewrite mult_IZR. ring.
    + match goal with |- rop Mul [?a; ?b] = _ => change (rop Mul [a; b]) with (Some (a * (b * 1))) end. f_equal. rewrite mult_IZR. ring.
Qed.

(** C119. Every derivative of s**n exists, and has this value. *)
Theorem C119_powers s n k env u : exists d, expr_diff (m_pow (Symbol s) (Integer n)) (Symbol s) (Z.of_nat k) = Ok d /\
  reval (upd env s u) d = power_derivative n k u.
Proof. exists (tower s n 0 k). split; [apply tower_diff|]. rewrite tower_value. f_equal. lia. Qed.

Lemma falling_zero n : forall k, (n < k)%nat -> falling (Z.of_nat n) k = 0%Z.
Proof.
  induction n as [|n IH]; intros [|k] H; try lia; cbn [falling]; [reflexivity|]. replace (Z.of_nat (S n) - 1)%Z with (Z.of_nat n) by lia. rewrite IH by lia. lia.
Qed.
(** Finding: the derivatives of s**n of higher order than n are zero, but at s = 0 they cannot be evaluated. *)
Theorem C119_beyond_refuted s n k env : (n < k)%nat -> exists d, expr_diff (m_pow (Symbol s) (Integer (Z.of_nat n))) (Symbol s) (Z.of_nat k) = Ok d /\
  is_derive_n (function_of env s (m_pow (Symbol s) (Integer (Z.of_nat n)))) k 0 0 /\ reval (upd env s 0) d = None /\ forall u, u <> 0 -> reval (upd env s u) d = Some 0.
Proof.
  intros Hk. exists (tower s (Z.of_nat n) 0 k). split; [apply tower_diff|]. split; [|split].
  - apply (is_derive_n_ext (fun u => u ^ n)); [|apply is_derive_n_pow_bigi, Hk].
    intros u. unfold function_of. change (m_pow (Symbol s) (Integer (Z.of_nat n))) with (tower s (Z.of_nat n) 0 0). rewrite tower_value. unfold power_derivative. cbn [falling].
    replace (Z.of_nat n - Z.of_nat 0 - Z.of_nat 0)%Z with (Z.of_nat n) by lia. rewrite <- pow_powerRZ, <- pow_powerRZ.
    destruct (Req_EM_T u 0) as [->|]; [destruct (Z_lt_dec (Z.of_nat n - Z.of_nat 0) (Z.of_nat 0)); [lia|]|]; rewrite Rmult_1_l; reflexivity.
  - rewrite tower_value. unfold power_derivative. destruct (Req_EM_T 0 0); [|contradiction]. destruct (Z_lt_dec _ _); [reflexivity|lia].
  - intros u Hu. rewrite tower_value. unfold power_derivative. destruct (Req_EM_T u 0); [contradiction|]. replace (Z.of_nat n - Z.of_nat 0)%Z with (Z.of_nat n) by lia. rewrite falling_zero by exact Hk. f_equal. ring.
Qed.
(** The exact arithmetic of small whole numbers in place of doubles, which have it too; math.pow(0.0, -1.0) raises ValueError, as every power of 0.0 with a negative exponent. *)
Definition whole_floats : float_ops Z := mkFloat Z (fun z => Ok z) (fun l => Ok (fold_right Z.add 0 l)%Z) (fun l => Ok (fold_right Z.mul 1 l)%Z)
  (fun a b => if (b <? 0)%Z then if (a =? 0)%Z then Err ValueError else if (Z.abs a =? 1)%Z then Ok (a ^ (- b))%Z else Err OverflowError else Ok (a ^ b)%Z) (fun _ => Err ValueError) (fun _ => Err ValueError).
(** (x**2).diff(x, 3) is 0 at x = 1, and raises ValueError at x = 0, where (x**2).diff(x, 2) is 2. *)
Theorem C119_eval_refuted : exists d d', expr_diff (m_pow x (int 2)) x 2 = Ok d /\ expr_diff (m_pow x (int 2)) x 3 = Ok d' /\
  eval_f64 whole_floats d (Some [(x, 0%Z)]) = Ok 2%Z /\ eval_f64 whole_floats d' (Some [(x, 1%Z)]) = Ok 0%Z /\ eval_f64 whole_floats d' (Some [(x, 0%Z)]) = Err ValueError.
Proof. do 2 eexists. repeat split; vm_compute; reflexivity. Qed.
