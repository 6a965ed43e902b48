(** * Specification: error bounds with sin, cos and integer powers *)
From Coq Require Import SpecFloat Reals.
From Verif Require Import Py ModelTree SpecTree ModelEval ModelDiff ModelCas SpecEval SpecLLVM SpecLambdify SpecExact SpecError.
Local Open Scope R_scope.

(** ** The platform *)
(** sin and cos have an absolute error of at most [trig_error], pow a relative one of at most [pow_relative] and, where it
    underflows, an absolute one of at most [pow_absolute]. *)
Record accuracy := mkAccuracy { trig_error : R; pow_relative : R; pow_absolute : R }.
(** [returns a v]: called with [a], the function returns [v]. It hides no infinity or nan. *)
Definition trig_accurate (acc : accuracy) (f : R -> R) (returns : spec_float -> spec_float -> Prop) : Prop :=
  forall a v, is_double a -> returns a v -> is_double v /\
    (finite v -> finite a /\ Rabs (double_value v - f (double_value a)) <= trig_error acc).
(** Required only of integer exponents [n]. A zeroth power may have any base, even nan, and a negative power of infinity may be finite. *)
Definition pow_accurate (acc : accuracy) (returns : spec_float -> spec_float -> spec_float -> Prop) : Prop :=
  0 <= pow_relative acc /\ forall a b n v, is_double a -> is_int b n -> returns a b v -> is_double v /\
    (finite v -> ((0 < n)%Z -> finite a) /\
      (n = 0%Z \/ finite a -> (0 <= n)%Z \/ double_value a <> 0 ->
         Rabs (double_value v - powerRZ (double_value a) n) <= pow_relative acc * Rabs (powerRZ (double_value a) n) + pow_absolute acc)).
Definition accurate_machine (acc : accuracy) (mc : machine) : Prop :=
  trig_accurate acc Rtrigo_def.sin (fun a v => mc_sin mc a = v) /\ trig_accurate acc Rtrigo_def.cos (fun a v => mc_cos mc a = v) /\
  pow_accurate acc (fun a b v => mc_pow mc a b = v).
Definition accurate_float (acc : accuracy) (o : float_ops spec_float) : Prop :=
  trig_accurate acc Rtrigo_def.sin (fun a v => fl_sin o a = Ok v) /\ trig_accurate acc Rtrigo_def.cos (fun a v => fl_cos o a = Ok v) /\
  pow_accurate acc (fun a b v => fl_pow o a b = Ok v).

(** ** Estimates *)
(** A number and a bound of the error of the double computed for it. *)
Definition estimated : Type := R * R.
(** Half of the least double: what a product that underflows can lose. *)
Definition half_least : R := / 2 ^ 1075.
(** One addition, and a sum from left to right. *)
Definition add_estimate (i j : estimated) : estimated :=
  let d := snd i + snd j in (fst i + fst j, d + unit_roundoff * (Rabs (fst i + fst j) + d)).
(** A sum that is rounded once (math.fsum). *)
Definition fsum_estimate (l : list estimated) : estimated :=
  let r := fold_right Rplus 0 (map fst l) in let d := fold_right Rplus 0 (map snd l) in (r, d + unit_roundoff * (Rabs r + d)).
(** One multiplication. *)
Definition mul_estimate (i j : estimated) : estimated :=
  (fst i * fst j, (Rabs (fst i) + snd i) * (Rabs (fst j) + snd j) * (1 + unit_roundoff) - Rabs (fst i * fst j) + half_least).
(** The [n]-th power. A base with a negative exponent must be certainly not 0. *)
Definition pow_estimate (acc : accuracy) (i : estimated) (n : Z) : option estimated :=
  let bound b := (1 + pow_relative acc) * powerRZ b n - Rabs (powerRZ (fst i) n) + pow_absolute acc in
  if (0 <=? n)%Z then Some (powerRZ (fst i) n, bound (Rabs (fst i) + snd i))
  else if Rlt_dec (Rabs (snd i)) (Rabs (fst i)) then Some (powerRZ (fst i) n, bound (Rabs (fst i) - snd i))
  else None.

(** The value of an expression, and how far the computed double may be from it. [sum] is the rule for sums. An exponent is an
    integer, or a sum or product of integers. *)
Section Estimate.
  Context (acc : accuracy) (sum : estimated -> list estimated -> estimated) (names : list string) (xs : list R).
  Fixpoint estimate (t : tree) : option estimated :=
    match t with
    | Atm a =>
        match real_argument (map Symbol names) xs t with
        | Some x => Some (x, 0)
        | None => match a with
            | mkAtom ty (VInt n) => if atype_eqb ty T_Integer then Some (IZR n, if (Z.abs n <=? 2 ^ 53)%Z then 0 else unit_roundoff * Rabs (IZR n)) else None
            | _ => None end
        end
    | Node [] => None
    | Node (h :: args) =>
        if tree_eqb h Pow then
          match args with
          | [b; x] => match estimate b, int_value [] [] x with Some i, Some n => pow_estimate acc i n | _, _ => None end
          | _ => None
          end
        else
          match opt_map estimate args with
          | Some (i :: r) =>
              if tree_eqb h Add then Some (sum i r)
              else if tree_eqb h Mul then Some (fold_left mul_estimate r i)
              else match r with
                | [] => if tree_eqb h sin then Some (Rtrigo_def.sin (fst i), snd i + trig_error acc)
                        else if tree_eqb h cos then Some (Rtrigo_def.cos (fst i), snd i + trig_error acc) else None
                | _ => None
                end
          | _ => None
          end
    end.
End Estimate.
(** For lambdify and for eval_f64. *)
Definition code_estimate (acc : accuracy) : list string -> list R -> tree -> option estimated := estimate acc (fun i r => fold_left add_estimate r i).
Definition eval_estimate (acc : accuracy) : list string -> list R -> tree -> option estimated := estimate acc (fun i r => fsum_estimate (i :: r)).

(** Every exponent that is a sum or product is computed without exceeding 2**53. *)
Definition exponents_fit (e : tree) : Prop := forall b x, reach false [] e (Node [Pow; b; x]) -> fits [] [] x.
(** The computed bases of negative powers are finite. *)
Definition bases_finite (value : tree -> option spec_float) (e : tree) : Prop := forall b x n w,
  reach false [] e (Node [Pow; b; x]) -> int_value [] [] x = Some n -> (n < 0)%Z -> value b = Some w -> finite w.
