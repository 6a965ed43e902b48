(** * Specification: arithmetic that cannot overflow *)
From Coq Require Import SpecFloat Reals.
From Verif Require Import Py ModelTree SpecTree ModelEval ModelDiff ModelCas SpecEval SpecLLVM SpecLambdify SpecExact SpecError SpecBound.
Local Open Scope R_scope.

(** Not larger than 2**1000, which is far below the largest double (almost 2**1024). *)
Definition moderate (i : estimated) : Prop := Rabs (fst i) + snd i <= 2 ^ 1000.
(** Every subexpression has an estimate that is moderate, and so have the partial sums and products, from left to right. Only
    the values of the arguments are needed to find out; nothing is said of what is computed. *)
Definition moderate_everywhere (est : tree -> option estimated) (e : tree) : Prop :=
  (forall s, reach false [] e s -> exists i, est s = Some i /\ moderate i) /\
  (forall h args k, h = Add \/ h = Mul -> reach false [] e (Node (h :: args)) -> (k < length args)%nat ->
     exists i, est (Node (h :: firstn (S k) args)) = Some i /\ moderate i).

(** The platform gives a finite result where the mathematical one is defined and moderate. *)
Definition trig_total (returns : spec_float -> spec_float -> Prop) : Prop :=
  forall a, is_double a -> finite a -> exists v, returns a v /\ finite v.
Definition pow_total (returns : spec_float -> spec_float -> spec_float -> Prop) : Prop :=
  forall a b n, is_double a -> finite a -> is_int b n -> (0 <= n)%Z \/ double_value a <> 0 ->
    Rabs (powerRZ (double_value a) n) <= 2 ^ 1000 -> exists v, returns a b v /\ finite v.
Definition total_machine (mc : machine) : Prop :=
  trig_total (fun a v => mc_sin mc a = v) /\ trig_total (fun a v => mc_cos mc a = v) /\ pow_total (fun a b v => mc_pow mc a b = v).
(** Python: float(n) of a moderate integer, math.prod, and math.fsum of moderate terms with moderate partial sums do not raise. *)
Definition total_float (o : float_ops spec_float) : Prop :=
  (forall n, (Z.abs n <= 2 ^ 1000)%Z -> exists v, fl_of_int o n = Ok v) /\
  (forall vs, vs <> [] -> Forall (fun a => is_double a /\ finite a /\ Rabs (double_value a) <= 2 ^ 1000) vs ->
     (forall k, Rabs (sum_of (firstn k vs)) <= 2 ^ 1000) -> exists v, fl_fsum o vs = Ok v) /\
  (forall vs, vs <> [] -> Forall is_double vs -> exists v, fl_prod o vs = Ok v) /\
  trig_total (fun a v => fl_sin o a = Ok v) /\ trig_total (fun a v => fl_cos o a = Ok v) /\ pow_total (fun a b v => fl_pow o a b = Ok v).
