(** * Specification of lambdify and of the generated code: values, names, doubles *)
From Coq Require Import SpecFloat Reals.
From Verif Require Import Py ModelTree SpecTree ModelDiff ModelCas SpecEval SpecLLVM.
Local Open Scope string_scope.

(** ** Doubles *)
(** The real number that a finite double stands for. *)
Definition double_value (f : spec_float) : R :=
  match f with
  | S754_finite s m e => (if s then - (IZR (Zpos m) * powerRZ 2 e) else IZR (Zpos m) * powerRZ 2 e)%R
  | _ => 0%R
  end.
(** IEEE 754 binary64: a significand of 53 bits, or less with the least exponent. *)
Definition is_double (f : spec_float) : Prop :=
  match f with
  | S754_finite _ m e =>
      (Zpos m < 2 ^ 53 /\ -1074 <= e <= 971 /\ (e = -1074 \/ 2 ^ 52 <= Zpos m))%Z
  | _ => True
  end.
Definition finite (f : spec_float) : Prop :=
  match f with S754_zero _ | S754_finite _ _ _ => True | _ => False end.
(** [f] is the double nearest to [x]; of two that are equally near, the one with the even significand. *)
Definition even_double (f : spec_float) : Prop :=
  match f with S754_finite _ m _ => Z.even (Zpos m) = true | _ => True end.
Definition nearest (x : R) (f : spec_float) : Prop :=
  is_double f /\ finite f /\
  (forall g, is_double g -> finite g -> Rabs (double_value f - x) <= Rabs (double_value g - x))%R /\
  (forall g, is_double g -> finite g -> Rabs (double_value f - x) = Rabs (double_value g - x) ->
     double_value f = double_value g \/ even_double f)%R.

(** ** The value of an expression, computed with the operations of a machine *)
(** The double of an integer constant; None if it is out of range. *)
Definition constant (n : Z) : option spec_float :=
  match binary_normalize 53 1024 n 0 false with
  | S754_infinity _ | S754_nan => None
  | f => Some f
  end.
(** The value given to the argument [t]. *)
Fixpoint argument (symargs : list tree) (vals : list spec_float) (t : tree) : option spec_float :=
  match symargs, vals with
  | s :: ss, v :: vs => if tree_eqb t s then Some v else argument ss vs t
  | _, _ => None
  end.
Definition machine_leaf (symargs : list tree) (vals : list spec_float) (t : tree) : option spec_float :=
  match t with
  | Atm a =>
      match argument symargs vals t with
      | Some v => Some v
      | None => match a with
                | mkAtom ty (VInt n) => if atype_eqb ty T_Integer then constant n else None
                | _ => None
                end
      end
  | Node _ => None
  end.
(** Sums and products from left to right; surplus arguments of the others are ignored. *)
Definition machine_op (mc : machine) (h : tree) (vs : list spec_float) : option spec_float :=
  if tree_eqb h Add then match vs with v :: r => Some (fold_left (mc_add mc) r v) | [] => None end
  else if tree_eqb h Mul then match vs with v :: r => Some (fold_left (mc_mul mc) r v) | [] => None end
  else if tree_eqb h Pow then match vs with a :: b :: _ => Some (mc_pow mc a b) | _ => None end
  else if tree_eqb h sin then match vs with a :: _ => Some (mc_sin mc a) | _ => None end
  else if tree_eqb h cos then match vs with a :: _ => Some (mc_cos mc a) | _ => None end
  else None.
Section OptMap.
  Context {A B : Type} (f : A -> option B).
  Fixpoint opt_map (l : list A) : option (list B) :=
    match l with
    | [] => Some []
    | a :: r => match f a, opt_map r with Some b, Some bs => Some (b :: bs) | _, _ => None end
    end.
End OptMap.
Fixpoint machine_value (mc : machine) (symargs : list tree) (vals : list spec_float) (t : tree) : option spec_float :=
  match t with
  | Atm _ | Node [] => machine_leaf symargs vals t
  | Node (h :: args) =>
      match opt_map (machine_value mc symargs vals) args with
      | Some vs => machine_op mc h vs
      | None => None
      end
  end.

(** ** Names *)
Fixpoint str_forall (p : ascii -> bool) (s : string) : bool :=
  match s with EmptyString => true | String c r => p c && str_forall p r end.
(** Not a quote, a backslash or NUL. *)
Definition plain_char (c : ascii) : bool := negb (is_quote c || Ascii.eqb c "\"%char || Ascii.eqb c Ascii.zero).
Definition legal (s : string) : Prop := s <> "" /\ str_forall plain_char s = true.
(** The arguments have distinct and legal names, none of which is .0, .1, .2, ... *)
Definition good_names (symargs : list tree) : Prop :=
  exists names, mapM tree_str symargs = Ok names /\ NoDup names /\ Forall legal names /\
    forall k, ~ In ("." ++ str_int (Z.of_nat k)) names.

(** ** Python's primitives and the machine's *)
(** Whenever a primitive used by eval_f64 returns, it returns what the machine computes. For sums, only of two
    terms; math.prod multiplies from left to right. *)
Definition agrees (o : float_ops spec_float) (mc : machine) : Prop :=
  (forall n v, fl_of_int o n = Ok v -> constant n = Some v) /\
  (forall a b v, fl_fsum o [a; b] = Ok v -> v = mc_add mc a b) /\
  (forall a r v, fl_prod o (a :: r) = Ok v -> v = fold_left (mc_mul mc) r a) /\
  (forall a b v, fl_pow o a b = Ok v -> v = mc_pow mc a b) /\
  (forall a v, fl_sin o a = Ok v -> v = mc_sin mc a) /\
  (forall a v, fl_cos o a = Ok v -> v = mc_cos mc a).
(** All sums in [e] have two terms, all products at least one factor. *)
Definition two_terms (e : tree) : Prop := forall args,
  (reach false [] e (Node (Add :: args)) -> length args = 2) /\
  (reach false [] e (Node (Mul :: args)) -> args <> []).

(** math.fsum is correctly rounded. *)
Definition sum_of (vs : list spec_float) : R := fold_right Rplus 0%R (map double_value vs).
Definition fsum_rounds (o : float_ops spec_float) : Prop := forall vs v,
  (forall a, In a vs -> is_double a /\ finite a) -> fl_fsum o vs = Ok v -> nearest (sum_of vs) v.
(** Addition of the machine is that of IEEE 754. *)
Definition ieee_add (mc : machine) : Prop := forall a b, mc_add mc a b = SFadd 53 1024 a b.
