(** * Specification: the real number that an arithmetic expression denotes *)
From Coq Require Import Reals Lra.
From Verif Require Import Py ModelTree ModelCas.

(** Real powers. A positive base has all powers; a negative one only integer powers; zero has only
    non-negative integer powers, with 0^0 = 1. *)
Definition rpow (a b : R) : option R :=
  if Rlt_dec 0 a then Some (Rpower a b)
  else if Req_EM_T b (IZR (Int_part b)) then
    if Req_EM_T a 0 then
      if Z_le_dec 0 (Int_part b) then Some (powerRZ a (Int_part b)) else None
    else Some (powerRZ a (Int_part b))
  else None.

(** The operation that a head stands for. *)
Definition rop (h : tree) (vs : list R) : option R :=
  if tree_eqb h Add then Some (fold_right Rplus 0%R vs)
  else if tree_eqb h Mul then Some (fold_right Rmult 1%R vs)
  else if tree_eqb h Pow then match vs with [a; b] => rpow a b | _ => None end
  else if tree_eqb h sin then match vs with [a] => Some (Rtrigo_def.sin a) | _ => None end
  else if tree_eqb h cos then match vs with [a] => Some (Rtrigo_def.cos a) | _ => None end
  else None.

Section All.
  Context {A B : Type} (f : A -> option B).
  (** The values of all of [l], if all are defined. *)
  Fixpoint all_defined (l : list A) : option (list B) :=
    match l with
    | [] => Some []
    | a :: r => match f a, all_defined r with
                | Some b, Some bs => Some (b :: bs)
                | _, _ => None
                end
    end.
End All.

Definition ratom (env : string -> R) (a : atom) : option R :=
  match atom_value a with
  | VInt z => if atype_eqb (atom_type a) T_Integer then Some (IZR z) else None
  | VStr s => if atype_eqb (atom_type a) T_Symbol then Some (env s) else None
  end.

(** The value of [t] if symbol [s] has value [env s]; None where it is not defined. *)
Fixpoint reval (env : string -> R) (t : tree) : option R :=
  match t with
  | Atm a => ratom env a
  | Node [] => None
  | Node (h :: args) =>
      match all_defined (reval env) args with
      | Some vs => rop h vs
      | None => None
      end
  end.

(** The environment with [s] set to [u]. *)
Definition upd (env : string -> R) (s : string) (u : R) : string -> R :=
  fun s' => if String.eqb s' s then u else env s'.

(** As a function of the symbol [s] around its value in [env], [e] is defined and has derivative [l]. *)
Definition has_derivative (env : string -> R) (e : tree) (s : string) (l : R) : Prop :=
  exists (F : R -> R) (delta : R), (0 < delta)%R /\
    (forall u, (Rabs (u - env s) < delta)%R -> reval (upd env s u) e = Some (F u)) /\
    derivable_pt_lim F (env s) l.
