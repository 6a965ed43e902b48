(** * Python fragments used by the model: exceptions as values, dicts, lists.

    Nothing here models /repo itself: these are the built-in operations that the modelled
    code uses. *)
From Coq Require Export String Ascii Arith ZArith Bool Lia List.
Export ListNotations.
Open Scope list_scope.

(** Exception classes that the modelled code can raise. [UserExn n] stands for whatever an
    exception object a user supplied callback raises. [OutOfFuel] is not a Python exception: it
    is the model's marker for a loop that did not finish, and is shown never to occur. *)
Inductive exn : Type :=
| TypeError | KeyError | IndexError | AttributeError | ValueError | OverflowError | StructError
| NoEvaluationRuleError | BadRuleError | ExpressifyError
| LLVMNotImplementedError | NotImplementedErr
| UserExn (n : nat)
| OutOfFuel.

Inductive res (A : Type) : Type :=
| Ok (a : A)
| Err (e : exn).
Arguments Ok {A} a.
Arguments Err {A} e.

Definition bind {A B} (x : res A) (f : A -> res B) : res B :=
  match x with Ok a => f a | Err e => Err e end.
Notation "'do' x <- a ; b" := (bind a (fun x => b))
  (at level 200, x pattern, a at level 100, b at level 200, right associativity).

Definition is_ok {A} (r : res A) : bool := match r with Ok _ => true | Err _ => false end.

(** A list comprehension [[f(x) for x in l]]: left to right, stops at the first exception. *)
Section MapM.
  Context {A B : Type} (f : A -> res B).
  Fixpoint mapM (l : list A) : res (list B) :=
    match l with
    | [] => Ok []
    | x :: r => do y <- f x; do ys <- mapM r; Ok (y :: ys)
    end.
End MapM.

(** A loop [for x in l: acc = f(acc, x)]. *)
Section FoldM.
  Context {A S : Type} (f : S -> A -> res S).
  Fixpoint foldM (l : list A) (s : S) : res S :=
    match l with
    | [] => Ok s
    | x :: r => do s' <- f s x; foldM r s'
    end.
End FoldM.

Definition of_option {A} (e : exn) (o : option A) : res A :=
  match o with Some a => Ok a | None => Err e end.

(** [l[i]] for a non-negative index. *)
Definition getitem {A} (l : list A) (i : nat) : res A := of_option IndexError (nth_error l i).

(** [l[-1]]. *)
Definition last_item {A} (l : list A) : res A :=
  match rev l with [] => Err IndexError | x :: _ => Ok x end.

(** [l.pop()]: the last element and the list without it; [None] on an empty list. *)
Definition pop {A} (l : list A) : option (A * list A) :=
  match rev l with [] => None | x :: r => Some (x, rev r) end.

(** [enumerate(l, start)]. *)
Fixpoint enumerate_from {A} (n : nat) (l : list A) : list (nat * A) :=
  match l with [] => [] | x :: r => (n, x) :: enumerate_from (S n) r end.

(** ** dict: association list in insertion order, with at most one entry per key. *)
Section Dict.
  Context {K V : Type} (eqb : K -> K -> bool).
  Definition dict := list (K * V).
  (** [d.get(k)] *)
  Fixpoint dict_get (d : dict) (k : K) : option V :=
    match d with
    | [] => None
    | (k', v) :: r => if eqb k k' then Some v else dict_get r k
    end.
  (** [d[k] = v]: an existing key keeps its position. *)
  Fixpoint dict_set (d : dict) (k : K) (v : V) : dict :=
    match d with
    | [] => [(k, v)]
    | (k', v') :: r => if eqb k k' then (k', v) :: r else (k', v') :: dict_set r k v
    end.
  (** [d[k]], raising KeyError. *)
  Definition dict_getitem (d : dict) (k : K) : res V := of_option KeyError (dict_get d k).
  (** [k in d] *)
  Definition dict_mem (d : dict) (k : K) : bool :=
    match dict_get d k with Some _ => true | None => false end.
  (** [d.update(pairs)], and [dict(pairs)] with [d = []]. *)
  Definition dict_update (d : dict) (pairs : list (K * V)) : dict :=
    fold_left (fun acc kv => dict_set acc (fst kv) (snd kv)) pairs d.
End Dict.
Arguments dict : clear implicits.

(** [sep.join(l)] *)
Fixpoint join (sep : string) (l : list string) : string :=
  match l with
  | [] => EmptyString
  | [x] => x
  | x :: r => (x ++ sep ++ join sep r)%string
  end.
