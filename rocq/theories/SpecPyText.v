(** * Specification: reading a text as a Python expression, and evaluating it

    This is the part of the language (Python reference, sections 2 and 6) with names, decimal integers, the
    operators + - * / ** with unary minus, parentheses and calls with positional arguments. Anything else is not
    read (None). *)
From Verif Require Import Py ModelTree ModelCas ModelMatrix SpecTree SpecPrint ModelApi.
Local Open Scope string_scope.

(** ** Tokens *)
Inductive token := TName (s : string) | TInt (n : Z) | TPlus | TMinus | TStar | TSlash | TPow | TLpar | TRpar | TComma.
Definition keywords : list string :=
  ["False"; "None"; "True"; "and"; "as"; "assert"; "async"; "await"; "break"; "class"; "continue"; "def"; "del";
   "elif"; "else"; "except"; "finally"; "for"; "from"; "global"; "if"; "import"; "in"; "is"; "lambda"; "nonlocal";
   "not"; "or"; "pass"; "raise"; "return"; "try"; "while"; "with"; "yield"].
Definition word_char (c : ascii) : bool := is_alpha c || is_digit c.
(** The value of a string of decimal digits. *)
Fixpoint digits_value (acc : Z) (s : string) : Z :=
  match s with
  | EmptyString => acc
  | String c r => digits_value (10 * acc + (Z.of_nat (nat_of_ascii c) - 48)) r
  end.
(** A maximal run of letters, digits and underscores: a name, or a number without leading zeros. *)
Definition word (w : string) : option token :=
  match w with
  | EmptyString => None
  | String c r =>
      if is_alpha c then if existsb (String.eqb w) keywords then None else Some (TName w)
      else if all_chars is_digit w && negb (Ascii.eqb c "0" && negb (String.eqb r "")) then Some (TInt (digits_value 0 w))
      else None
  end.
Definition push (t : option token) (ts : option (list token)) : option (list token) :=
  match t, ts with Some a, Some l => Some (a :: l) | _, _ => None end.
(** [w] is the part read so far of the current word, empty between words. *)
Definition flush (w : string) (ts : option (list token)) : option (list token) :=
  match w with EmptyString => ts | _ => push (word w) ts end.
Fixpoint tokens (w s : string) : option (list token) :=
  match s with
  | EmptyString => flush w (Some [])
  | String c r =>
      if word_char c then tokens (w ++ String c EmptyString) r
      else flush w
        (if Ascii.eqb c " " then tokens "" r
         else if Ascii.eqb c "+" then push (Some TPlus) (tokens "" r)
         else if Ascii.eqb c "-" then push (Some TMinus) (tokens "" r)
         else if Ascii.eqb c "(" then push (Some TLpar) (tokens "" r)
         else if Ascii.eqb c ")" then push (Some TRpar) (tokens "" r)
         else if Ascii.eqb c "/" then
           match r with
           | String "/" _ => None
           | _ => push (Some TSlash) (tokens "" r)
           end
         else if Ascii.eqb c "," then push (Some TComma) (tokens "" r)
         else if Ascii.eqb c "*" then
           match r with
           | String c' r' => if Ascii.eqb c' "*" then push (Some TPow) (tokens "" r') else push (Some TStar) (tokens "" r)
           | EmptyString => push (Some TStar) (tokens "" r)
           end
         else None)
  end.

(** ** Syntax trees *)
Inductive pyexpr :=
| PyName (s : string)
| PyInt (n : Z)
| PyNeg (a : pyexpr)
| PyBin (op : operator) (a b : pyexpr)
| PyCall (f : pyexpr) (args : list pyexpr).

(** The grammar, each rule with the Python function that reads it. The functions return what is left.
      sum:     sum '+' term | sum '-' term | term
      term:    term '*' factor | term '/' factor | factor
      factor:  '-' factor | power
      power:   primary '**' factor | primary
      primary: primary '(' [args] ')' | atom
      atom:    NAME | NUMBER | '(' sum ')'
      args:    sum (',' sum)*                                                                        *)
Definition parser := list token -> option (pyexpr * list token).
Section Parse.
  (** [sum] is the reader of the rule sum for parts in parentheses. *)
  Context (sum : parser).
  Definition atom_ : parser := fun ts =>
    match ts with
    | TName s :: r => Some (PyName s, r)
    | TInt n :: r => Some (PyInt n, r)
    | TLpar :: r => match sum r with Some (a, TRpar :: r') => Some (a, r') | _ => None end
    | _ => None
    end.
  (** After at least one argument. *)
  Fixpoint more_args (fuel : nat) (acc : list pyexpr) (ts : list token) : option (list pyexpr * list token) :=
    match fuel with
    | O => None
    | S k => match ts with
             | TRpar :: r => Some (acc, r)
             | TComma :: r => match sum r with Some (a, r') => more_args k (acc ++ [a]) r' | None => None end
             | _ => None
             end
    end.
  Definition args_ (fuel : nat) (ts : list token) : option (list pyexpr * list token) :=
    match ts with
    | TRpar :: r => Some ([], r)
    | _ => match sum ts with Some (a, r) => more_args fuel [a] r | None => None end
    end.
  Fixpoint calls (fuel : nat) (f : pyexpr) (ts : list token) : option (pyexpr * list token) :=
    match fuel with
    | O => None
    | S k => match ts with
             | TLpar :: r => match args_ k r with Some (l, r') => calls k (PyCall f l) r' | None => None end
             | _ => Some (f, ts)
             end
    end.
  Definition primary (fuel : nat) : parser := fun ts =>
    match atom_ ts with Some (a, r) => calls fuel a r | None => None end.
  Fixpoint factor (fuel : nat) (ts : list token) : option (pyexpr * list token) :=
    match fuel with
    | O => None
    | S k => match ts with
             | TMinus :: r => match factor k r with Some (a, r') => Some (PyNeg a, r') | None => None end
             | _ => match primary k ts with
                    | Some (a, TPow :: r) => match factor k r with Some (b, r') => Some (PyBin OpPow a b, r') | None => None end
                    | o => o
                    end
             end
    end.
  Fixpoint factors (fuel : nat) (acc : pyexpr) (ts : list token) : option (pyexpr * list token) :=
    match fuel with
    | O => None
    | S k => match ts with
             | TStar :: r => match factor k r with Some (b, r') => factors k (PyBin OpMul acc b) r' | None => None end
             | TSlash :: r => match factor k r with Some (b, r') => factors k (PyBin OpDiv acc b) r' | None => None end
             | _ => Some (acc, ts)
             end
    end.
  Definition term (fuel : nat) : parser := fun ts =>
    match factor fuel ts with Some (a, r) => factors fuel a r | None => None end.
  Fixpoint terms (fuel : nat) (acc : pyexpr) (ts : list token) : option (pyexpr * list token) :=
    match fuel with
    | O => None
    | S k => match ts with
             | TPlus :: r => match term k r with Some (b, r') => terms k (PyBin OpAdd acc b) r' | None => None end
             | TMinus :: r => match term k r with Some (b, r') => terms k (PyBin OpSub acc b) r' | None => None end
             | _ => Some (acc, ts)
             end
    end.
End Parse.
Fixpoint sum_ (fuel : nat) (ts : list token) : option (pyexpr * list token) :=
  match fuel with
  | O => None
  | S k => match term (sum_ k) k ts with Some (a, r) => terms (sum_ k) k a r | None => None end
  end.
(** [fuel] bounds the recursion of the reader: a text reads as [p] if it does with all large bounds. *)
Definition parse_python (fuel : nat) (s : string) : option pyexpr :=
  match tokens "" s with
  | Some ts => match sum_ fuel ts with Some (p, []) => Some p | _ => None end
  | None => None
  end.
Definition reads_as (s : string) (p : pyexpr) : Prop :=
  exists k, forall fuel, k <= fuel -> parse_python fuel s = Some p.
Lemma reads_as_unique s p q : reads_as s p -> reads_as s q -> p = q.
Proof.
  intros [k Hk] [j Hj]. pose proof (Hk (max k j) (Nat.le_max_l _ _)) as A.
  rewrite (Hj (max k j) (Nat.le_max_r _ _)) in A. injection A as <-. reflexivity.
Qed.

(** ** Evaluation in a namespace *)
Definition int_of (o : obj) : option Z :=
  match o with OInt z => Some z | OBool b => Some (if b then 1 else 0)%Z | _ => None end.
(** Python's own numbers: [OOther] stands for a float. [UserExn 0] is ZeroDivisionError. *)
Definition int_binop (op : operator) (a b : Z) : res obj :=
  match op with
  | OpAdd => Ok (OInt (a + b))
  | OpSub => Ok (OInt (a - b))
  | OpMul => Ok (OInt (a * b))
  | OpDiv => if (b =? 0)%Z then Err (UserExn 0) else Ok OOther
  | OpPow => if (b <? 0)%Z then if (a =? 0)%Z then Err (UserExn 0) else Ok OOther else Ok (OInt (a ^ b))
  end.
Definition ours (o : obj) : bool := match o with OExpr _ | OMatrix _ => true | _ => false end.
Definition eval_binop (op : operator) (l r : obj) : hm obj :=
  if ours l || ours r then py_binop op l r
  else match int_of l, int_of r with
       | Some a, Some b => hlift (int_binop op a b)
       | _, _ => hret OOther
       end.
Definition eval_neg (o : obj) : hm obj :=
  match o with
  | OExpr t => hret (OExpr (expr_neg t))
  | OMatrix _ => hraise TypeError
  | OOther => hret OOther
  | OInt z => hret (OInt (- z))
  | OBool b => hret (OInt (if b then -1 else 0))
  end.
Definition eval_call (f : obj) (args : list obj) : hm obj :=
  match f with
  | OExpr t => let! r <- hlift (expr_call t (map as_operand args)); hret (OExpr r)
  | _ => hraise TypeError
  end.
Section MapH.
  Context {A B : Type} (f : A -> hm B).
  Fixpoint hmapM (l : list A) : hm (list B) :=
    match l with
    | [] => hret []
    | x :: r => let! y <- f x; let! ys <- hmapM r; hret (y :: ys)
    end.
End MapH.
(** [UserExn 1] is NameError. *)
Fixpoint eval_python (ns : string -> option obj) (p : pyexpr) : hm obj :=
  match p with
  | PyName s => match ns s with Some o => hret o | None => hraise (UserExn 1) end
  | PyInt n => hret (OInt n)
  | PyNeg a => let! o <- eval_python ns a; eval_neg o
  | PyBin op a b => let! l <- eval_python ns a; let! r <- eval_python ns b; eval_binop op l r
  | PyCall f args => let! o <- eval_python ns f; let! l <- hmapM (eval_python ns) args; eval_call o l
  end.

(** ** Expressions whose text is read back in the namespace [ns] *)
Definition is_integer (t : tree) : Prop := exists n, t = Integer n.
Definition negative (t : tree) : Prop := exists n, (n < 0)%Z /\ t = Integer n.
Definition python_name (s : string) : Prop := identifier s /\ ~ In s keywords.
Inductive readable (ns : string -> option obj) : tree -> Prop :=
| rd_int n : readable ns (Integer n)
| rd_sym s : python_name s -> ns s = Some (OExpr (Symbol s)) -> readable ns (Symbol s)
| rd_add args : args <> [] -> Forall (readable ns) args -> readable ns (Node (Add :: args))
| rd_mul args : args <> [] -> Forall (readable ns) args -> readable ns (Node (Mul :: args))
| rd_pow b e : readable ns b -> readable ns e -> ~ is_power b -> ~ negative b -> readable ns (Node [Pow; b; e])
| rd_call s args : python_name s -> s <> "Add" -> s <> "Mul" -> s <> "pow" -> ns s = Some (OExpr (Function s)) ->
    Forall (readable ns) args -> readable ns (Node (Function s :: args)).
(** Python computes the operators of [e] itself only if it first meets two ints (or a single one in parentheses). *)
Definition no_folding (e : tree) : Prop :=
  forall h args, reach false [] e (Node (h :: args)) -> h = Add \/ h = Mul \/ h = Pow ->
    exists a, In a (firstn 2 args) /\ ~ is_integer a.
