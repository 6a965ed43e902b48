(** * Reading back the raw representation: what Python's [eval] makes of the text of such expressions

    A reader for the fragment of Python that is used: calls of [Tree], [Tr] and of atom types, string
    literals and decimal integers. *)
From Coq Require Import DecimalString.
From Verif Require Import Py ModelTree SpecTree.
Local Open Scope string_scope.

(** Skip a fixed text. *)
Fixpoint skip (p s : string) : option string :=
  match p, s with
  | EmptyString, _ => Some s
  | String c p', String d s' => if Ascii.eqb c d then skip p' s' else None
  | String _ _, EmptyString => None
  end.

(** The text up to the first character satisfying [stop], and the rest from that character on. *)
Fixpoint span_until (stop : ascii -> bool) (s : string) : string * string :=
  match s with
  | EmptyString => (EmptyString, EmptyString)
  | String c r => if stop c then (EmptyString, s) else let '(a, b) := span_until stop r in (String c a, b)
  end.

Definition hex_value (c : ascii) : option nat :=
  let n := nat_of_ascii c in
  if ((48 <=? n) && (n <=? 57))%nat then Some (n - 48)
  else if ((97 <=? n) && (n <=? 102))%nat then Some (n - 87)
  else None.

(** One character of a string literal. Stricter than Python: characters that are not printable (below 32,
    127 to 160, 173) must be escaped, and no escapes are known but the ones below, so reading back also
    says that the text is printable and has no line breaks. *)
Definition printable (c : ascii) : bool :=
  let n := nat_of_ascii c in ((32 <=? n) && (n <=? 126) || (161 <=? n) && negb (n =? 173))%nat.
Definition read_char (s : string) : option (ascii * string) :=
  match s with
  | EmptyString => None
  | String c r =>
      if Ascii.eqb c "\" then
        match r with
        | EmptyString => None
        | String d r' =>
            if Ascii.eqb d "t" then Some (ascii_of_nat 9, r')
            else if Ascii.eqb d "n" then Some (ascii_of_nat 10, r')
            else if Ascii.eqb d "r" then Some (ascii_of_nat 13, r')
            else if Ascii.eqb d "x" then
              match r' with
              | String h (String l r'') =>
                  match hex_value h, hex_value l with
                  | Some a, Some b => Some (ascii_of_nat (16 * a + b), r'')
                  | _, _ => None
                  end
              | _ => None
              end
            else if (Ascii.eqb d "\" || Ascii.eqb d "'" || Ascii.eqb d (ascii_of_nat 34))%bool then Some (d, r')
            else None
        end
      else if printable c then Some (c, r) else None
  end.

(** The characters up to the closing delimiter. *)
Fixpoint read_chars (fuel : nat) (q : ascii) (s : string) : option (string * string) :=
  match fuel with
  | O => None
  | S fuel' =>
      match s with
      | EmptyString => None
      | String c r =>
          if Ascii.eqb c q then Some (EmptyString, r)
          else match read_char s with
               | None => None
               | Some (d, r') =>
                   match read_chars fuel' q r' with
                   | None => None
                   | Some (t, r'') => Some (String d t, r'')
                   end
               end
      end
  end.

(** A literal that is followed by a closing parenthesis. *)
Definition read_value (s : string) : option (pyval * string) :=
  match s with
  | EmptyString => None
  | String c r =>
      if (Ascii.eqb c "'" || Ascii.eqb c (ascii_of_nat 34))%bool then
        match read_chars (S (String.length r)) c r with
        | Some (t, r') => Some (VStr t, r')
        | None => None
        end
      else
        let '(digits, r') := span_until (Ascii.eqb ")") s in
        match NilEmpty.int_of_string digits with
        | Some d => Some (VInt (Z.of_int d), r')
        | None => None
        end
  end.

Section Read.
  (** The names of the atom types in scope. *)
  Variable ns : string -> option atype.

  Definition read_atom (s : string) : option (atom * string) :=
    let '(name, r) := span_until (Ascii.eqb "(") s in
    match ns name, skip "(" r with
    | Some T, Some r1 =>
        match read_value r1 with
        | Some (v, r2) => match skip ")" r2 with Some r3 => Some (mkAtom T v, r3) | None => None end
        | None => None
        end
    | _, _ => None
    end.

  Fixpoint read_tree (fuel : nat) (s : string) : option (tree * string) :=
    match fuel with
    | O => None
    | S fuel' =>
        match skip "Tr(" s with
        | Some r =>
            match read_atom r with
            | Some (a, r1) => match skip ")" r1 with Some r2 => Some (Atm a, r2) | None => None end
            | None => None
            end
        | None =>
            match skip "Tree(" s with
            | Some r => match read_trees fuel' r with Some (l, r1) => Some (Node l, r1) | None => None end
            | None => None
            end
        end
    end
  with read_trees (fuel : nat) (s : string) : option (list tree * string) :=
    match fuel with
    | O => None
    | S fuel' =>
        match read_tree fuel' s with
        | None => None
        | Some (t, r) =>
            match skip ", " r with
            | Some r1 => match read_trees fuel' r1 with Some (l, r2) => Some (t :: l, r2) | None => None end
            | None => match skip ")" r with Some r1 => Some ([t], r1) | None => None end
            end
        end
    end.

  (** [eval(s)], when the whole text is such an expression. *)
  Definition py_eval (s : string) : option tree :=
    match read_tree (S (String.length s)) s with
    | Some (t, EmptyString) => Some t
    | _ => None
    end.
End Read.

(** Every atom type of [e] is in scope under its name, and its name has no parenthesis. *)
Definition in_scope (ns : string -> option atype) (e : tree) : Prop :=
  forall a, reach true [] e (Atm a) ->
    ns (ty_name (atom_type a)) = Some (atom_type a) /\
    forall s1 s2, ty_name (atom_type a) <> s1 ++ "(" ++ s2.
