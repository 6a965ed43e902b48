(** * Specification: reading and running the subset of LLVM IR that is needed here. Nothing in this file
    refers to the generator. *)
From Coq Require Import SpecFloat HexadecimalString DecimalString DecimalN HexadecimalN NArith.
From Verif Require Import Py.
Local Open Scope string_scope.

(** ** Tokens, as in LLVM's LLLexer *)
Inductive token :=
| TWord (s : string)            (* keywords, types, numbers *)
| TLocal (s : string)           (* %name or %"name" *)
| TGlobal (s : string)          (* @name or @"name" *)
| TStr (s : string)             (* "text" *)
| TPunct (c : ascii).           (* = , * ( ) { } *)

Definition is_space (c : ascii) : bool := existsb (Ascii.eqb c) (map Ascii.ascii_of_nat [32; 9; 10; 13]).
Definition is_newline (c : ascii) : bool := existsb (Ascii.eqb c) (map Ascii.ascii_of_nat [10; 13]).
Definition is_quote (c : ascii) : bool := Ascii.eqb c (Ascii.ascii_of_nat 34).
Definition is_punct (c : ascii) : bool := existsb (Ascii.eqb c) ["="; ","; "*"; "("; ")"; "{"; "}"]%char.
(** Characters of words: letters, digits and - $ . _ *)
Definition is_word (c : ascii) : bool :=
  let n := Ascii.nat_of_ascii c in
  (Nat.leb 48 n && Nat.leb n 57) || (Nat.leb 65 n && Nat.leb n 90) || (Nat.leb 97 n && Nat.leb n 122) ||
  existsb (Ascii.eqb c) ["-"; "$"; "."; "_"]%char.

Definition hex_digit (c : ascii) : option nat :=
  let n := Ascii.nat_of_ascii c in
  if Nat.leb 48 n && Nat.leb n 57 then Some (n - 48)
  else if Nat.leb 65 n && Nat.leb n 70 then Some (n - 55)
  else if Nat.leb 97 n && Nat.leb n 102 then Some (n - 87)
  else None.
(** In quotes, [\\] is a backslash and [\xx] the character with hexadecimal code xx. *)
Fixpoint unescape (s : string) : string :=
  match s with
  | String c (String d (String e r as r2) as r1) =>
      if Ascii.eqb c "\"%char then
        if Ascii.eqb d "\"%char then String "\" (unescape r2)
        else match hex_digit d, hex_digit e with
             | Some a, Some b => String (Ascii.ascii_of_nat (16 * a + b)) (unescape r)
             | _, _ => String c (unescape r1)
             end
      else String c (unescape r1)
  | String c (String d EmptyString) =>
      if Ascii.eqb c "\"%char && Ascii.eqb d "\"%char then String "\" EmptyString else s
  | _ => s
  end.
Fixpoint has_nul (s : string) : bool :=
  match s with
  | EmptyString => false
  | String c r => Ascii.eqb c Ascii.zero || has_nul r
  end.

Inductive kind := KLocal | KGlobal | KStr.
(** A token in quotes; names cannot be empty and cannot contain NUL. *)
Definition quoted (k : kind) (s : string) : option token :=
  let t := unescape s in
  match k with
  | KStr => Some (TStr t)
  | _ => if has_nul t then None
         else match t with
              | EmptyString => None
              | _ => Some (match k with KGlobal => TGlobal t | _ => TLocal t end)
              end
  end.
Definition bare (k : kind) (s : string) : token :=
  match k with KLocal => TLocal s | KGlobal => TGlobal s | KStr => TWord s end.

Inductive lstate :=
| LIdle                          (* between tokens *)
| LComment                       (* after a semicolon *)
| LSigil (k : kind)              (* after % or @ *)
| LBare (k : kind) (acc : string)   (* inside a word, %name or @name *)
| LQuoted (k : kind) (acc : string).  (* inside quotes *)
Definition snoc (s : string) (c : ascii) : string := s ++ String c EmptyString.

(** The state after reading [c] between tokens, and the token that [c] is. *)
Definition start (c : ascii) : option (list token * lstate) :=
  if is_space c then Some ([], LIdle)
  else if Ascii.eqb c ";"%char then Some ([], LComment)
  else if Ascii.eqb c "%"%char then Some ([], LSigil KLocal)
  else if Ascii.eqb c "@"%char then Some ([], LSigil KGlobal)
  else if is_quote c then Some ([], LQuoted KStr "")
  else if is_punct c then Some ([TPunct c], LIdle)
  else if is_word c then Some ([], LBare KStr (String c ""))
  else None.
Definition lex_step (st : lstate) (c : ascii) : option (list token * lstate) :=
  match st with
  | LIdle => start c
  | LComment => Some ([], if is_newline c then LIdle else LComment)
  | LSigil k => if is_quote c then Some ([], LQuoted k "")
                else if is_word c then Some ([], LBare k (String c ""))
                else None
  | LBare k acc => if is_word c then Some ([], LBare k (snoc acc c))
                   else match start c with
                        | Some (ts, st') => Some (bare k acc :: ts, st')
                        | None => None
                        end
  | LQuoted k acc => if is_quote c then
                       match quoted k acc with Some t => Some ([t], LIdle) | None => None end
                     else Some ([], LQuoted k (snoc acc c))
  end.
Fixpoint lex (st : lstate) (s : string) : option (list token) :=
  match s with
  | EmptyString => match st with
                   | LIdle | LComment => Some []
                   | LBare k acc => Some [bare k acc]
                   | _ => None
                   end
  | String c r =>
      match lex_step st c with
      | Some (ts, st') => match lex st' r with Some l => Some (ts ++ l)%list | None => None end
      | None => None
      end
  end.

(** ** Syntax *)
Inductive operand := OLocal (x : string) | OBits (bits : Z).
Inductive instr :=
| IFadd (dst : string) (a b : operand)              (* dst = fadd double a, b *)
| IFmul (dst : string) (a b : operand)              (* dst = fmul double a, b *)
| ICall (dst f : string) (args : list operand)      (* dst = call double @f(double a, ...) *)
| IGep (dst base : string) (index : Z)              (* dst = getelementptr double, double* base, i32 index *)
| IStore (a : operand) (ptr : string)               (* store double a, double* ptr *)
| IRet (a : operand)                                (* ret double a *)
| IRetVoid.                                         (* ret void *)
Inductive ptype := PDouble | PDoublePtr.
Record func := mkFunc { f_void : bool; f_name : string; f_params : list (ptype * string); f_body : list instr }.
Inductive item := IDeclare (name : string) (nargs : nat) | IDefine (f : func) | ITarget.

(** ** Parsing *)
Definition parser (A : Type) : Type := list token -> option (A * list token).
Definition ptry {A B} (p : parser A) (k : A -> parser B) : parser B :=
  fun ts => match p ts with Some (a, ts') => k a ts' | None => None end.
Notation "'pdo' x <- p ; q" := (ptry p (fun x => q))
  (at level 200, x pattern, p at level 100, q at level 200, right associativity).
Definition pret {A} (a : A) : parser A := fun ts => Some (a, ts).
Definition pfail {A} : parser A := fun _ => None.
Definition por {A} (p q : parser A) : parser A := fun ts => match p ts with Some r => Some r | None => q ts end.

Definition p_word : parser string := fun ts => match ts with TWord s :: r => Some (s, r) | _ => None end.
Definition p_local : parser string := fun ts => match ts with TLocal s :: r => Some (s, r) | _ => None end.
Definition p_global : parser string := fun ts => match ts with TGlobal s :: r => Some (s, r) | _ => None end.
Definition p_str : parser string := fun ts => match ts with TStr s :: r => Some (s, r) | _ => None end.
Definition p_kw (s : string) : parser unit := pdo w <- p_word; if String.eqb w s then pret tt else pfail.
Definition p_punct (c : ascii) : parser unit :=
  fun ts => match ts with TPunct d :: r => if Ascii.eqb d c then Some (tt, r) else None | _ => None end.

Definition take2 (s : string) : string * string :=
  match s with String c (String d r) => (String c (String d ""), r) | _ => ("", s) end.
(** A double constant: 0x and the bits in hexadecimal. *)
Definition hex_const (s : string) : option Z :=
  let '(p, r) := take2 s in
  if String.eqb p "0x" then
    match HexadecimalString.NilEmpty.uint_of_string r with
    | Some (Hexadecimal.Nil) | None => None
    | Some d => let n := Z.of_N (N.of_hex_uint d) in if (n <? 2 ^ 64)%Z then Some n else None
    end
  else None.
(** An i32 constant that is not negative. *)
Definition int_const (s : string) : option Z :=
  match DecimalString.NilEmpty.uint_of_string s with
  | Some (Decimal.Nil) | None => None
  | Some d => let n := Z.of_N (N.of_uint d) in if (n <? 2 ^ 31)%Z then Some n else None
  end.
Definition p_operand : parser operand :=
  por (pdo x <- p_local; pret (OLocal x))
      (pdo w <- p_word; match hex_const w with Some b => pret (OBits b) | None => pfail end).
Definition p_type : parser ptype :=
  pdo _ <- p_kw "double"; por (pdo _ <- p_punct "*"; pret PDoublePtr) (pret PDouble).

(** [p, p, ..., p )], where the list can be empty. *)
Fixpoint p_more {A} (p : parser A) (fuel : nat) : parser (list A) :=
  match fuel with
  | O => pfail
  | S n => por (pdo _ <- p_punct ")"; pret [])
               (pdo _ <- p_punct ","; pdo a <- p; pdo l <- p_more p n; pret (a :: l))
  end.
Definition p_list {A} (p : parser A) : parser (list A) :=
  pdo _ <- p_punct "(";
  por (pdo _ <- p_punct ")"; pret [])
      (pdo a <- p; fun ts => (pdo l <- p_more p (length ts); pret (a :: l)) ts).

Definition p_arith (w : string) (mk : string -> operand -> operand -> instr) : parser instr :=
  pdo d <- p_local; pdo _ <- p_punct "="; pdo _ <- p_kw w; pdo _ <- p_kw "double";
  pdo a <- p_operand; pdo _ <- p_punct ","; pdo b <- p_operand; pret (mk d a b).
Definition p_call : parser instr :=
  pdo d <- p_local; pdo _ <- p_punct "="; pdo _ <- p_kw "call"; pdo _ <- p_kw "double";
  pdo f <- p_global; pdo args <- p_list (pdo _ <- p_kw "double"; p_operand); pret (ICall d f args).
Definition p_gep : parser instr :=
  pdo d <- p_local; pdo _ <- p_punct "="; pdo _ <- p_kw "getelementptr"; pdo _ <- p_kw "double";
  pdo _ <- p_punct ","; pdo _ <- p_kw "double"; pdo _ <- p_punct "*"; pdo b <- p_local; pdo _ <- p_punct ",";
  pdo _ <- p_kw "i32"; pdo w <- p_word;
  match int_const w with Some n => pret (IGep d b n) | None => pfail end.
Definition p_store : parser instr :=
  pdo _ <- p_kw "store"; pdo _ <- p_kw "double"; pdo a <- p_operand; pdo _ <- p_punct ",";
  pdo _ <- p_kw "double"; pdo _ <- p_punct "*"; pdo p <- p_local; pret (IStore a p).
Definition p_ret : parser instr :=
  pdo _ <- p_kw "ret";
  por (pdo _ <- p_kw "void"; pret IRetVoid) (pdo _ <- p_kw "double"; pdo a <- p_operand; pret (IRet a)).
Definition p_instr : parser instr :=
  por (p_arith "fadd" IFadd) (por (p_arith "fmul" IFmul) (por p_call (por p_gep (por p_store p_ret)))).
Fixpoint p_body (fuel : nat) : parser (list instr) :=
  match fuel with
  | O => pfail
  | S n => por (pdo _ <- p_punct "}"; pret []) (pdo i <- p_instr; pdo l <- p_body n; pret (i :: l))
  end.

Definition p_item : parser item :=
  por (pdo _ <- p_kw "target"; pdo _ <- por (p_kw "triple") (p_kw "datalayout"); pdo _ <- p_punct "="; pdo _ <- p_str; pret ITarget)
  (por (pdo _ <- p_kw "declare"; pdo _ <- p_kw "double"; pdo g <- p_global;
        pdo args <- p_list (pdo _ <- p_kw "double"; p_local); pret (IDeclare g (length args)))
       (pdo _ <- p_kw "define";
        pdo v <- por (pdo _ <- p_kw "void"; pret true) (pdo _ <- p_kw "double"; pret false);
        pdo g <- p_global;
        pdo ps <- p_list (pdo t <- p_type; pdo x <- p_local; pret (t, x));
        pdo _ <- p_punct "{";
        fun ts => (pdo body <- p_body (length ts); pret (IDefine (mkFunc v g ps body))) ts)).
Fixpoint p_items (fuel : nat) (ts : list token) : option (list item) :=
  match fuel, ts with
  | _, [] => Some []
  | O, _ => None
  | S n, _ => match p_item ts with
              | Some (i, ts') => match p_items n ts' with Some l => Some (i :: l) | None => None end
              | None => None
              end
  end.
(** The items of a module. *)
Definition parse (text : string) : option (list item) :=
  match lex LIdle text with
  | Some ts => p_items (length ts) ts
  | None => None
  end.

(** ** Well-formedness: every name is defined once and before it is used. *)
Definition defines (i : instr) : list string :=
  match i with
  | IFadd d _ _ | IFmul d _ _ | ICall d _ _ | IGep d _ _ => [d]
  | IStore _ _ | IRet _ | IRetVoid => []
  end.
Definition uses_operand (o : operand) : list string := match o with OLocal x => [x] | OBits _ => [] end.
Definition uses (i : instr) : list string :=
  match i with
  | IFadd _ a b | IFmul _ a b => uses_operand a ++ uses_operand b
  | ICall _ _ args => flat_map uses_operand args
  | IGep _ b _ => [b]
  | IStore a p => uses_operand a ++ [p]
  | IRet a => uses_operand a
  | IRetVoid => []
  end.
Definition ssa (f : func) : Prop :=
  NoDup (map snd (f_params f) ++ flat_map defines (f_body f)) /\
  forall front i back, f_body f = (front ++ i :: back)%list ->
    forall x, In x (uses i) -> In x (map snd (f_params f) ++ flat_map defines front).

(** ** Running *)
(** The double with the given 64 bits. *)
Definition double_of_bits (b : Z) : spec_float :=
  let s := (2 ^ 63 <=? b)%Z in
  let e := ((b / 2 ^ 52) mod 2048)%Z in
  let m := (b mod 2 ^ 52)%Z in
  if (e =? 0)%Z then match m with Zpos p => S754_finite s p (-1074) | _ => S754_zero s end
  else if (e =? 2047)%Z then match m with Z0 => S754_infinity s | _ => S754_nan end
  else match (2 ^ 52 + m)%Z with Zpos p => S754_finite s p (e - 1075) | _ => S754_nan end.

(** The arithmetic of the machine: any functions on doubles. *)
Record machine := mkMachine {
  mc_add : spec_float -> spec_float -> spec_float;
  mc_mul : spec_float -> spec_float -> spec_float;
  mc_pow : spec_float -> spec_float -> spec_float;
  mc_sin : spec_float -> spec_float;
  mc_cos : spec_float -> spec_float
}.
Inductive value := VF (f : spec_float) | VP (offset : Z).
Definition memory := Z -> spec_float.
Definition vars := list (string * value).
Definition lookup (r : vars) (x : string) : option value := dict_get String.eqb r x.
Definition operand_value (r : vars) (o : operand) : option spec_float :=
  match o with
  | OLocal x => match lookup r x with Some (VF f) => Some f | _ => None end
  | OBits b => Some (double_of_bits b)
  end.
Fixpoint operand_values (r : vars) (l : list operand) : option (list spec_float) :=
  match l with
  | [] => Some []
  | o :: l' => match operand_value r o, operand_values r l' with Some f, Some fs => Some (f :: fs) | _, _ => None end
  end.
(** The functions that can be called. *)
Definition intrinsic (mc : machine) (name : string) (args : list spec_float) : option spec_float :=
  if String.eqb name "llvm.pow.f64" then match args with [a; b] => Some (mc_pow mc a b) | _ => None end
  else if String.eqb name "llvm.sin.f64" then match args with [a] => Some (mc_sin mc a) | _ => None end
  else if String.eqb name "llvm.cos.f64" then match args with [a] => Some (mc_cos mc a) | _ => None end
  else None.
(** A definition of [x]; None if it is defined already. *)
Definition define (x : string) (v : value) (r : vars) : option vars :=
  match lookup r x with Some _ => None | None => Some ((x, v) :: r) end.
Definition define_double (x : string) (f : option spec_float) (r : vars) : option vars :=
  match f with Some f => define x (VF f) r | None => None end.
Definition set_mem (m : memory) (k : Z) (f : spec_float) : memory := fun k' => if Z.eqb k' k then f else m k'.

(** [decl]: the declared functions with their numbers of arguments. None is an invalid program. *)
Definition exec (mc : machine) (decl : list (string * nat)) (i : instr) (r : vars) (m : memory) : option (vars * memory) :=
  let keep (o : option vars) := match o with Some r' => Some (r', m) | None => None end in
  match i with
  | IFadd d a b => match operand_value r a, operand_value r b with
                   | Some u, Some v => keep (define d (VF (mc_add mc u v)) r) | _, _ => None end
  | IFmul d a b => match operand_value r a, operand_value r b with
                   | Some u, Some v => keep (define d (VF (mc_mul mc u v)) r) | _, _ => None end
  | ICall d f args =>
      match dict_get String.eqb decl f, operand_values r args with
      | Some n, Some vs => if Nat.eqb n (length vs) then keep (define_double d (intrinsic mc f vs) r) else None
      | _, _ => None
      end
  | IGep d b n => match lookup r b with Some (VP k) => keep (define d (VP (k + n)) r) | _ => None end
  | IStore a p => match operand_value r a, lookup r p with
                  | Some u, Some (VP k) => Some (r, set_mem m k u) | _, _ => None end
  | IRet _ | IRetVoid => None
  end.
(** The body must end with the right kind of [ret], and have no other. *)
Fixpoint exec_body (mc : machine) (decl : list (string * nat)) (void : bool) (body : list instr) (r : vars) (m : memory)
    : option (option spec_float * memory) :=
  match body with
  | [] => None
  | [IRet a] => if void then None else match operand_value r a with Some f => Some (Some f, m) | None => None end
  | [IRetVoid] => if void then Some (None, m) else None
  | i :: rest => match exec mc decl i r m with
                 | Some (r', m') => exec_body mc decl void rest r' m'
                 | None => None
                 end
  end.
Definition has_ptype (t : ptype) (v : value) : bool :=
  match t, v with PDouble, VF _ | PDoublePtr, VP _ => true | _, _ => false end.
Fixpoint bind_params (ps : list (ptype * string)) (vs : list value) (r : vars) : option vars :=
  match ps, vs with
  | [], [] => Some r
  | (t, x) :: ps', v :: vs' =>
      if has_ptype t v then match define x v r with Some r' => bind_params ps' vs' r' | None => None end else None
  | _, _ => None
  end.
Definition run_func (mc : machine) (decl : list (string * nat)) (f : func) (args : list value) (m : memory)
    : option (option spec_float * memory) :=
  match bind_params (f_params f) args [] with
  | Some r => exec_body mc decl (f_void f) (f_body f) r m
  | None => None
  end.
Definition declared (items : list item) : list (string * nat) :=
  flat_map (fun i => match i with IDeclare g n => [(g, n)] | _ => [] end) items.
Definition functions (items : list item) : list func :=
  flat_map (fun i => match i with IDefine f => [f] | _ => [] end) items.
(** Compile [text] and call the function called [name]: the result and the memory afterwards; None if the
    text is not a valid module, or does not have exactly that function, or is called with wrong arguments. *)
Definition run_text (mc : machine) (text name : string) (args : list value) (m : memory)
    : option (option spec_float * memory) :=
  match parse text with
  | Some items =>
      match functions items with
      | [f] => if String.eqb (f_name f) name then run_func mc (declared items) f args m else None
      | _ => None
      end
  | None => None
  end.
