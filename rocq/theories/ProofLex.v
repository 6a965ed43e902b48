(** * Reading LLVM IR: what the lexer and the parser of SpecLLVM.v do with printed code *)
From Coq Require Import SpecFloat HexadecimalString DecimalString DecimalN HexadecimalN NArith.
From Verif Require Import Py ModelLLVM ModelCas SpecLLVM SpecLambdify.
Local Open Scope string_scope.

(** ** Printing *)
Definition opstr (o : operand) : string :=
  match o with OLocal x => "%" ++ quote ++ x ++ quote | OBits b => hex b end.
Definition optok (o : operand) : token := match o with OLocal x => TLocal x | OBits b => TWord (hex b) end.
Definition istr (i : instr) : string :=
  match i with
  | IFadd d a b => opstr (OLocal d) ++ " = fadd double " ++ opstr a ++ ", " ++ opstr b
  | IFmul d a b => opstr (OLocal d) ++ " = fmul double " ++ opstr a ++ ", " ++ opstr b
  | ICall d f [a] => opstr (OLocal d) ++ " = call double @" ++ f ++ "(double " ++ opstr a ++ ")"
  | ICall d f [a; b] => opstr (OLocal d) ++ " = call double @" ++ f ++ "(double " ++ opstr a ++ ", double " ++ opstr b ++ ")"
  | ICall _ _ _ => ""
  | IGep d b n => opstr (OLocal d) ++ " = getelementptr double, double* " ++ opstr (OLocal b) ++ ", i32 " ++ str_int n
  | IStore a p => "store double " ++ opstr a ++ ", double* " ++ opstr (OLocal p)
  | IRet a => "ret double " ++ opstr a
  | IRetVoid => "ret void"
  end.
Definition itok (i : instr) : list token :=
  match i with
  | IFadd d a b => [TLocal d; TPunct "="; TWord "fadd"; TWord "double"; optok a; TPunct ","; optok b]
  | IFmul d a b => [TLocal d; TPunct "="; TWord "fmul"; TWord "double"; optok a; TPunct ","; optok b]
  | ICall d f [a] => [TLocal d; TPunct "="; TWord "call"; TWord "double"; TGlobal f; TPunct "("; TWord "double"; optok a; TPunct ")"]
  | ICall d f [a; b] => [TLocal d; TPunct "="; TWord "call"; TWord "double"; TGlobal f; TPunct "("; TWord "double"; optok a;
                         TPunct ","; TWord "double"; optok b; TPunct ")"]
  | ICall _ _ _ => []
  | IGep d b n => [TLocal d; TPunct "="; TWord "getelementptr"; TWord "double"; TPunct ","; TWord "double"; TPunct "*"; TLocal b;
                   TPunct ","; TWord "i32"; TWord (str_int n)]
  | IStore a p => [TWord "store"; TWord "double"; optok a; TPunct ","; TWord "double"; TPunct "*"; TLocal p]
  | IRet a => [TWord "ret"; TWord "double"; optok a]
  | IRetVoid => [TWord "ret"; TWord "void"]
  end%char.

(** Names that can be written between quotes. *)
Definition wordlike (s : string) : Prop := s <> "" /\ str_forall is_word s = true.
Definition op_ok (o : operand) : Prop := match o with OLocal x => legal x | OBits b => (0 <= b < 2 ^ 64)%Z end.
Definition instr_ok (i : instr) : Prop :=
  match i with
  | IFadd d a b | IFmul d a b => legal d /\ op_ok a /\ op_ok b
  | ICall d f args => legal d /\ wordlike f /\ Forall op_ok args /\ (length args = 1 \/ length args = 2)
  | IGep d b n => legal d /\ legal b /\ (0 <= n < 2 ^ 31)%Z
  | IStore a p => op_ok a /\ legal p
  | IRet a => op_ok a
  | IRetVoid => True
  end.

(** ** The lexer on a piece of text *)
Fixpoint lrun (st : lstate) (s : string) : option (list token * lstate) :=
  match s with
  | EmptyString => Some ([], st)
  | String c r =>
      match lex_step st c with
      | Some (ts, st') => match lrun st' r with Some (l, st2) => Some (ts ++ l, st2)%list | None => None end
      | None => None
      end
  end.
Lemma lex_lrun s : forall st rest ts st', lrun st s = Some (ts, st') ->
  lex st (s ++ rest) = option_map (app ts) (lex st' rest).
Proof.
  induction s as [|c s IH]; intros st rest ts st' H.
  - injection H as <- <-. simpl. destruct (lex st rest); reflexivity.
  - cbn [lrun] in H. cbn [append lex]. destruct (lex_step st c) as [[t1 st1]|]; [|discriminate].
    destruct (lrun st1 s) as [[l st2]|] eqn:E; [|discriminate]. injection H as <- <-.
    rewrite (IH _ rest _ _ E). destruct (lex st2 rest) as [m|]; cbn [option_map]; [|reflexivity].
    rewrite app_assoc. reflexivity.
Qed.

(** [s] is read as [ts] whatever follows, or whatever follows that does not continue a word. *)
Definition brk (rest : string) : Prop := match rest with EmptyString => True | String c _ => is_word c = false end.
Definition SLx (s : string) (ts : list token) : Prop :=
  forall rest, lex LIdle (s ++ rest) = option_map (app ts) (lex LIdle rest).
Definition Lx (s : string) (ts : list token) : Prop :=
  forall rest, brk rest -> lex LIdle (s ++ rest) = option_map (app ts) (lex LIdle rest).
Lemma SLx_Lx s ts : SLx s ts -> Lx s ts. Proof. intros H rest _. apply H. Qed.
Lemma SLx_lit s ts : lrun LIdle s = Some (ts, LIdle) -> SLx s ts.
Proof. intros H rest. apply (lex_lrun _ _ _ _ _ H). Qed.
Lemma omap_app {A} (a b : list A) (o : option (list A)) : option_map (app a) (option_map (app b) o) = option_map (app (a ++ b)) o.
Proof. destruct o; simpl; [rewrite app_assoc|]; reflexivity. Qed.
Lemma string_app_assoc (a b c : string) : (a ++ b) ++ c = a ++ (b ++ c).
Proof. induction a as [|x a IH]; simpl; [reflexivity|]. rewrite IH. reflexivity. Qed.
Lemma SLx_app a b ta tb : SLx a ta -> SLx b tb -> SLx (a ++ b) (ta ++ tb).
Proof. intros Ha Hb rest. rewrite string_app_assoc, Ha, Hb, omap_app. reflexivity. Qed.
Lemma SLx_app_L a b ta tb : SLx a ta -> Lx b tb -> Lx (a ++ b) (ta ++ tb).
Proof. intros Ha Hb rest Hr. rewrite string_app_assoc, Ha, (Hb _ Hr), omap_app. reflexivity. Qed.
Lemma Lx_app a b ta tb : (forall rest, brk rest -> brk (b ++ rest)) -> Lx a ta -> Lx b tb -> Lx (a ++ b) (ta ++ tb).
Proof. intros Hbk Ha Hb rest Hr. rewrite string_app_assoc, (Ha _ (Hbk _ Hr)), (Hb _ Hr), omap_app. reflexivity. Qed.
Lemma Lx_app_S a b ta tb : (forall rest, brk (b ++ rest)) -> Lx a ta -> SLx b tb -> SLx (a ++ b) (ta ++ tb).
Proof. intros Hbk Ha Hb rest. rewrite string_app_assoc, (Ha _ (Hbk _)), Hb, omap_app. reflexivity. Qed.
Lemma SLx_nil : SLx "" []. Proof. apply SLx_lit. reflexivity. Qed.

(** *** Words *)
Lemma snoc_app acc c s : snoc acc c ++ s = acc ++ String c s.
Proof. unfold snoc. rewrite string_app_assoc. reflexivity. Qed.
Lemma lrun_bare k s : forall acc, str_forall is_word s = true -> lrun (LBare k acc) s = Some ([], LBare k (acc ++ s)).
Proof.
  induction s as [|c s IH]; intros acc H; cbn [lrun str_forall] in *.
  - assert (E : acc ++ "" = acc) by (clear; induction acc as [|x acc IH]; simpl; [|rewrite IH]; reflexivity). rewrite E. reflexivity.
  - apply andb_prop in H as [Hc Hs]. cbn [lex_step]. rewrite Hc, IH by exact Hs. rewrite snoc_app. reflexivity.
Qed.
Lemma is_word_cases c : is_word c = true -> is_space c = false /\ Ascii.eqb c ";" = false /\ Ascii.eqb c "%" = false /\
  Ascii.eqb c "@" = false /\ is_quote c = false /\ is_punct c = false.
Proof. destruct c as [[] [] [] [] [] [] [] []]; vm_compute; intros H; try discriminate H; repeat split. Qed.
Lemma lex_bare_end k acc rest : brk rest -> lex (LBare k acc) rest = option_map (app [bare k acc]) (lex LIdle rest).
Proof.
  destruct rest as [|c r]; intros Hb; [reflexivity|]. cbn [brk] in Hb. cbn [lex lex_step]. rewrite Hb.
  destruct (start c) as [[ts st]|]; [|reflexivity]. destruct (lex st r); reflexivity.
Qed.
Lemma Lx_word s : wordlike s -> Lx s [TWord s].
Proof.
  intros [Hne Hw] rest Hb. destruct s as [|c s]; [congruence|]. cbn [str_forall] in Hw. apply andb_prop in Hw as [Hc Hs].
  assert (H : lrun LIdle (String c s) = Some ([], LBare KStr (String c s))).
  { cbn [lrun lex_step]. unfold start. destruct (is_word_cases c Hc) as (-> & -> & -> & -> & -> & ->). rewrite Hc.
    rewrite lrun_bare by exact Hs. reflexivity. }
  rewrite (lex_lrun _ _ _ _ _ H), lex_bare_end by exact Hb. rewrite omap_app. reflexivity.
Qed.
Lemma Lx_global s : wordlike s -> Lx ("@" ++ s) [TGlobal s].
Proof.
  intros [Hne Hw] rest Hb. destruct s as [|c s]; [congruence|]. cbn [str_forall] in Hw. apply andb_prop in Hw as [Hc Hs].
  assert (H : lrun LIdle ("@" ++ String c s) = Some ([], LBare KGlobal (String c s))).
  { cbn [append lrun lex_step]. change (start "@") with (Some (@nil token, LSigil KGlobal)). cbn [lrun lex_step].
    destruct (is_word_cases c Hc) as (_ & _ & _ & _ & -> & _). rewrite Hc, lrun_bare by exact Hs. reflexivity. }
  rewrite (lex_lrun _ _ _ _ _ H), lex_bare_end by exact Hb. rewrite omap_app. reflexivity.
Qed.

(** *** Quoted names *)
Lemma lrun_quoted k s : forall acc, str_forall plain_char s = true -> lrun (LQuoted k acc) s = Some ([], LQuoted k (acc ++ s)).
Proof.
  induction s as [|c s IH]; intros acc H; cbn [lrun str_forall] in *.
  - assert (E : acc ++ "" = acc) by (clear; induction acc as [|x acc IH]; simpl; [|rewrite IH]; reflexivity). rewrite E. reflexivity.
  - apply andb_prop in H as [Hc Hs]. unfold plain_char in Hc. apply negb_true_iff, orb_false_iff in Hc as [Hc _].
    apply orb_false_iff in Hc as [Hq _]. cbn [lex_step]. rewrite Hq, IH by exact Hs. rewrite snoc_app. reflexivity.
Qed.
Lemma unescape_plain s : str_forall plain_char s = true -> unescape s = s.
Proof.
  induction s as [|c [|d [|e r]] IH]; intros H; try reflexivity.
  - cbn [str_forall] in H. apply andb_prop in H as [Hc _]. unfold plain_char in Hc.
    apply negb_true_iff, orb_false_iff in Hc as [Hc _]. apply orb_false_iff in Hc as [_ Hb].
    cbn [unescape]. rewrite Hb. reflexivity.
  - cbn [str_forall] in H. apply andb_prop in H as [Hc Hr]. unfold plain_char in Hc.
    apply negb_true_iff, orb_false_iff in Hc as [Hc _]. apply orb_false_iff in Hc as [_ Hb].
    change (unescape (String c (String d (String e r)))) with
      (if Ascii.eqb c "\"%char then
        if Ascii.eqb d "\"%char then String "\" (unescape (String e r))
        else match hex_digit d, hex_digit e with
             | Some a, Some b => String (Ascii.ascii_of_nat (16 * a + b)) (unescape r)
             | _, _ => String c (unescape (String d (String e r)))
             end
      else String c (unescape (String d (String e r)))).
    rewrite Hb, IH by exact Hr. reflexivity.
Qed.
Lemma no_nul s : str_forall plain_char s = true -> has_nul s = false.
Proof.
  induction s as [|c s IH]; [reflexivity|]. cbn [str_forall has_nul]. intros H. apply andb_prop in H as [Hc Hs].
  unfold plain_char in Hc. apply negb_true_iff, orb_false_iff in Hc as [_ ->]. apply IH, Hs.
Qed.
Lemma SLx_local x : legal x -> SLx (opstr (OLocal x)) [TLocal x].
Proof.
  intros [Hne Hp]. cbn [opstr].
  assert (H : lrun LIdle ("%" ++ quote) = Some ([], LQuoted KLocal "")) by reflexivity.
  intros rest. change ("%" ++ quote ++ x ++ quote) with (("%" ++ quote) ++ (x ++ quote)). rewrite string_app_assoc.
  rewrite (lex_lrun _ _ _ _ _ H). rewrite string_app_assoc, (lex_lrun _ _ _ _ _ (lrun_quoted KLocal x "" Hp)).
  rewrite omap_app. cbn [app]. change (quote ++ rest) with (String (Ascii.ascii_of_nat 34) rest). cbn [lex lex_step].
  change (is_quote (Ascii.ascii_of_nat 34)) with true. change ("" ++ x) with x. unfold quoted. rewrite unescape_plain, no_nul by exact Hp.
  destruct x as [|c x]; [congruence|]. destruct (lex LIdle rest); reflexivity.
Qed.
Lemma SLx_gquoted x : legal x -> SLx ("@" ++ quote ++ x ++ quote) [TGlobal x].
Proof.
  intros [Hne Hp].
  assert (H : lrun LIdle ("@" ++ quote) = Some ([], LQuoted KGlobal "")) by reflexivity.
  intros rest. change ("@" ++ quote ++ x ++ quote) with (("@" ++ quote) ++ (x ++ quote)). rewrite string_app_assoc.
  rewrite (lex_lrun _ _ _ _ _ H). rewrite string_app_assoc, (lex_lrun _ _ _ _ _ (lrun_quoted KGlobal x "" Hp)).
  rewrite omap_app. cbn [app]. change (quote ++ rest) with (String (Ascii.ascii_of_nat 34) rest). cbn [lex lex_step].
  change (is_quote (Ascii.ascii_of_nat 34)) with true. change ("" ++ x) with x. unfold quoted. rewrite unescape_plain, no_nul by exact Hp.
  destruct x as [|c x]; [congruence|]. destruct (lex LIdle rest); reflexivity.
Qed.

(** *** Numbers *)
Lemma str_forall_app p a b : str_forall p (a ++ b) = str_forall p a && str_forall p b.
Proof. induction a as [|c a IH]; simpl; [reflexivity|]. rewrite IH, andb_assoc. reflexivity. Qed.
Lemma hex_uint_word d : str_forall is_word (HexadecimalString.NilEmpty.string_of_uint d) = true.
Proof. induction d; cbn [HexadecimalString.NilEmpty.string_of_uint str_forall]; rewrite ?IHd; reflexivity. Qed.
Lemma hex_word b : wordlike (hex b).
Proof.
  unfold hex. split; [discriminate|]. rewrite str_forall_app.
  change (str_forall is_word "0x") with true. cbn [andb].
  unfold HexadecimalString.NilZero.string_of_uint. destruct (N.to_hex_uint (Z.to_N b)); try reflexivity; apply hex_uint_word.
Qed.
Lemma hex_const_uint d : d <> Hexadecimal.Nil ->
  hex_const ("0x" ++ HexadecimalString.NilEmpty.string_of_uint d) =
  if (Z.of_N (N.of_hex_uint d) <? 2 ^ 64)%Z then Some (Z.of_N (N.of_hex_uint d)) else None.
Proof.
  intros Hd. unfold hex_const.
  change (take2 ("0x" ++ HexadecimalString.NilEmpty.string_of_uint d)) with ("0x", HexadecimalString.NilEmpty.string_of_uint d).
  cbv iota beta. change (String.eqb "0x" "0x") with true. cbv iota. rewrite HexadecimalString.NilEmpty.usu.
  destruct d; [congruence|reflexivity..].
Qed.
Lemma hex_const_hex b : (0 <= b < 2 ^ 64)%Z -> hex_const (hex b) = Some b.
Proof.
  intros Hb. unfold hex. set (d := N.to_hex_uint (Z.to_N b)).
  assert (Hd : N.of_hex_uint d = Z.to_N b) by apply HexadecimalN.Unsigned.of_to.
  assert (Hnn : d <> Hexadecimal.Nil).
  { unfold d. destruct (Z.to_N b) as [|p]; [discriminate|]. cbn. intros E.
    pose proof (HexadecimalN.Unsigned.of_to (Npos p)) as H. cbn in H. rewrite E in H. discriminate. }
  assert (Hs : HexadecimalString.NilZero.string_of_uint d = HexadecimalString.NilEmpty.string_of_uint d) by (destruct d; try reflexivity; congruence).
  rewrite Hs, hex_const_uint by exact Hnn. rewrite Hd, Z2N.id by lia. destruct (Z.ltb_spec b (2 ^ 64)); [reflexivity|lia].
Qed.
Lemma dec_uint_word d : str_forall is_word (DecimalString.NilEmpty.string_of_uint d) = true.
Proof. induction d; cbn [DecimalString.NilEmpty.string_of_uint str_forall]; rewrite ?IHd; reflexivity. Qed.
Lemma str_int_word n : (0 <= n)%Z -> wordlike (str_int n) /\ str_int n = DecimalString.NilEmpty.string_of_uint (N.to_uint (Z.to_N n)) /\ N.to_uint (Z.to_N n) <> Decimal.Nil.
Proof.
  intros Hn. assert (E : str_int n = DecimalString.NilEmpty.string_of_uint (N.to_uint (Z.to_N n))) by (unfold str_int; destruct n; try reflexivity; lia).
  assert (Hnn : N.to_uint (Z.to_N n) <> Decimal.Nil).
  { destruct (Z.to_N n) as [|p]; [discriminate|]. cbn. intros E'.
    pose proof (DecimalN.Unsigned.of_to (Npos p)) as H. cbn in H. rewrite E' in H. discriminate. }
  split; [|split; [exact E|exact Hnn]]. rewrite E. split; [|apply dec_uint_word].
  destruct (N.to_uint (Z.to_N n)); try discriminate. congruence.
Qed.
Lemma int_const_str n : (0 <= n < 2 ^ 31)%Z -> int_const (str_int n) = Some n.
Proof.
  intros Hn. destruct (str_int_word n) as (_ & -> & Hnn); [lia|]. unfold int_const. rewrite DecimalString.NilEmpty.usu.
  set (d := N.to_uint (Z.to_N n)) in *. assert (Hd : N.of_uint d = Z.to_N n) by apply DecimalN.Unsigned.of_to.
  assert (G : Some n = if (Z.of_N (N.of_uint d) <? 2 ^ 31)%Z then Some (Z.of_N (N.of_uint d)) else None).
  { rewrite Hd, Z2N.id by lia. destruct (Z.ltb_spec n (2 ^ 31)); [reflexivity|lia]. }
  rewrite G. destruct d; [congruence|reflexivity..].
Qed.

Lemma Lx_op o : op_ok o -> Lx (opstr o) [optok o].
Proof. destruct o as [x|b]; intros H; [apply SLx_Lx, SLx_local, H|apply Lx_word, hex_word]. Qed.

Ltac lit := apply SLx_lit; reflexivity.
(** ** Lines *)
Lemma Lx_instr i : instr_ok i -> Lx (istr i) (itok i).
Proof.
  intros H. destruct i as [d a b|d a b|d f args|d b n|a p|a|]; cbn [instr_ok istr itok] in *.
  - destruct H as (Hd & Ha & Hb).
    apply (SLx_app_L _ _ [_] _ (SLx_local d Hd)). apply (SLx_app_L _ _ [TPunct "="; TWord "fadd"; TWord "double"]%char); [lit|].
    apply (Lx_app _ _ [_]); [intros; reflexivity|apply Lx_op, Ha|]. apply (SLx_app_L _ _ [TPunct ","%char]); [lit|apply Lx_op, Hb].
  - destruct H as (Hd & Ha & Hb).
    apply (SLx_app_L _ _ [_] _ (SLx_local d Hd)). apply (SLx_app_L _ _ [TPunct "="; TWord "fmul"; TWord "double"]%char); [lit|].
    apply (Lx_app _ _ [_]); [intros; reflexivity|apply Lx_op, Ha|]. apply (SLx_app_L _ _ [TPunct ","%char]); [lit|apply Lx_op, Hb].
  - destruct H as (Hd & Hf & Hargs & Hlen). destruct args as [|a [|b [|]]]; cbn [length] in Hlen; try lia.
    + inversion Hargs; subst. apply (SLx_app_L _ _ [_] _ (SLx_local d Hd)).
      change (" = call double @" ++ f ++ "(double " ++ opstr a ++ ")") with (" = call double " ++ (("@" ++ f) ++ "(double " ++ opstr a ++ ")")).
      apply (SLx_app_L _ _ [TPunct "="; TWord "call"; TWord "double"]%char); [lit|].
      apply (Lx_app _ _ [_]); [intros; reflexivity|apply Lx_global, Hf|].
      apply (SLx_app_L _ _ [TPunct "("; TWord "double"]%char); [lit|].
      apply (Lx_app _ _ [_]); [intros; reflexivity|apply Lx_op; assumption|]. apply SLx_Lx. lit.
    + inversion Hargs as [|? ? Ha Hargs']; subst. inversion Hargs' as [|? ? Hb _]; subst. apply (SLx_app_L _ _ [_] _ (SLx_local d Hd)).
      change (" = call double @" ++ f ++ "(double " ++ opstr a ++ ", double " ++ opstr b ++ ")")
        with (" = call double " ++ (("@" ++ f) ++ "(double " ++ opstr a ++ ", double " ++ opstr b ++ ")")).
      apply (SLx_app_L _ _ [TPunct "="; TWord "call"; TWord "double"]%char); [lit|].
      apply (Lx_app _ _ [_]); [intros; reflexivity|apply Lx_global, Hf|].
      apply (SLx_app_L _ _ [TPunct "("; TWord "double"]%char); [lit|].
      apply (Lx_app _ _ [_]); [intros; reflexivity|apply Lx_op; assumption|].
      apply (SLx_app_L _ _ [TPunct ","; TWord "double"]%char); [lit|].
      apply (Lx_app _ _ [_]); [intros; reflexivity|apply Lx_op; assumption|]. apply SLx_Lx. lit.
  - destruct H as (Hd & Hb & Hn). apply (SLx_app_L _ _ [_] _ (SLx_local d Hd)).
    apply (SLx_app_L _ _ [TPunct "="; TWord "getelementptr"; TWord "double"; TPunct ","; TWord "double"; TPunct "*"]%char); [lit|].
    apply (SLx_app_L _ _ [_] _ (SLx_local b Hb)). apply (SLx_app_L _ _ [TPunct ","; TWord "i32"]%char); [lit|].
    apply Lx_word, str_int_word. lia.
  - destruct H as (Ha & Hp). apply (SLx_app_L _ _ [TWord "store"; TWord "double"]); [lit|].
    apply (Lx_app _ _ [_]); [intros; reflexivity|apply Lx_op, Ha|].
    apply (SLx_app_L _ _ [TPunct ","; TWord "double"; TPunct "*"]%char); [lit|]. apply SLx_Lx, SLx_local, Hp.
  - apply (SLx_app_L _ _ [TWord "ret"; TWord "double"]); [lit|]. apply Lx_op, H.
  - apply (SLx_app_L "ret " "void" [TWord "ret"] [TWord "void"]); [lit|]. apply Lx_word. split; [discriminate|reflexivity].
Qed.

(** ** Parsing *)
Lemma p_operand_ok o rest : op_ok o -> p_operand (optok o :: rest) = Some (o, rest).
Proof.
  destruct o as [x|b]; intros H; [reflexivity|]. unfold p_operand, por, ptry. cbn [optok p_local p_word].
  rewrite hex_const_hex by exact H. reflexivity.
Qed.
Lemma p_instr_ok i rest : instr_ok i -> p_instr (itok i ++ rest)%list = Some (i, rest).
Proof.
  intros H. destruct i as [d a b|d a b|d f args|d b n|a p|a|]; cbn [instr_ok itok] in *.
  - destruct H as (Hd & Ha & Hb). unfold p_instr, por at 1. unfold p_arith, ptry. cbn. rewrite p_operand_ok by exact Ha. cbn. rewrite p_operand_ok by exact Hb. reflexivity.
  - destruct H as (Hd & Ha & Hb). unfold p_instr, por. unfold p_arith, ptry. cbn. rewrite p_operand_ok by exact Ha. cbn. rewrite p_operand_ok by exact Hb. reflexivity.
  - destruct H as (Hd & Hf & Hargs & Hlen). destruct args as [|a [|b [|]]]; cbn [length] in Hlen; try lia.
    + inversion Hargs as [|? ? Ha _]; subst. unfold p_instr, por. unfold p_arith, p_call, p_list, ptry. cbn.
      unfold por, ptry. cbn. rewrite p_operand_ok by exact Ha. reflexivity.
    + inversion Hargs as [|? ? Ha Hargs']; subst. inversion Hargs' as [|? ? Hb _]; subst.
      unfold p_instr, por. unfold p_arith, p_call, p_list, ptry. cbn.
      unfold por, ptry. cbn. rewrite p_operand_ok by exact Ha. cbn. unfold por, ptry. cbn. rewrite p_operand_ok by exact Hb. cbn. reflexivity.
  - destruct H as (Hd & Hb & Hn). unfold p_instr, por. unfold p_arith, p_call, p_gep, ptry. cbn. rewrite int_const_str by exact Hn. reflexivity.
  - destruct H as (Ha & Hp). unfold p_instr, por. unfold p_arith, p_call, p_gep, p_store, ptry. cbn. rewrite p_operand_ok by exact Ha. reflexivity.
  - unfold p_instr, por. unfold p_arith, p_call, p_gep, p_store, p_ret, ptry. cbn. unfold por, ptry. cbn. rewrite p_operand_ok by exact H. reflexivity.
  - reflexivity.
Qed.
Lemma itok_head i : instr_ok i -> exists t r, itok i = t :: r /\ forall c, t <> TPunct c.
Proof.
  intros H. destruct i as [d a b|d a b|d f args|d b n|a p|a|]; try (eexists _, _; split; [reflexivity|discriminate]).
  destruct H as (_ & _ & _ & Hlen). destruct args as [|a [|b [|]]]; cbn [length] in Hlen; try lia; eexists _, _; (split; [reflexivity|discriminate]).
Qed.
Lemma p_body_ok body rest : Forall instr_ok body -> forall fuel, length (flat_map itok body) < fuel ->
  p_body fuel (flat_map itok body ++ TPunct "}"%char :: rest)%list = Some (body, rest).
Proof.
  induction 1 as [|i body Hi Hb IH]; intros fuel Hf; (destruct fuel as [|fuel]; [simpl in Hf; lia|]).
  - reflexivity.
  - cbn [p_body flat_map]. rewrite <- app_assoc. destruct (itok_head i Hi) as (t & r & Et & Ht).
    unfold por, ptry at 1. rewrite Et at 1. cbn [app].
    assert (E : forall l, p_punct "}" (t :: l) = None) by (intros l; destruct t; try reflexivity; destruct (Ht c eq_refl)).
    rewrite E. unfold ptry. rewrite p_instr_ok by exact Hi.
    rewrite IH; [reflexivity|]. cbn [flat_map] in Hf. rewrite app_length, Et in Hf. cbn [length] in Hf. lia.
Qed.

(** ** Signatures *)
Definition pstr (p : ptype * string) : string :=
  match fst p with PDouble => "double " | PDoublePtr => "double* " end ++ opstr (OLocal (snd p)).
Definition ptok (p : ptype * string) : list token :=
  match fst p with
  | PDouble => [TWord "double"; TLocal (snd p)]
  | PDoublePtr => [TWord "double"; TPunct "*"%char; TLocal (snd p)]
  end.
Lemma SLx_param p : legal (snd p) -> SLx (pstr p) (ptok p).
Proof.
  destruct p as [[] x]; cbn [snd]; intros H; unfold pstr, ptok; cbn [fst snd].
  - apply (SLx_app _ _ [_] [_]); [lit|apply SLx_local, H].
  - apply (SLx_app _ _ [_; _] [_]); [lit|apply SLx_local, H].
Qed.
Definition more_tok (ps : list (ptype * string)) : list token := flat_map (fun p => TPunct ","%char :: ptok p) ps.
Definition params_tok (ps : list (ptype * string)) : list token :=
  match ps with [] => [] | p :: r => (ptok p ++ more_tok r)%list end.
Lemma SLx_params ps : Forall (fun p => legal (snd p)) ps -> SLx (join ", " (map pstr ps)) (params_tok ps).
Proof.
  induction 1 as [|p ps Hp Hps IH]; [apply SLx_nil|]. destruct ps as [|q ps].
  - cbn [map join params_tok more_tok flat_map]. rewrite app_nil_r. apply SLx_param, Hp.
  - change (join ", " (map pstr (p :: q :: ps))) with (pstr p ++ ", " ++ join ", " (map pstr (q :: ps))).
    apply SLx_app; [apply SLx_param, Hp|]. apply (SLx_app _ _ [TPunct ","%char]); [lit|exact IH].
Qed.
Definition p_param : parser (ptype * string) := pdo t <- p_type; pdo x <- p_local; pret (t, x).
Lemma p_param_ok p rest : p_param (ptok p ++ rest)%list = Some (p, rest).
Proof. destruct p as [[] x]; reflexivity. Qed.
Lemma p_more_ok ps rest : forall fuel, length ps < fuel ->
  p_more p_param fuel (more_tok ps ++ TPunct ")"%char :: rest)%list = Some (ps, rest).
Proof.
  induction ps as [|p ps IH]; intros fuel Hf; (destruct fuel as [|fuel]; [simpl in Hf; lia|]); [reflexivity|].
  cbn [p_more more_tok flat_map]. unfold por, ptry at 1. cbn [app p_punct]. cbv iota.
  change (Ascii.eqb "," ")") with false. cbv iota. unfold ptry at 1. cbn [p_punct]. change (Ascii.eqb "," ",") with true. cbv iota.
  unfold ptry. rewrite <- app_assoc, p_param_ok, IH by (simpl in Hf; lia). reflexivity.
Qed.
Lemma p_params_ok ps rest :
  p_list p_param (TPunct "("%char :: params_tok ps ++ TPunct ")"%char :: rest)%list = Some (ps, rest).
Proof.
  unfold p_list, ptry at 1. cbn [p_punct]. change (Ascii.eqb "(" "(") with true. cbv iota.
  destruct ps as [|p ps]; [reflexivity|]. cbn [params_tok]. rewrite <- app_assoc. unfold por.
  assert (E : forall l, ptry (p_punct ")") (fun _ => @pret (list (ptype * string)) []) (ptok p ++ l)%list = None) by (destruct p as [[] x]; reflexivity).
  rewrite E. unfold ptry. rewrite p_param_ok.
  rewrite p_more_ok; [reflexivity|]. rewrite app_length. cbn [length].
  assert (length ps <= length (more_tok ps)).
  { clear. induction ps as [|q ps IH]; [reflexivity|]. cbn [more_tok flat_map]. rewrite app_length. cbn [length]. unfold more_tok in IH. lia. }
  lia.
Qed.

(** ** A module with one function *)
Definition rettype (void : bool) : string := if void then "void" else "double".
Definition func_lines (f : func) : list string :=
  ([("define " ++ rettype (f_void f) ++ " @" ++ quote ++ f_name f ++ quote ++ "(" ++ join ", " (map pstr (f_params f)) ++ ")")%string; "{"]
   ++ map istr (f_body f) ++ ["}"])%list.
Definition func_tok (f : func) : list token :=
  ([TWord "define"; TWord (rettype (f_void f)); TGlobal (f_name f); TPunct "("%char] ++ params_tok (f_params f)
   ++ [TPunct ")"; TPunct "{"]%char ++ flat_map itok (f_body f) ++ [TPunct "}"%char])%list.
Definition func_ok (f : func) : Prop :=
  legal (f_name f) /\ Forall (fun p => legal (snd p)) (f_params f) /\ Forall instr_ok (f_body f).

Lemma Lx_lines body tail tt : Forall instr_ok body -> tail <> [] -> Lx (join newline tail) tt ->
  Lx (join newline (map istr body ++ tail)%list) (flat_map itok body ++ tt)%list.
Proof.
  intros H Ht Htail. induction H as [|i body Hi Hb IH]; [exact Htail|].
  cbn [map app flat_map]. rewrite <- app_assoc.
  assert (E : join newline (istr i :: map istr body ++ tail)%list = istr i ++ newline ++ join newline (map istr body ++ tail)%list).
  { destruct (map istr body ++ tail)%list eqn:E; [apply app_eq_nil in E as [_ E]; congruence|reflexivity]. }
  rewrite E. apply Lx_app; [intros; reflexivity|apply Lx_instr, Hi|]. apply (SLx_app_L _ _ []); [lit|exact IH].
Qed.
Lemma lex_func f : func_ok f -> Lx (join newline (func_lines f)) (func_tok f).
Proof.
  intros (Hn & Hp & Hb). unfold func_lines, func_tok. cbn [app].
  set (lines := (map istr (f_body f) ++ ["}"])%list).
  set (sig := "define " ++ rettype (f_void f) ++ " @" ++ quote ++ f_name f ++ quote ++ "(" ++ join ", " (map pstr (f_params f)) ++ ")").
  assert (E : join newline (sig :: "{" :: lines) = sig ++ newline ++ "{" ++ newline ++ join newline lines).
  { unfold lines. destruct (map istr (f_body f) ++ ["}"])%list eqn:E; [apply app_eq_nil in E as [_ E]; congruence|reflexivity]. }
  rewrite E. unfold sig.
  assert (E2 : "define " ++ rettype (f_void f) ++ " @" ++ quote ++ f_name f ++ quote ++ "(" ++ join ", " (map pstr (f_params f)) ++ ")"
    = ("define " ++ rettype (f_void f) ++ " ") ++ ("@" ++ quote ++ f_name f ++ quote) ++ "(" ++ join ", " (map pstr (f_params f)) ++ ")").
  { rewrite !string_app_assoc. reflexivity. }
  rewrite E2.
  change (TWord "define" :: TWord (rettype (f_void f)) :: TGlobal (f_name f) :: TPunct "(" :: params_tok (f_params f)
     ++ TPunct ")" :: TPunct "{" :: flat_map itok (f_body f) ++ [TPunct "}"])%char%list
    with ([TWord "define"; TWord (rettype (f_void f))] ++ [TGlobal (f_name f)] ++ [TPunct "("%char] ++ params_tok (f_params f)
     ++ [TPunct ")"%char] ++ [TPunct "{"%char] ++ flat_map itok (f_body f) ++ [TPunct "}"%char])%list.
  rewrite !string_app_assoc.
  rewrite <- (string_app_assoc "define "), <- (string_app_assoc ("define " ++ _)).
  apply SLx_app_L; [destruct (f_void f); lit|].
  change ("@" ++ quote ++ f_name f ++ quote ++ "(" ++ join ", " (map pstr (f_params f)) ++ ")" ++ newline ++ "{" ++ newline ++ join newline lines)
    with ("@" ++ (quote ++ f_name f ++ quote ++ "(" ++ join ", " (map pstr (f_params f)) ++ ")" ++ newline ++ "{" ++ newline ++ join newline lines)).
  rewrite <- (string_app_assoc (f_name f)), <- (string_app_assoc quote), <- (string_app_assoc "@").
  apply SLx_app_L; [apply SLx_gquoted, Hn|].
  apply SLx_app_L; [lit|]. apply SLx_app_L; [apply SLx_params, Hp|]. apply SLx_app_L; [lit|].
  apply (SLx_app_L newline _ []); [lit|]. apply (SLx_app_L _ _ [TPunct "{"%char]); [lit|]. apply (SLx_app_L newline _ []); [lit|].
  apply Lx_lines; [exact Hb|discriminate|]. apply SLx_Lx. lit.
Qed.
Definition decl_items : list item := [ITarget; ITarget; IDeclare "llvm.pow.f64" 2; IDeclare "llvm.sin.f64" 1; IDeclare "llvm.cos.f64" 1].
Definition header_tok : list token := match lrun LIdle llvm_header with Some (ts, _) => ts | None => [] end.
Lemma SLx_header : SLx llvm_header header_tok.
Proof. apply SLx_lit. vm_compute. reflexivity. Qed.
Definition p_define : parser item :=
  pdo _ <- p_kw "define";
  pdo v <- por (pdo _ <- p_kw "void"; pret true) (pdo _ <- p_kw "double"; pret false);
  pdo g <- p_global;
  pdo ps <- p_list p_param;
  pdo _ <- p_punct "{";
  fun ts => (pdo body <- p_body (length ts); pret (IDefine (mkFunc v g ps body))) ts.
Lemma p_item_define l : p_item (TWord "define" :: l) = p_define (TWord "define" :: l).
Proof. reflexivity. Qed.
Lemma p_define_ok f : func_ok f -> p_item (func_tok f) = Some (IDefine f, []).
Proof.
  intros (_ & _ & Hb). unfold func_tok. cbn [app]. rewrite p_item_define. destruct f as [v g ps body]. cbn [f_void f_name f_params f_body] in *.
  unfold p_define. set (q := p_list p_param) in *.
  assert (E : forall l, q (TPunct "("%char :: params_tok ps ++ TPunct ")"%char :: l)%list = Some (ps, l)) by (intros l; apply p_params_ok).
  clearbody q. destruct v; cbn; unfold por, ptry; cbn; rewrite E; cbn;
    (rewrite p_body_ok; [reflexivity|exact Hb|rewrite app_length; cbn [length]; lia]).
Qed.
Lemma p_item1 l : p_item (TWord "target" :: TWord "triple" :: TPunct "="%char :: TStr "unknown-unknown-unknown" :: l) = Some (ITarget, l).
Proof. reflexivity. Qed.
Lemma p_item2 l : p_item (TWord "target" :: TWord "datalayout" :: TPunct "="%char :: TStr "" :: l) = Some (ITarget, l).
Proof. reflexivity. Qed.
Lemma p_item3 g x y l : p_item (TWord "declare" :: TWord "double" :: TGlobal g :: TPunct "("%char :: TWord "double" :: TLocal x :: TPunct ","%char ::
  TWord "double" :: TLocal y :: TPunct ")"%char :: l) = Some (IDeclare g 2, l).
Proof. reflexivity. Qed.
Lemma p_item4 g x l : p_item (TWord "declare" :: TWord "double" :: TGlobal g :: TPunct "("%char :: TWord "double" :: TLocal x :: TPunct ")"%char :: l)
  = Some (IDeclare g 1, l).
Proof. reflexivity. Qed.
Lemma p_items_step n t ts i ts' l : p_item (t :: ts) = Some (i, ts') -> p_items n ts' = Some l -> p_items (S n) (t :: ts) = Some (i :: l).
Proof. intros H1 H2. cbn [p_items]. rewrite H1, H2. reflexivity. Qed.
Lemma parse_module f : func_ok f ->
  parse (llvm_header ++ join newline (func_lines f)) = Some (decl_items ++ [IDefine f])%list.
Proof.
  intros Hf. unfold parse. pose proof (SLx_app_L _ _ _ _ SLx_header (lex_func f Hf) "" I) as H.
  assert (En : forall s, s ++ "" = s) by (induction s as [|c s IH]; simpl; [|rewrite IH]; reflexivity).
  rewrite En in H. rewrite H. cbn [lex option_map]. rewrite app_nil_r.
  assert (Eh : exists k, length (header_tok ++ func_tok f)%list = 6 + k).
  { rewrite app_length. exists (length header_tok + length (func_tok f) - 6).
    change (length header_tok) with 32. lia. }
  destruct Eh as [k ->].
  let h := eval vm_compute in header_tok in change header_tok with h. cbn [app Nat.add].
  apply p_items_step with (1 := p_item1 _). apply p_items_step with (1 := p_item2 _). apply p_items_step with (1 := p_item3 _ _ _ _).
  apply p_items_step with (1 := p_item4 _ _ _). apply p_items_step with (1 := p_item4 _ _ _).
  pose proof (p_define_ok f Hf) as Hd. unfold func_tok in *. cbn [app] in *.
  apply p_items_step with (1 := Hd). destruct k; reflexivity.
Qed.
