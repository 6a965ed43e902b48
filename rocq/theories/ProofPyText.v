(** * Proofs: reading the printed text as Python *)
From Coq Require Import DecimalString Decimal DecimalPos DecimalFacts.
From Verif Require Import Py ModelTree ModelCas ModelMatrix ModelApi SpecTree SpecPrint SpecApi SpecPyText
  ProofBase ProofTree ProofPrint ProofBin.
Local Open Scope string_scope.

Section NS.
  Variable ns : string -> option obj.
  Notation readable := (readable ns).

  (** Induction over readable expressions. *)
  Lemma readable_ind' (P : tree -> Prop) :
    (forall n, P (Integer n)) ->
    (forall s, python_name s -> ns s = Some (OExpr (Symbol s)) -> P (Symbol s)) ->
    (forall args, args <> [] -> Forall readable args -> Forall P args -> P (Node (Add :: args))) ->
    (forall args, args <> [] -> Forall readable args -> Forall P args -> P (Node (Mul :: args))) ->
    (forall b e, readable b -> readable e -> P b -> P e -> ~ is_power b -> ~ negative b -> P (Node [Pow; b; e])) ->
    (forall s args, python_name s -> s <> "Add" -> s <> "Mul" -> s <> "pow" -> ns s = Some (OExpr (Function s)) ->
       Forall readable args -> Forall P args -> P (Node (Function s :: args))) ->
    forall t, readable t -> P t.
  Proof.
    intros H1 H2 H3 H4 H5 H6. induction t as [a|cs IH] using tree_ind_all; intros H.
    - inversion H as [n E|s Hs Hn E| | | |]; [apply H1|]. apply (H2 s Hs Hn).
    - assert (K : forall args, (forall a, In a args -> In a cs) -> Forall readable args -> Forall P args).
      { intros args Hi Hr. rewrite Forall_forall in *. intros a Ha. apply IH; auto. }
      inversion H; subst.
      + apply H3; auto. apply K; auto. intros; right; auto.
      + apply H4; auto. apply K; auto. intros; right; auto.
      + apply H5; auto; apply IH; simpl; auto.
      + apply H6; auto. apply K; auto. intros; right; auto.
  Qed.

  Lemma readable_ok t : readable t -> pretty t = Ok (txt t).
  Proof.
    revert t. apply readable_ind'; [intros n|intros s Hs Hn|intros args He Hf IH|intros args He Hf IH|intros b e Hb He IHb IHe Hp Hn|intros s args Hs H1 H2 H3 Hn Hf IH];
      try reflexivity.
    - unfold txt. cbn [pretty]. rewrite (mapM_txt args IH). reflexivity.
    - unfold txt. cbn [pretty]. rewrite (mapM_txt args IH). reflexivity.
    - unfold txt. cbn [pretty mapM]. rewrite IHb, IHe. reflexivity.
    - unfold txt at 1. rewrite pretty_call by auto. reflexivity.
  Qed.
  Lemma readable_oks args : Forall readable args -> Forall (fun t => pretty t = Ok (txt t)) args.
  Proof. apply Forall_impl, readable_ok. Qed.
  Lemma rtxt_add args : Forall readable args -> txt (Node (Add :: args)) = "(" ++ join " + " (map txt args) ++ ")".
  Proof. intros H. unfold txt at 1. cbn [pretty]. rewrite mapM_txt by (apply readable_oks, H). reflexivity. Qed.
  Lemma rtxt_mul args : Forall readable args -> txt (Node (Mul :: args)) = "(" ++ join "*" (map txt args) ++ ")".
  Proof. intros H. unfold txt at 1. cbn [pretty]. rewrite mapM_txt by (apply readable_oks, H). reflexivity. Qed.
  Lemma rtxt_pow b e : readable b -> readable e -> txt (Node [Pow; b; e]) = txt b ++ "**" ++ txt e.
  Proof. intros Hb He. unfold txt at 1. cbn [pretty mapM]. rewrite !readable_ok by assumption. reflexivity. Qed.
  Lemma rtxt_call s args : s <> "Add" -> s <> "Mul" -> s <> "pow" -> Forall readable args ->
    txt (Node (Function s :: args)) = s ++ "(" ++ join ", " (map txt args) ++ ")".
  Proof. intros H1 H2 H3 H. unfold txt at 1. rewrite pretty_call by (auto; apply readable_oks, H). reflexivity. Qed.
  Lemma rtxt_head t : readable t -> head_is starts (txt t) = true.
  Proof.
    revert t. apply readable_ind'; [intros n|intros s Hs Hn|intros args He Hf IH|intros args He Hf IH|intros b e Hb He IHb IHe Hp Hn|intros s args Hs H1 H2 H3 Hn Hf IH].
    - rewrite txt_int. eapply head_imp; [|apply int_head]. intros c Hc. unfold starts, alnum.
      apply orb_prop in Hc as [->| ->]; rewrite ?orb_true_r; reflexivity.
    - rewrite txt_sym. eapply head_imp; [|apply identifier_head, Hs]. intros c Hc. unfold starts, alnum.
      rewrite Hc. reflexivity.
    - rewrite rtxt_add by exact Hf. reflexivity.
    - rewrite rtxt_mul by exact Hf. reflexivity.
    - rewrite rtxt_pow by assumption. apply head_app, IHb.
    - rewrite rtxt_call by assumption. apply head_app. eapply head_imp; [|apply identifier_head, Hs].
      intros c Hc. unfold starts, alnum. rewrite Hc. reflexivity.
  Qed.

  (** ** The tokens of an expression *)
  Fixpoint tjoin (sep : token) (l : list (list token)) : list token :=
    match l with
    | [] => []
    | a :: r => match r with [] => a | _ => (a ++ sep :: tjoin sep r)%list end
    end.
  Fixpoint tk (t : tree) : list token :=
    match t with
    | Atm a => match atom_value a with
               | VInt n => if (n <? 0)%Z then [TMinus; TInt (- n)] else [TInt n]
               | VStr s => [TName s]
               end
    | Node [] => []
    | Node (h :: args) =>
        if tree_eqb h Add then (TLpar :: tjoin TPlus (map tk args) ++ [TRpar])%list
        else if tree_eqb h Mul then (TLpar :: tjoin TStar (map tk args) ++ [TRpar])%list
        else if tree_eqb h Pow then match map tk args with [b; e] => (b ++ TPow :: e)%list | _ => [] end
        else match h with
             | Atm a => match atom_value a with VStr s => (TName s :: TLpar :: tjoin TComma (map tk args) ++ [TRpar])%list | _ => [] end
             | _ => []
             end
    end.
  Lemma tk_call s args : s <> "Add" -> s <> "Mul" -> s <> "pow" ->
    tk (Node (Function s :: args)) = (TName s :: TLpar :: tjoin TComma (map tk args) ++ [TRpar])%list.
  Proof. intros H1 H2 H3. cbn [tk]. unfold Add, Mul, Pow. rewrite !function_neq by assumption. reflexivity. Qed.

  Lemma all_chars_imp p q s : (forall c, p c = true -> q c = true) -> all_chars p s = true -> all_chars q s = true.
  Proof. intros H. induction s as [|c s IH]; simpl; [auto|]. rewrite !andb_true_iff. intros [A B]. auto. Qed.
  Lemma tokens_word a : forall w r, all_chars word_char a = true -> tokens w (a ++ r) = tokens (w ++ a) r.
  Proof.
    induction a as [|c a IH]; intros w r H; [rewrite app_nil_s; reflexivity|].
    cbn [all_chars] in H. apply andb_prop in H as [Hc Ha]. cbn [append tokens]. rewrite Hc, IH by exact Ha.
    rewrite app_assoc_s. reflexivity.
  Qed.
  Lemma tokens_flush w r : head_is word_char r = false -> tokens w r = flush w (tokens "" r).
  Proof.
    destruct r as [|c r]; [reflexivity|]. cbn [head_is]. intros H. cbn [tokens]. rewrite H. reflexivity.
  Qed.
  Lemma tokens_one a t r : a <> "" -> all_chars word_char a = true -> word a = Some t -> head_is word_char r = false ->
    tokens "" (a ++ r) = push (Some t) (tokens "" r).
  Proof.
    intros Hne Ha Hw Hr. rewrite tokens_word, tokens_flush by assumption. cbn [append]. rewrite <- Hw. destruct a; [congruence|reflexivity].
  Qed.
  Lemma word_name s : python_name s -> word s = Some (TName s).
  Proof.
    intros [Hi Hk]. destruct s as [|c s]; [destruct Hi|]. unfold word. rewrite (proj1 Hi).
    destruct (existsb (String.eqb (String c s)) keywords) eqn:E; [|reflexivity].
    destruct Hk. apply existsb_exists in E as (k & Hin & Ek). apply String.eqb_eq in Ek. subst. exact Hin.
  Qed.
  Lemma digits_value_pos u : forall p, digits_value (Z.pos p) (NilEmpty.string_of_uint u) = Z.pos (Pos.of_uint_acc u p).
  Proof.
    induction u as [|u IH|u IH|u IH|u IH|u IH|u IH|u IH|u IH|u IH|u IH]; intros p; cbn [NilEmpty.string_of_uint digits_value Pos.of_uint_acc]; try reflexivity;
      rewrite <- IH; f_equal;
      match goal with |- context [Z.of_nat (nat_of_ascii ?c)] =>
        let v := eval vm_compute in (Z.of_nat (nat_of_ascii c)) in change (Z.of_nat (nat_of_ascii c)) with v end; lia.
  Qed.
  Lemma digits_value_uint u : digits_value 0 (NilEmpty.string_of_uint u) = Z.of_N (Pos.of_uint u).
  Proof.
    induction u as [|u IH|u IH|u IH|u IH|u IH|u IH|u IH|u IH|u IH|u IH]; cbn [NilEmpty.string_of_uint digits_value Pos.of_uint]; try reflexivity;
      try (exact IH); apply (digits_value_pos u).
  Qed.
  Lemma word_pos p : word (NilEmpty.string_of_uint (Pos.to_uint p)) = Some (TInt (Z.pos p)).
  Proof.
    pose proof (Unsigned.of_to p) as Hof. pose proof (digits_value_uint (Pos.to_uint p)) as Hv. rewrite Hof in Hv. cbn in Hv.
    pose proof (digits_string (Pos.to_uint p)) as Hd.
    assert (Hz : forall u, Pos.to_uint p = D0 u -> False).
    { intros u E. pose proof (Unsigned.to_of (Pos.to_uint p)) as Ht. rewrite Hof in Ht. cbn [N.to_uint] in Ht.
      rewrite E in Ht. unfold unorm in Ht. cbn [nzhead] in Ht. pose proof (nzhead_nonzero u) as Hnz.
      destruct (nzhead u) eqn:En; try discriminate Ht; [|eapply Hnz; reflexivity].
      unfold zero in Ht. injection Ht as ->. rewrite E in Hof. discriminate. }
    unfold word. rewrite Hd, Hv. destruct (Pos.to_uint p) as [|u|u|u|u|u|u|u|u|u|u] eqn:E; try reflexivity.
    - discriminate Hof.
    - destruct (Hz u eq_refl).
  Qed.
  Lemma uint_nonempty p : NilEmpty.string_of_uint (Pos.to_uint p) <> "".
  Proof. intros H. pose proof (word_pos p) as W. rewrite H in W. discriminate. Qed.
  Lemma tokens_uint p r : head_is word_char r = false ->
    tokens "" (NilEmpty.string_of_uint (Pos.to_uint p) ++ r) = push (Some (TInt (Z.pos p))) (tokens "" r).
  Proof.
    intros Hr. apply tokens_one; [apply uint_nonempty| |apply word_pos|exact Hr].
    eapply all_chars_imp; [|apply digits_string]. intros c Hc. unfold word_char. rewrite Hc. apply orb_true_r.
  Qed.
  Lemma identifier_word s : identifier s -> s <> "" /\ all_chars word_char s = true.
  Proof. intros H. split; [destruct s; [destruct H|discriminate]|apply identifier_all, H]. Qed.

  Lemma star_step c r : Ascii.eqb c "*" = false ->
    tokens "" ("*" ++ String c r) = push (Some TStar) (tokens "" (String c r)).
  Proof.
    intros E. transitivity (if Ascii.eqb c "*" then push (Some TPow) (tokens "" r) else push (Some TStar) (tokens "" (String c r)));
      [reflexivity|rewrite E; reflexivity].
  Qed.
  Definition lexes (t : tree) : Prop := forall r ts, head_is word_char r = false -> tokens "" r = Some ts ->
    tokens "" (txt t ++ r) = Some (tk t ++ ts)%list.
  Lemma lexes_join sep (d : token) args : 
    (forall r ts, tokens "" r = Some ts -> head_is starts r = true -> tokens "" (sep ++ r) = Some (d :: ts)) ->
    (forall r, head_is word_char (sep ++ r) = false) ->
    Forall readable args -> Forall lexes args ->
    forall r ts, head_is word_char r = false -> tokens "" r = Some ts ->
      tokens "" (join sep (map txt args) ++ r) = Some (tjoin d (map tk args) ++ ts)%list.
  Proof.
    intros Hsep Hw Hr Hl r ts Hh Ht. induction Hl as [|a l Ha Hl IH]; [exact Ht|].
    destruct l as [|b l]; [exact (Ha r ts Hh Ht)|].
    inversion Hr as [|? ? Hra Hrl]; subst. specialize (IH Hrl).
    change (join sep (map txt (a :: b :: l))) with (txt a ++ sep ++ join sep (map txt (b :: l))).
    change (tjoin d (map tk (a :: b :: l))) with (tk a ++ d :: tjoin d (map tk (b :: l)))%list.
    rewrite !app_assoc_s. rewrite (Ha _ (d :: (tjoin d (map tk (b :: l)) ++ ts))%list); [rewrite <- app_assoc; reflexivity|apply Hw|].
    apply Hsep; [exact IH|]. apply head_app. inversion Hrl as [|? ? Hrb _]; subst. pose proof (rtxt_head b Hrb) as Hb.
    cbn [map join]. destruct (map txt l); [exact Hb|apply head_app, Hb].
  Qed.
  Lemma lex_all t : readable t -> lexes t.
  Proof.
    revert t. apply readable_ind'; [intros n|intros s Hs Hn|intros args He Hf IH|intros args He Hf IH|intros b e Hb He IHb IHe Hp Hn|intros s args Hs H1 H2 H3 Hn Hf IH];
      intros r ts Hr Ht.
    - rewrite txt_int. cbn [tk Integer Tr atom_value]. unfold str_int. destruct n as [|p|p]; cbn [Z.to_int NilEmpty.string_of_int Z.ltb Z.compare].
      + change (NilEmpty.string_of_uint (D0 Nil)) with "0". rewrite (tokens_one "0" (TInt 0)) by (try reflexivity; try discriminate; exact Hr).
        rewrite Ht. reflexivity.
      + rewrite tokens_uint, Ht by exact Hr. reflexivity.
      + cbn [append tokens]. cbn. rewrite tokens_uint, Ht by exact Hr. reflexivity.
    - rewrite txt_sym. cbn [tk Symbol Tr atom_value]. destruct (identifier_word s (proj1 Hs)) as [A B].
      rewrite (tokens_one s (TName s)); auto using word_name. rewrite Ht. reflexivity.
    - rewrite rtxt_add by exact Hf. cbn [tk]. rewrite tree_eqb_refl. rewrite !app_assoc_s.
      change (tokens "" ("(" ++ join " + " (map txt args) ++ ")" ++ r)) with (push (Some TLpar) (tokens "" (join " + " (map txt args) ++ ")" ++ r))).
      rewrite (lexes_join " + " TPlus args) with (ts := TRpar :: ts); auto.
      + cbn [push app]. rewrite <- app_assoc. reflexivity.
      + intros r' ts' E _. change (push (Some TPlus) (tokens "" r') = Some (TPlus :: ts')). rewrite E. reflexivity.
      + change (push (Some TRpar) (tokens "" r) = Some (TRpar :: ts)). rewrite Ht. reflexivity.
    - rewrite rtxt_mul by exact Hf. cbn [tk]. change (tree_eqb Mul Add) with false. rewrite tree_eqb_refl. rewrite !app_assoc_s.
      change (tokens "" ("(" ++ join "*" (map txt args) ++ ")" ++ r)) with (push (Some TLpar) (tokens "" (join "*" (map txt args) ++ ")" ++ r))).
      rewrite (lexes_join "*" TStar args) with (ts := TRpar :: ts); auto.
      + cbn [push app]. rewrite <- app_assoc. reflexivity.
      + intros r' ts' E Hh. destruct r' as [|c r']; [discriminate|]. cbn [head_is] in Hh.
        assert (Ec : Ascii.eqb c "*" = false) by (destruct (Ascii.eqb_spec c "*") as [->|]; [discriminate|reflexivity]).
        rewrite star_step by exact Ec. change (push (Some TStar) (tokens "" (String c r')) = Some (TStar :: ts')). rewrite E. reflexivity.
      + change (push (Some TRpar) (tokens "" r) = Some (TRpar :: ts)). rewrite Ht. reflexivity.
    - rewrite rtxt_pow by assumption. cbn [tk map]. change (tree_eqb Pow Add) with false. change (tree_eqb Pow Mul) with false.
      rewrite tree_eqb_refl. rewrite !app_assoc_s. rewrite (IHb _ (TPow :: (tk e ++ ts))%list); [rewrite <- app_assoc; reflexivity|reflexivity|].
      change (push (Some TPow) (tokens "" (txt e ++ r)) = Some (TPow :: tk e ++ ts)%list). rewrite (IHe r ts Hr Ht). reflexivity.
    - rewrite rtxt_call, tk_call by assumption. destruct (identifier_word s (proj1 Hs)) as [A B]. rewrite !app_assoc_s.
      rewrite (tokens_one s (TName s)); auto using word_name.
      change (push (Some (TName s)) (push (Some TLpar) (tokens "" (join ", " (map txt args) ++ ")" ++ r))) =
              Some ((TName s :: TLpar :: tjoin TComma (map tk args) ++ [TRpar]) ++ ts)%list).
      rewrite (lexes_join ", " TComma args) with (ts := TRpar :: ts); auto.
      + cbn [push app]. rewrite <- app_assoc. reflexivity.
      + intros r' ts' E _. change (push (Some TComma) (tokens "" r') = Some (TComma :: ts')). rewrite E. reflexivity.
      + change (push (Some TRpar) (tokens "" r) = Some (TRpar :: ts)). rewrite Ht. reflexivity.
  Qed.

  Local Open Scope list_scope.
  (** ** The syntax tree of an expression *)
  Definition fold_bin (op : operator) (l : list pyexpr) : pyexpr :=
    match l with [] => PyInt 0 | a :: r => fold_left (PyBin op) r a end.
  Fixpoint ast (t : tree) : pyexpr :=
    match t with
    | Atm a => match atom_value a with
               | VInt n => if (n <? 0)%Z then PyNeg (PyInt (- n)) else PyInt n
               | VStr s => PyName s
               end
    | Node [] => PyInt 0
    | Node (h :: args) =>
        if tree_eqb h Add then fold_bin OpAdd (map ast args)
        else if tree_eqb h Mul then fold_bin OpMul (map ast args)
        else if tree_eqb h Pow then match map ast args with [b; e] => PyBin OpPow b e | _ => PyInt 0 end
        else match h with
             | Atm a => match atom_value a with VStr s => PyCall (PyName s) (map ast args) | _ => PyInt 0 end
             | _ => PyInt 0
             end
    end.
  Lemma ast_call s args : s <> "Add" -> s <> "Mul" -> s <> "pow" ->
    ast (Node (Function s :: args)) = PyCall (PyName s) (map ast args).
  Proof. intros H1 H2 H3. cbn [ast]. unfold Add, Mul, Pow. rewrite !function_neq by assumption. reflexivity. Qed.

  Definition eventually (P : nat -> nat -> Prop) : Prop := exists k, forall j fuel, k <= j -> k <= fuel -> P j fuel.
  Lemma eventually_and P Q : eventually P -> eventually Q -> eventually (fun j f => P j f /\ Q j f).
  Proof. intros [k A] [l B]. exists (max k l). intros j f Hj Hf. split; [apply A|apply B]; lia. Qed.
  Lemma eventually_all {A} (P : A -> nat -> nat -> Prop) l : Forall (fun a => eventually (P a)) l ->
    eventually (fun j f => Forall (fun a => P a j f) l).
  Proof.
    induction 1 as [|a l Ha _ IH]; [exists 0; intros; constructor|].
    destruct (eventually_and _ _ Ha IH) as [k H]. exists k. intros j f Hj Hf. destruct (H j f Hj Hf). constructor; assumption.
  Qed.

  Definition not_call (ts : list token) : Prop := match ts with TLpar :: _ => False | _ => True end.
  Definition not_pow (ts : list token) : Prop := match ts with TLpar :: _ | TPow :: _ => False | _ => True end.
  Definition not_mul (ts : list token) : Prop := match ts with TLpar :: _ | TPow :: _ | TStar :: _ | TSlash :: _ => False | _ => True end.
  Definition closing (ts : list token) : Prop := match ts with [] | TRpar :: _ | TComma :: _ => True | _ => False end.
  Lemma not_mul_pow ts : not_mul ts -> not_pow ts. Proof. destruct ts as [|[] ts]; simpl; auto. Qed.
  Lemma not_pow_call ts : not_pow ts -> not_call ts. Proof. destruct ts as [|[] ts]; simpl; auto. Qed.
  Lemma closing_mul ts : closing ts -> not_mul ts. Proof. destruct ts as [|[] ts]; simpl; auto. Qed.

  Definition P_primary t j f := forall ts, not_call ts -> primary (sum_ j) f (tk t ++ ts) = Some (ast t, ts).
  Definition P_factor t j f := forall ts, not_pow ts -> factor (sum_ j) f (tk t ++ ts) = Some (ast t, ts).
  Definition P_term t j f := forall ts, not_mul ts -> term (sum_ j) f (tk t ++ ts) = Some (ast t, ts).
  Definition P_sum t j := forall ts, closing ts -> sum_ j (tk t ++ ts) = Some (ast t, ts).

  Lemma factor_of_primary t : (match tk t with TMinus :: _ | [] => False | _ => True end) ->
    eventually (P_primary t) -> eventually (P_factor t).
  Proof.
    intros Hh [k H]. exists (S k). intros j f Hj Hf ts Hts. destruct f as [|f]; [lia|].
    assert (E : primary (sum_ j) f (tk t ++ ts) = Some (ast t, ts)) by (apply H; [lia|lia|apply not_pow_call, Hts]).
    cbn [factor]. destruct (tk t) as [|[] l]; try contradiction Hh; cbn [app] in *; rewrite E;
      destruct ts as [|[] ts]; try reflexivity; destruct Hts.
  Qed.
  Lemma term_of_factor t : eventually (P_factor t) -> eventually (P_term t).
  Proof.
    intros [k H]. exists (S k). intros j f Hj Hf ts Hts. unfold term. rewrite H by (try lia; apply not_mul_pow, Hts).
    destruct f as [|f]; [lia|]. cbn [factors]. destruct ts as [|[] ts]; try reflexivity; destruct Hts.
  Qed.
  Lemma sum_of_factor t : eventually (P_factor t) -> exists k, forall j, k <= j -> P_sum t j.
  Proof.
    intros H. apply term_of_factor in H as [k H]. exists (S (S k)). intros j Hj ts Hts. destruct j as [|j]; [lia|].
    cbn [sum_]. rewrite H by (try lia; apply closing_mul, Hts). destruct j as [|j]; [lia|]. cbn [terms].
    destruct ts as [|[] ts]; try reflexivity; destruct Hts.
  Qed.
  Lemma tjoin_cons d a l : tjoin d (a :: l) = (a ++ flat_map (cons d) l)%list.
  Proof.
    revert a. induction l as [|b l IH]; intros a; [cbn; rewrite app_nil_r; reflexivity|].
    change (tjoin d (a :: b :: l)) with (a ++ d :: tjoin d (b :: l))%list. rewrite IH. reflexivity.
  Qed.
  Lemma flat_map_tk {d} l ts : (flat_map (cons d) (map tk l) ++ ts)%list =
    match l with [] => ts | t :: l' => d :: (tk t ++ flat_map (cons d) (map tk l') ++ ts)%list end.
  Proof. destruct l as [|t l]; [reflexivity|]. cbn [map flat_map app]. rewrite <- !app_assoc. reflexivity. Qed.

  Lemma factors_list l : Forall (fun t => eventually (P_factor t)) l -> eventually (fun j f => forall acc ts, not_mul ts ->
    factors (sum_ j) f acc (flat_map (cons TStar) (map tk l) ++ ts) = Some (fold_left (PyBin OpMul) (map ast l) acc, ts)).
  Proof.
    induction 1 as [|t l Ht _ IH].
    - exists 1. intros j f Hj Hf acc ts Hts. destruct f as [|f]; [lia|]. cbn [map flat_map app factors fold_left].
      destruct ts as [|[] ts]; try reflexivity; destruct Hts.
    - destruct (eventually_and _ _ Ht IH) as [k H]. exists (S k). intros j f Hj Hf acc ts Hts.
      destruct f as [|f]; [lia|]. destruct (H j f ltac:(lia) ltac:(lia)) as [A B]. rewrite flat_map_tk. cbn [factors].
      rewrite A by (rewrite flat_map_tk; destruct l; [apply not_mul_pow, Hts|exact I]). cbn [map fold_left]. apply B, Hts.
  Qed.
  Lemma terms_list l : Forall (fun t => eventually (P_term t)) l -> eventually (fun j f => forall acc ts, closing ts ->
    terms (sum_ j) f acc (flat_map (cons TPlus) (map tk l) ++ ts) = Some (fold_left (PyBin OpAdd) (map ast l) acc, ts)).
  Proof.
    induction 1 as [|t l Ht _ IH].
    - exists 1. intros j f Hj Hf acc ts Hts. destruct f as [|f]; [lia|]. cbn [map flat_map app terms fold_left].
      destruct ts as [|[] ts]; try reflexivity; destruct Hts.
    - destruct (eventually_and _ _ Ht IH) as [k H]. exists (S k). intros j f Hj Hf acc ts Hts.
      destruct f as [|f]; [lia|]. destruct (H j f ltac:(lia) ltac:(lia)) as [A B]. rewrite flat_map_tk. cbn [terms].
      rewrite A by (rewrite flat_map_tk; destruct l; [apply closing_mul, Hts|exact I]). cbn [map fold_left]. apply B, Hts.
  Qed.
  Lemma more_args_list l : Forall (fun t => exists k, forall j, k <= j -> P_sum t j) l ->
    eventually (fun j f => forall acc ts,
      more_args (sum_ j) f acc (flat_map (cons TComma) (map tk l) ++ TRpar :: ts) = Some ((acc ++ map ast l)%list, ts)).
  Proof.
    induction 1 as [|t l [k1 Ht] _ [k2 IH]].
    - exists 1. intros j f Hj Hf acc ts. destruct f as [|f]; [lia|]. cbn. rewrite app_nil_r. reflexivity.
    - exists (S (max k1 k2)). intros j f Hj Hf acc ts. destruct f as [|f]; [lia|]. rewrite flat_map_tk. cbn [more_args].
      rewrite (Ht j) by (try lia; rewrite flat_map_tk; destruct l; exact I). rewrite IH by lia. rewrite <- app_assoc. reflexivity.
  Qed.
  Lemma primary_parens body p : (exists k, forall j, k <= j -> forall ts, sum_ j (body ++ TRpar :: ts) = Some (p, TRpar :: ts)) ->
    eventually (fun j f => forall ts, not_call ts -> primary (sum_ j) f ((TLpar :: body ++ [TRpar]) ++ ts) = Some (p, ts)).
  Proof.
    intros [k H]. exists (S k). intros j f Hj Hf ts Hts. unfold primary. cbn [app atom_]. rewrite <- app_assoc. cbn [app].
    rewrite H by lia. destruct f as [|f]; [lia|]. cbn [calls]. destruct ts as [|[] ts]; try reflexivity; destruct Hts.
  Qed.

  Lemma tk_nonempty t : readable t -> tk t <> [].
  Proof.
    revert t. apply readable_ind'; [intros n|intros s Hs Hn|intros args He Hf IH|intros args He Hf IH|intros b e Hb He IHb IHe Hp Hn|intros s args Hs H1 H2 H3 Hn Hf IH]; try discriminate.
    - cbn. destruct (n <? 0)%Z; discriminate.
    - cbn [tk map]. change (tree_eqb Pow Add) with false. change (tree_eqb Pow Mul) with false. rewrite tree_eqb_refl.
      destruct (tk b); discriminate.
    - rewrite tk_call by assumption. discriminate.
  Qed.
  (** First, expressions that are no powers and no negative numbers; then all. *)
  Lemma parse_all t : readable t ->
    eventually (P_factor t) /\
    (~ is_power t -> ~ negative t -> eventually (P_primary t)).
  Proof.
    revert t. apply readable_ind'; [intros n|intros s Hs Hn|intros args He Hf IH|intros args He Hf IH|intros b e Hb He IHb IHe Hp Hn|intros s args Hs H1 H2 H3 Hn Hf IH].
    - assert (Pos : forall m, (0 <= m)%Z -> eventually (P_primary (Integer m))).
      { intros m Hm. exists 1. intros j f Hj Hf ts Hts. cbn [tk ast Integer Tr atom_value]. rewrite (proj2 (Z.ltb_ge m 0)) by lia.
        destruct f as [|f]; [lia|]. cbn. destruct ts as [|[] ts]; try reflexivity; destruct Hts. }
      split.
      + destruct (Z_lt_dec n 0) as [Hn|Hn].
        * assert (H : eventually (P_factor (Integer (- n)))).
          { apply factor_of_primary; [|apply Pos; lia]. cbn. rewrite (proj2 (Z.ltb_ge (- n) 0)) by lia. exact I. }
          destruct H as [k H]. exists (S k). intros j f Hj Hf ts Hts. destruct f as [|f]; [lia|].
          pose proof (H j f ltac:(lia) ltac:(lia) ts Hts) as E. cbn [tk ast Integer Tr atom_value] in *.
          rewrite (proj2 (Z.ltb_ge (- n) 0)) in E by lia. rewrite (proj2 (Z.ltb_lt n 0)) by lia.
          cbn [app factor] in *. rewrite E. reflexivity.
        * apply factor_of_primary; [|apply Pos; lia]. cbn. rewrite (proj2 (Z.ltb_ge n 0)) by lia. exact I.
      + intros _ Hn. apply Pos. destruct (Z_lt_dec n 0); [destruct Hn; exists n; auto|lia].
    - assert (P : eventually (P_primary (Symbol s))).
      { exists 1. intros j f Hj Hf ts Hts. destruct f as [|f]; [lia|]. cbn. destruct ts as [|[] ts]; try reflexivity; destruct Hts. }
      split; [apply factor_of_primary; [exact I|exact P]|auto].
    - assert (P : eventually (P_primary (Node (Add :: args)))).
      { destruct args as [|t l]; [congruence|].
        assert (Ht : Forall (fun t => eventually (P_term t)) (t :: l)) by (eapply Forall_impl; [|exact IH]; intros a [Ha _]; apply term_of_factor, Ha).
        inversion Ht as [|? ? A B]; subst. apply terms_list in B. destruct (eventually_and _ _ A B) as [k H].
        unfold P_primary. cbn [tk ast]. rewrite tree_eqb_refl. cbn [map fold_bin]. rewrite tjoin_cons.
        apply primary_parens. exists (S k). intros j Hj ts. destruct j as [|j]; [lia|]. destruct (H j j ltac:(lia) ltac:(lia)) as [A' B'].
        cbn [sum_]. rewrite <- app_assoc. rewrite A' by (rewrite flat_map_tk; destruct l; exact I). apply B'. exact I. }
      split; [apply factor_of_primary; [exact I|exact P]|auto].
    - assert (P : eventually (P_primary (Node (Mul :: args)))).
      { destruct args as [|t l]; [congruence|].
        assert (Ht : Forall (fun t => eventually (P_factor t)) (t :: l)) by (eapply Forall_impl; [|exact IH]; intros a [Ha _]; exact Ha).
        inversion Ht as [|? ? A B]; subst. apply factors_list in B. destruct (eventually_and _ _ A B) as [k H].
        unfold P_primary. cbn [tk ast]. change (tree_eqb Mul Add) with false. rewrite tree_eqb_refl. cbn [map fold_bin]. rewrite tjoin_cons.
        apply primary_parens. exists (S (S k)). intros j Hj ts. destruct j as [|j]; [lia|]. destruct (H j j ltac:(lia) ltac:(lia)) as [A' B'].
        cbn [sum_]. unfold term. rewrite <- app_assoc. rewrite A' by (rewrite flat_map_tk; destruct l; exact I). rewrite B' by exact I.
        destruct j as [|j]; [lia|]. reflexivity. }
      split; [apply factor_of_primary; [exact I|exact P]|auto].
    - split; [|intros Hn'; destruct Hn'; eexists; reflexivity].
      destruct IHb as [_ Pb]. specialize (Pb Hp Hn). destruct IHe as [Pe _]. destruct (eventually_and _ _ Pb Pe) as [k H].
      exists (S k). intros j f Hj Hf ts Hts. destruct f as [|f]; [lia|]. destruct (H j f ltac:(lia) ltac:(lia)) as [A B].
      cbn [tk ast map]. change (tree_eqb Pow Add) with false. change (tree_eqb Pow Mul) with false. rewrite tree_eqb_refl.
      rewrite <- app_assoc. cbn [app].
      assert (E : primary (sum_ j) f (tk b ++ TPow :: tk e ++ ts) = Some (ast b, TPow :: (tk e ++ ts))%list) by (apply A; exact I).
      assert (Hh : match tk b with TMinus :: _ | [] => False | _ => True end).
      { clear - Hb Hp Hn. inversion Hb as [n E|s Hs Hs' E|args Ha Hf E|args Ha Hf E|b' e' B1 B2 B3 B4 E|s args Hs H1 H2 H3 Hs' Hf E]; subst b.
        - cbn. destruct (n <? 0)%Z eqn:En; [|exact I]. destruct Hn. exists n. apply Z.ltb_lt in En. auto.
        - exact I.
        - exact I.
        - exact I.
        - destruct Hp. eexists. reflexivity.
        - rewrite tk_call by assumption. exact I. }
      cbn [factor]. destruct (tk b) as [|[] l]; try contradiction Hh; cbn [app] in *; rewrite E, B by exact Hts; reflexivity.
    - assert (P : eventually (P_primary (Node (Function s :: args)))).
      { assert (Ht : Forall (fun t => exists k, forall j, k <= j -> P_sum t j) args) by (eapply Forall_impl; [|exact IH]; intros a [Ha _]; apply sum_of_factor, Ha).
        unfold P_primary. rewrite tk_call, ast_call by assumption. destruct args as [|t l].
        - exists 2. intros j f Hj Hf' ts Hts. destruct f as [|[|f]]; [lia|lia|]. cbn. destruct ts as [|[] ts]; try reflexivity; destruct Hts.
        - inversion Ht as [|? ? [k1 A] B]; subst. apply more_args_list in B. destruct B as [k2 B].
          exists (S (S (max k1 k2))). intros j f Hj Hf' ts Hts. destruct f as [|f]; [lia|].
          unfold primary. cbn [app atom_ calls map]. rewrite tjoin_cons, <- !app_assoc. cbn [app]. unfold args_.
          assert (E : sum_ j (tk t ++ flat_map (cons TComma) (map tk l) ++ TRpar :: ts) = Some (ast t, (flat_map (cons TComma) (map tk l) ++ TRpar :: ts)%list))
            by (apply A; [lia|rewrite flat_map_tk; destruct l; exact I]).
          inversion Hf as [|? ? Hrt _]; subst. pose proof (tk_nonempty t Hrt) as Hne.
          assert (Hh : match tk t with TRpar :: _ => False | _ => True end).
          { destruct (tk t) as [|[] m]; try exact I. destruct j as [|[|j]]; [lia|lia|]. cbn in E. discriminate. }
          assert (R : (match (tk t ++ flat_map (cons TComma) (map tk l) ++ TRpar :: ts)%list with
                       | TRpar :: r => Some ([], r)
                       | _ => match sum_ j (tk t ++ flat_map (cons TComma) (map tk l) ++ TRpar :: ts) with
                              | Some (a, r) => more_args (sum_ j) f [a] r | None => None end
                       end) = Some (map ast (t :: l), ts)).
          { rewrite E, B by lia. destruct (tk t) as [|[] m]; try reflexivity; [congruence|destruct Hh]. }
          rewrite R. destruct f as [|f]; [lia|]. cbn [calls]. destruct ts as [|[] ts]; try reflexivity; destruct Hts. }
      split; [apply factor_of_primary; [rewrite tk_call by assumption; exact I|exact P]|auto].
  Qed.
  Lemma text_reads_as t : readable t -> reads_as (txt t) (ast t).
  Proof.
    intros H. destruct (sum_of_factor t (proj1 (parse_all t H))) as [k Hk]. exists k. intros fuel Hf. unfold parse_python.
    pose proof (lex_all t H "" [] eq_refl eq_refl) as L. rewrite app_nil_s in L. rewrite L, Hk by (try lia; exact I). reflexivity.
  Qed.
End NS.
