(** * The LaTeX text is well-formed, except for powers of powers: C87. *)
From Verif Require Import Py ModelTree SpecTree ProofBase ModelEval SpecEval ProofEval ModelDiff ModelSym ModelCas SpecPrint ProofPrint SpecLatex
  PropsLatex ModelMatrix ModelApi SpecLatexForm Samples.
Local Open Scope string_scope.

(** ** Matching brackets *)
Definition bracket (c : ascii) : bool := Ascii.eqb c "(" || Ascii.eqb c "{" || Ascii.eqb c ")" || Ascii.eqb c "}".
Lemma nested_plain s st r : all_chars (fun c => negb (bracket c)) s = true -> nested st (s ++ r) = nested st r.
Proof.
  induction s as [|c s IH]; intros H; [reflexivity|]. cbn [all_chars] in H. apply andb_prop in H as [H1 H2]. cbn [append nested].
  unfold bracket in H1. destruct (Ascii.eqb c "("), (Ascii.eqb c "{"), (Ascii.eqb c ")"), (Ascii.eqb c "}"); try discriminate. apply IH, H2.
Qed.
(** What holds of all letters and digits: a computation over the 256 characters. *)
Lemma all_ascii (p : ascii -> bool) : (forall b0 b1 b2 b3 b4 b5 b6 b7, p (Ascii b0 b1 b2 b3 b4 b5 b6 b7) = true) -> forall c, p c = true.
Proof. intros H [b0 b1 b2 b3 b4 b5 b6 b7]. apply H. Qed.
Definition plain (c : ascii) : bool := negb (bracket c) && negb (Ascii.eqb c "$") && negb (Ascii.eqb c "^").
Lemma word_plain c : (is_alpha c || is_digit c || Ascii.eqb c "-") = true -> plain c = true.
Proof.
  intros H. assert (K : implb (is_alpha c || is_digit c || Ascii.eqb c "-") (plain c) = true); [|rewrite H in K; exact K].
  clear H. revert c. apply all_ascii. intros [] [] [] [] [] [] [] []; vm_compute; reflexivity.
Qed.
Lemma all_imp (p q : ascii -> bool) s : (forall c, p c = true -> q c = true) -> all_chars p s = true -> all_chars q s = true.
Proof. intros H. induction s as [|c s IH]; [auto|]. cbn [all_chars]. intros E. apply andb_prop in E as [E1 E2]. rewrite (H c E1), (IH E2). reflexivity. Qed.
Lemma identifier_plain s : identifier s -> all_chars plain s = true.
Proof.
  destruct s as [|c s]; [intros []|]. intros [H1 H2]. cbn [all_chars]. rewrite word_plain by (rewrite H1; reflexivity).
  apply (all_imp _ plain s) in H2; [exact H2|]. intros d Hd. apply word_plain. rewrite Hd. reflexivity.
Qed.
Lemma int_plain n : all_chars plain (str_int n) = true.
Proof.
  destruct (str_int_form n) as (neg & d & -> & Hd & _).
  assert (K : all_chars plain d = true) by (apply (all_imp _ plain d) in Hd; [exact Hd|]; intros c Hc; apply word_plain; rewrite Hc, orb_true_r; reflexivity).
  destruct neg; exact K.
Qed.
Lemma plain_nested s st r : all_chars plain s = true -> nested st (s ++ r) = nested st r.
Proof.
  intros H. apply nested_plain. apply (all_imp plain); [|exact H]. intros c Hc. unfold plain in Hc. apply andb_prop in Hc as [Hc _]. apply andb_prop in Hc as [Hc _]. exact Hc.
Qed.
Lemma join_nested sep l st r : all_chars plain sep = true -> Forall (fun s => forall st r, nested st (s ++ r) = nested st r) l ->
  nested st (join sep l ++ r) = nested st r.
Proof.
  intros Hs H. induction H as [|s l H1 H2 IH]; [reflexivity|]. destruct l as [|s2 l]; [apply H1|].
  change (join sep (s :: s2 :: l)) with (s ++ sep ++ join sep (s2 :: l)). rewrite !app_assoc_s, H1, plain_nested by exact Hs. apply IH.
Qed.
Lemma open_paren st s : nested st ("(" ++ s) = nested (")"%char :: st) s. Proof. reflexivity. Qed.
Lemma close_paren st s : nested (")"%char :: st) (")" ++ s) = nested st s. Proof. reflexivity. Qed.
Lemma latexable_atom a : latexable (Atm a) -> (exists n, Atm a = Integer n) \/ exists s, identifier s /\ Atm a = Symbol s.
Proof. intros H. inversion H; subst; [left; eexists|right; eexists; split; [eassumption|]]; reflexivity. Qed.
Lemma ltx_nested t : latexable t -> forall st r, nested st (ltx t ++ r) = nested st r.
Proof.
  induction t as [a|cs IH] using tree_ind_all; intros H st r.
  - apply latexable_atom in H as [(n & ->)|(s & Hs & ->)]; [rewrite ltx_int; apply plain_nested, int_plain|rewrite ltx_sym; apply plain_nested, identifier_plain; assumption].
  - assert (K : forall args, (forall a, In a args -> In a cs) -> Forall latexable args -> Forall (fun s => forall st r, nested st (s ++ r) = nested st r) (map ltx args)).
    { intros args Hi Hp. apply Forall_map. eapply Forall_impl_in; [|exact Hp]. intros a Ha Hpa. exact (IH a (Hi a Ha) Hpa). }
    inversion H; subst.
    + rewrite ltx_add, !app_assoc_s, open_paren, join_nested, close_paren; auto. apply K; auto. intros; right; auto.
    + rewrite ltx_mul, !app_assoc_s, open_paren, join_nested, close_paren; auto. apply K; auto. intros; right; auto.
    + rewrite ltx_pow, !app_assoc_s by assumption. rewrite (IH b) by (simpl; auto). change (nested st ("^{" ++ ltx e ++ "}" ++ r)) with (nested ("}"%char :: st) (ltx e ++ "}" ++ r)).
      rewrite (IH e) by (simpl; auto). reflexivity.
    + rewrite ltx_sin, !app_assoc_s by assumption.
      change (nested (")"%char :: st) (join ", " (map ltx [a]) ++ ")" ++ r) = nested st r). rewrite join_nested, close_paren; auto. apply K; auto. intros a0 [<-|[]]. simpl. auto.
    + rewrite ltx_cos, !app_assoc_s by assumption.
      change (nested (")"%char :: st) (join ", " (map ltx [a]) ++ ")" ++ r) = nested st r). rewrite join_nested, close_paren; auto. apply K; auto. intros a0 [<-|[]]. simpl. auto.
    + rewrite ltx_call, !app_assoc_s by assumption. rewrite plain_nested by (apply identifier_plain; assumption).
      rewrite open_paren, join_nested, close_paren; auto. apply K; auto. intros; right; auto.
Qed.

(** ** No dollar *)
Definition no_dollar (c : ascii) : bool := negb (Ascii.eqb c "$").
Lemma all_app p s s' : all_chars p (s ++ s') = all_chars p s && all_chars p s'.
Proof. induction s as [|c s IH]; [reflexivity|]. cbn [append all_chars]. rewrite IH. apply andb_assoc. Qed.
Lemma all_join p sep l : all_chars p sep = true -> Forall (fun s => all_chars p s = true) l -> all_chars p (join sep l) = true.
Proof.
  intros Hs H. induction H as [|s l H1 H2 IH]; [reflexivity|]. destruct l as [|s2 l]; [exact H1|].
  change (join sep (s :: s2 :: l)) with (s ++ sep ++ join sep (s2 :: l)). rewrite !all_app, H1, Hs, IH. reflexivity.
Qed.
Lemma plain_no_dollar s : all_chars plain s = true -> all_chars no_dollar s = true.
Proof. apply all_imp. intros c Hc. unfold plain in Hc. apply andb_prop in Hc as [Hc _]. apply andb_prop in Hc as [_ Hc]. exact Hc. Qed.
Lemma ltx_no_dollar t : latexable t -> all_chars no_dollar (ltx t) = true.
Proof.
  induction t as [a|cs IH] using tree_ind_all; intros H.
  - apply latexable_atom in H as [(n & ->)|(s & Hs & ->)]; apply plain_no_dollar; [apply int_plain|apply identifier_plain; assumption].
  - assert (K : forall args, (forall a, In a args -> In a cs) -> Forall latexable args -> Forall (fun s => all_chars no_dollar s = true) (map ltx args)).
    { intros args Hi Hp. apply Forall_map. eapply Forall_impl_in; [|exact Hp]. intros a Ha Hpa. exact (IH a (Hi a Ha) Hpa). }
    inversion H; subst.
    1,2: rewrite ?ltx_add, ?ltx_mul, !all_app, all_join by (auto; apply K; auto; intros; right; auto); reflexivity.
    + rewrite ltx_pow, !all_app by assumption. rewrite (IH b), (IH e) by (simpl; auto). reflexivity.
    + rewrite ltx_sin, !all_app, all_join by (auto; apply K; auto; intros a0 [<-|[]]; simpl; auto). reflexivity.
    + rewrite ltx_cos, !all_app, all_join by (auto; apply K; auto; intros a0 [<-|[]]; simpl; auto). reflexivity.
    + rewrite ltx_call, !all_app, all_join by (auto; apply K; auto; intros; right; auto).
      rewrite plain_no_dollar by (apply identifier_plain; assumption). reflexivity.
Qed.

(** ** Superscripts *)
Fixpoint dsup (s : string) : bool :=
  match s with
  | String c r => Ascii.eqb c "}" && head_is (fun d => Ascii.eqb d "^") r || dsup r
  | EmptyString => false
  end.
Fixpoint ends_brace (s : string) : bool :=
  match s with EmptyString => false | String c EmptyString => Ascii.eqb c "}" | String _ r => ends_brace r end.
Lemma dsup_spec s : dsup s = true <-> double_superscript s.
Proof.
  induction s as [|c s IH]; cbn [dsup].
  - split; [discriminate|]. intros ([|] & s2 & E); discriminate.
  - rewrite orb_true_iff, IH. split.
    + intros [H|(s1 & s2 & ->)]; [|exists (String c s1), s2; reflexivity]. apply andb_prop in H as [H1 H2]. apply Ascii.eqb_eq in H1 as ->.
      destruct s as [|d s]; [discriminate|]. cbn [head_is] in H2. apply Ascii.eqb_eq in H2 as ->. exists "", s. reflexivity.
    + intros ([|d s1] & s2 & E).
      * injection E as -> ->. left. reflexivity.
      * injection E as -> ->. right. exists s1, s2. reflexivity.
Qed.
Lemma dsup_app s s' : dsup (s ++ s') = dsup s || (ends_brace s && head_is (fun d => Ascii.eqb d "^") s') || dsup s'.
Proof.
  induction s as [|c s IH]; [reflexivity|]. cbn [append dsup]. rewrite IH. destruct s as [|d s].
  - cbn [append ends_brace dsup head_is]. destruct (Ascii.eqb c "}"), (head_is (fun d => Ascii.eqb d "^") s'); reflexivity.
  - change (ends_brace (String c (String d s))) with (ends_brace (String d s)). cbn [append head_is]. rewrite !orb_assoc. reflexivity.
Qed.
Lemma ends_app s s' : s' <> "" -> ends_brace (s ++ s') = ends_brace s'.
Proof.
  intros H. induction s as [|c s IH]; [reflexivity|]. cbn [append ends_brace]. destruct (s ++ s') eqn:E; [|exact IH].
  destruct s; [cbn in E; congruence|discriminate].
Qed.
Definition no_sup (c : ascii) : bool := negb (Ascii.eqb c "}").
Lemma no_brace s : all_chars no_sup s = true -> dsup s = false /\ ends_brace s = false.
Proof.
  induction s as [|c s IH]; [auto|]. cbn [all_chars]. intros H. apply andb_prop in H as [H1 H2]. destruct (IH H2) as [I1 I2]. unfold no_sup in H1.
  split; cbn [dsup ends_brace].
  - rewrite I1. destruct (Ascii.eqb c "}"); [discriminate|reflexivity].
  - destruct s; [destruct (Ascii.eqb c "}"); [discriminate|reflexivity]|exact I2].
Qed.
Lemma plain_no_sup s : all_chars plain s = true -> all_chars no_sup s = true.
Proof.
  apply all_imp. intros c Hc. unfold plain, bracket in Hc. unfold no_sup. destruct (Ascii.eqb c "}"); [|reflexivity].
  rewrite !orb_true_r in Hc. discriminate.
Qed.
Lemma ltx_no_hat t s : latexable t -> head_is (fun d => Ascii.eqb d "^") (ltx t ++ s) = false.
Proof.
  intros H. pose proof (ltx_head t H) as Hh. destruct (ltx t) as [|c r]; [discriminate|]. cbn [append head_is] in *.
  destruct (Ascii.eqb_spec c "^") as [->|]; [discriminate|reflexivity].
Qed.
Lemma ltx_ends t : latexable t -> (ends_brace (ltx t) = true <-> is_pow t).
Proof.
  intros H. assert (Q : forall s, ends_brace (s ++ ")") = false) by (intros s; apply ends_app; discriminate).
  assert (R : forall args h, ~ (h = Pow) -> ~ is_pow (Node (h :: args))) by (intros args h Hn (b & e & E); injection E as -> _; auto).
  destruct H as [n|s H0|args H1 H2|args H1 H2|b e H1 H2|a H1|a H1|s args H0 H1 H2].
  - rewrite ltx_int, (proj2 (no_brace _ (plain_no_sup _ (int_plain n)))). split; [discriminate|intros (? & ? & ?); discriminate].
  - rewrite ltx_sym, (proj2 (no_brace _ (plain_no_sup _ (identifier_plain s H0)))). split; [discriminate|intros (? & ? & ?); discriminate].
  - rewrite ltx_add, <- app_assoc_s, Q by assumption. split; [discriminate|]. intros X. exfalso. revert X. apply R. discriminate.
  - rewrite ltx_mul, <- app_assoc_s, Q by assumption. split; [discriminate|]. intros X. exfalso. revert X. apply R. discriminate.
  - rewrite ltx_pow, <- !app_assoc_s, ends_app by (assumption || discriminate). split; [|reflexivity]. intros _. exists b, e. reflexivity.
  - rewrite ltx_sin, <- app_assoc_s, Q by assumption. split; [discriminate|]. intros X. exfalso. revert X. apply R. discriminate.
  - rewrite ltx_cos, <- app_assoc_s, Q by assumption. split; [discriminate|]. intros X. exfalso. revert X. apply R. discriminate.
  - rewrite ltx_call, <- !app_assoc_s, Q by assumption. split; [discriminate|]. intros X. exfalso. revert X. apply R.
    intros E. injection E as ->. apply H1. simpl. tauto.
Qed.
Lemma dsup_join sep l : dsup sep = false -> ends_brace sep = false -> head_is (fun d => Ascii.eqb d "^") sep = false -> sep <> "" ->
  dsup (join sep l) = existsb dsup l.
Proof.
  intros H1 H2 H3 H4. induction l as [|s l IH]; [reflexivity|]. destruct l as [|s2 l]; [cbn [join existsb]; rewrite orb_false_r; reflexivity|].
  change (join sep (s :: s2 :: l)) with (s ++ sep ++ join sep (s2 :: l)). rewrite !dsup_app, H1, H2, IH.
  assert (E : head_is (fun d => Ascii.eqb d "^") (sep ++ join sep (s2 :: l)) = false) by (destruct sep; [congruence|exact H3]).
  rewrite E, andb_false_r, orb_false_r. reflexivity.
Qed.
Lemma dsup_close s : dsup (s ++ ")") = dsup s.
Proof. rewrite dsup_app. cbn [dsup head_is]. rewrite andb_false_r, !orb_false_r. reflexivity. Qed.
Definition pow_of_pow (e : tree) : Prop := exists b c d, part_of e (Node [Pow; Node [Pow; b; c]; d]).
Lemma part_trans e a u : part_of e a -> part_of a u -> part_of e u.
Proof. intros H1 H2. induction H2 as [|h args c _ IH Hin]; [exact H1|exact (part_arg _ _ _ _ IH Hin)]. Qed.
Lemma part_inv e u : part_of e u -> u = e \/ exists h args a, e = Node (h :: args) /\ In a args /\ part_of a u.
Proof.
  intros H. induction H as [|h args a H1 IH Hin]; [left; reflexivity|right]. destruct IH as [<-|(h' & args' & a' & -> & H2 & H3)].
  - exists h, args, a. split; [reflexivity|]. split; [exact Hin|constructor].
  - exists h', args', a'. split; [reflexivity|]. split; [exact H2|]. exact (part_arg _ _ _ _ H3 Hin).
Qed.
Lemma pow_node h args : h <> Pow -> (pow_of_pow (Node (h :: args)) <-> exists a, In a args /\ pow_of_pow a).
Proof.
  intros Hh. split.
  - intros (b & c & d & H). apply part_inv in H as [H|(h' & args' & a & E & Ha & H)]; [injection H as E _; congruence|].
    injection E as <- <-. exists a. split; [exact Ha|]. exists b, c, d. exact H.
  - intros (a & Ha & b & c & d & H). exists b, c, d. eapply part_trans; [|exact H]. eapply part_arg; [constructor|exact Ha].
Qed.
Lemma ltx_dsup t : latexable t -> (dsup (ltx t) = true <-> pow_of_pow t).
Proof.
  induction t as [a|cs IH] using tree_ind_all; intros H.
  - assert (N : ~ pow_of_pow (Atm a)) by (intros (b & c & d & P); apply part_inv in P as [P|(h & args & u & P & _)]; discriminate).
    apply latexable_atom in H as [(n & E)|(s & Hs & E)]; rewrite E in N |- *.
    + rewrite ltx_int, (proj1 (no_brace _ (plain_no_sup _ (int_plain n)))). split; [discriminate|intros; contradiction].
    + rewrite ltx_sym, (proj1 (no_brace _ (plain_no_sup _ (identifier_plain _ Hs)))). split; [discriminate|intros; contradiction].
  - assert (K : forall h args, h <> Pow -> cs = h :: args -> Forall latexable args ->
      (existsb dsup (map ltx args) = true <-> pow_of_pow (Node (h :: args)))).
    { intros h args Hh -> Hf. rewrite pow_node by exact Hh. rewrite existsb_exists. rewrite Forall_forall in Hf. split.
      - intros (s & Hs & Hd). apply in_map_iff in Hs as (a & <- & Ha). exists a. split; [exact Ha|]. apply (IH a); [right; exact Ha|apply Hf, Ha|exact Hd].
      - intros (a & Ha & Hp). exists (ltx a). split; [apply in_map, Ha|]. apply (IH a); [right; exact Ha|apply Hf, Ha|exact Hp]. }
    inversion H; subst.
    + rewrite ltx_add, <- app_assoc_s, dsup_close, dsup_app by assumption. cbn [ends_brace]. change (dsup "(") with false. cbn [orb andb Ascii.eqb].
      rewrite dsup_join by (reflexivity || discriminate). apply K; [discriminate|reflexivity|assumption].
    + rewrite ltx_mul, <- app_assoc_s, dsup_close, dsup_app by assumption. change (dsup "(") with false. change (ends_brace "(") with false. cbn [orb andb].
      rewrite dsup_join by (reflexivity || discriminate). apply K; [discriminate|reflexivity|assumption].
    + rewrite ltx_pow by assumption. rewrite dsup_app. change ("^{" ++ ltx e ++ "}") with ("^{" ++ (ltx e ++ "}")). rewrite (dsup_app "^{"), (dsup_app (ltx e)).
      change (dsup "^{") with false. change (ends_brace "^{") with false. change (dsup "}") with false.
      change (head_is (fun d => Ascii.eqb d "^") "}") with false. change (head_is (fun d => Ascii.eqb d "^") ("^{" ++ (ltx e ++ "}"))) with true.
      rewrite andb_false_r, andb_true_r, !orb_false_r, orb_false_l, !orb_true_iff, (ltx_ends b), (IH b), (IH e) by (simpl; auto).
      split.
      * intros [[(b1 & c & d & P)|(b1 & c & ->)]|(b1 & c & d & P)].
        -- exists b1, c, d. eapply part_trans; [|exact P]. eapply part_arg; [constructor|left; reflexivity].
        -- exists b1, c, e. constructor.
        -- exists b1, c, d. eapply part_trans; [|exact P]. eapply part_arg; [constructor|right; left; reflexivity].
      * intros (b1 & c & d & P). apply part_inv in P as [P|(h & args & a & E & Ha & P)].
        -- injection P as <- _. left. right. exists b1, c. reflexivity.
        -- injection E as <- <-. destruct Ha as [<-|[<-|[]]]; [left; left|right]; exists b1, c, d; exact P.
    + rewrite ltx_sin, <- app_assoc_s, dsup_close, dsup_app by assumption. change (dsup "\sin(") with false. change (ends_brace "\sin(") with false. cbn [orb andb].
      rewrite dsup_join by (reflexivity || discriminate). apply K; [discriminate|reflexivity|auto].
    + rewrite ltx_cos, <- app_assoc_s, dsup_close, dsup_app by assumption. change (dsup "\cos(") with false. change (ends_brace "\cos(") with false. cbn [orb andb].
      rewrite dsup_join by (reflexivity || discriminate). apply K; [discriminate|reflexivity|auto].
    + rewrite ltx_call, <- !app_assoc_s, dsup_close, !dsup_app by assumption. destruct (no_brace _ (plain_no_sup _ (identifier_plain _ H1))) as [-> Ee].
      rewrite Ee. change (dsup "(") with false. rewrite ends_app by discriminate. change (ends_brace "(") with false. cbn [orb andb].
      rewrite dsup_join by (reflexivity || discriminate). apply K; [|reflexivity|assumption]. intros E. injection E as ->. apply H2. simpl. tauto.
Qed.

(** C87. The text has matching brackets and no dollar sign, so that _repr_latex_ gives one formula; and it has a double
    superscript exactly if the base of a power is a power. *)
Theorem C87_latex_is_well_formed e : latexable e -> exists s,
  eval_latex e = Ok s /\ repr_latex e = Ok ("$" ++ s ++ "$") /\ balanced s /\ without "$" s /\
  (double_superscript s <-> exists b c d, part_of e (Node [Pow; Node [Pow; b; c]; d])).
Proof.
  intros H. exists (ltx e). assert (E : eval_latex e = Ok (ltx e)) by (apply eval_latex_eq, latexable_ok, H).
  split; [exact E|]. split; [unfold repr_latex; rewrite E; reflexivity|]. split; [|split].
  - unfold balanced. rewrite <- (app_nil_s (ltx e)), ltx_nested by exact H. reflexivity.
  - intros s1 s2 Es. pose proof (ltx_no_dollar e H) as D. rewrite Es, all_app in D. cbn [all_chars] in D. rewrite andb_false_r in D. discriminate.
  - rewrite <- dsup_spec. apply ltx_dsup, H.
Qed.
(** So the text of (x**y)**z is an error in TeX, though the expression is as good as any. *)
Theorem C87_double_superscript_refuted : exists e s, latexable e /\ eval_latex e = Ok s /\ double_superscript s.
Proof.
  exists (m_pow (m_pow x y) z), "x^{y}^{z}". split; [repeat constructor|]. split; [reflexivity|]. exists "x^{y", "{z}". reflexivity.
Qed.
Example C87_case : latexable (m_pow (tree_call sin [m_pow x y]) (m_pow y z)) /\
  eval_latex (m_pow (tree_call sin [m_pow x y]) (m_pow y z)) = Ok "\sin(x^{y})^{y^{z}}" /\
  repr_latex (m_pow (tree_call sin [m_pow x y]) (m_pow y z)) = Ok "$\sin(x^{y})^{y^{z}}$".
Proof. split; [repeat constructor|split; reflexivity]. Qed.
Print Assumptions C87_latex_is_well_formed.
Print Assumptions C87_double_superscript_refuted.
