(** * Printing: proofs for C40 and C41 *)
From Coq Require Import DecimalString DecimalZ DecimalFacts Decimal.
From Verif Require Import Py ModelTree SpecTree ProofBase ModelEval SpecEval ProofEval ModelDiff ModelSym ModelCas SpecPrint.

Lemma mapM_ext_in {A B} (f g : A -> res B) l : (forall a, In a l -> f a = g a) -> mapM f l = mapM g l.
Proof.
  induction l as [|a l IH]; simpl; intros H; [reflexivity|]. rewrite (H a), IH; auto.
Qed.

(** ** The evaluators compute the recursions *)
Lemma eval_repr_mean : exists ev, eval_repr_ev = Ok ev /\
  forall e, meaning (eval_leaf (fun _ => false) ev []) (eval_operation ev) e = pretty e.
Proof.
  eexists. split; [vm_compute; reflexivity|]. intros e.
  induction e as [a|cs IH] using tree_ind_all.
  - cbn [meaning pretty]. unfold eval_leaf, eval_atom. cbn [dict_get tree_value bind ev_atoms ev_generic_atom].
    repeat match goal with |- context [atype_eqb ?x ?y] => destruct (atype_eqb x y) end; reflexivity.
  - destruct cs as [|h args]; [reflexivity|]. cbn [meaning pretty].
    rewrite (mapM_ext_in _ pretty args); [|intros a Ha; apply IH; right; exact Ha].
    destruct (mapM pretty args) as [ts|x]; [|reflexivity]. cbn [bind].
    unfold eval_operation. cbn [ev_operations ev_generic_operation dict_get].
    change (Atm {| atom_type := {| ty_id := 2; ty_name := "Function" |}; atom_value := VStr "Add" |}) with Add.
    change (Atm {| atom_type := {| ty_id := 2; ty_name := "Function" |}; atom_value := VStr "Mul" |}) with Mul.
    change (Atm {| atom_type := {| ty_id := 2; ty_name := "Function" |}; atom_value := VStr "pow" |}) with Pow.
    destruct (tree_eqb h Add); [reflexivity|]. destruct (tree_eqb h Mul); [reflexivity|].
    destruct (tree_eqb h Pow); [|reflexivity]. destruct ts as [|b [|e [|]]]; reflexivity.
Qed.

Lemma eval_repr_eq e v : eval_repr e = Ok v <-> pretty e = Ok v.
Proof.
  destruct eval_repr_mean as (ev & Eev & H). unfold eval_repr. rewrite Eev. cbn [bind]. unfold sym_evaluate, evaluate.
  rewrite eval_forward_meaning, H. reflexivity.
Qed.

Lemma eval_latex_mean : exists ev, eval_latex_ev = Ok ev /\
  forall e, meaning (eval_leaf (fun _ => false) ev []) (eval_operation ev) e = latex e.
Proof.
  eexists. split; [vm_compute; reflexivity|]. intros e.
  induction e as [a|cs IH] using tree_ind_all.
  - cbn [meaning latex]. unfold eval_leaf, eval_atom. cbn [dict_get tree_value bind ev_atoms ev_generic_atom].
    change {| ty_id := 0; ty_name := "Integer" |} with T_Integer.
    change {| ty_id := 1; ty_name := "Symbol" |} with T_Symbol.
    change {| ty_id := 2; ty_name := "Function" |} with T_Function.
    destruct (atype_eqb (atom_type a) T_Integer); [reflexivity|].
    destruct (atype_eqb (atom_type a) T_Symbol); [reflexivity|].
    destruct (atype_eqb (atom_type a) T_Function); reflexivity.
  - destruct cs as [|h args]; [reflexivity|]. cbn [meaning latex].
    rewrite (mapM_ext_in _ latex args); [|intros a Ha; apply IH; right; exact Ha].
    destruct (mapM latex args) as [ts|x]; [|reflexivity]. cbn [bind].
    unfold eval_operation. cbn [ev_operations ev_generic_operation dict_get].
    change (Atm {| atom_type := {| ty_id := 2; ty_name := "Function" |}; atom_value := VStr "Add" |}) with Add.
    change (Atm {| atom_type := {| ty_id := 2; ty_name := "Function" |}; atom_value := VStr "Mul" |}) with Mul.
    change (Atm {| atom_type := {| ty_id := 2; ty_name := "Function" |}; atom_value := VStr "pow" |}) with Pow.
    change (Atm {| atom_type := {| ty_id := 2; ty_name := "Function" |}; atom_value := VStr "sin" |}) with sin.
    change (Atm {| atom_type := {| ty_id := 2; ty_name := "Function" |}; atom_value := VStr "cos" |}) with cos.
    destruct (tree_eqb h Add); [reflexivity|]. destruct (tree_eqb h Mul); [reflexivity|].
    destruct (tree_eqb h Pow); [destruct ts as [|b [|e [|]]]; reflexivity|].
    destruct (tree_eqb h sin); [destruct ts as [|b [|]]; reflexivity|].
    destruct (tree_eqb h cos); [destruct ts as [|b [|]]; reflexivity|]. reflexivity.
Qed.

Lemma eval_latex_eq e v : eval_latex e = Ok v <-> latex e = Ok v.
Proof.
  destruct eval_latex_mean as (ev & Eev & H). unfold eval_latex. rewrite Eev. cbn [bind]. unfold sym_evaluate, evaluate.
  rewrite eval_forward_meaning, H. reflexivity.
Qed.

(** Where [latex] fails. *)
Lemma latex_atom_fails e a : reach false [] e (Atm a) ->
  atom_type a <> T_Integer -> atom_type a <> T_Symbol -> atom_type a <> T_Function -> forall v, latex e <> Ok v.
Proof.
  intros Hr H1 H2 H3. remember (Atm a) as t eqn:Et. induction Hr as [u _|u c s _ Hc Hr IH]; intros v; subst.
  - cbn [latex].
    destruct (atype_eqb_spec (atom_type a) T_Integer); [contradiction|].
    destruct (atype_eqb_spec (atom_type a) T_Symbol); [contradiction|].
    destruct (atype_eqb_spec (atom_type a) T_Function); [contradiction|]. discriminate.
  - destruct u as [b|[|h args]]; simpl in Hc; try tauto. cbn [latex].
    destruct (mapM latex args) as [ts|x] eqn:E; [|discriminate]. apply mapM_Ok_Forall2 in E. exfalso.
    specialize (IH eq_refl). clear -E Hc IH. induction E as [|b t args ts Hb _ IHE]; [destruct Hc|].
    destruct Hc as [->|Hc]; [exact (IH t Hb)|auto].
Qed.

(** ** Strings *)
Local Open Scope string_scope.
Lemma app_assoc_s a b c : (a ++ b) ++ c = a ++ b ++ c.
Proof. induction a as [|x a IH]; simpl; congruence. Qed.
Lemma app_nil_s a : a ++ "" = a.
Proof. induction a as [|x a IH]; simpl; congruence. Qed.
Lemma app_inv_s a b c : a ++ b = a ++ c -> b = c.
Proof. induction a as [|x a IH]; simpl; intros H; [exact H|]. injection H as H. auto. Qed.

Definition head_is (p : ascii -> bool) (s : string) : bool :=
  match s with EmptyString => false | String c _ => p c end.

(** Two runs of [p]-characters with continuations that do not start with one. *)
Lemma run_split p s1 s2 r1 r2 : all_chars p s1 = true -> all_chars p s2 = true ->
  head_is p r1 = false -> head_is p r2 = false -> s1 ++ r1 = s2 ++ r2 -> s1 = s2 /\ r1 = r2.
Proof.
  revert s2. induction s1 as [|c s1 IH]; intros [|c2 s2] H1 H2 Hr1 Hr2 E; cbn [append all_chars] in *.
  - auto.
  - subst r1. simpl in Hr1. apply andb_prop in H2 as [H2 _]. congruence.
  - subst r2. simpl in Hr2. apply andb_prop in H1 as [H1 _]. congruence.
  - injection E as -> E. apply andb_prop in H1 as [_ H1]. apply andb_prop in H2 as [_ H2].
    destruct (IH s2 H1 H2 Hr1 Hr2 E) as [-> ->]. auto.
Qed.

(** Integers. *)
Lemma digits_string u : all_chars is_digit (NilEmpty.string_of_uint u) = true.
Proof. induction u; simpl; auto. Qed.

Lemma str_int_inj m n : str_int m = str_int n -> m = n.
Proof.
  unfold str_int. intros H. apply (f_equal NilEmpty.int_of_string) in H. rewrite !NilEmpty.isi in H.
  injection H as H. apply (f_equal Z.of_int) in H. rewrite !DecimalZ.of_to in H. exact H.
Qed.

Lemma str_int_form n : exists neg d, str_int n = (if neg : bool then "-" else "") ++ d /\ all_chars is_digit d = true /\ d <> "".
Proof.
  unfold str_int. destruct (Z.to_int n) as [u|u] eqn:E; cbn [NilEmpty.string_of_int].
  - exists false, (NilEmpty.string_of_uint u). split; [reflexivity|]. split; [apply digits_string|].
    intros H. destruct u; try discriminate. destruct n as [|p|p]; try discriminate. 
    injection E as E. assert (H' : Z.of_int (Z.to_int (Z.pos p)) = Z.of_int (Pos Nil)) by (simpl; rewrite E; reflexivity).
    rewrite DecimalZ.of_to in H'. discriminate.
  - exists true, (NilEmpty.string_of_uint u). split; [reflexivity|]. split; [apply digits_string|].
    intros H. destruct u; try discriminate. destruct n as [|p|p]; try discriminate. 
    injection E as E. assert (H' : Z.of_int (Z.to_int (Z.neg p)) = Z.of_int (Neg Nil)) by (simpl; rewrite E; reflexivity).
    rewrite DecimalZ.of_to in H'. discriminate.
Qed.

(** ** Expressions that print unambiguously *)
Definition txt (t : tree) : string := match pretty t with Ok s => s | Err _ => "" end.
Definition alnum (c : ascii) : bool := is_alpha c || is_digit c.

Lemma mapM_txt args : Forall (fun t => pretty t = Ok (txt t)) args -> mapM pretty args = Ok (map txt args).
Proof. induction 1 as [|a l H _ IH]; [reflexivity|]. cbn [mapM map]. rewrite H, IH. reflexivity. Qed.

Lemma Forall_impl_in {A} (P Q : A -> Prop) l : (forall a, In a l -> P a -> Q a) -> Forall P l -> Forall Q l.
Proof. rewrite !Forall_forall. auto. Qed.

Lemma function_neq a b : a <> b -> tree_eqb (Function a) (Function b) = false.
Proof.
  intros H. destruct (tree_eqb (Function a) (Function b)) eqn:E; [|reflexivity].
  apply tree_eqb_iff in E. injection E as E. contradiction.
Qed.

Lemma pretty_call s args : s <> "Add" -> s <> "Mul" -> s <> "pow" -> Forall (fun t => pretty t = Ok (txt t)) args ->
  pretty (Node (Function s :: args)) = Ok (s ++ "(" ++ join ", " (map txt args) ++ ")").
Proof.
  intros H1 H2 H3 H. cbn [pretty]. rewrite (mapM_txt _ H). cbn [bind]. unfold Add, Mul, Pow.
  rewrite !function_neq by assumption. reflexivity.
Qed.

Lemma printable_ok t : printable t -> pretty t = Ok (txt t).
Proof.
  induction t as [a|cs IH] using tree_ind_all; intros H; [reflexivity|].
  assert (K : forall args, (forall a, In a args -> In a cs) -> Forall printable args ->
            Forall (fun t => pretty t = Ok (txt t)) args)
    by (intros args Hi Hp; eapply Forall_impl_in; [|exact Hp]; intros a Ha Hpa; apply IH; auto).
  inversion H; subst.
  - unfold txt. cbn [pretty]. rewrite (mapM_txt args) by (apply K; auto; intros; right; auto). reflexivity.
  - unfold txt. cbn [pretty]. rewrite (mapM_txt args) by (apply K; auto; intros; right; auto). reflexivity.
  - unfold txt. cbn [pretty mapM]. rewrite (IH b), (IH e) by (simpl; auto). reflexivity.
  - unfold txt at 1. rewrite pretty_call by (auto; apply K; auto; intros; right; auto). reflexivity.
Qed.

Lemma printable_all args : Forall printable args -> Forall (fun t => pretty t = Ok (txt t)) args.
Proof. apply Forall_impl. apply printable_ok. Qed.

Lemma txt_add args : Forall printable args -> txt (Node (Add :: args)) = "(" ++ join " + " (map txt args) ++ ")".
Proof. intros H. unfold txt at 1. cbn [pretty]. rewrite mapM_txt by (apply printable_all, H). reflexivity. Qed.
Lemma txt_mul args : Forall printable args -> txt (Node (Mul :: args)) = "(" ++ join "*" (map txt args) ++ ")".
Proof. intros H. unfold txt at 1. cbn [pretty]. rewrite mapM_txt by (apply printable_all, H). reflexivity. Qed.
Lemma txt_pow b e : printable b -> printable e -> txt (Node [Pow; b; e]) = txt b ++ "**" ++ txt e.
Proof. intros Hb He. unfold txt at 1. cbn [pretty mapM]. rewrite !printable_ok by assumption. reflexivity. Qed.
Lemma txt_call s args : s <> "Add" -> s <> "Mul" -> s <> "pow" -> Forall printable args ->
  txt (Node (Function s :: args)) = s ++ "(" ++ join ", " (map txt args) ++ ")".
Proof. intros H1 H2 H3 H. unfold txt at 1. rewrite pretty_call by (auto; apply printable_all, H). reflexivity. Qed.
Lemma txt_int n : txt (Integer n) = str_int n.
Proof. reflexivity. Qed.
Lemma txt_sym s : txt (Symbol s) = s.
Proof. reflexivity. Qed.

(** The first character. *)
Definition starts (c : ascii) : bool := alnum c || Ascii.eqb c "-" || Ascii.eqb c "(".
Lemma head_app p s r : head_is p s = true -> head_is p (s ++ r) = true.
Proof. destruct s; simpl; [discriminate|auto]. Qed.
Lemma head_imp p q s : (forall c, p c = true -> q c = true) -> head_is p s = true -> head_is q s = true.
Proof. destruct s; simpl; auto. Qed.

Lemma identifier_head s : identifier s -> head_is is_alpha s = true.
Proof. destruct s; simpl; tauto. Qed.
Lemma identifier_all s : identifier s -> all_chars alnum s = true.
Proof.
  destruct s as [|c s]; simpl; [tauto|]. intros [H1 H2]. unfold alnum at 1. rewrite H1. exact H2.
Qed.

Lemma int_head n : head_is (fun c => is_digit c || Ascii.eqb c "-") (str_int n) = true.
Proof.
  destruct (str_int_form n) as (neg & d & -> & Hd & Hne). destruct neg; [reflexivity|].
  destruct d as [|c d]; [congruence|]. simpl in *. apply andb_prop in Hd as [-> _]. reflexivity.
Qed.

Lemma txt_head t : printable t -> head_is starts (txt t) = true.
Proof.
  intros H. induction H as [n|s Hs|args Hl Hf|args Hl Hf|b e Hb IHb He IHe Hp|s args Hs H1 H2 H3 Hf].
  - rewrite txt_int. eapply head_imp; [|apply int_head]. intros c Hc. unfold starts, alnum.
    apply orb_prop in Hc as [->| ->]; rewrite ?orb_true_r; reflexivity.
  - rewrite txt_sym. eapply head_imp; [|apply identifier_head, Hs]. intros c Hc. unfold starts, alnum.
    rewrite Hc. reflexivity.
  - rewrite txt_add by exact Hf. reflexivity.
  - rewrite txt_mul by exact Hf. reflexivity.
  - rewrite txt_pow by assumption. apply head_app, IHb.
  - rewrite txt_call by assumption. apply head_app. eapply head_imp; [|apply identifier_head, Hs].
    intros c Hc. unfold starts, alnum. rewrite Hc. reflexivity.
Qed.

(** Continuations after which an expression has ended. *)
Definition stop (r : string) : Prop := head_is (fun c => alnum c || Ascii.eqb c "(") r = false.
Definition stopf (r : string) : Prop := stop r /\ forall r', r <> "**" ++ r'.

Lemma stop_alnum r : stop r -> head_is alnum r = false.
Proof. destruct r as [|c r]; simpl; [auto|]. unfold stop. simpl. intros H. apply orb_false_elim in H as [H _]. exact H. Qed.
Lemma stop_digit r : stop r -> head_is is_digit r = false.
Proof. intros H. apply stop_alnum in H. destruct r as [|c r]; simpl in *; [auto|]. apply orb_false_elim in H as [_ H]. exact H. Qed.
Lemma stop_par r r' : stop r -> r <> "(" ++ r'.
Proof. intros H ->. discriminate. Qed.

Definition rest (sep : string) (l : list string) (r : string) : string :=
  match l with [] => ")" ++ r | _ => sep ++ join sep l ++ ")" ++ r end.
Lemma join_cons sep x l r : join sep (x :: l) ++ ")" ++ r = x ++ rest sep l r.
Proof. destruct l as [|y l]; [reflexivity|]. cbn [join rest]. rewrite !app_assoc_s. reflexivity. Qed.

(** Separators: what follows an element is the end of that element. *)
Definition sep_ok (sep : string) : Prop :=
  sep = " + " \/ sep = "*" \/ sep = ", ".
Lemma head_not p q s : (forall c, p c = true -> q c = true -> False) -> head_is p s = true -> head_is q s = false.
Proof. destruct s as [|c s]; simpl; [auto|]. intros H Hp. destruct (q c) eqn:E; [|reflexivity]. destruct (H c); auto. Qed.
Lemma join_head sep t l : printable t -> head_is starts (join sep (map txt (t :: l))) = true.
Proof.
  intros H. pose proof (txt_head t H) as Hh. cbn [map]. destruct (map txt l) as [|y m]; cbn [join]; [exact Hh|].
  apply head_app, Hh.
Qed.
Lemma rest_stopf sep l r : sep_ok sep -> Forall printable l -> stopf (rest sep (map txt l) r).
Proof.
  intros Hs Hf. destruct l as [|t l].
  - cbn [map rest]. split; [reflexivity|]. intros r' E. discriminate.
  - cbn [map rest]. inversion Hf as [|? ? Ht Hl]; subst. pose proof (join_head sep t l Ht) as Hh. cbn [map] in Hh.
    destruct Hs as [->|[->| ->]]; (split; [reflexivity|]); intros r' E; try discriminate.
    change ("**" ++ r') with ("*" ++ "*" ++ r') in E. apply app_inv_s in E.
    destruct (join "*" (txt t :: map txt l)) as [|c s]; [discriminate|]. simpl in E, Hh. injection E as -> _. discriminate.
Qed.

Section Step.
  Variable n : nat.
  Definition full_at (k : nat) : Prop := forall t u r1 r2, tree_size t <= k -> printable t -> printable u ->
    stopf r1 -> stopf r2 -> txt t ++ r1 = txt u ++ r2 -> t = u /\ r1 = r2.
  Hypothesis B : full_at n.

  Lemma rest_inj sep l l' r1 r2 : sep_ok sep -> Forall printable l -> Forall printable l' ->
    Forall (fun t => tree_size t <= n) l -> rest sep (map txt l) r1 = rest sep (map txt l') r2 -> l = l' /\ r1 = r2.
  Proof.
    intros Hs Hf. revert l'. induction Hf as [|t l Ht Hl IH]; intros l' Hf' Hsz E.
    - destruct l' as [|t' l']; cbn [map rest] in E; [injection E as E; auto|].
      destruct Hs as [->|[->| ->]]; discriminate.
    - destruct l' as [|t' l']; cbn [map rest] in E; [destruct Hs as [->|[->| ->]]; discriminate|].
      apply app_inv_s in E. rewrite !join_cons in E.
      inversion Hf' as [|? ? Ht' Hl']; subst. inversion Hsz as [|? ? Hst Hsl]; subst.
      apply B in E; auto using rest_stopf. destruct E as [-> E].
      destruct (IH l' Hl' Hsl E) as [-> ->]. auto.
  Qed.

  Lemma join_inj sep l l' r1 r2 : sep_ok sep -> Forall printable l -> Forall printable l' ->
    Forall (fun t => tree_size t <= n) l -> join sep (map txt l) ++ ")" ++ r1 = join sep (map txt l') ++ ")" ++ r2 ->
    l = l' /\ r1 = r2.
  Proof.
    intros Hs Hf Hf' Hsz E.
    destruct l as [|t l], l' as [|t' l']; cbn [map] in E.
    - simpl in E. injection E as E. auto.
    - exfalso. inversion Hf' as [|? ? Ht' Hl']; subst. pose proof (join_head sep t' l' Ht') as Hh. cbn [map] in Hh.
      destruct (join sep (txt t' :: map txt l')) as [|c s]; [discriminate|]. simpl in E. injection E as <- _. discriminate.
    - exfalso. inversion Hf as [|? ? Ht' Hl']; subst. pose proof (join_head sep t l Ht') as Hh. cbn [map] in Hh.
      destruct (join sep (txt t :: map txt l)) as [|c s]; [discriminate|]. simpl in E. injection E as -> _. discriminate.
    - rewrite !join_cons in E.
      inversion Hf as [|? ? Ht Hl]; subst. inversion Hf' as [|? ? Ht' Hl']; subst. inversion Hsz as [|? ? Hst Hsl]; subst.
      apply B in E; auto using rest_stopf. destruct E as [-> E].
      apply rest_inj in E; auto. destruct E as [-> ->]. auto.
  Qed.

  Lemma join_seps sep sep' l l' r1 r2 : sep_ok sep -> sep_ok sep' -> sep <> sep' -> length l >= 2 -> length l' >= 2 ->
    Forall printable l -> Forall printable l' -> Forall (fun t => tree_size t <= n) l ->
    join sep (map txt l) ++ ")" ++ r1 = join sep' (map txt l') ++ ")" ++ r2 -> False.
  Proof.
    intros Hs Hs' Hne Hl Hl' Hf Hf' Hsz E.
    destruct l as [|t [|t2 l]]; cbn [length] in Hl; try lia. destruct l' as [|u [|u2 l']]; cbn [length] in Hl'; try lia.
    cbn [map] in E. rewrite !join_cons in E.
    inversion Hf as [|? ? Ht Hfl]; subst. inversion Hf' as [|? ? Hu Hfl']; subst. inversion Hsz as [|? ? Hst Hsl]; subst.
    apply B in E; auto; [|apply (rest_stopf sep (t2 :: l)); auto|apply (rest_stopf sep' (u2 :: l')); auto].
    destruct E as [_ E]. cbn [rest] in E.
    destruct Hs as [->|[->| ->]], Hs' as [->|[->| ->]]; try congruence; discriminate.
  Qed.

  Lemma args_size h args : tree_size (Node (h :: args)) <= S n -> Forall (fun t => tree_size t <= n) args.
  Proof.
    cbn [tree_size]. intros H. apply Forall_forall. intros a Ha.
    assert (tree_size a <= list_sum (map tree_size args)); [|lia].
    clear H. induction args as [|b l IH]; [destruct Ha|]. cbn [map list_sum fold_right].
    change (fold_right Nat.add 0 (map tree_size l)) with (list_sum (map tree_size l)).
    destruct Ha as [->|Ha]; [lia|]. specialize (IH Ha). lia.
  Qed.

  Ltac heads E := exfalso; apply (f_equal (head_is is_alpha)) in E.

  Lemma prim_step t u r1 r2 : tree_size t <= S n -> printable t -> printable u -> ~ is_power t -> ~ is_power u ->
    stop r1 -> stop r2 -> txt t ++ r1 = txt u ++ r2 -> t = u /\ r1 = r2.
  Proof.
    intros Hsz Ht Hu Nt Nu S1 S2 E.
    assert (NI : forall m s x y, identifier s -> str_int m ++ x <> s ++ y).
    { intros m s x y Hs E'. pose proof (head_app _ _ x (int_head m)) as H1. rewrite E' in H1.
      pose proof (head_app _ _ y (identifier_head s Hs)) as H2. destruct (s ++ y) as [|c z]; [discriminate|]. simpl in H1, H2.
      unfold is_alpha, is_digit in *. destruct (Ascii.eqb_spec c "-") as [->|_]; [discriminate|].
      rewrite orb_false_r in H1. apply andb_prop in H1 as [A1 A2]. apply Nat.leb_le in A1, A2.
      apply orb_prop in H2 as [H2|H2]; [apply orb_prop in H2 as [H2|H2]; apply andb_prop in H2 as [A3 A4]; apply Nat.leb_le in A3, A4; lia|].
      apply Nat.eqb_eq in H2. lia. }
    assert (NP : forall m x y, str_int m ++ x <> "(" ++ y).
    { intros m x y E'. pose proof (head_app _ _ x (int_head m)) as H1. rewrite E' in H1. discriminate. }
    assert (NS : forall s x y, identifier s -> s ++ x <> "(" ++ y).
    { intros s x y Hs E'. pose proof (head_app _ _ x (identifier_head s Hs)) as H1. rewrite E' in H1. discriminate. }
    destruct Ht as [m|s Hs|args Hl Hf|args Hl Hf|b e Hb He Hp|s args Hs H1 H2 H3 Hf];
      destruct Hu as [m'|s' Hs'|args' Hl' Hf'|args' Hl' Hf'|b' e' Hb' He' Hp'|s' args' Hs' H1' H2' H3' Hf'];
      try (exfalso; apply Nt; eexists; reflexivity); try (exfalso; apply Nu; eexists; reflexivity);
      rewrite ?txt_int, ?txt_sym, ?txt_add, ?txt_mul, ?txt_call, ?app_assoc_s in E by assumption;
      try (exfalso; exact (NP _ _ _ E)); try (exfalso; exact (NI _ _ _ _ ltac:(eassumption) E));
      try (exfalso; exact (NS _ _ _ ltac:(eassumption) E)); symmetry in E;
      try (exfalso; exact (NP _ _ _ E)); try (exfalso; exact (NI _ _ _ _ ltac:(eassumption) E));
      try (exfalso; exact (NS _ _ _ ltac:(eassumption) E)); symmetry in E.
    - (* int *)
      destruct (str_int_form m) as (neg & d & E1 & Hd & Hne), (str_int_form m') as (neg' & d' & E1' & Hd' & Hne').
      assert (H : str_int m = str_int m' /\ r1 = r2); [|destruct H as [H ->]; apply str_int_inj in H; subst; auto].
      rewrite E1, E1' in *. rewrite !app_assoc_s in E.
      destruct neg, neg'; simpl in E.
      + injection E as E. apply (run_split is_digit) in E; auto using stop_digit. destruct E as [-> ->]. auto.
      + exfalso. destruct d' as [|c d']; [congruence|]. simpl in E. injection E as <- _. discriminate.
      + exfalso. destruct d as [|c d]; [congruence|]. simpl in E. injection E as -> _. discriminate.
      + apply (run_split is_digit) in E; auto using stop_digit.
    - (* symbol, symbol *)
      apply (run_split alnum) in E; auto using stop_alnum, identifier_all. destruct E as [-> ->]. auto.
    - (* symbol, call *)
      apply (run_split alnum) in E; auto using stop_alnum, identifier_all. destruct E as [_ E]. apply stop_par in E; tauto.
    - (* add, add *)
      apply app_inv_s in E. apply join_inj in E; unfold sep_ok; eauto using args_size. destruct E as [-> ->]. auto.
    - apply app_inv_s in E. apply join_seps in E; unfold sep_ok; eauto using args_size; try discriminate. tauto.
    - apply app_inv_s in E. apply join_seps in E; unfold sep_ok; eauto using args_size; try discriminate. tauto.
    - apply app_inv_s in E. apply join_inj in E; unfold sep_ok; eauto using args_size. destruct E as [-> ->]. auto.
    - symmetry in E. apply (run_split alnum) in E; auto using stop_alnum, identifier_all. destruct E as [_ E]. apply stop_par in E; tauto.
    - apply (run_split alnum) in E; auto using stop_alnum, identifier_all. destruct E as [-> E].
      apply app_inv_s in E. apply join_inj in E; unfold sep_ok; eauto using args_size. destruct E as [-> ->]. auto.
  Qed.
End Step.

Definition prim_at (k : nat) : Prop := forall t u r1 r2, tree_size t <= k -> printable t -> printable u ->
  ~ is_power t -> ~ is_power u -> stop r1 -> stop r2 -> txt t ++ r1 = txt u ++ r2 -> t = u /\ r1 = r2.

Lemma is_power_dec t : {is_power t} + {~ is_power t}.
Proof.
  destruct t as [a|[|h args]]; try (right; intros [l E]; discriminate).
  destruct (tree_eqb h Pow) eqn:E.
  - left. apply tree_eqb_iff in E. subst. exists args. reflexivity.
  - right. intros [l H]. injection H as -> _. rewrite tree_eqb_refl in E. discriminate.
Qed.

Lemma printable_power t : printable t -> is_power t -> exists b e, t = Node [Pow; b; e] /\ printable b /\ printable e /\ ~ is_power b.
Proof.
  intros H [l E]. destruct H; try discriminate; eauto 7.
  exfalso. injection E as E _. contradiction.
Qed.

Lemma full_step n : full_at n -> prim_at (S n) -> full_at (S n).
Proof.
  intros B A t u r1 r2 Hsz Ht Hu [S1 P1] [S2 P2] E.
  assert (SS : forall r, stop ("**" ++ r)) by reflexivity.
  destruct (is_power_dec t) as [Pt|Pt], (is_power_dec u) as [Pu|Pu].
  - destruct (printable_power t Ht Pt) as (b & e & -> & Hb & He & Hnb).
    destruct (printable_power u Hu Pu) as (b' & e' & -> & Hb' & He' & Hnb').
    rewrite !txt_pow, !app_assoc_s in E by assumption.
    assert (Sb : tree_size b <= S n /\ tree_size e <= n) by (cbn [tree_size map list_sum fold_right] in Hsz; lia).
    apply A in E; try tauto; auto. destruct E as [-> E]. apply app_inv_s in E.
    apply B in E; unfold stopf; try tauto. destruct E as [-> ->]. auto.
  - destruct (printable_power t Ht Pt) as (b & e & -> & Hb & He & Hnb).
    rewrite !txt_pow, !app_assoc_s in E by assumption.
    assert (Sb : tree_size b <= S n) by (cbn [tree_size map list_sum fold_right] in Hsz; lia).
    apply A in E; auto. destruct E as [_ E]. exfalso. exact (P2 _ (eq_sym E)).
  - destruct (printable_power u Hu Pu) as (b' & e' & -> & Hb' & He' & Hnb').
    rewrite !txt_pow, !app_assoc_s in E by assumption.
    apply A in E; auto. destruct E as [_ E]. exfalso. exact (P1 _ E).
  - apply A in E; auto.
Qed.

Lemma tree_size_pos t : 0 < tree_size t.
Proof. destruct t as [a|[|h args]]; cbn [tree_size]; lia. Qed.
Lemma full_all n : full_at n.
Proof.
  induction n as [|n IH]; [intros t u r1 r2 H; pose proof (tree_size_pos t); lia|].
  apply full_step; [exact IH|]. intros t u r1 r2. apply prim_step, IH.
Qed.

Lemma pretty_inj t u s : printable t -> printable u -> pretty t = Ok s -> pretty u = Ok s -> t = u.
Proof.
  intros Ht Hu E1 E2. rewrite printable_ok in E1, E2 by assumption. injection E1 as E1. injection E2 as E2.
  destruct (full_all (tree_size t) t u "" "" (le_n _) Ht Hu) as [H _]; auto; try (split; [reflexivity|discriminate]).
  rewrite !app_nil_s. congruence.
Qed.

(** ** When printing succeeds *)
Lemma whole_node h args : whole (Node (h :: args)) <-> whole h /\ Forall whole args.
Proof.
  unfold whole. split.
  - intros H. split; [|apply Forall_forall; intros a Ha]; intros Hr; apply H; eapply reach_child; eauto; simpl; auto.
  - intros [Hh Ha] Hr. inversion Hr as [|t c s _ Hc Hr']; subst. simpl in Hc. destruct Hc as [<-|Hc]; [auto|].
    rewrite Forall_forall in Ha. exact (Ha _ Hc Hr').
Qed.
Lemma whole_atom a : whole (Atm a).
Proof. intros Hr. inversion Hr as [|t c s _ Hc Hr']; subst. destruct Hc. Qed.
Lemma whole_nil : ~ whole (Node []).
Proof. intros H. apply H. constructor. intros []. Qed.

Lemma mapM_some_iff {A B} (f : A -> res B) l :
  (exists v, mapM f l = Ok v) <-> Forall (fun a => exists v, f a = Ok v) l.
Proof.
  induction l as [|a l IH]; cbn [mapM]; [split; eauto|]. split.
  - intros [v H]. destruct (f a) as [b|] eqn:E; [|discriminate]. cbn [bind] in H.
    destruct (mapM f l) as [bs|] eqn:El; [|discriminate]. constructor; [eauto|]. apply IH. eauto.
  - intros H. inversion H as [|? ? [b Hb] Hl]; subst. apply IH in Hl as [bs Hbs]. rewrite Hb, Hbs. cbn [bind]. eauto.
Qed.

Lemma Forall_and_inv_iff {A} (P Q : A -> Prop) l : Forall (fun a => P a /\ Q a) l <-> Forall P l /\ Forall Q l.
Proof. rewrite !Forall_forall. split; [intros H; split; intros a Ha; apply H, Ha|intros [H1 H2] a Ha; auto]. Qed.

Lemma tree_str_iff t : (exists s, tree_str t = Ok s) <-> whole t.
Proof.
  induction t as [a|cs IH] using tree_ind_all.
  - split; [intros _; apply whole_atom|intros _; eexists; reflexivity].
  - destruct cs as [|h args].
    + split; [intros [s H]; discriminate|intros H; destruct (whole_nil H)].
    + rewrite whole_node. cbn [tree_str].
      assert (Ha : (exists l, mapM tree_str args = Ok l) <-> Forall whole args).
      { rewrite mapM_some_iff, !Forall_forall. split; intros H a Hin; apply IH; auto; right; exact Hin. }
      rewrite <- Ha, <- (IH h) by (left; reflexivity).
      destruct (tree_str h) as [hs|]; cbn [bind]; [|split; [intros [? E]; discriminate|intros [[? E] _]; discriminate]].
      destruct (mapM tree_str args) as [ls|]; cbn [bind]; [|split; [intros [? E]; discriminate|intros [_ [? E]]; discriminate]].
      split; [intros _; split; eauto|eauto].
Qed.

Lemma arity_node n h h' args : arity_is n h (Node (h' :: args)) <-> (h' = h -> length args = n) /\ Forall (arity_is n h) args.
Proof.
  unfold arity_is. split.
  - intros H. split.
    + intros ->. apply H. constructor. intros [].
    + apply Forall_forall. intros a Ha us Hr. apply H. eapply reach_child; eauto; simpl; auto.
  - intros [H1 H2] us Hr. inversion Hr as [|t c s _ Hc Hr']; subst; [auto|].
    simpl in Hc. rewrite Forall_forall in H2. exact (H2 _ Hc us Hr').
Qed.
Lemma arity_leaf n h t : children t = [] -> arity_is n h t.
Proof.
  intros Ht us Hr. inversion Hr as [|u c s _ Hc Hr']; subst; [discriminate|].
  destruct t as [a|[|? ?]]; try discriminate; destruct Hc.
Qed.

Lemma pretty_iff e : (exists s, pretty e = Ok s) <-> whole e /\ arity_is 2 Pow e.
Proof.
  induction e as [a|cs IH] using tree_ind_all.
  - split; [intros _; split; [apply whole_atom|apply arity_leaf; reflexivity]|intros _; eexists; reflexivity].
  - destruct cs as [|h args].
    { split; [intros [s H]; discriminate|intros [H _]; destruct (whole_nil H)]. }
    rewrite whole_node, arity_node. cbn [pretty].
    assert (Ha : (exists l, mapM pretty args = Ok l) <-> Forall whole args /\ Forall (arity_is 2 Pow) args).
    { rewrite mapM_some_iff, <- Forall_and_inv_iff, !Forall_forall. split; intros H a Hin; apply IH; auto; right; exact Hin. }
    destruct (mapM pretty args) as [ts|] eqn:Em; cbn [bind].
    2: { split; [intros [? E]; discriminate|]. intros [[_ H1] [_ H2]]. destruct Ha as [_ Ha]. destruct (Ha (conj H1 H2)). discriminate. }
    assert (Hl : length ts = length args) by (eapply mapM_length; eauto).
    destruct Ha as [Ha _]. destruct (Ha (ex_intro _ _ eq_refl)) as [Hw Har].
    destruct (tree_eqb_spec h Add) as [->|H1].
    { split; [intros _|eauto]. split; split; auto; [apply whole_atom|discriminate]. }
    destruct (tree_eqb_spec h Mul) as [->|H2].
    { split; [intros _|eauto]. split; split; auto; [apply whole_atom|discriminate]. }
    destruct (tree_eqb_spec h Pow) as [->|H3].
    { split.
      - intros [s Hs]. destruct ts as [|b [|e [|]]]; try discriminate. repeat split; auto. apply whole_atom.
      - intros [_ [H _]]. specialize (H eq_refl). rewrite H in Hl. destruct ts as [|b [|e [|]]]; try discriminate. eauto. }
    rewrite <- (tree_str_iff h). destruct (tree_str h) as [hs|]; cbn [bind].
    + split; [intros _|eauto]. repeat split; eauto. intros E. contradiction.
    + split; [intros [? E]; discriminate|intros [[[? E] _] _]; discriminate].
Qed.

Lemma latex_atoms_node h args : latex_atoms (Node (h :: args)) <-> Forall latex_atoms args.
Proof.
  unfold latex_atoms. split.
  - intros H. apply Forall_forall. intros b Hb a Hr. apply H. eapply reach_child; eauto; simpl; auto.
  - intros H a Hr. inversion Hr as [|t c s _ Hc Hr']; subst. rewrite Forall_forall in H. exact (H _ Hc a Hr').
Qed.

Lemma latex_iff e : (exists s, latex e = Ok s) <->
  whole e /\ latex_atoms e /\ arity_is 2 Pow e /\ arity_is 1 sin e /\ arity_is 1 cos e.
Proof.
  induction e as [a|cs IH] using tree_ind_all.
  - cbn [latex]. split.
    + intros [s H]. repeat split; try apply whole_atom; try (apply arity_leaf; reflexivity).
      intros b Hr. inversion Hr as [|t c u _ Hc Hr']; subst; [|destruct Hc]. unfold latex_type.
      destruct (atype_eqb_spec (atom_type b) T_Integer); [auto|].
      destruct (atype_eqb_spec (atom_type b) T_Symbol); [auto|].
      destruct (atype_eqb_spec (atom_type b) T_Function); [auto|]. discriminate.
    + intros (_ & H & _). specialize (H a (reach_here false [] _ (fun H => H))).
      destruct (atype_eqb_spec (atom_type a) T_Integer); [eexists; reflexivity|].
      destruct (atype_eqb_spec (atom_type a) T_Symbol); [eexists; reflexivity|].
      destruct (atype_eqb_spec (atom_type a) T_Function); [eexists; reflexivity|]. unfold latex_type in H. tauto.
  - destruct cs as [|h args].
    { split; [intros [s H]; discriminate|intros [H _]; destruct (whole_nil H)]. }
    rewrite whole_node, latex_atoms_node, !arity_node. cbn [latex].
    assert (Ha : (exists l, mapM latex args = Ok l) <-> Forall whole args /\ Forall latex_atoms args /\
       Forall (arity_is 2 Pow) args /\ Forall (arity_is 1 sin) args /\ Forall (arity_is 1 cos) args).
    { rewrite mapM_some_iff, <- !Forall_and_inv_iff, !Forall_forall. split; intros H a Hin; apply IH; auto; right; exact Hin. }
    destruct (mapM latex args) as [ts|] eqn:Em; cbn [bind].
    2: { split; [intros [? E]; discriminate|].
         intros ([_ W] & A & [_ P] & [_ S1] & [_ C1]). destruct Ha as [_ Ha]. destruct Ha; [tauto|discriminate]. }
    assert (Hl : length ts = length args) by (eapply mapM_length; eauto).
    destruct Ha as [Ha _]. destruct (Ha (ex_intro _ _ eq_refl)) as (W & A & P & S1 & C1).
    destruct (tree_eqb_spec h Add) as [->|H1].
    { split; [intros _|eauto]. repeat split; auto; try discriminate. apply whole_atom. }
    destruct (tree_eqb_spec h Mul) as [->|H2].
    { split; [intros _|eauto]. repeat split; auto; try discriminate. apply whole_atom. }
    destruct (tree_eqb_spec h Pow) as [->|H3].
    { split.
      - intros [s Hs]. destruct ts as [|b [|e [|]]]; try discriminate. repeat split; auto; try discriminate. apply whole_atom.
      - intros (_ & _ & [H _] & _). specialize (H eq_refl). rewrite H in Hl. destruct ts as [|b [|e [|]]]; try discriminate. eauto. }
    destruct (tree_eqb_spec h sin) as [->|H4].
    { split.
      - intros [s Hs]. destruct ts as [|b [|]]; try discriminate. repeat split; auto; try discriminate. apply whole_atom.
      - intros (_ & _ & _ & [H _] & _). specialize (H eq_refl). rewrite H in Hl. destruct ts as [|b [|]]; try discriminate. eauto. }
    destruct (tree_eqb_spec h cos) as [->|H5].
    { split.
      - intros [s Hs]. destruct ts as [|b [|]]; try discriminate. repeat split; auto; try discriminate. apply whole_atom.
      - intros (_ & _ & _ & _ & [H _]). specialize (H eq_refl). rewrite H in Hl. destruct ts as [|b [|]]; try discriminate. eauto. }
    rewrite <- (tree_str_iff h). destruct (tree_str h) as [hs|]; cbn [bind].
    + split; [intros _|eauto]. repeat split; eauto; intros E; contradiction.
    + split; [intros [? E]; discriminate|intros [[[? E] _] _]; discriminate].
Qed.
