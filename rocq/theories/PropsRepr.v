(** * Properties of the raw representation: C57. *)
From Verif Require Import Py SpecEval ModelTree SpecTree ModelCas SpecPrint ModelRepr SpecRepr ProofRepr ModelSym ProofPrint Samples.
Local Open Scope string_scope.

(** C57. Reading the raw representation as Python gives the expression back. *)
Theorem C57_repr_reads_back (ns : string -> option atype) (e : tree) (s : string) :
  in_scope ns e -> tree_repr e = Ok s -> py_eval ns s = Some e.
Proof. exact (eval_repr_back ns e s). Qed.

(** The namespace of simplecas, and [f(g("it's"), -12)], with a newline in another name. *)
Definition ns_case (s : string) : option atype :=
  if String.eqb s "Integer" then Some T_Integer else if String.eqb s "Symbol" then Some T_Symbol
  else if String.eqb s "Function" then Some T_Function else None.
Definition e_repr : tree :=
  Node [f; Node [g; Symbol "it's"]; Integer (-12); Node [Symbol (String (ascii_of_nat 10) "a\")]].
Definition s_repr : string :=
  "Tree(Tr(Function('f')), Tree(Tr(Function('g')), Tr(Symbol(""it's""))), Tr(Integer(-12)), Tree(Tr(Symbol('\na\\'))))".
Example C57_case : tree_repr e_repr = Ok s_repr /\ py_eval ns_case s_repr = Some e_repr /\ in_scope ns_case e_repr.
Proof.
  split; [reflexivity|]. split; [reflexivity|]. intros a Ha.
  assert (H : atom_type a = T_Integer \/ atom_type a = T_Symbol \/ atom_type a = T_Function).
  { destruct (ProofTree.topological_sort_full e_repr true) as (l & El & _ & Hl & _). apply Hl in Ha. clear Hl.
    assert (E : topological_sort e_repr true [] =
      Ok [f; g; Symbol "it's"; Node [g; Symbol "it's"]; Integer (-12); Symbol (String (ascii_of_nat 10) "a\");
          Node [Symbol (String (ascii_of_nat 10) "a\")]; e_repr]) by (vm_compute; reflexivity).
    rewrite E in El. injection El as El. rewrite <- El in Ha. clear -Ha. unfold e_repr in Ha. cbn [In] in Ha.
    repeat match goal with H : _ \/ _ |- _ => destruct H as [H|H] end; try discriminate;
    match type of Ha with False => destruct Ha | _ => inversion Ha; subst; auto end. }
  split; [destruct H as [H|[H|H]]; rewrite H; reflexivity|].
  intros s1 s2 E.
  assert (Hc : has_char "(" (ty_name (atom_type a)) = false) by (destruct H as [H|[H|H]]; rewrite H; reflexivity).
  rewrite E in Hc. clear -Hc. induction s1 as [|c s1 IH]; [discriminate|]. cbn [append has_char] in Hc.
  apply orb_false_elim in Hc as [_ Hc]. auto.
Qed.
Print Assumptions C57_repr_reads_back.

(** It exists exactly if no part is the childless Tree(). *)
Theorem C57_when_repr_succeeds (e : tree) : (exists s, tree_repr e = Ok s) <-> whole e.
Proof. exact (tree_repr_iff e). Qed.
Example C57_case_fails : tree_repr (Node [f; Node []]) = Err AttributeError.
Proof. reflexivity. Qed.
Print Assumptions C57_when_repr_succeeds.

(** So it identifies the expression, as long as different atom types have different names without
    an opening parenthesis; likewise for Sym. *)
Theorem C57_repr_injective (e1 e2 : tree) (s : string) :
  (forall a b, reach true [] e1 (Atm a) \/ reach true [] e2 (Atm a) ->
     reach true [] e1 (Atm b) \/ reach true [] e2 (Atm b) ->
     ty_name (atom_type a) = ty_name (atom_type b) -> atom_type a = atom_type b) ->
  (forall a s1 s2, reach true [] e1 (Atm a) \/ reach true [] e2 (Atm a) -> ty_name (atom_type a) <> s1 ++ "(" ++ s2) ->
  (tree_repr e1 = Ok s /\ tree_repr e2 = Ok s) \/ (sym_repr e1 = Ok s /\ sym_repr e2 = Ok s) -> e1 = e2.
Proof.
  intros Hn Hp [[H1 H2]|[H1 H2]]; [exact (tree_repr_inj e1 e2 s Hn Hp H1 H2)|].
  unfold sym_repr in *. destruct (tree_repr e1) as [s1|] eqn:E1; [|discriminate]. destruct (tree_repr e2) as [s2|] eqn:E2; [|discriminate].
  cbn [bind] in *. apply (tree_repr_inj e1 e2 s1 Hn Hp E1). rewrite E2. f_equal.
  assert (E : "Sym(" ++ s1 ++ ")" = "Sym(" ++ s2 ++ ")") by congruence. apply ProofPrint.app_inv_s in E.
  clear -E. revert s2 E. induction s1 as [|c s1 IH]; intros [|c2 s2] E; cbn [append] in E.
  - reflexivity.
  - injection E as _ E. destruct s2; discriminate.
  - injection E as _ E. destruct s1; discriminate.
  - injection E as -> E. f_equal. apply IH, E.
Qed.
(** Two texts that [str] does not tell apart (C40), told apart by [repr]. *)
Example C57_case_injective :
  tree_str (Symbol "1") = tree_str (Integer 1) /\ tree_repr (Symbol "1") = Ok "Tr(Symbol('1'))" /\
  tree_repr (Integer 1) = Ok "Tr(Integer(1))" /\ sym_repr (Integer 1) = Ok "Sym(Tr(Integer(1)))".
Proof. repeat split; reflexivity. Qed.
Print Assumptions C57_repr_injective.

(** Without distinct names it does not: two AtomTypes named alike are different types whose atoms
    look the same. *)
Theorem C57_same_type_name_refuted :
  exists e1 e2 s, e1 <> e2 /\ tree_repr e1 = Ok s /\ tree_repr e2 = Ok s.
Proof.
  exists (Atm (mkAtom (mkType 7 "Symbol") (VStr "x"))), (Atm (mkAtom (mkType 8 "Symbol") (VStr "x"))), "Tr(Symbol('x'))".
  repeat split; try reflexivity. discriminate.
Qed.
Print Assumptions C57_same_type_name_refuted.

(** The atoms that the library itself names: expressions of simplecas, and the wildcards and star patterns of rules. *)
Lemma word_quote c s : all_chars (fun c => is_alpha c || is_digit c) s = true -> (c = sq \/ c = dq) -> has_char c s = false.
Proof.
  intros H Hc. induction s as [|d s IH]; [reflexivity|]. cbn [all_chars] in H. apply Bool.andb_true_iff in H as [Hd H]. cbn [has_char]. rewrite IH by exact H.
  rewrite Bool.orb_false_r. destruct (Ascii.eqb_spec c d) as [->|]; [|reflexivity]. destruct Hc as [->| ->]; discriminate Hd.
Qed.
Lemma word_escape s : all_chars (fun c => is_alpha c || is_digit c) s = true -> escape sq s = s.
Proof.
  induction s as [|d s IH]; [reflexivity|]. cbn [all_chars]. intros H. apply Bool.andb_true_iff in H as [Hd H]. cbn [escape]. rewrite IH by exact H.
  destruct d as [[|] [|] [|] [|] [|] [|] [|] [|]]; try discriminate Hd; reflexivity.
Qed.
Lemma word_repr s : identifier s -> repr_str s = "'" ++ s ++ "'".
Proof.
  intros H. assert (A : all_chars (fun c => is_alpha c || is_digit c) s = true).
  { destruct s as [|c s]; [destruct H|]. destruct H as [Hc H]. cbn [all_chars]. rewrite Hc, H. reflexivity. }
  unfold repr_str. replace (quote_for s) with sq by (unfold quote_for; rewrite (word_quote sq s A (or_introl eq_refl)); reflexivity).
  rewrite word_escape by exact A. reflexivity.
Qed.
Theorem C57_known_names s n : identifier s ->
  tree_repr (Symbol s) = Ok ("Tr(Symbol('" ++ s ++ "'))") /\ tree_repr (Function s) = Ok ("Tr(Function('" ++ s ++ "'))") /\
  tree_repr (Integer n) = Ok ("Tr(Integer(" ++ str_int n ++ "))") /\
  tree_repr (new_wild s) = Ok ("Tr(Wild('" ++ s ++ "'))") /\
  tree_repr (star (new_wild s)) = Ok ("Tree(Tr(Star('Star')), Tr(Wild('" ++ s ++ "')))").
Proof.
  intros H. pose proof (word_repr s H) as E. unfold tree_repr, star, tree_call, new_wild, Star, Symbol, Function, Integer, Tr. cbn -[repr_str str_int "++"].
  unfold atom_repr. cbn [atom_type atom_value ty_name repr_value]. rewrite E. repeat split; cbn; repeat (rewrite app_assoc_s; cbn); reflexivity.
Qed.
Example C57_known_names_case : identifier "x_1" /\ tree_repr (star (new_wild "x_1")) = Ok "Tree(Tr(Star('Star')), Tr(Wild('x_1')))".
Proof. repeat split. Qed.
Print Assumptions C57_known_names.
