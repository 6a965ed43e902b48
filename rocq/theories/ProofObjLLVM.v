(** * Code generation on objects: the programs of ModelObjLLVM.v and their meanings *)
From Verif Require Import Py ModelTree ModelIntern SpecIntern ModelEval ModelDiff ModelSym ModelCas ModelApi ProofBase ProofIntern SpecTree ModelObjects SpecObjects
  ModelObjEval SpecObjEval ModelMatrix ModelObjExpr SpecObjExpr ModelObjMatrix SpecObjMatrix ModelLLVM ModelObjLLVM SpecObjLLVM ProofTopo ProofGraph ProofObjects ProofObjTree
  ProofObjEval PropsObjEval ProofObjExpr ProofObjMatrix.
From Verif Require ProofObjRules.
Local Open Scope string_scope.

Notation height := ProofObjRules.height.
Lemma height_in l u f : In u l -> height (Node l) <= S f -> height u <= f.
Proof.
  intros H Hf. cbn [ProofObjRules.height] in Hf. pose proof (proj1 (list_max_le (map height l) f) ltac:(lia)) as K. rewrite Forall_forall in K. apply K, in_map, H.
Qed.
(** All exceptions of [str] are AttributeErrors, so the order in which parts are converted does not matter. *)
Lemma str_errors u x : tree_str u = Err x -> x = AttributeError.
Proof.
  revert x. induction u as [a|[|h l] IH] using tree_ind_all; intros x; cbn [tree_str]; [discriminate|congruence|].
  destruct (tree_str h) as [hs|e] eqn:Eh; cbn [bind].
  2: { intros E. injection E as <-. apply (IH h); [left; reflexivity|exact Eh]. }
  destruct (mapM tree_str l) as [ls|e] eqn:El; cbn [bind]; [discriminate|]. intros E. injection E as <-.
  assert (K : forall u, In u l -> forall x, tree_str u = Err x -> x = AttributeError) by (intros u Hu; apply IH; right; exact Hu).
  clear - El K. revert e El. induction l as [|u l IHl]; intros e El; [discriminate|]. cbn [mapM] in El. destruct (tree_str u) as [s|y] eqn:Eu; cbn [bind] in El.
  - destruct (mapM tree_str l) eqn:E2; cbn [bind] in El; [discriminate|]. injection El as <-. apply IHl; [intros v Hv; apply K; right; exact Hv|reflexivity].
  - injection El as <-. apply (K u); [left; reflexivity|exact Eu].
Qed.
Lemma str_list_errors l x : mapM tree_str l = Err x -> x = AttributeError.
Proof.
  revert x. induction l as [|u l IH]; intros x E; [discriminate|]. cbn [mapM] in E. destruct (tree_str u) as [s|y] eqn:Eu; cbn [bind] in E.
  - destruct (mapM tree_str l); cbn [bind] in E; [discriminate|]. injection E as <-. apply IH. reflexivity.
  - injection E as <-. apply (str_errors u). exact Eu.
Qed.
Lemma str_node h l : tree_str (Node (h :: l)) = (do ls <- mapM tree_str l; do hs <- tree_str h; Ok (hs ++ "(" ++ join ", " ls ++ ")")).
Proof.
  cbn [tree_str]. destruct (tree_str h) as [hs|x] eqn:Eh, (mapM tree_str l) as [ls|y] eqn:El; cbn [bind]; try reflexivity.
  rewrite (str_errors h x Eh), (str_list_errors l y El). reflexivity.
Qed.
Definition repr_result (u : tree) : res unit := match tree_repr_raises u with Some x => Err x | None => Ok tt end.
Lemma repr_node c l : repr_result (Node (c :: l)) = (do _ <- mapM repr_result (c :: l); Ok tt).
Proof.
  unfold repr_result. cbn [tree_repr_raises mapM]. destruct (tree_repr_raises c); cbn [bind]; [reflexivity|].
  match goal with |- context [?f l] => assert (E : match f l with Some x => Err x | None => Ok tt end =
    (do _ <- mapM (fun u => match tree_repr_raises u with Some x => Err x | None => Ok tt end) l; Ok tt)) end.
  { induction l as [|u l IH]; [reflexivity|]. cbn [mapM]. destruct (tree_repr_raises u); cbn [bind]; [reflexivity|]. rewrite IH. destruct (mapM _ l); reflexivity. }
  rewrite E. destruct (mapM _ l); reflexivity.
Qed.

Section Proof.
  Context (names : nat -> string) (atomic : bool) (who : nat -> Prop) (t : nat).
  Context (Hsafe : safe atomic who) (Hwho : who t) (Hnames : cas_names names).
  Notation has_tree := (has_tree names t).
  Notation has_atom := (has_atom names t).
  Notation has_expr := (has_expr names t).
  Notation W := (W atomic who t).
  Notation le := (le t).
  Notation mono := (mono t).
  Notation refines := (refines atomic who t).
  Notation same_props := (same_props names t).
  Notation module_ok := (module_ok names t).
  Notation trees := (rlist has_tree).
  Notation exprs := (rlist has_expr).
  Notation rmat := (has_matrix names t).
  Notation sdict := (rlist (rprod has_tree (@req string))).
  Notation ref_bind := (ref_bind atomic who t Hwho).
  Notation ref_bind_ok := (ref_bind_ok atomic who t Hwho).
  Notation ref_ret := (ref_ret atomic who t).
  Notation ref_lift := (ref_lift atomic who t Hwho).
  Notation ref_err := (ref_err atomic who t Hwho).
  Notation mono_tree := (mono_tree names t).
  Notation mono_expr := (mono_expr names t).
  Notation mono_eq := (mono_eq t).
  Implicit Types (s : state pyval).

  Lemma eq_ret {A} s (x : res A) : W s -> refines s (lift x) x (@req A).
  Proof. intros HW. apply ref_ret; [exact HW|apply mono_eq|destruct x; reflexivity]. Qed.
  Lemma mono_trees : mono trees. Proof. apply (mono_list t), mono_tree. Qed.
  Lemma mono_sdict : mono sdict. Proof. apply (mono_list t), (mono_prod t); [apply mono_tree|apply mono_eq]. Qed.

  (** ** str and repr *)
  Lemma str_ref fuel : forall s a u, W s -> has_tree s a u -> height u <= fuel -> refines s (o_tree_str fuel a) (tree_str u) (@req string).
  Proof.
    induction fuel as [|fuel IH]; intros s a u HW Ha Hf; [destruct u; cbn [ProofObjRules.height] in Hf; lia|]. cbn [o_tree_str].
    eapply ref_bind_ok; [exact HW|apply (children_ref names atomic who t); eassumption|]. intros s1 cs W1 L1 Hcs.
    pose proof (has_tree_le names t s s1 a u L1 Ha) as Ha1.
    destruct u as [x|[|h l]]; cbn [children] in Hcs; inversion Hcs as [|c y cs' ys Hc Hl]; subst.
    - cbn [tree_str]. eapply ref_bind_ok; [exact W1|apply (value_ref names atomic who t); eassumption|]. intros s2 b W2 L2 Hb.
      eapply ref_bind_ok; [exact W2|apply (parts_ref names atomic who t); eassumption|]. intros s3 [ty v] W3 L3 E. cbn [fst snd] in E. subst x.
      apply ref_ret; [exact W3|apply mono_eq|reflexivity].
    - cbn [tree_str]. apply (no_value_ref names atomic who t); assumption.
    - rewrite str_node. eapply ref_bind; [exact W1| |].
      + apply (pmap_ref atomic who t Hwho (fun s a u => has_tree s a u /\ height u <= fuel) (@req string)); [|apply mono_eq|exact W1| |].
        * intros s2 s3 b v L [H1 H2]. split; [eapply has_tree_le; eassumption|exact H2].
        * assert (K : forall u, In u l -> height u <= fuel) by (intros u Hu; eapply height_in; [|exact Hf]; right; exact Hu).
          clear - Hl K. induction Hl as [|b v cs' l Hb _ IHl]; constructor; [split; [exact Hb|apply K; left; reflexivity]|apply IHl; intros u Hu; apply K; right; exact Hu].
        * intros s2 b v W2 L2 [H1 H2]. apply IH; assumption.
      + intros s2 ls ls' W2 L2 E. apply eq_list in E. subst ls'.
        eapply ref_bind; [exact W2|apply IH; [exact W2|eapply has_tree_le; eassumption|eapply height_in; [|exact Hf]; left; reflexivity]|].
        intros s3 hs hs' W3 L3 E. red in E. subst hs'. apply ref_ret; [exact W3|apply mono_eq|reflexivity].
  Qed.
  Lemma repr_ref fuel : forall s a u, W s -> has_tree s a u -> height u <= fuel -> refines s (o_tree_repr fuel a) (repr_result u) (@req unit).
  Proof.
    induction fuel as [|fuel IH]; intros s a u HW Ha Hf; [destruct u; cbn [ProofObjRules.height] in Hf; lia|]. cbn [o_tree_repr].
    eapply ref_bind_ok; [exact HW|apply (children_ref names atomic who t); eassumption|]. intros s1 cs W1 L1 Hcs.
    pose proof (has_tree_le names t s s1 a u L1 Ha) as Ha1.
    destruct u as [x|[|h l]]; cbn [children] in Hcs; inversion Hcs as [|c y cs' ys Hc Hl]; subst.
    - unfold repr_result. cbn [tree_repr_raises]. eapply ref_bind_ok; [exact W1|apply (value_ref names atomic who t); eassumption|]. intros s2 b W2 L2 Hb.
      eapply ref_bind_ok; [exact W2|apply (parts_ref names atomic who t); eassumption|]. intros s3 [ty v] W3 L3 E.
      apply ref_ret; [exact W3|apply mono_eq|reflexivity].
    - apply (no_value_ref names atomic who t); assumption.
    - rewrite repr_node. eapply ref_bind; [exact W1| |].
      + apply (pmap_ref atomic who t Hwho (fun s a u => has_tree s a u /\ height u <= fuel) (@req unit)); [|apply mono_eq|exact W1| |].
        * intros s2 s3 b v L [H1 H2]. split; [eapply has_tree_le; eassumption|exact H2].
        * assert (K : forall u, In u (h :: l) -> height u <= fuel) by (intros u Hu; eapply height_in; [exact Hu|exact Hf]).
          clear - Hcs K. revert Hcs K. generalize (c :: cs') (h :: l). intros cs0 l0 Hl0 K.
          induction Hl0 as [|b v cs0 l0 Hb _ IHl]; constructor; [split; [exact Hb|apply K; left; reflexivity]|apply IHl; intros u Hu; apply K; right; exact Hu].
        * intros s2 b v W2 L2 [H1 H2]. apply IH; assumption.
      + intros s2 ls ls' W2 L2 E. apply ref_ret; [exact W2|apply mono_eq|reflexivity].
  Qed.
  Lemma not_implemented_ref {A B} fuel s a u (R : state pyval -> A -> B -> Prop) : W s -> mono R -> has_tree s a u -> height u <= fuel ->
    refines s (o_not_implemented fuel a) (not_implemented u) R.
  Proof.
    intros HW HM Ha Hf. unfold o_not_implemented.
    replace (@not_implemented B u) with (do _ <- repr_result u; Err LLVMNotImplementedError : res B) by (unfold not_implemented, repr_result; destruct (tree_repr_raises u); reflexivity).
    eapply ref_bind; [exact HW|apply repr_ref; eassumption|]. intros s1 a1 b1 W1 L1 _. apply ref_ret; [exact W1|exact HM|reflexivity].
  Qed.

  (** ** Dicts of names *)
  Lemma sget s d e a u : W s -> sdict s d e -> has_tree s a u -> dict_getitem Nat.eqb d a = dict_getitem tree_eqb e u.
  Proof.
    intros HW H Ha. unfold dict_getitem. replace (dict_get Nat.eqb d a) with (dict_get tree_eqb e u); [reflexivity|].
    induction H as [|[b n] [v m] d e [Hb Hn] _ IH]; [reflexivity|]. cbn [dict_get fst snd] in *. red in Hn. subst.
    rewrite (identity names atomic who t Hsafe s a u b v HW Ha Hb), IH. reflexivity.
  Qed.
  Lemma sset s d e a u n : W s -> sdict s d e -> has_tree s a u -> sdict s (dict_set Nat.eqb d a n) (dict_set tree_eqb e u n).
  Proof.
    intros HW H Ha. induction H as [|[b i] [v m] d e [Hb Hn] Hd IH]; cbn [dict_set fst snd] in *.
    - constructor; [split; [exact Ha|reflexivity]|constructor].
    - rewrite (identity names atomic who t Hsafe s a u b v HW Ha Hb). destruct (tree_eqb u v).
      + constructor; [split; [exact Hb|reflexivity]|exact Hd].
      + constructor; [split; assumption|exact IH].
  Qed.
  Lemma supdate s l us : W s -> sdict s l us -> forall d e, sdict s d e -> sdict s (dict_update Nat.eqb d l) (dict_update tree_eqb e us).
  Proof.
    intros HW H. induction H as [|[a n] [u m] l us [Ha Hn] _ IH]; intros d e Hd; [exact Hd|]. cbn [fst snd] in *. red in Hn. subst m.
    unfold dict_update. cbn [fold_left fst snd]. apply IH. apply sset; assumption.
  Qed.
  Definition heights (us : list tree) : nat := list_max (map height us).
  Lemma heights_in us u f : In u us -> heights us <= f -> height u <= f.
  Proof. intros H Hf. unfold heights in Hf. apply list_max_le in Hf. rewrite Forall_forall in Hf. apply Hf, in_map, H. Qed.
  Lemma zip_heights s l us f : trees s l us -> heights us <= f -> rlist (fun s a u => has_tree s a u /\ height u <= f) s l us.
  Proof.
    intros H Hf. assert (K : forall u, In u us -> height u <= f) by (intros u Hu; eapply heights_in; eassumption). clear Hf. unfold rlist in *.
    induction H as [|a u l us Ha _ IH]; constructor; [split; [exact Ha|apply K; left; reflexivity]|apply IH; intros v Hv; apply K; right; exact Hv].
  Qed.
  Lemma mono_tall f : mono (fun s a u => has_tree s a u /\ height u <= f).
  Proof. intros s s' a u L [H1 H2]. split; [eapply has_tree_le; eassumption|exact H2]. Qed.
  Lemma argnames_ref fuel s l us : W s -> trees s l us -> heights us <= fuel -> refines s (o_llvm_argnames fuel l) (llvm_argnames us) sdict.
  Proof.
    intros HW Hl Hf. unfold o_llvm_argnames, llvm_argnames.
    eapply (ref_bind _ _ _ _ _ sdict); [exact HW| |].
    - apply (pmap_ref atomic who t Hwho (fun s a u => has_tree s a u /\ height u <= fuel) (rprod has_tree (@req string))); [apply mono_tall|apply (mono_prod t); [apply mono_tree|apply mono_eq]|exact HW|apply zip_heights; assumption|].
      intros s1 a u W1 L1 [Ha Hu]. eapply ref_bind; [exact W1|apply str_ref; eassumption|]. intros s2 n m W2 L2 E. red in E. subst m.
      apply ref_ret; [exact W2|apply (mono_prod t); [apply mono_tree|apply mono_eq]|]. split; cbn [fst snd]; [eapply has_tree_le; eassumption|reflexivity].
    - intros s1 ps qs W1 L1 H. apply ref_ret; [exact W1|apply mono_sdict|]. apply supdate; [exact W1|exact H|constructor].
  Qed.

  (** ** The text *)
  Lemma identifier_ref fuel s l us d e a u : W s -> trees s l us -> sdict s d e -> has_tree s a u -> height u <= fuel -> children u = [] ->
    refines s (o_atom_identifier fuel l d a) (atom_identifier us e u) (@req string).
  Proof.
    intros HW Hl Hd Ha Hf Hc. unfold o_atom_identifier, atom_identifier. rewrite (mem_same names atomic who t Hsafe s a u l us HW Ha Hl). destruct (mem u us).
    - rewrite (sget s d e a u HW Hd Ha). apply eq_ret, HW.
    - destruct u as [x|[|h k]]; [|apply (no_value_ref names atomic who t); assumption|discriminate Hc]. cbn [tree_value bind].
      eapply ref_bind_ok; [exact HW|apply (value_ref names atomic who t); eassumption|]. intros s1 b W1 L1 Hb.
      eapply ref_bind_ok; [exact W1|apply (parts_ref names atomic who t); eassumption|]. intros s2 [ty v] W2 L2 E. cbn [fst snd] in E.
      assert (Et : atype_eqb (atom_type x) T_Integer = Nat.eqb ty (ty_id T_Integer)).
      { subst x. cbn [atom_type]. unfold atype_eqb. cbn [ty_id ty_name]. destruct (Nat.eqb_spec ty (ty_id T_Integer)) as [->|Hne]; cbn [andb].
        - assert (En : names (ty_id T_Integer) = ty_name T_Integer) by (unfold cas_names in Hnames; rewrite Forall_forall in Hnames; apply Hnames; left; reflexivity).
          rewrite En. apply String.eqb_refl.
        - destruct (Nat.eqb_spec ty (ty_id T_Integer)) as [->|_]; [congruence|reflexivity]. }
      rewrite Et. destruct (Nat.eqb ty (ty_id T_Integer)); [subst x; apply eq_ret, W2|].
      apply not_implemented_ref; [exact W2|apply mono_eq|eapply has_tree_le; [exact L2|]; eapply has_tree_le; eassumption|exact Hf].
  Qed.
  Lemma params_same s l us d e : W s -> sdict s d e -> trees s l us ->
    o_llvm_params l d = mapM (fun arg => do n <- dict_getitem tree_eqb e arg; Ok ("double " ++ n)) us.
  Proof.
    intros HW Hd H. unfold o_llvm_params. induction H as [|a u l us Ha _ IH]; [reflexivity|]. cbn [mapM]. rewrite (sget s d e a u HW Hd Ha), IH. reflexivity.
  Qed.
  Lemma op_ref fuel s g acc f u ns : W s -> module_ok s g -> has_tree s f u -> height u <= fuel ->
    refines s (o_llvm_op fuel g acc (f, ns)) (llvm_op acc (u, ns)) (@req (list string * list string)).
  Proof.
    intros HW Hg Hu Hf. destruct acc as [ids ins]. unfold o_llvm_op, llvm_op.
    set (i := temp (length ins)).
    apply (ref_lift s _ _ _ _ (@req (list string))); [exact HW|apply mono_eq|destruct (mapM _ ns); reflexivity|]. intros s1 xs ys W1 L1 E. red in E. subst ys.
    (* one comparison *)
    assert (Hg1 : module_ok s1 g) by (eapply module_le; eassumption). assert (Hu1 : has_tree s1 f u) by (eapply has_tree_le; eassumption). clear Hg Hu L1 HW s.
    assert (STEP : forall s e h (p q : prog (list string * list string)) (x : res (list string * list string)) y, W s -> module_ok s g -> has_tree s f u -> has_expr s e h ->
      (forall s', W s' -> refines s' p (do line <- x; y line) (@req (list string * list string))) -> True) by auto. clear STEP.
    assert (G : forall e h s (p q : prog (list string * list string)) x, W s -> module_ok s g -> has_tree s f u -> has_expr s e h ->
      (forall s', W s' -> u = h -> refines s' p x (@req (list string * list string))) ->
      (forall s', W s' -> module_ok s' g -> has_tree s' f u -> u <> h -> refines s' q x (@req (list string * list string))) ->
      refines s (run r <- o_rep e; if Nat.eqb f r then p else q) x (@req (list string * list string))).
    { intros e h s p q x HW Hg Hu He Hp Hq. eapply (ref_bind_ok _ _ h _ _ has_tree); [exact HW|apply (rep_ref names atomic who t); assumption|]. intros s' r W' L' Hr.
      assert (Hu' : has_tree s' f u) by (eapply has_tree_le; eassumption).
      rewrite (identity names atomic who t Hsafe s' f u r h W' Hu' Hr). destruct (tree_eqb_spec u h) as [Eh|Nh]; [apply Hp; assumption|].
      apply Hq; try assumption. eapply module_le; eassumption. }
    assert (T : forall h, (u = h) -> tree_eqb u h = true) by (intros h Eh; destruct (tree_eqb_spec u h); congruence).
    assert (F : forall h, (u <> h) -> tree_eqb u h = false) by (intros h Eh; destruct (tree_eqb_spec u h); congruence).
    assert (RET : forall s v, W s -> refines s (ret v) (Ok v) (@req (list string * list string))) by (intros s v HW; apply ref_ret; [exact HW|apply mono_eq|reflexivity]).
    assert (LIFT : forall s (r : res string) (k : string -> prog (list string * list string)) k' , W s -> (forall s' v, W s' -> refines s' (k v) (k' v) (@req (list string * list string))) ->
      refines s (run v <- lift r; k v) (do v <- r; k' v) (@req (list string * list string))).
    { intros s r k k' HW K. apply (ref_lift s _ _ _ _ (@req string)); [exact HW|apply mono_eq|destruct r; reflexivity|]. intros s' v w W' _ E. red in E. subst w. apply K, W'. }
    assert (BB : forall {A B C} (x : res A) (k : A -> res B) (k' : B -> res C), bind (bind x k) k' = bind x (fun a => bind (k a) k')) by (intros A B C [a|e] k k'; reflexivity).
    apply (G _ Add); [exact W1|exact Hg1|exact Hu1|apply Hg1| |].
    { intros s' W' Eh. rewrite (T _ Eh). cbn [bind]. apply RET, W'. }
    intros s2 W2 Hg2 Hu2 N1. rewrite (F _ N1).
    apply (G _ Mul); [exact W2|exact Hg2|exact Hu2|apply Hg2| |].
    { intros s' W' Eh. rewrite (T _ Eh). cbn [bind]. apply RET, W'. }
    intros s3 W3 Hg3 Hu3 N2. rewrite (F _ N2).
    apply (G _ Pow); [exact W3|exact Hg3|exact Hu3|apply Hg3| |].
    { intros s' W' Eh. rewrite (T _ Eh), BB. apply LIFT; [exact W'|]. intros s'' v W''. cbv beta. rewrite BB. apply LIFT; [exact W''|]. intros s5 w W5. cbn [bind]. apply RET, W5. }
    intros s4 W4 Hg4 Hu4 N3. rewrite (F _ N3).
    apply (G _ sin); [exact W4|exact Hg4|exact Hu4|apply Hg4| |].
    { intros s' W' Eh. rewrite (T _ Eh), BB. apply LIFT; [exact W'|]. intros s'' v W''. cbn [bind]. apply RET, W''. }
    intros s5 W5 Hg5 Hu5 N4. rewrite (F _ N4).
    apply (G _ cos); [exact W5|exact Hg5|exact Hu5|apply Hg5| |].
    { intros s' W' Eh. rewrite (T _ Eh), BB. apply LIFT; [exact W'|]. intros s'' v W''. cbn [bind]. apply RET, W''. }
    intros s6 W6 Hg6 Hu6 N5. rewrite (F _ N5).
    replace (do line <- not_implemented u; Ok ((ids ++ [i])%list, (ins ++ [line])%list)) with (@not_implemented (list string * list string) u)
      by (unfold not_implemented; destruct (tree_repr_raises u); reflexivity).
    apply not_implemented_ref; [exact W6|apply mono_eq|exact Hu6|exact Hf].
  Qed.
  Lemma ops_ref fuel g : forall ops us s acc, W s -> module_ok s g -> rlist (rprod has_tree (@req (list nat))) s ops us -> heights (map fst us) <= fuel ->
    refines s (pfold (o_llvm_op fuel g) ops acc) (foldM llvm_op us acc) (@req (list string * list string)).
  Proof.
    induction ops as [|[f ns] ops IH]; intros us s acc HW Hg H Hf; inversion H as [|? [u ms] ? us' [Hu E] Hl]; subst; [apply ref_ret; [exact HW|apply mono_eq|reflexivity]|].
    cbn [fst snd] in *. red in E. subst ms. cbn [pfold foldM map fst] in *. unfold heights in Hf. cbn [map list_max fold_right] in Hf.
    change (fold_right Nat.max 0 (map height (map fst us'))) with (heights (map fst us')) in Hf.
    eapply ref_bind; [exact HW|apply op_ref; [exact HW|exact Hg|exact Hu|lia]|]. intros s1 a b W1 L1 E. red in E. subst b.
    apply IH; [exact W1|eapply module_le; eassumption|revert Hl; apply (mono_list t); [apply (mono_prod t); [apply mono_tree|apply mono_eq]|exact L1]|lia].
  Qed.
  Lemma bin_expand_tree_ref s fuel g a u : W s -> module_ok s g -> has_tree s a u -> enough fuel u ->
    refines s (o_bin_expand_tree fuel g a) (bin_expand u) has_tree.
  Proof.
    intros HW Hg Ha Hf. unfold o_bin_expand_tree. pose proof (mo_Add _ _ _ _ Hg) as HA. pose proof (mo_Mul _ _ _ _ Hg) as HM.
    eapply ref_bind_ok; [exact HW|apply (rep_ref names atomic who t); eassumption|]. intros s1 rA W1 L1 HrA.
    eapply ref_bind_ok; [exact W1|apply (rep_ref names atomic who t); [exact W1|eapply has_expr_le; eassumption]|]. intros s2 rM W2 L2 HrM.
    assert (HrA2 : has_tree s2 rA Add) by (eapply has_tree_le; eassumption).
    assert (Ha2 : has_tree s2 a u) by (eapply has_tree_le; [exact L2|]; eapply has_tree_le; eassumption).
    change (bin_expand u) with (evaluate (fun _ => false) bin_expand_ev u (Some [])).
    apply (evaluate_ref names atomic who t Hsafe Hwho has_tree (fun _ => false) (fun _ => false)); try assumption; [| | |constructor|intros gr; apply graph_atoms].
    - intros s5 s6 c b L5 Hc. apply L5, Hc.
    - reflexivity.
    - constructor; [constructor| | |].
      + constructor; [|constructor; [|constructor]].
        * split; [exact HrA2|]. split; [reflexivity|]. intros s5 args args' R5 L5 Hargs. apply (reduce_ref names atomic who t Hsafe Hwho s5 rA Add); [exact R5|apply L5, HrA2|exact Hargs].
        * split; [exact HrM|]. split; [reflexivity|]. intros s5 args args' R5 L5 Hargs. apply (reduce_ref names atomic who t Hsafe Hwho s5 rM Mul); [exact R5|apply L5, HrM|exact Hargs].
      + intros s5 h v l m R5 _ Hh Hl. exact (call_ref names atomic who t Hsafe Hwho s5 h v l m R5 Hh Hl).
      + intros s5 b v R5 _ Hb. apply ref_ret; [exact R5|apply mono_tree|exact Hb].
  Qed.
  Lemma removelast_rl {A B} (R : state pyval -> A -> B -> Prop) s l m : rlist R s l m -> rlist R s (removelast l) (removelast m).
  Proof.
    intros H. induction H as [|x y l m Hx H IH]; [constructor|]. destruct H as [|x' y' l m Hx' H]; [constructor|].
    change (rlist R s (x :: removelast (x' :: l)) (y :: removelast (y' :: m))). constructor; [exact Hx|exact IH].
  Qed.
  Lemma heights_le us vs : incl us vs -> heights us <= heights vs.
  Proof.
    intros H. unfold heights. apply list_max_le. rewrite Forall_forall. intros n Hn. apply in_map_iff in Hn as (u & <- & Hu). eapply heights_in; [apply H, Hu|apply le_n].
  Qed.
  Lemma removelast_incl {A} (l : list A) : incl (removelast l) l.
  Proof. induction l as [|a [|b l] IH]; [intros x H; exact H|intros x []|]. intros x [<-|H]; [left; reflexivity|right; apply IH, H]. Qed.

  (** The work before the text, which both functions do. *)
  Definition graph_height (gr : forward_graph_t) : nat := heights (g_atoms gr) + heights (map fst (g_operations gr)).
  Definition code_fuel (us : list tree) (u : tree) : nat :=
    S (topo_weight u) + heights us + match bin_expand u with Ok v => S (topo_weight v) + match forward_graph v with Ok gr => graph_height gr | Err _ => 0 end | Err _ => 0 end.
  Definition prefix_known g (l : list addr) (us : list tree) s (x : list addr * list addr * list (addr * list nat)) gr : Prop :=
    rgraph names t s x gr /\ module_ok s g /\ trees s l us.
  Lemma prefix_ref {A B} fuel s g l us a u (R : state pyval -> A -> B -> Prop) k k' : W s -> mono R -> module_ok s g -> trees s l us -> has_tree s a u -> code_fuel us u <= fuel ->
    (forall s1 ops gr d e ids args, W s1 -> module_ok s1 g -> rlist (rprod has_tree (@req (list nat))) s1 ops (g_operations gr) ->
      sdict s1 d e -> trees s1 l us -> heights (map fst (g_operations gr)) <= fuel ->
      refines s1 (k ops ids args) (k' gr ids args) R) ->
    refines s
      (run x <- o_bin_expand_tree fuel g a; run (atoms, _, ops) <- o_forward_graph fuel x;
       run d <- o_llvm_argnames fuel l; run ids <- pmap (o_atom_identifier fuel l d) atoms; run args <- lift (o_llvm_params l d); k ops ids args)
      (do x <- bin_expand u; do y <- forward_graph x;
       do d <- llvm_argnames us; do ids <- mapM (atom_identifier us d) (g_atoms y); do args <- mapM (fun arg => do n <- dict_getitem tree_eqb d arg; Ok ("double " ++ n)) us; k' y ids args) R.
  Proof.
    intros HW HR Hg Hl Ha Hf K. unfold code_fuel in Hf.
    assert (Hf1 : enough fuel u) by (unfold enough; lia). assert (Hf2 : heights us <= fuel) by lia.
    destruct (bin_expand u) as [v|err] eqn:Eb.
    2: { eapply ref_err; [exact HW|]. rewrite <- Eb. apply bin_expand_tree_ref; assumption. }
    cbn [bind]. eapply (ref_bind_ok _ _ v _ _ has_tree); [exact HW|rewrite <- Eb; apply bin_expand_tree_ref; assumption|]. intros s1 b W1 L1 Hb.
    assert (Hf3 : enough fuel v) by (unfold enough; lia).
    destruct (forward_graph v) as [gr|err] eqn:Eg.
    2: { eapply ref_err; [exact W1|]. rewrite <- Eg. apply (graph_ref names atomic who t Hsafe Hwho); assumption. }
    cbn [bind]. eapply (ref_bind_ok _ _ gr _ _ (rgraph names t)); [exact W1|rewrite <- Eg; apply (graph_ref names atomic who t Hsafe Hwho); assumption|].
    intros s2 [[atoms heads] ops] W2 L2 Hgr. cbn [fst snd] in *. unfold graph_height in Hf.
    assert (Hl2 : trees s2 l us) by (eapply mono_trees; [exact L2|]; eapply mono_trees; eassumption).
    eapply (ref_bind _ _ _ _ _ sdict); [exact W2|apply argnames_ref; assumption|]. intros s3 d e W3 L3 Hd.
    assert (Hc : Forall (fun w => children w = []) (g_atoms gr)) by (eapply graph_atoms; eassumption).
    pose proof (mono_graph names t _ _ _ _ L3 Hgr) as (Hat & _ & Hops). cbn [fst snd] in *.
    assert (Hl3 : trees s3 l us) by (eapply mono_trees; eassumption).
    eapply (ref_bind _ _ _ _ _ (rlist (@req string))); [exact W3| |].
    - apply (pmap_ref atomic who t Hwho (fun s a u => (has_tree s a u /\ height u <= fuel) /\ children u = [] /\ trees s l us /\ sdict s d e) (@req string)); [|apply mono_eq|exact W3| |].
      + intros s4 s5 c w L [H1 (H2 & H3 & H4)]. split; [eapply mono_tall; eassumption|]. split; [exact H2|]. split; [eapply mono_trees; eassumption|eapply mono_sdict; eassumption].
      + pose proof (zip_heights s3 atoms (g_atoms gr) fuel Hat ltac:(lia)) as Z. clear - Z Hc Hl3 Hd. unfold rlist in Z |- *. revert Hc. induction Z as [|c w atoms ws Hcw _ IH]; intros Hc; constructor.
        * split; [exact Hcw|]. inversion Hc; subst. auto.
        * apply IH. inversion Hc; assumption.
      + intros s4 c w W4 L4 [[H1 H2] (H3 & H4 & H5)]. apply identifier_ref; assumption.
    - intros s4 ids ids' W4 L4 E. apply eq_list in E. subst ids'.
      assert (Hd4 : sdict s4 d e) by (eapply mono_sdict; eassumption). assert (Hl4 : trees s4 l us) by (eapply mono_trees; eassumption).
      rewrite (params_same s4 l us d e W4 Hd4 Hl4).
      apply (ref_lift s4 _ _ _ _ (@req (list string))); [exact W4|apply mono_eq|destruct (mapM _ us); reflexivity|]. intros s5 xs ys W5 L5 E. red in E. subst ys.
      apply (K s5 ops gr d e ids xs).
      + exact W5.
      + eapply module_le; [exact L5|]. eapply module_le; [exact L4|]. eapply module_le; [exact L3|]. eapply module_le; [exact L2|]. eapply module_le; eassumption.
      + revert Hops. apply (mono_list t); [apply (mono_prod t); [apply mono_tree|apply mono_eq]|]. eapply le_trans; eassumption.
      + eapply mono_sdict; eassumption.
      + eapply mono_trees; eassumption.
      + lia.
  Qed.
  Let lines (args instructions : list string) (result : string) : list string :=
    ([("define double @" ++ quote ++ "jit_func1" ++ quote ++ "(" ++ join ", " args ++ ")")%string; "{"] ++ (instructions ++ [("ret double " ++ result)%string]) ++ ["}"])%list.
  Let mlines (args instructions : list string) : list string :=
    ([("define void @" ++ quote ++ "jit_func1" ++ quote ++ "(" ++ join ", " (("double* %" ++ quote ++ "_out" ++ quote)%string :: args) ++ ")")%string; "{"] ++ instructions ++ ["ret void"] ++ ["}"])%list.
  Lemma to_llvm_ref fuel s g l us a u : W s -> module_ok s g -> trees s l us -> has_tree s a u -> code_fuel us u <= fuel ->
    refines s (o_to_llvm_f64 fuel g l a) (to_llvm_f64 us u) (@req string).
  Proof.
    intros HW Hg Hl Ha Hf. unfold o_to_llvm_f64, to_llvm_f64. cbv zeta.
    apply (prefix_ref fuel s g l us a u (@req string)
      (fun ops ids args => run (identifiers', instructions) <- pfold (o_llvm_op fuel g) ops (ids, []); run result <- lift (last_item identifiers');
         ret (llvm_header ++ join newline (lines args instructions result)))
      (fun gr ids args => do (identifiers', instructions) <- foldM llvm_op (g_operations gr) (ids, []); do result <- last_item identifiers';
         Ok (llvm_header ++ join newline (lines args instructions result))));
      try assumption; [apply mono_eq|].
    intros s1 ops gr d e ids args W1 Hg1 Hops Hd Hl1 Hf1.
    eapply ref_bind; [exact W1|apply ops_ref; eassumption|]. intros s2 [ids' ins] b W2 L2 E. red in E. subst b.
    apply (ref_lift s2 _ _ _ _ (@req string)); [exact W2|apply mono_eq|destruct (last_item ids'); reflexivity|]. intros s3 r r' W3 L3 E. red in E. subst r'.
    apply ref_ret; [exact W3|apply mono_eq|reflexivity].
  Qed.
  Lemma to_llvm_matrix_ref fuel s g l us M U : W s -> module_ok s g -> trees s l us -> rmat s M U -> code_fuel us (vm_graph U) <= fuel ->
    refines s (o_to_llvm_f64_matrix fuel g l M) (v_to_llvm_f64_matrix us U) (@req string).
  Proof.
    intros HW Hg Hl (A1 & A2 & A3 & A4 & A5) Hf. unfold o_to_llvm_f64_matrix, v_to_llvm_f64_matrix. cbv zeta. rewrite A2, A3.
    eapply (ref_bind_ok _ _ (vm_graph U) _ _ has_tree); [exact HW|apply (rep_ref names atomic who t); assumption|]. intros s0 a W0 L0 Ha.
    apply (prefix_ref fuel s0 g l us a (vm_graph U) (@req string)
      (fun ops ids args => run (identifiers', instructions) <- pfold (o_llvm_op fuel g) (removelast ops) (ids, []); run (_, indices) <- lift (last_item ops);
         run (_, instructions') <- lift (foldM (llvm_store (vm_ncols U) identifiers' indices) (sort_items (vm_entrymap U)) (length instructions, instructions));
         ret (llvm_header ++ join newline (mlines args instructions')))
      (fun gr ids args => do (identifiers', instructions) <- foldM llvm_op (removelast (g_operations gr)) (ids, []); do (_, indices) <- last_item (g_operations gr);
         do (_, instructions') <- foldM (llvm_store (vm_ncols U) identifiers' indices) (sort_items (vm_entrymap U)) (length instructions, instructions);
         Ok (llvm_header ++ join newline (mlines args instructions'))));
      try assumption; [apply mono_eq|eapply module_le; eassumption|eapply mono_trees; eassumption|].
    intros s1 ops gr d e ids args W1 Hg1 Hops Hd Hl1 Hf1.
    assert (Hf2 : heights (map fst (removelast (g_operations gr))) <= fuel).
    { eapply Nat.le_trans; [apply heights_le|exact Hf1]. intros w Hw. apply in_map_iff in Hw as (x & <- & Hx). apply in_map. apply removelast_incl, Hx. }
    eapply ref_bind; [exact W1|apply ops_ref; [exact W1|exact Hg1|apply removelast_rl, Hops|exact Hf2]|]. intros s2 [ids' ins] b W2 L2 E. red in E. subst b.
    eapply (ref_lift s2 _ _ _ _ (rprod has_tree (@req (list nat)))); [exact W2|apply (mono_prod t); [apply mono_tree|apply mono_eq]| |].
    - apply (rl_last (rprod has_tree (@req (list nat)))). revert Hops. apply (mono_list t); [apply (mono_prod t); [apply mono_tree|apply mono_eq]|exact L2].
    - intros s3 [f ns] [w ms] W3 L3 [_ E]. cbn [snd] in E. red in E. subst ms.
      apply (ref_lift s3 _ _ _ _ (@req (nat * list string))); [exact W3|apply mono_eq|destruct (foldM _ _ _); reflexivity|]. intros s4 [k ins'] b W4 L4 E. red in E. subst b.
      apply ref_ret; [exact W4|apply mono_eq|reflexivity].
  Qed.

  (** ** Programs *)
  Notation mvars := (mvars names t).
  Definition cvars : state pyval -> o_cstate -> v_cstate -> Prop := rprod mvars (@req (list string)).
  Lemma mono_cvars : mono cvars. Proof. apply (mono_prod t); [apply mono_mvars|apply mono_eq]. Qed.
  Lemma gets_ref s env us args : W s -> exprs s env us -> refines s (pmap (fun j => lift (getitem env j)) args) (mapM (getitem us) args) exprs.
  Proof.
    intros HW H. apply (pmap_ref atomic who t Hwho (fun s i j => i = j /\ exprs s env us) has_expr); [|apply mono_expr|exact HW| |].
    - intros s1 s2 i j L [E K]. split; [exact E|eapply mono_exprs; eassumption].
    - unfold rlist in *. induction args as [|i args IH]; constructor; [split; [reflexivity|exact H]|exact IH].
    - intros s1 i j W1 L1 [<- K]. apply ref_ret; [exact W1|apply mono_expr|]. apply (rl_getitem has_expr), K.
  Qed.
  Lemma lambdify_ref fuel s g l us e u : W s -> module_ok s g -> exprs s l us -> has_expr s e u -> code_fuel us u <= fuel ->
    refines s (o_lambdify fuel g l e) (to_llvm_f64 us u) (@req string).
  Proof.
    intros HW Hg Hl He Hf. unfold o_lambdify.
    eapply (ref_bind_ok _ _ us _ _ trees); [exact HW|apply (reps_ref names atomic who t Hwho); assumption|]. intros s1 rs W1 L1 Hrs.
    eapply (ref_bind_ok _ _ u _ _ has_tree); [exact W1|apply (rep_ref names atomic who t); [exact W1|eapply has_expr_le; eassumption]|]. intros s2 r W2 L2 Hr.
    apply to_llvm_ref; [exact W2|eapply module_le; [exact L2|]; eapply module_le; eassumption|eapply mono_trees; eassumption|exact Hr|exact Hf].
  Qed.
  Lemma lambdify_matrix_ref fuel s g l us M U : W s -> module_ok s g -> exprs s l us -> rmat s M U -> code_fuel us (vm_graph U) <= fuel ->
    refines s (o_lambdify_matrix fuel g l M) (v_to_llvm_f64_matrix us U) (@req string).
  Proof.
    intros HW Hg Hl HM Hf. unfold o_lambdify_matrix.
    eapply (ref_bind_ok _ _ us _ _ trees); [exact HW|apply (reps_ref names atomic who t Hwho); assumption|]. intros s1 rs W1 L1 Hrs.
    apply to_llvm_matrix_ref; [exact W1|eapply module_le; eassumption|exact Hrs|eapply mono_mat; eassumption|exact Hf].
  Qed.
  Lemma cstatement_ref c vt : exists N, forall fuel, N <= fuel -> forall s g st, W s -> module_ok s g -> cvars s st vt ->
    refines s (o_cstatement fuel g st c) (v_cstatement vt c) cvars.
  Proof.
    destruct vt as [[[us q] vs] out]. destruct c as [c|args i|args m].
    - destruct (mstatement_ref names atomic who t Hsafe Hwho Hnames c ((us, q), vs)) as (N & HN). exists N.
      intros fuel Hf s g [[[env p] ms] out'] HW Hg [Hv Ho]. cbn [fst snd] in *. red in Ho. subst out'. unfold o_cstatement, v_cstatement.
      eapply ref_bind; [exact HW|apply HN; assumption|]. intros s1 st' vt' W1 L1 H1. apply ref_ret; [exact W1|apply mono_cvars|]. split; [exact H1|reflexivity].
    - exists (match mapM (getitem us) args, getitem us i with Ok l, Ok u => code_fuel l u | _, _ => 0 end).
      intros fuel Hf s g [[[env p] ms] out'] HW Hg [Hv Ho]. cbn [fst snd] in *. red in Ho. subst out'. unfold o_cstatement, v_cstatement.
      pose proof (proj1 (proj1 Hv)) as He. cbn [fst snd] in He.
      destruct (mapM (getitem us) args) as [l|err] eqn:El.
      2: { eapply ref_err; [exact HW|]. rewrite <- El. apply gets_ref; assumption. }
      cbn [bind]. eapply (ref_bind_ok _ _ l _ _ exprs); [exact HW|rewrite <- El; apply gets_ref; assumption|]. intros s1 ol W1 L1 Hl.
      pose proof (mono_mvars names t _ _ _ _ L1 Hv) as Hv1. pose proof (proj1 (proj1 Hv1)) as He1. cbn [fst snd] in He1.
      eapply (ref_lift s1 _ _ _ _ (fun s e u => has_expr s e u /\ getitem us i = Ok u)); [exact W1| | |].
      + intros s2 s3 e u L [K1 K2]. split; [eapply has_expr_le; eassumption|exact K2].
      + pose proof (rl_getitem has_expr _ _ _ i He1) as K. destruct (getitem env i), (getitem us i); cbn [rel] in *; try contradiction; [split; [exact K|reflexivity]|exact K].
      + intros s2 e u W2 L2 [Hu Eu]. rewrite Eu in Hf.
        eapply (ref_bind _ _ _ _ _ (@req string)); [exact W2|apply lambdify_ref; [exact W2|eapply module_le; [exact L2|]; eapply module_le; eassumption|eapply mono_exprs; eassumption|exact Hu|exact Hf]|].
        intros s3 x y W3 L3 E. red in E. subst y. apply ref_ret; [exact W3|apply mono_cvars|].
        split; [|reflexivity]. cbn [fst snd]. eapply mono_mvars; [|exact Hv1]. eapply le_trans; eassumption.
    - exists (match mapM (getitem us) args, getitem vs m with Ok l, Ok U => code_fuel l (vm_graph U) | _, _ => 0 end).
      intros fuel Hf s g [[[env p] ms] out'] HW Hg [Hv Ho]. cbn [fst snd] in *. red in Ho. subst out'. unfold o_cstatement, v_cstatement.
      pose proof (proj1 (proj1 Hv)) as He. cbn [fst snd] in He.
      destruct (mapM (getitem us) args) as [l|err] eqn:El.
      2: { eapply ref_err; [exact HW|]. rewrite <- El. apply gets_ref; assumption. }
      cbn [bind]. eapply (ref_bind_ok _ _ l _ _ exprs); [exact HW|rewrite <- El; apply gets_ref; assumption|]. intros s1 ol W1 L1 Hl.
      pose proof (mono_mvars names t _ _ _ _ L1 Hv) as Hv1. pose proof (proj2 Hv1) as Hm1. cbn [fst snd] in Hm1.
      eapply (ref_lift s1 _ _ _ _ (fun s M U => rmat s M U /\ getitem vs m = Ok U)); [exact W1| | |].
      + intros s2 s3 e u L [K1 K2]. split; [eapply mono_mat; eassumption|exact K2].
      + pose proof (rl_getitem rmat _ _ _ m Hm1) as K. destruct (getitem ms m), (getitem vs m); cbn [rel] in *; try contradiction; [split; [exact K|reflexivity]|exact K].
      + intros s2 M U W2 L2 [Hu Eu]. rewrite Eu in Hf.
        eapply (ref_bind _ _ _ _ _ (@req string)); [exact W2|apply lambdify_matrix_ref; [exact W2|eapply module_le; [exact L2|]; eapply module_le; eassumption|eapply mono_exprs; eassumption|exact Hu|exact Hf]|].
        intros s3 x y W3 L3 E. red in E. subst y. apply ref_ret; [exact W3|apply mono_cvars|].
        split; [|reflexivity]. cbn [fst snd]. eapply mono_mvars; [|exact Hv1]. eapply le_trans; eassumption.
  Qed.
  Lemma cprogram_ref l : forall vt, exists N, forall fuel, N <= fuel -> forall s g st, W s -> module_ok s g -> cvars s st vt ->
    refines s (pfold (o_cstatement fuel g) l st) (foldM v_cstatement l vt) cvars.
  Proof.
    induction l as [|c l IH]; intros vt.
    - exists 0. intros fuel _ s g st HW _ Hv. apply ref_ret; [exact HW|apply mono_cvars|exact Hv].
    - destruct (cstatement_ref c vt) as (N & HN). destruct (v_cstatement vt c) as [vt'|err] eqn:E.
      + destruct (IH vt') as (M & HM). exists (N + M). intros fuel Hf s g st HW Hg Hv. cbn [pfold foldM]. rewrite E. cbn [bind].
        eapply ref_bind_ok; [exact HW|apply HN; [lia|exact HW|exact Hg|exact Hv]|].
        intros s1 st1 W1 L1 Hv1. apply HM; [lia|exact W1|eapply module_le; eassumption|exact Hv1].
      + exists N. intros fuel Hf s g st HW Hg Hv. cbn [pfold foldM]. rewrite E. cbn [bind]. eapply ref_err; [exact HW|apply HN; assumption].
  Qed.
  Lemma csession_ref l : exists N, forall fuel, N <= fuel -> forall s, W s -> refines s (o_csession fuel l) (v_csession l) (rprod (rprod exprs (rlist rmat)) (@req (list string))).
  Proof.
    destruct (cprogram_ref l ((([], cas_diff), []), [])) as (N & HN). exists (import_fuel + N). intros fuel Hf s HW. unfold o_csession, v_csession.
    eapply (ref_bind_ok _ _ _ _ _ (imported names t)); [exact HW|apply (import_ref names atomic who t Hsafe Hwho Hnames); try assumption; lia|]. intros s1 [g p] W1 L1 [Hg Hp]. cbn [fst snd] in *.
    eapply (ref_bind _ _ _ _ _ cvars); [exact W1|apply HN; [lia|exact W1|exact Hg|split; [split; [split; [constructor|exact Hp]|constructor]|reflexivity]]|].
    intros s2 [[[oenv p'] ms] out] [[[env q'] vs] out'] W2 L2 [[[He _] Hm] Ho]. cbn [fst snd] in *. red in Ho. subst out'.
    apply ref_ret; [exact W2|apply (mono_prod t); [apply (mono_prod t); [apply mono_exprs|apply (mono_list t), mono_mat]|apply mono_eq]|]. split; [split; assumption|reflexivity].
  Qed.
End Proof.
