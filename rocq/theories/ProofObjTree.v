(** * The functions of core/tree.py on objects *)
From Verif Require Import Py ModelTree ModelIntern SpecIntern ProofBase ProofIntern ProofTopo ModelObjects SpecObjects ProofObjects.

Lemma fold_left_foldM {A S} (h : S -> A -> S) l : forall s, foldM (fun s x => Ok (h s x)) l s = Ok (fold_left h l s).
Proof. induction l as [|x l IH]; intros s; [reflexivity|]. cbn [foldM bind fold_left]. apply IH. Qed.

Section Proof.
  Context (names : nat -> string) (atomic : bool) (who : nat -> Prop) (t : nat).
  Context (Hsafe : safe atomic who) (Hwho : who t).
  Notation has_tree := (has_tree names t).
  Notation has_atom := (has_atom names t).
  Notation W := (W atomic who t).
  Notation le := (le t).
  Notation mono := (mono t).
  Notation refines := (refines atomic who t).
  Implicit Types (s : state pyval).

  (** Relations *)
  Definition rprod {A B A' B'} (R : state pyval -> A -> B -> Prop) (R' : state pyval -> A' -> B' -> Prop) s (p : A * A') (q : B * B') : Prop :=
    R s (fst p) (fst q) /\ R' s (snd p) (snd q).
  Definition rlist {A B} (R : state pyval -> A -> B -> Prop) s (l : list A) (m : list B) : Prop := Forall2 (R s) l m.
  Definition req {A} s (a b : A) : Prop := a = b.
  Lemma mono_tree : mono has_tree. Proof. intros s s' a u. apply has_tree_le. Qed.
  Lemma mono_prod {A B A' B'} (R : state pyval -> A -> B -> Prop) (R' : state pyval -> A' -> B' -> Prop) : mono R -> mono R' -> mono (rprod R R').
  Proof. intros M M' s s' p q L [H H']. split; [eapply M|eapply M']; eassumption. Qed.
  Lemma mono_list {A B} (R : state pyval -> A -> B -> Prop) : mono R -> mono (rlist R).
  Proof. intros M s s' l m L H. eapply Forall2_mono; [|exact H]. intros a b. apply M, L. Qed.
  Lemma mono_eq {A} : mono (@req A). Proof. intros s s' a b _ H. exact H. Qed.
  Ltac mono_tac := repeat first [apply mono_tree | apply mono_eq | apply mono_prod | apply mono_list].
  Notation trees := (rlist has_tree).
  Notation stacks := (rlist (rprod has_tree trees)).
  Notation dicts := (rlist (rprod has_tree (@req nat))).

  (** Lists *)
  Lemma rl_length {A B} (R : state pyval -> A -> B -> Prop) s l m : rlist R s l m -> length l = length m.
  Proof. induction 1; cbn [length]; congruence. Qed.
  Lemma rl_app {A B} (R : state pyval -> A -> B -> Prop) s l m l' m' : rlist R s l m -> rlist R s l' m' -> rlist R s (l ++ l') (m ++ m').
  Proof. apply Forall2_app. Qed.
  Lemma rl_snoc {A B} (R : state pyval -> A -> B -> Prop) s l m a b : rlist R s l m -> R s a b -> rlist R s (l ++ [a]) (m ++ [b]).
  Proof. intros H H'. apply rl_app; [exact H|]. constructor; [exact H'|constructor]. Qed.
  Lemma rl_rev {A B} (R : state pyval -> A -> B -> Prop) s l m : rlist R s l m -> rlist R s (rev l) (rev m).
  Proof. induction 1 as [|a b l m H _ IH]; [constructor|]. cbn [rev]. apply rl_snoc; assumption. Qed.
  Lemma rl_tl {A B} (R : state pyval -> A -> B -> Prop) s l m : rlist R s l m -> rlist R s (tl l) (tl m).
  Proof. intros H. inversion H; subst; [constructor|assumption]. Qed.
  Lemma rl_pop {A B} (R : state pyval -> A -> B -> Prop) s l m : rlist R s l m ->
    match pop l, pop m with Some (a, l'), Some (b, m') => R s a b /\ rlist R s l' m' | None, None => True | _, _ => False end.
  Proof.
    intros H. apply rl_rev in H. unfold pop. inversion H as [|a b l' m' Ha Hl]; subst; [exact I|]. split; [exact Ha|]. apply rl_rev, Hl.
  Qed.
  Lemma rl_getitem {A B} (R : state pyval -> A -> B -> Prop) s l m i : rlist R s l m -> rel (R s) (getitem l i) (getitem m i).
  Proof.
    intros H. unfold getitem. revert i. induction H as [|a b l m Ha _ IH]; intros [|i]; cbn [nth_error of_option rel]; try reflexivity; [exact Ha|].
    apply IH.
  Qed.
  Lemma rl_last {A B} (R : state pyval -> A -> B -> Prop) s l m : rlist R s l m -> rel (R s) (last_item l) (last_item m).
  Proof. intros H. apply rl_rev in H. unfold last_item. inversion H; subst; [reflexivity|assumption]. Qed.
  Lemma rel_mapM {A B A' B'} (RA : A -> B -> Prop) (RB : A' -> B' -> Prop) (f : A -> res A') (g : B -> res B') l m : Forall2 RA l m ->
    (forall a b, RA a b -> rel RB (f a) (g b)) -> rel (Forall2 RB) (mapM f l) (mapM g m).
  Proof.
    intros H K. induction H as [|a b l m Ha _ IH]; [constructor|]. cbn [mapM]. specialize (K a b Ha).
    destruct (f a), (g b); cbn [rel bind] in *; try contradiction; [|exact K].
    destruct (mapM f l), (mapM g m); cbn [rel bind] in *; try contradiction; [constructor; assumption|exact IH].
  Qed.
  Lemma eq_list {A} (l m : list A) : Forall2 eq l m -> l = m.
  Proof. induction 1; congruence. Qed.
  Lemma list_eq {A} (l : list A) : Forall2 eq l l.
  Proof. induction l; constructor; auto. Qed.

  (** Sets and dicts *)
  Lemma mem_same s a u l us : W s -> has_tree s a u -> trees s l us -> o_mem a l = mem u us.
  Proof.
    intros HW Ha H. unfold o_mem, mem. induction H as [|b v l us Hb _ IH]; [reflexivity|]. cbn [existsb].
    rewrite (identity names atomic who t Hsafe s a u b v HW Ha Hb), IH. reflexivity.
  Qed.
  Lemma intersects_same s l us l' us' : W s -> trees s l us -> trees s l' us' -> o_intersects l l' = intersects us us'.
  Proof.
    intros HW H H'. unfold o_intersects, intersects. induction H as [|b v l us Hb _ IH]; [reflexivity|]. cbn [existsb].
    rewrite (mem_same s b v l' us' HW Hb H'), IH. reflexivity.
  Qed.
  Lemma filter_same s l us l' us' : W s -> trees s l us -> trees s l' us' ->
    trees s (filter (fun a => o_mem a l') l) (filter (fun a => mem a us') us).
  Proof.
    intros HW H H'. induction H as [|b v l us Hb _ IH]; [constructor|]. cbn [filter].
    rewrite (mem_same s b v l' us' HW Hb H'). destruct (mem v us'); [constructor; assumption|exact IH].
  Qed.
  Lemma set_add_same s a u l us : W s -> has_tree s a u -> trees s l us -> trees s (o_set_add l a) (set_add us u).
  Proof.
    intros HW Ha H. unfold o_set_add, set_add. rewrite (mem_same s a u l us HW Ha H). destruct (mem u us); [exact H|]. apply rl_snoc; assumption.
  Qed.
  Lemma get_same s d e a u : W s -> dicts s d e -> has_tree s a u -> dict_get Nat.eqb d a = dict_get tree_eqb e u.
  Proof.
    intros HW H Ha. induction H as [|[b n] [v m] d e [Hb Hn] _ IH]; [reflexivity|]. cbn [dict_get fst snd] in *. red in Hn. subst.
    rewrite (identity names atomic who t Hsafe s a u b v HW Ha Hb), IH. reflexivity.
  Qed.
  Lemma set_same s d e a u n : W s -> dicts s d e -> has_tree s a u -> dicts s (dict_set Nat.eqb d a n) (dict_set tree_eqb e u n).
  Proof.
    intros HW H Ha. induction H as [|[b i] [v m] d e [Hb Hn] Hd IH]; cbn [dict_set fst snd] in *.
    - constructor; [split; [exact Ha|reflexivity]|constructor].
    - rewrite (identity names atomic who t Hsafe s a u b v HW Ha Hb). destruct (tree_eqb u v).
      + constructor; [split; [exact Hb|reflexivity]|exact Hd].
      + constructor; [split; assumption|exact IH].
  Qed.
  Lemma update_same s l us (ns : list nat) : W s -> trees s l us -> forall d e, dicts s d e ->
    dicts s (dict_update Nat.eqb d (combine l ns)) (dict_update tree_eqb e (combine us ns)).
  Proof.
    intros HW H. revert ns. induction H as [|a u l us Ha _ IH]; intros ns d e Hd; [exact Hd|].
    destruct ns as [|n ns]; [exact Hd|]. unfold dict_update. cbn [combine fold_left fst snd]. apply IH. apply set_same; assumption.
  Qed.
  Lemma enum_same s l us : trees s l us -> forall n, rlist (rprod (@req nat) has_tree) s (enumerate_from n l) (enumerate_from n us).
  Proof. induction 1 as [|a u l us Ha _ IH]; intros n; [constructor|]. cbn [enumerate_from]. constructor; [split; [reflexivity|exact Ha]|apply IH]. Qed.

  (** Loops *)
  Lemma ref_pfold {A B S T} (RA : state pyval -> A -> B -> Prop) (RS : state pyval -> S -> T -> Prop) f g : mono RA -> mono RS ->
    forall l m s a b, W s -> rlist RA s l m -> RS s a b ->
    (forall s1 x y a b, W s1 -> le s s1 -> RA s1 x y -> RS s1 a b -> refines s1 (f a x) (g b y) RS) ->
    refines s (pfold f l a) (foldM g m b) RS.
  Proof.
    intros MA MS. induction l as [|x l IH]; intros m s a b HW H Hab K; inversion H as [|? y ? m' Hx Hl]; subst.
    - apply ref_ret; [exact HW|exact MS|exact Hab].
    - cbn [pfold foldM]. apply (ref_bind atomic who t Hwho s _ _ _ _ RS); [exact HW|apply K; try assumption; apply le_refl|].
      intros s1 a1 b1 W1 L1 H1. apply IH; [exact W1|eapply mono_list; eassumption|exact H1|].
      intros s2 x2 y2 a2 b2 W2 L2 Hx2 Hab2. apply K; try assumption. eapply le_trans; eassumption.
  Qed.

  (** ** Reading children, making Trees *)
  Lemma children_ref s a u : W s -> has_tree s a u -> refines s (o_children a) (Ok (children u)) trees.
  Proof.
    intros HW [Ha Hu]. unfold o_children. inversion Hu as [? b x Ho Hx|? l us Ho Hl]; subst.
    - eapply ref_read; [exact HW|exact Ha|exact Ho|]. intros s1 W1 L1 _ _. apply ref_ret; [exact W1|mono_tac|constructor].
    - eapply ref_read; [exact HW|exact Ha|exact Ho|]. intros s1 W1 L1 Ho1 Hh. apply ref_ret; [exact W1|mono_tac|].
      cbn [rel children].
      pose proof (tree_obj_le names t s s1 L1 (Node us) a a Ha (leads_self _ _) Hu) as Hu1. inversion Hu1 as [|? l' us' Ho' Hl']; subst.
      assert (l' = l) by congruence. subst. cbn [obj_refs] in Hh. clear - Hl' Hh. induction Hl' as [|b v l us Hb _ IH]; [constructor|].
      constructor; [split; [apply Hh; left; reflexivity|exact Hb]|apply IH; intros c Hc; apply Hh; right; exact Hc].
  Qed.
  Lemma trees_held s l us : trees s l us -> forall a, In a l -> In a (held (threads s t)).
  Proof. induction 1 as [|b v l us [Hb _] _ IH]; intros a Ha; [destruct Ha|]. destruct Ha as [<-|Ha]; [exact Hb|apply IH, Ha]. Qed.
  Lemma tree_is_tree h a u : is_tree_obj names h a u -> is_tree h a = true.
  Proof. intros H. unfold is_tree. inversion H as [? b x Ho Hx|? l us Ho Hl]; subst; rewrite Ho; reflexivity. Qed.
  Lemma Tree_ref s l us : W s -> trees s l us -> refines s (o_Tree l) (Ok (Node us)) has_tree.
  Proof.
    intros HW H. apply (ref_new atomic who t Hsafe Hwho); [exact HW|exact (trees_held s l us H)|..].
    - unfold args_ok. cbn [check_first check_later andb]. induction H as [|b v l us [_ Hb] _ IH]; [reflexivity|]. cbn [forallb].
      rewrite (tree_is_tree _ _ _ Hb). exact IH.
    - intros s1 b W1 L1 Hb Ho. apply ref_ret; [exact W1|mono_tac|]. cbn [rel]. split; [exact Hb|]. econstructor; [exact Ho|].
      eapply Forall2_mono; [|exact H]. intros a u Ha. apply (has_tree_le names t s s1 a u L1 Ha).
  Qed.
  Lemma Tr_ref s a x : W s -> has_atom s a x -> refines s (o_Tr a) (Ok (Tr x)) has_tree.
  Proof.
    intros HW [Ha Hx]. apply (ref_new atomic who t Hsafe Hwho); [exact HW|intros b [<-|[]]; exact Ha|..].
    - unfold args_ok. cbn [check_first check_later andb]. inversion Hx as [ty v Ho]; subst. unfold is_atom. rewrite Ho. reflexivity.
    - intros s1 b W1 L1 Hb Ho. apply ref_ret; [exact W1|mono_tac|]. cbn [rel]. split; [exact Hb|]. econstructor; [exact Ho|].
      apply (has_atom_le names t s s1 a x L1). split; assumption.
  Qed.
  Lemma Atom_ref s ty v : W s -> refines s (o_Atom ty v) (Ok (mkAtom (mkType ty (names ty)) v)) has_atom.
  Proof.
    intros HW. apply (ref_new atomic who t Hsafe Hwho); [exact HW|intros b []|reflexivity|].
    intros s1 b W1 L1 Hb Ho. apply ref_ret; [exact W1|intros s2 s3 a x; apply has_atom_le|]. cbn [rel]. split; [exact Hb|]. constructor. exact Ho.
  Qed.

  (** ** topological_sort *)
  Lemma get_children_ref s heads a u : W s -> has_tree s a u -> refines s (o_get_children heads a) (Ok (get_children heads u)) trees.
  Proof.
    intros HW Ha. change (Ok (get_children heads u)) with (bind (Ok (children u)) (fun cs => Ok (rev (if heads then cs else tl cs)))).
    eapply ref_bind; [exact Hwho|exact HW|apply children_ref; assumption|]. intros s1 l us W1 L1 H. apply ref_ret; [exact W1|mono_tac|].
    cbn [rel]. apply rl_rev. destruct heads; [exact H|apply rl_tl, H].
  Qed.
  Lemma topo_loop_ref heads fuel : forall s seen seen' stack stack' out out', W s -> trees s seen seen' -> stacks s stack stack' -> trees s out out' ->
    refines s (o_topo_loop fuel heads seen stack out) (topo_loop fuel heads seen' stack' out') trees.
  Proof.
    induction fuel as [|fuel IH]; intros s seen seen' stack stack' out out' HW Hse Hst Ho; cbn [o_topo_loop topo_loop].
    - apply ref_ret; [exact HW|mono_tac|reflexivity].
    - inversion Hst as [|[top cs] [top' cs'] stk stk' [Htop Hcs] Hstk]; subst; [apply ref_ret; [exact HW|mono_tac|exact Ho]|].
      cbn [fst snd] in Htop, Hcs. pose proof (rl_pop _ s cs cs' Hcs) as P. destruct (pop cs) as [[c l]|], (pop cs') as [[c' l']|]; try contradiction.
      + destruct P as [Hc Hl]. rewrite (mem_same s c c' seen seen' HW Hc Hse). destruct (mem c' seen').
        * apply IH; try assumption. constructor; [split; assumption|assumption].
        * match goal with |- refines _ _ ?x _ => change x with (bind (Ok (get_children heads c')) (fun ccs => topo_loop fuel heads (c' :: seen') ((c', ccs) :: (top', l') :: stk') out')) end.
          eapply ref_bind; [exact Hwho|exact HW|apply get_children_ref; assumption|]. intros s1 ccs ccs' W1 L1 Hccs. pose proof (has_tree_le names t s s1 _ _ L1 Hc) as Hc1.
          apply IH; [exact W1|constructor; [exact Hc1|eapply mono_list; [apply mono_tree|exact L1|exact Hse]]| |eapply mono_list; [apply mono_tree|exact L1|exact Ho]].
          constructor; [split; assumption|]. constructor; [split; cbn [fst snd]|].
          { exact (has_tree_le names t s s1 _ _ L1 Htop). }
          { eapply mono_list; [apply mono_tree|exact L1|exact Hl]. }
          { eapply (mono_list (rprod has_tree trees)); [mono_tac|exact L1|exact Hstk]. }
      + apply IH; try assumption. apply rl_snoc; assumption.
  Qed.
  Lemma topo_more heads fuel : forall seen stack out r, topo_loop fuel heads seen stack out = Ok r -> forall fuel', fuel <= fuel' ->
    topo_loop fuel' heads seen stack out = Ok r.
  Proof.
    induction fuel as [|fuel IH]; intros seen stack out r H fuel' Hle; [discriminate|]. destruct fuel' as [|fuel']; [lia|].
    cbn [topo_loop] in *. destruct stack as [|[top cs] stack]; [exact H|].
    destruct (pop cs) as [[c l]|]; [destruct (mem c seen)|]; (eapply IH; [exact H|lia]).
  Qed.
  (** Enough fuel for [u]. *)
  Definition enough (fuel : nat) (u : tree) : Prop := topo_weight u < fuel.
  Lemma topological_sort_ref s fuel heads a u ex us : W s -> has_tree s a u -> trees s ex us -> enough fuel u ->
    refines s (o_topological_sort fuel a heads ex) (topological_sort u heads us) trees.
  Proof.
    intros HW Ha Hex He. pose proof (topological_sort_spec u heads us) as Hts. rewrite Hts. unfold topological_sort in Hts. apply topo_more with (fuel' := fuel) in Hts; [|exact He]. rewrite <- Hts.
    unfold o_topological_sort. rewrite (mem_same s a u ex us HW Ha Hex).
    match goal with |- context [topo_loop fuel heads us ?stk []] => change (topo_loop fuel heads us stk []) with (bind (Ok stk) (fun st => topo_loop fuel heads us st [])) end.
    eapply (ref_bind atomic who t Hwho _ _ _ _ _ stacks); [exact HW| |].
    - destruct (mem u us); [apply ref_ret; [exact HW|mono_tac|constructor]|].
      change (Ok [(u, get_children heads u)]) with (bind (Ok (get_children heads u)) (fun cs => Ok [(u, cs)])).
      eapply ref_bind; [exact Hwho|exact HW|apply get_children_ref; assumption|]. intros s1 l m W1 L1 H1. apply ref_ret; [exact W1|mono_tac|].
      constructor; [split; [exact (has_tree_le names t s s1 _ _ L1 Ha)|exact H1]|constructor].
    - intros s1 st st' W1 L1 H1. apply topo_loop_ref; [exact W1|eapply mono_list; [apply mono_tree|exact L1|exact Hex]|exact H1|constructor].
  Qed.

  (** ** topological_split, forward_graph *)
  Notation three := (rprod (rprod trees trees) trees).
  Lemma split_ref s fuel a u ex us : W s -> has_tree s a u -> trees s ex us -> enough fuel u ->
    refines s (o_topological_split fuel a ex) (topological_split u us) three.
  Proof.
    intros HW Ha Hex He. unfold o_topological_split, topological_split.
    eapply ref_bind; [exact Hwho|exact HW|apply topological_sort_ref; eassumption|]. intros s1 l ts W1 L1 H1. rewrite <- fold_left_foldM.
    apply (ref_pfold has_tree three); [mono_tac|mono_tac|exact W1|exact H1|repeat constructor|].
    intros s2 x y [[atoms heads] nodes] [[atoms' heads'] nodes'] W2 L2 Hx [[H2 H3] H4]. cbn [fst snd] in *. unfold o_split_step, split_step.
    match goal with |- refines _ _ (Ok ?z) _ => change (Ok z) with (bind (Ok (children y)) (fun cs => Ok (match cs with
      | [] => (atoms' ++ [y], heads', nodes') | h :: _ => (atoms', set_add heads' h, nodes' ++ [y]) end))) end.
    eapply ref_bind; [exact Hwho|exact W2|apply children_ref; assumption|]. intros s3 cs cs' W3 L3 Hcs.
    assert (T : forall b v, has_tree s2 b v -> has_tree s3 b v) by (intros b v; apply has_tree_le, L3).
    assert (T' : forall b v, trees s2 b v -> trees s3 b v) by (intros b v; apply mono_list; [apply mono_tree|exact L3]).
    inversion Hcs as [|h h' r r' Hh Hr]; subst; (apply ref_ret; [exact W3|mono_tac|]); (split; [split|]); cbn [fst snd]; auto.
    - apply rl_snoc; auto.
    - apply set_add_same with (us := heads'); auto.
    - apply rl_snoc; auto.
  Qed.
  Notation ops := (rlist (rprod has_tree (@req (list nat)))).
  Definition rgraph s (x : list addr * list addr * list (addr * list nat)) (g : forward_graph_t) : Prop :=
    trees s (fst (fst x)) (g_atoms g) /\ trees s (snd (fst x)) (g_heads g) /\ ops s (snd x) (g_operations g).
  Lemma mono_graph : mono rgraph.
  Proof.
    intros s s' x g L (H1 & H2 & H3). split; [|split].
    - revert H1. apply mono_list; [apply mono_tree|exact L].
    - revert H2. apply mono_list; [apply mono_tree|exact L].
    - revert H3. apply (mono_list (rprod has_tree (@req (list nat)))); [mono_tac|exact L].
  Qed.
  Lemma indices_same s d e l us : W s -> dicts s d e -> trees s l us ->
    rel eq (mapM (dict_getitem Nat.eqb d) l) (mapM (dict_getitem tree_eqb e) us).
  Proof.
    intros HW Hd Hl. pose proof (rel_mapM (has_tree s) eq (dict_getitem Nat.eqb d) (dict_getitem tree_eqb e) l us Hl) as H.
    assert (K : forall a b, has_tree s a b -> rel eq (dict_getitem Nat.eqb d a) (dict_getitem tree_eqb e b)).
    { intros a b Hab. unfold dict_getitem. rewrite (get_same s d e a b HW Hd Hab). destruct (dict_get tree_eqb e b); reflexivity. }
    specialize (H K). revert H. generalize (mapM (dict_getitem tree_eqb e) us). unfold addr in *. generalize (mapM (dict_getitem Nat.eqb d) l). intros [ns|] [ms|]; cbn [rel]; try tauto. apply eq_list.
  Qed.
  Lemma graph_ref s fuel a u : W s -> has_tree s a u -> enough fuel u -> refines s (o_forward_graph fuel a) (forward_graph u) rgraph.
  Proof.
    intros HW Ha He. unfold o_forward_graph, forward_graph.
    eapply ref_bind; [exact Hwho|exact HW|apply split_ref; [exact HW|exact Ha|constructor|exact He]|].
    intros s1 [[atoms heads] nodes] [[atoms' heads'] nodes'] W1 L1 [[H1 H2] H3]. cbn [fst snd] in *. rewrite (rl_length _ _ _ _ H1).
    eapply (ref_bind atomic who t Hwho _ _ _ _ _ (rprod ops dicts)); [exact W1| |].
    - apply (ref_pfold (rprod (@req nat) has_tree) (rprod ops dicts)); [mono_tac|mono_tac|exact W1|apply enum_same; exact H3| |].
      + split; cbn [fst snd]; [constructor|]. apply update_same; [exact W1|exact H1|constructor].
      + intros s2 [i x] [i' y] [os d] [os' e] W2 L2 [Hi Hx] [Hos Hd]. cbn [fst snd] in *. red in Hi. subst i'. unfold o_fg_step, fg_step.
        change (getitem (children y) 0) with (bind (Ok (children y)) (fun cs => getitem cs 0)).
        match goal with |- refines _ _ ?x _ => change x with (bind (Ok (children y)) (fun cs =>
          do head <- getitem cs 0; do arg_indices <- mapM (dict_getitem tree_eqb e) (tl cs); Ok (os' ++ [(head, arg_indices)], dict_set tree_eqb e y i))) end.
        eapply ref_bind; [exact Hwho|exact W2|apply children_ref; assumption|]. intros s3 cs cs' W3 L3 Hcs.
        eapply (ref_bind atomic who t Hwho _ _ _ _ _ has_tree); [exact W3|apply ref_ret; [exact W3|mono_tac|apply rl_getitem, Hcs]|].
        intros s4 h h' W4 L4 Hh.
        assert (Hd4 : dicts s4 d e) by (revert Hd; apply (mono_list (rprod has_tree (@req nat))); [mono_tac|eapply le_trans; eassumption]).
        assert (Hcs4 : trees s4 (tl cs) (tl cs')) by (apply rl_tl; revert Hcs; apply mono_list; [mono_tac|exact L4]).
        eapply (ref_bind atomic who t Hwho _ _ _ _ _ (@req (list nat))); [exact W4|apply ref_ret; [exact W4|mono_tac|apply (indices_same s4); assumption]|].
        intros s5 ns ns' W5 L5 Hns. red in Hns. subst ns'. apply ref_ret; [exact W5|mono_tac|].
        assert (L25 : le s2 s5) by (eapply le_trans; [exact L3|eapply le_trans; eassumption]).
        split; cbn [fst snd].
        * apply rl_snoc; [revert Hos; apply (mono_list (rprod has_tree (@req (list nat)))); [mono_tac|exact L25]|].
          split; [exact (has_tree_le names t _ _ _ _ L5 Hh)|reflexivity].
        * apply set_same; [exact W5|revert Hd4; apply (mono_list (rprod has_tree (@req nat))); [mono_tac|exact L5]|exact (has_tree_le names t _ _ _ _ L25 Hx)].
    - intros s2 [os d] [os' e] W2 L2 [Hos Hd]. apply ref_ret; [exact W2|apply mono_graph|]. split; [|split]; cbn [fst snd g_atoms g_heads g_operations].
      + revert H1. apply mono_list; [mono_tac|exact L2].
      + revert H2. apply mono_list; [mono_tac|exact L2].
      + exact Hos.
  Qed.
  Lemma items_same s l us ns : trees s l us -> rel (trees s) (mapM (getitem l) ns) (mapM (getitem us) ns).
  Proof. intros H. apply (rel_mapM eq (has_tree s)); [apply list_eq|]. intros i j <-. apply (rl_getitem has_tree), H. Qed.
  Lemma rebuild_ref s fuel a u : W s -> has_tree s a u -> enough fuel u ->
    refines s (o_rebuild fuel a) (do g <- forward_graph u; rebuild_stack g) trees.
  Proof.
    intros HW Ha He. unfold o_rebuild. eapply ref_bind; [exact Hwho|exact HW|apply graph_ref; assumption|].
    intros s1 [[atoms heads] os] g W1 L1 (H1 & H2 & H3). cbn [fst snd] in *. unfold rebuild_stack.
    apply (ref_pfold (rprod has_tree (@req (list nat))) trees); [mono_tac|mono_tac|exact W1|exact H3|exact H1|].
    intros s2 [h ns] [h' ns'] st st' W2 L2 [Hh Hns] Hst. cbn [fst snd] in *. red in Hns. subst ns'. unfold o_rebuild_op, run_op. cbn [fst snd].
    eapply (ref_bind atomic who t Hwho _ _ _ _ _ trees); [exact W2|apply ref_ret; [exact W2|mono_tac|apply items_same, Hst]|].
    intros s3 args args' W3 L3 Hargs.
    eapply (ref_bind atomic who t Hwho _ _ _ _ _ has_tree); [exact W3| |].
    - apply Tree_ref; [exact W3|]. constructor; [exact (has_tree_le names t _ _ _ _ L3 Hh)|exact Hargs].
    - intros s4 v v' W4 L4 Hv. apply ref_ret; [exact W4|mono_tac|]. apply rl_snoc; [|exact Hv].
      revert Hst. apply mono_list; [mono_tac|eapply le_trans; eassumption].
  Qed.

  (** ** SubsFunc *)
  Notation four := (rprod (rprod (rprod trees trees) trees) trees).
  Definition rsubs s (x : nat * list addr * list (list nat)) (sf : subs_func) : Prop :=
    fst (fst x) = sf_nargs sf /\ trees s (snd (fst x)) (sf_atoms sf) /\ snd x = sf_operations sf.
  Lemma mono_subs : mono rsubs.
  Proof. intros s s' x sf L (H1 & H2 & H3). split; [exact H1|]. split; [|exact H3]. revert H2. apply mono_list; [mono_tac|exact L]. Qed.
  Lemma subs_new_ref s fuel a u args us : W s -> has_tree s a u -> trees s args us -> enough fuel u ->
    refines s (o_subs_new fuel a args) (subs_new u us) rsubs.
  Proof.
    intros HW Ha Hargs He. unfold o_subs_new, subs_new.
    eapply ref_bind; [exact Hwho|exact HW|apply topological_sort_ref; eassumption|]. intros s1 l ts W1 L1 H1.
    pose proof (fold_left_foldM subs_step ts ([], [], us, [])) as F.
    destruct (fold_left subs_step ts ([], [], us, [])) as [[[atoms' nodes'] has_args'] kids'].
    assert (Hargs1 : trees s1 args us) by (revert Hargs; apply mono_list; [mono_tac|exact L1]).
    assert (Ha1 : has_tree s1 a u) by exact (has_tree_le names t _ _ _ _ L1 Ha).
    eapply (ref_bind_ok atomic who t Hwho _ _ _ _ _ four); [exact W1| |].
    - rewrite <- F. clear F atoms' nodes' has_args' kids'. apply (ref_pfold has_tree four); [mono_tac|mono_tac|exact W1|exact H1|split; [split; [split|]|]; cbn [fst snd]; try constructor; exact Hargs1|].
      intros s2 x y [[[atoms nodes] has_args] kids] [[[atoms' nodes'] has_args'] kids'] W2 L2 Hx [[[H2 H3] H4] H5]. cbn [fst snd] in *.
      unfold o_subs_step, subs_step.
      eapply (ref_bind_ok atomic who t Hwho _ _ (children y) _ _ trees); [exact W2|apply children_ref; assumption|]. intros s3 cs W3 L3 Hcs. destruct (children y) as [|h' r'].

      all: assert (T : forall b v, has_tree s2 b v -> has_tree s3 b v) by (intros b v; apply has_tree_le, L3).
      all: assert (T' : forall b v, trees s2 b v -> trees s3 b v) by (intros b v; apply mono_list; [apply mono_tree|exact L3]).
      { inversion Hcs; subst. apply ref_ret; [exact W3|mono_tac|]. split; [split; [split|]|]; cbn [fst snd]; auto. apply rl_snoc; auto. }
      { inversion Hcs as [|h ? r ? Hh Hr]; subst. rewrite (intersects_same s3 (h :: r) (h' :: r') has_args has_args' W3 Hcs (T' _ _ H4)).
        destruct (intersects (h' :: r') has_args'); (apply ref_ret; [exact W3|mono_tac|]); (split; [split; [split|]|]); cbn [fst snd]; auto.
        - apply rl_snoc; auto.
        - constructor; [auto|]. apply T', H4.
        - change (trees s3 ((h :: r) ++ kids) ((h' :: r') ++ kids')). apply rl_app; [exact Hcs|auto].
        - apply rl_snoc; auto. }
    - intros s2 [[[atoms nodes] has_args] kids] W2 L2 [[[H2 H3] H4] H5]. cbn [fst snd] in *.
      assert (Hargs2 : trees s2 args us) by (revert Hargs1; apply mono_list; [mono_tac|exact L2]).
      assert (Ha2 : has_tree s2 a u) by exact (has_tree_le names t _ _ _ _ L2 Ha1).
      set (at1 := match atoms, nodes with _ :: _, [] => [a] | _, _ => filter (fun a => o_mem a kids) atoms end).
      set (at2 := match atoms', nodes' with _ :: _, [] => [u] | _, _ => filter (fun a => mem a kids') atoms' end).
      assert (Hat : trees s2 at1 at2).
      { unfold at1, at2. pose proof (filter_same s2 atoms atoms' kids kids' W2 H2 H5) as F2. inversion H2; subst; [exact F2|].
        inversion H3; subst; [constructor; [exact Ha2|constructor]|exact F2]. }
      rewrite (rl_length _ _ _ _ Hargs2), (rl_length _ _ _ _ Hat).
      eapply (ref_bind atomic who t Hwho _ _ _ _ _ (rprod (@req (list (list nat))) dicts)); [exact W2| |].
      + apply (ref_pfold (rprod (@req nat) has_tree) (rprod (@req (list (list nat))) dicts)); [mono_tac|mono_tac|exact W2|apply enum_same; exact H3| |].
        * split; cbn [fst snd]; [reflexivity|]. apply update_same; [exact W2|exact Hat|]. apply update_same; [exact W2|exact Hargs2|constructor].
        * intros s3 [i x] [i' y] [os d] [os' e] W3 L3 [Hi Hx] [Hos Hd]. cbn [fst snd] in *. red in Hi, Hos. subst i' os'. unfold o_subs_index_step, subs_index_step.
          match goal with |- refines _ _ ?x _ => change x with (bind (Ok (children y)) (fun cs =>
            do child_indices <- mapM (dict_getitem tree_eqb (dict_set tree_eqb e y i)) cs; Ok (os ++ [child_indices], dict_set tree_eqb e y i))) end.
          eapply ref_bind; [exact Hwho|exact W3|apply children_ref; assumption|]. intros s4 cs cs' W4 L4 Hcs.
          assert (Hd4 : dicts s4 (dict_set Nat.eqb d x i) (dict_set tree_eqb e y i)).
          { apply set_same; [exact W4|revert Hd; apply (mono_list (rprod has_tree (@req nat))); [mono_tac|exact L4]|exact (has_tree_le names t _ _ _ _ L4 Hx)]. }
          eapply (ref_bind atomic who t Hwho _ _ _ _ _ (@req (list nat))); [exact W4|apply ref_ret; [exact W4|mono_tac|apply (indices_same s4); assumption]|].
          intros s5 ns ns' W5 L5 Hns. red in Hns. subst ns'. apply ref_ret; [exact W5|mono_tac|]. split; cbn [fst snd]; [reflexivity|].
          revert Hd4. apply (mono_list (rprod has_tree (@req nat))); [mono_tac|exact L5].
      + intros s3 [os d] [os' e] W3 L3 [Hos Hd]. cbn [fst snd] in *. red in Hos. subst os'. apply ref_ret; [exact W3|apply mono_subs|].
        split; [reflexivity|]. split; [|reflexivity]. cbn [fst snd sf_atoms]. revert Hat. apply mono_list; [mono_tac|exact L3].
  Qed.
  Lemma subs_call_ref s x sf args us : W s -> rsubs s x sf -> trees s args us -> refines s (o_subs_call x args) (subs_call sf us) has_tree.
  Proof.
    intros HW (H1 & H2 & H3) Hargs. destruct x as [[nargs atoms] os]. cbn [fst snd] in *. unfold o_subs_call, subs_call. subst nargs os.
    rewrite (rl_length _ _ _ _ Hargs). destruct (negb (Nat.eqb (length us) (sf_nargs sf))); [apply ref_ret; [exact HW|mono_tac|reflexivity]|].
    eapply (ref_bind atomic who t Hwho _ _ _ _ _ trees); [exact HW| |].
    - apply (ref_pfold (@req (list nat)) trees); [mono_tac|mono_tac|exact HW|apply list_eq|apply rl_app; assumption|].
      intros s1 ns ns' st st' W1 L1 Hns Hst. red in Hns. subst ns'. unfold o_subs_op.
      eapply (ref_bind atomic who t Hwho _ _ _ _ _ trees); [exact W1|apply ref_ret; [exact W1|mono_tac|apply items_same, Hst]|].
      intros s2 cs cs' W2 L2 Hcs.
      match goal with |- refines _ _ (Ok (st' ++ [?z])) _ => change (Ok (st' ++ [z])) with (bind (Ok z) (fun v => Ok (st' ++ [v]))) end.
      eapply (ref_bind atomic who t Hwho _ _ _ _ _ has_tree); [exact W2|apply Tree_ref; assumption|].
      intros s3 v v' W3 L3 Hv. apply ref_ret; [exact W3|mono_tac|]. apply rl_snoc; [|exact Hv].
      revert Hst. apply mono_list; [mono_tac|eapply le_trans; eassumption].
    - intros s1 st st' W1 L1 Hst. apply ref_ret; [exact W1|mono_tac|]. apply (rl_last has_tree), Hst.
  Qed.
  Lemma subs_ref s fuel a u args us vals vs : W s -> has_tree s a u -> trees s args us -> trees s vals vs -> enough fuel u ->
    refines s (o_subs fuel a args vals) (do sf <- subs_new u us; subs_call sf vs) has_tree.
  Proof.
    intros HW Ha Hargs Hvals He. unfold o_subs. eapply ref_bind; [exact Hwho|exact HW|apply subs_new_ref; eassumption|].
    intros s1 x sf W1 L1 Hx. apply subs_call_ref; [exact W1|exact Hx|]. revert Hvals. apply mono_list; [mono_tac|exact L1].
  Qed.
End Proof.
