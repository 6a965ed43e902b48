(** * C70. The functions of core/tree.py on shared objects, with threads and a collector. *)
From Verif Require Import Py ModelTree SpecTree ModelIntern SpecIntern ProofBase ProofIntern ProofTopo ModelObjects SpecObjects ProofObjects ProofObjTree.
From Verif Require PropsIntern PropsTree.

Section Props.
  Context (names : nat -> string) (atomic : bool) (who : nat -> Prop).
  Notation reachable := (reachable pyval_eqb atomic who).
  Notation is_tree_obj := (is_tree_obj names).
  Implicit Types (s : state pyval) (t : nat).

  (** The Trees that anyone has represent trees, and two are the same object exactly if they represent the same tree. *)
  Theorem C70_objects_are_trees s a : safe atomic who -> reachable s -> has s a -> is_tree (heap s) a = true ->
    exists u, is_tree_obj (heap s) a u /\ forall v, is_tree_obj (heap s) a v -> v = u.
  Proof.
    intros Hs Hr Ha Ht. pose proof (reachable_inv pyval_eqb pyval_equivalence atomic who s Hs Hr) as I.
    assert (M := i_mem _ _ _ _ I).
    assert (G : forall a m, denotes (heap s) a m -> is_tree (heap s) a = true -> exists u, is_tree_obj (heap s) a u).
    { intros b m H. pattern b, m. refine (denotes_all (heap s) _ _ _ _ _ b m H); clear b m H.
      - intros b ty v e T. unfold is_tree in T. rewrite e in T. discriminate.
      - intros b c m e _ _ _. destruct (m_obj _ s M b _ e) as (_ & Ty & _). unfold typed, args_ok in Ty.
        cbn [obj_key check_first check_later] in Ty. rewrite andb_true_r in Ty. unfold is_atom in Ty.
        destruct (heap s c) as [[ty v| | |]|] eqn:E; try discriminate. exists (Atm (mkAtom (mkType ty (names ty)) v)).
        econstructor; [exact e|]. constructor. exact E.
      - intros b l ms e _ IH _. destruct (m_obj _ s M b _ e) as (_ & Ty & _). unfold typed, args_ok in Ty.
        cbn [obj_key check_first check_later andb] in Ty.
        assert (F : exists us, Forall2 (is_tree_obj (heap s)) l us).
        { clear e. induction IH as [|c m l ms Hc _ IHl]; [exists []; constructor|]. cbn [forallb] in Ty. apply andb_prop in Ty as [T1 T2].
          destruct (IHl T2) as (us & Hus). destruct (Hc T1) as (u & Hu). exists (u :: us). constructor; assumption. }
        destruct F as (us & F). exists (Node us). econstructor; eassumption.
      - intros b c d m e _ _ T. unfold is_tree in T. rewrite e in T. discriminate. }
    destruct (has_good pyval_eqb _ _ _ _ I Ha) as [Hh _]. destruct (heap s a) as [o|] eqn:E; [|congruence].
    destruct (m_obj _ s M a o E) as (_ & _ & m & Hm). destruct (G a m Hm Ht) as (u & Hu). exists u. split; [exact Hu|].
    intros v Hv. symmetry. eapply tree_obj_fun; eassumption.
  Qed.
  Theorem C70_identity_is_equality s a u b v : safe atomic who -> reachable s -> has s a -> has s b ->
    is_tree_obj (heap s) a u -> is_tree_obj (heap s) b v -> (a = b <-> u = v).
  Proof.
    intros Hs Hr Ha Hb Hu Hv. pose proof (reachable_inv pyval_eqb pyval_equivalence atomic who s Hs Hr) as I. split.
    - intros <-. eapply tree_obj_fun; eassumption.
    - intros <-. apply (same_unique pyval_eqb pyval_equivalence s (i_mem _ _ _ _ I) a (term_of u) (tree_obj_denotes _ _ _ _ Hu)
        (has_good pyval_eqb _ _ _ _ I Ha) b (term_of u) (tree_obj_denotes _ _ _ _ Hv) (has_good pyval_eqb _ _ _ _ I Hb)).
      apply same_refl, pyval_equivalence.
  Qed.

  Section Thread.
  Context (t : nat).
  Notation always := (always atomic who t).
  Notation has_tree := (has_tree names t).
  (** A state in which thread [t] may start to run a program. *)
  Definition ready s : Prop := reachable s /\ at_ (threads s t) = Idle.

  (** topological_sort on objects lists the representatives of the first-visit post-order. *)
  Theorem C70_topological_sort s a u heads ex us : safe atomic who -> who t -> ready s -> has_tree s a u -> Forall2 (has_tree s) ex us ->
    exists n, forall fuel, n <= fuel ->
    always (o_topological_sort fuel a heads ex) s (fun s' r => exists l, r = Ok l /\ Forall2 (has_tree s') l (keep_first (postorder heads us u))).
  Proof.
    intros Hs Hw Hr Ha Hex. exists (S (topo_weight u)). intros fuel Hf.
    pose proof (topological_sort_ref names atomic who t Hs Hw s fuel heads a u ex us Hr Ha Hex Hf) as [H1 H2]. rewrite topological_sort_spec in H2.
    split; [exact H1|]. intros s' r H. specialize (H2 s' r H). cbv beta iota in H2. destruct r as [l|]; [|destruct H2]. eauto.
  Qed.
  (** In terms of the objects alone: each object below [a] once, children first, and [a] last. *)
  Theorem C70_topological_sort_of_objects s a u heads : safe atomic who -> who t -> ready s -> has_tree s a u ->
    exists n, forall fuel, n <= fuel ->
    always (o_topological_sort fuel a heads []) s (fun s' r => exists l, r = Ok (l ++ [a]) /\ NoDup (l ++ [a]) /\
      (forall b, In b (l ++ [a]) <-> below heads (heap s') a b) /\
      (forall l1 b l2 cs c, l ++ [a] = l1 ++ b :: l2 -> heap s' b = Some (ONode cs) -> In c (counted heads cs) -> In c l1)).
  Proof.
    intros Hs Hw Hr Ha. destruct (C70_topological_sort s a u heads [] [] Hs Hw Hr Ha) as (n & H); [constructor|].
    exists n. intros fuel Hf. destruct (H fuel Hf) as [H1 H2]. split; [exact H1|]. intros s' r Hrun.
    pose proof (runs_ok atomic who t Hw _ s s' r Hrun Hr) as [W' L'].
    destruct (H2 s' r Hrun) as (k & -> & F). clear H H1 H2.
    destruct (PropsTree.C07_topological_sort_is_topological u heads) as (ts & E & N & M & O).
    rewrite topological_sort_spec in E. injection E as E. rewrite E in F. clear E.
    pose proof (has_tree_le names t s s' a u L' Ha) as Ha'.
    assert (ID : forall b v c w, has_tree s' b v -> has_tree s' c w -> v = w -> b = c).
    { intros b v c w Hb Hc <-. pose proof (identity names atomic who t Hs s' b v c v W' Hb Hc) as X. rewrite tree_eqb_refl in X. apply Nat.eqb_eq, X. }
    assert (FUN : forall b v w, has_tree s' b v -> has_tree s' b w -> v = w) by (intros b v w [_ Hv] [_ Hw']; eapply tree_obj_fun; eassumption).
    apply Forall2_app_inv_r in F as (l & la & F & Fa & ->). inversion Fa as [|b ? ? ? Hb Fn]; subst. inversion Fn; subst.
    assert (b = a) by (eapply ID; eauto). subst b. exists l. split; [reflexivity|].
    assert (F2 : Forall2 (has_tree s') (l ++ [a]) (ts ++ [u])) by (apply Forall2_app; assumption). clear F Fa Fn Hb.
    assert (TO : forall b, In b (l ++ [a]) -> exists v, In v (ts ++ [u]) /\ has_tree s' b v).
    { clear - F2. induction F2 as [|b v m ms Hb _ IH]; [intros c []|]. intros c [<-|Hc]; [exists v; split; [left; reflexivity|exact Hb]|].
      destruct (IH c Hc) as (w & Hin & Hw). exists w. split; [right; exact Hin|exact Hw]. }
    assert (FROM : forall v, In v (ts ++ [u]) -> exists b, In b (l ++ [a]) /\ has_tree s' b v).
    { clear - F2. induction F2 as [|b v m ms Hb _ IH]; [intros c []|]. intros c [<-|Hc]; [exists b; split; [left; reflexivity|exact Hb]|].
      destruct (IH c Hc) as (w & Hin & Hw). exists w. split; [right; exact Hin|exact Hw]. }
    (* children of an object *)
    assert (KIDS : forall b v cs c, is_tree_obj (heap s') b v -> heap s' b = Some (ONode cs) -> In c (counted heads cs) ->
      exists w, In w (kids heads v) /\ is_tree_obj (heap s') c w).
    { intros b v cs c Hv Ho Hc. inversion Hv as [|? cs' vs Ho' Hcs]; subst; [congruence|]. assert (cs' = cs) by congruence. subst cs'.
      unfold kids, children. clear - Hcs Hc.
      assert (G : forall l m, Forall2 (is_tree_obj (heap s')) l m -> In c l -> exists w, In w m /\ is_tree_obj (heap s') c w).
      { induction 1 as [|x y l m Hxy _ IH]; [intros []|]. intros [<-|Hin]; [exists y; split; [left; reflexivity|exact Hxy]|].
        destruct (IH Hin) as (w & H1 & H2). exists w. split; [right; exact H1|exact H2]. }
      destruct heads; [exact (G cs vs Hcs Hc)|]. inversion Hcs; subst; [destruct Hc|]. eapply G; eassumption. }
    assert (KIDS' : forall b v w, is_tree_obj (heap s') b v -> In w (kids heads v) ->
      exists cs c, heap s' b = Some (ONode cs) /\ In c (counted heads cs) /\ is_tree_obj (heap s') c w).
    { intros b v w Hv Hin. inversion Hv as [? ? ? Ho ?|? cs vs Ho Hcs]; subst; [destruct heads; destruct Hin|]. exists cs.
      assert (G : forall l m, Forall2 (is_tree_obj (heap s')) l m -> In w m -> exists c, In c l /\ is_tree_obj (heap s') c w).
      { clear. induction 1 as [|x y l m Hxy _ IH]; [intros []|]. intros [<-|Hin]; [exists x; split; [left; reflexivity|exact Hxy]|].
        destruct (IH Hin) as (c & H1 & H2). exists c. split; [right; exact H1|exact H2]. }
      unfold kids, children in Hin. destruct heads.
      - destruct (G cs vs Hcs Hin) as (c & H1 & H2). exists c. auto.
      - inversion Hcs; subst; [destruct Hin|]. match goal with H : Forall2 _ ?l0 ?m0 |- _ => destruct (G l0 m0 H Hin) as (c & H1 & H2) end.
        exists c. auto. }
    (* all objects below [a] can be got at by [t] *)
    pose proof (reachable_inv pyval_eqb pyval_equivalence atomic who s' Hs (proj1 W')) as I.
    assert (GOOD : forall b, below heads (heap s') a b -> good s' b).
    { intros b Hb. destruct Hb as [|b cs c _ Ho Hc]; [apply (proj1 (i_threads _ _ _ _ I t)), Ha'|].
      apply (good_parts pyval_eqb s' b _ c (i_mem _ _ _ _ I) Ho). cbn [obj_refs]. unfold counted in Hc. destruct heads; [exact Hc|].
      destruct cs; [destruct Hc|right; exact Hc]. }
    assert (UNI : forall b c v, good s' b -> good s' c -> is_tree_obj (heap s') b v -> is_tree_obj (heap s') c v -> b = c).
    { intros b c v Gb Gc Hb Hc. apply (same_unique pyval_eqb pyval_equivalence s' (i_mem _ _ _ _ I) b (term_of v) (tree_obj_denotes _ _ _ _ Hb) Gb
        c (term_of v) (tree_obj_denotes _ _ _ _ Hc) Gc). apply same_refl, pyval_equivalence. }
    assert (HG : forall b v, has_tree s' b v -> good s' b) by (intros b v [Hb _]; apply (proj1 (i_threads _ _ _ _ I t)), Hb).
    split; [|split].
    - (* NoDup *)
      clear - F2 N FUN. induction F2 as [|b v m ms Hb F IH]; [constructor|]. inversion N as [|? ? N1 N2]; subst. constructor; [|apply IH, N2].
      intros Hin. apply N1. clear - F Hin Hb FUN. induction F as [|c w m ms Hc _ IH]; [destruct Hin|].
      destruct Hin as [->|Hin]; [left; symmetry; eapply FUN; eassumption|right; apply IH, Hin].
    - (* exactly the objects below *)
      assert (RB : forall v w, reach heads [] v w -> forall b, is_tree_obj (heap s') b v -> exists c, is_tree_obj (heap s') c w /\
        forall x, below heads (heap s') x b -> below heads (heap s') x c).
      { induction 1 as [v _|v k w _ Hk _ IH]; intros b Hb; [exists b; auto|].
        destruct (KIDS' b v k Hb Hk) as (cs & c & Ho & Hc & Hck). destruct (IH c Hck) as (d & Hd & Hx). exists d. split; [exact Hd|].
        intros x Hxb. apply Hx. econstructor; eassumption. }
      assert (BR : forall b, below heads (heap s') a b -> exists v, is_tree_obj (heap s') b v /\ reach heads [] u v).
      { induction 1 as [|b cs c _ (v & Hv & Rv) Ho Hc]; [exists u; split; [apply Ha'|constructor; intros []]|].
        destruct (KIDS b v cs c Hv Ho Hc) as (w & Hw1 & Hw2). exists w. split; [exact Hw2|].
        clear - Rv Hw1. induction Rv as [v Hv|v k z Hv Hk _ IH].
        - eapply reach_child; [exact Hv|exact Hw1|]. constructor. intros [].
        - eapply reach_child; [exact Hv|exact Hk|]. apply IH, Hw1. }
      intros b. split.
      + intros Hin. destruct (TO b Hin) as (v & Hv & Hb). apply M in Hv. destruct (RB u v Hv a (proj2 Ha')) as (c & Hc & Hx).
        assert (Hac : below heads (heap s') a c) by (apply Hx; constructor).
        assert (b = c) as -> by (eapply UNI; [eapply HG, Hb|apply GOOD, Hac|apply Hb|exact Hc]). exact Hac.
      + intros Hbl. destruct (BR b Hbl) as (v & Hv & Rv). apply M in Rv. destruct (FROM v Rv) as (c & Hin & Hc).
        assert (b = c) as -> by (eapply UNI; [apply GOOD, Hbl|eapply HG, Hc|exact Hv|apply Hc]). exact Hin.
    - (* children first *)
      intros l1 b l2 cs c E Ho Hc. rewrite E in F2. apply Forall2_app_inv_l in F2 as (t1 & t2' & F1 & F3 & Et).
      inversion F3 as [|? v ? t2 Hb F4]; subst. destruct (KIDS b v cs c (proj2 Hb) Ho Hc) as (w & Hw1 & Hw2).
      assert (Hin : In v (ts ++ [u])) by (rewrite Et; apply in_or_app; right; left; reflexivity).
      destruct (O v w Hin Hw1 (fun x => x)) as (m1 & m2 & m3 & Em).
      assert (Hw1' : In w t1).
      { rewrite Et in Em, N. clear - Em N. assert (X : forall (A : Type) (p q p' q' : list A) y, NoDup (p ++ y :: q) -> p ++ y :: q = p' ++ y :: q' -> p = p').
        { intros A p. induction p as [|z p IH]; intros q p' q' y Nd Eq; destruct p' as [|z' p']; cbn [app] in *; [reflexivity|..].
          - injection Eq as -> Eq. inversion Nd as [|? ? N1 _]; subst. destruct N1. apply in_or_app. right. left. reflexivity.
          - injection Eq as -> Eq. inversion Nd as [|? ? N1 _]; subst. destruct N1. apply in_or_app. right. left. reflexivity.
          - injection Eq as -> Eq. inversion Nd; subst. f_equal. eapply IH; eassumption. }
        change (m1 ++ w :: m2 ++ v :: m3) with (m1 ++ (w :: m2) ++ v :: m3) in Em. rewrite app_assoc in Em. apply X in Em; [|exact N]. rewrite Em.
        apply in_or_app. right. left. reflexivity. }
      assert (HC : exists d, In d l1 /\ has_tree s' d w).
      { clear - F1 Hw1'. induction F1 as [|x y m ms Hx _ IH]; [destruct Hw1'|]. destruct Hw1' as [->|Hin]; [exists x; split; [left; reflexivity|exact Hx]|].
        destruct (IH Hin) as (d & H1 & H2). exists d. split; [right; exact H1|exact H2]. }
      destruct HC as (d & Hd & Hdw). assert (c = d) as ->; [|exact Hd].
      assert (G : good s' c).
      { apply (good_parts pyval_eqb s' b _ c (i_mem _ _ _ _ I) Ho). cbn [obj_refs]. unfold counted in Hc. destruct heads; [exact Hc|].
        destruct cs; [destruct Hc|right; exact Hc]. }
      exact (UNI c d w G (HG d w Hdw) Hw2 (proj2 Hdw)).
  Qed.

  (** Rebuilding an expression from its forward graph makes no new object: it gives the same object. *)
  Theorem C70_rebuild_is_the_same_object s a u : safe atomic who -> who t -> ready s -> has_tree s a u ->
    exists n, forall fuel, n <= fuel -> always (o_rebuild fuel a) s (fun s' r => exists l, r = Ok (l ++ [a])).
  Proof.
    intros Hs Hw Hr Ha. exists (S (topo_weight u)). intros fuel Hf.
    pose proof (rebuild_ref names atomic who t Hs Hw s fuel a u Hr Ha Hf) as [H1 H2]. split; [exact H1|]. intros s' r Hrun. specialize (H2 s' r Hrun).
    destruct (PropsTree.C11_forward_graph_rebuilds u) as (g & stack & Eg & Es & El & _). rewrite Eg in H2. cbn [bind] in H2. rewrite Es in H2.
    cbv beta iota in H2. destruct r as [l|]; [|destruct H2].
    assert (E : exists st, stack = st ++ [u]).
    { unfold last_item in El. destruct (rev stack) as [|v st] eqn:E; [discriminate|]. injection El as ->. exists (rev st).
      apply (f_equal (@rev tree)) in E. rewrite rev_involutive in E. exact E. }
    destruct E as (st & ->). apply Forall2_app_inv_r in H2 as (k & ka & _ & Hk & ->). inversion Hk as [|b ? ? ? Hb Hn]; subst. inversion Hn; subst.
    pose proof (runs_ok atomic who t Hw _ s s' _ Hrun Hr) as [W' L']. exists k.
    pose proof (identity names atomic who t Hs s' b u a u W' Hb (has_tree_le names t s s' a u L' Ha)) as X. rewrite tree_eqb_refl in X.
    apply Nat.eqb_eq in X as ->. reflexivity.
  Qed.

  (** SubsFunc on objects: the result represents the substituted expression. *)
  Theorem C70_subs s a u args us vals vs : safe atomic who -> who t -> ready s -> has_tree s a u ->
    Forall2 (has_tree s) args us -> Forall2 (has_tree s) vals vs -> ~ In u us -> length vs = length us ->
    exists n, forall fuel, n <= fuel -> always (o_subs fuel a args vals) s (fun s' r => exists b, r = Ok b /\ has_tree s' b (subst us vs u)).
  Proof.
    intros Hs Hw Hr Ha Hargs Hvals Hin Hlen. exists (S (topo_weight u)). intros fuel Hf.
    pose proof (subs_ref names atomic who t Hs Hw s fuel a u args us vals vs Hr Ha Hargs Hvals Hf) as [H1 H2]. split; [exact H1|]. intros s' r Hrun. specialize (H2 s' r Hrun).
    rewrite (PropsTree.C13_subs_is_substitution u us vs Hin Hlen) in H2. cbv beta iota in H2. destruct r as [b|]; [|destruct H2]. eauto.
  Qed.
  End Thread.
End Props.

(** ** A case: f(f(x), f(x)) is at 5 and f(x) at 4, thread 0 has both, and thread 1 is about to store another object for f(x, x). *)
Definition case_names (n : nat) : string := if Nat.eqb n 0 then "Symbol" else "Function".
Definition c_x : tree := Atm (mkAtom (mkType 0 "Symbol") (VStr "x")).
Definition c_f : tree := Atm (mkAtom (mkType 1 "Function") (VStr "f")).
Definition c_fx : tree := Node [c_f; c_x].
Definition c_top : tree := Node [c_f; c_fx; c_fx].
Definition case_run : list (PropsIntern.action pyval) :=
  PropsIntern.whole 0 (KAtom 0 (VStr "x")) 0 4 ++ PropsIntern.whole 0 (KLeaf 0) 1 4 ++ PropsIntern.whole 0 (KAtom 1 (VStr "f")) 2 4 ++
  PropsIntern.whole 0 (KLeaf 2) 3 4 ++ PropsIntern.whole 0 (KNode [3; 1]) 4 4 ++ PropsIntern.whole 0 (KNode [3; 4; 4]) 5 4 ++
  PropsIntern.whole 1 (KAtom 0 (VStr "x")) 6 3 ++ PropsIntern.whole 1 (KLeaf 0) 6 3 ++
  [PropsIntern.ACall 1 (KNode [1; 1]); PropsIntern.AMove 1 6; PropsIntern.AMove 1 6].
Example C70_case : exists s, ready true (fun _ => True) 0 s /\ has_tree case_names 0 s 5 c_top /\ has_tree case_names 0 s 4 c_fx /\ has_tree case_names 0 s 1 c_x /\
  at_ (threads s 1) = Made (KNode [1; 1]) 6 /\
  keep_first (postorder true [] c_top) = [c_f; c_x; c_fx; c_top] /\ subst [c_x] [c_fx] c_top = Node [c_f; Node [c_f; c_fx]; Node [c_f; c_fx]].
Proof.
  destruct (PropsIntern.run_case pyval_eqb true (fun _ => True) case_run (fun s => held (threads s 0) = [5; 4; 3; 2; 1; 0] /\ at_ (threads s 0) = Idle /\
    at_ (threads s 1) = Made (KNode [1; 1]) 6 /\ heap s 0 = Some (OAtom 0 (VStr "x")) /\ heap s 1 = Some (OLeaf 0) /\ heap s 2 = Some (OAtom 1 (VStr "f")) /\
    heap s 3 = Some (OLeaf 2) /\ heap s 4 = Some (ONode [3; 1]) /\ heap s 5 = Some (ONode [3; 4; 4])))
    as (s & R & Hh & Hi & H1 & O0 & O1 & O2 & O3 & O4 & O5); [PropsIntern.all_may|vm_compute; tauto|].
  exists s. split; [split; assumption|].
  assert (Tx : is_tree_obj case_names (heap s) 1 c_x) by (econstructor; [exact O1|]; apply (atom_obj case_names _ 0 0 (VStr "x") O0)).
  assert (Tf : is_tree_obj case_names (heap s) 3 c_f) by (econstructor; [exact O3|]; apply (atom_obj case_names _ 2 1 (VStr "f") O2)).
  assert (T4 : is_tree_obj case_names (heap s) 4 c_fx) by (econstructor; [exact O4|]; repeat (constructor; try assumption)).
  assert (T5 : is_tree_obj case_names (heap s) 5 c_top) by (econstructor; [exact O5|]; repeat (constructor; try assumption)).
  split; [split; [rewrite Hh; cbn [In]; tauto|exact T5]|]. split; [split; [rewrite Hh; cbn [In]; tauto|exact T4]|].
  split; [split; [rewrite Hh; cbn [In]; tauto|exact Tx]|]. split; [exact H1|]. split; vm_compute; reflexivity.
Qed.
Print Assumptions C70_objects_are_trees.
Print Assumptions C70_identity_is_equality.
Print Assumptions C70_topological_sort.
Print Assumptions C70_topological_sort_of_objects.
Print Assumptions C70_rebuild_is_the_same_object.
Print Assumptions C70_subs.
