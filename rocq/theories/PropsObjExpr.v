(** * C72. Programs of users, on shared objects, with threads and a collector. *)
From Verif Require Import Py ModelTree SpecTree ModelIntern SpecIntern ModelEval ModelDiff ModelSym ModelCas ModelApi ProofBase ProofIntern ModelObjects SpecObjects
  ModelObjEval SpecObjEval ModelObjExpr SpecObjExpr ProofTopo ProofObjects ProofObjTree ProofObjEval ProofObjExpr.
From Verif Require PropsIntern.

Section Props.
  Context (names : nat -> string) (atomic : bool) (who : nat -> Prop) (t : nat).
  Context (Hsafe : safe atomic who) (Hwho : who t) (Hnames : cas_names names).
  Notation has_expr := (has_expr names t).
  Notation ready := (ready atomic who t).
  Notation always := (always atomic who t).
  Notation computes := (computes atomic who t).
  Implicit Types (s : state pyval).

  (** A program of a user, after the import of the library: among any other threads it ends as its meaning on values says. Its variables
      hold those expressions, or it raises the same exception. *)
  Theorem C72_user_programs l s : ready s ->
    exists n, forall fuel, n <= fuel -> computes s (o_session fuel l) (v_session l) (fun s' => Forall2 (has_expr s')).
  Proof.
    intros Hr. destruct (session_ref names atomic who t Hsafe Hwho Hnames l) as (n & H). exists n. intros fuel Hf. exact (H fuel Hf s Hr).
  Qed.
  (** Comparison of any two Exprs that threads have, whatever the steps before: the same object if and only if the same expression. *)
  Theorem C72_comparison s e u t' f v : reachable pyval_eqb atomic who s -> has_expr s e u -> SpecObjExpr.has_expr names t' s f v -> (e = f <-> u = v).
  Proof.
    intros Hr (He & a & Ho & Hu) (Hf & b & Ho' & Hv). pose proof (reachable_inv pyval_eqb pyval_equivalence atomic who s Hsafe Hr) as I. split.
    - intros ->. assert (b = a) by congruence. subst. eapply tree_obj_fun; eassumption.
    - intros ->.
      apply (same_unique pyval_eqb pyval_equivalence s (i_mem _ _ _ _ I) e (MSym 0 (term_of v)) (d_sym _ _ _ _ _ Ho (tree_obj_denotes _ _ _ _ Hu))
        (proj1 (i_threads _ _ _ _ I t) e He) f (MSym 0 (term_of v)) (d_sym _ _ _ _ _ Ho' (tree_obj_denotes _ _ _ _ Hv)) (proj1 (i_threads _ _ _ _ I t') f Hf)).
      apply same_refl, pyval_equivalence.
  Qed.
  (** In particular for the variables of a program. *)
  Theorem C72_variables l s env : ready s -> v_session l = Ok env ->
    exists n, forall fuel, n <= fuel -> always (o_session fuel l) s (fun _ r => exists vars, r = Ok vars /\ length vars = length env /\
      forall i j e f u v, nth_error vars i = Some e -> nth_error vars j = Some f -> nth_error env i = Some u -> nth_error env j = Some v -> (e = f <-> u = v)).
  Proof.
    intros Hr E. destruct (C72_user_programs l s Hr) as (n & H). exists n. intros fuel Hf. destruct (H fuel Hf) as [H1 H2]. split; [exact H1|].
    intros s' r Hrun. specialize (H2 s' r Hrun). rewrite E in H2. destruct r as [vars|]; [|contradiction]. exists vars. split; [reflexivity|].
    split; [exact (rl_length has_expr s' _ _ H2)|]. intros i j e f u v Ei Ej Ui Uj.
    assert (G : forall i e u, nth_error vars i = Some e -> nth_error env i = Some u -> has_expr s' e u).
    { clear - H2. induction H2 as [|e u vars env He _ IH]; intros [|i] e' u' E1 E2; cbn [nth_error] in *; try discriminate; [congruence|eapply IH; eassumption]. }
    apply (C72_comparison s' e u t f v); [apply (runs_ok atomic who t Hwho _ _ _ _ Hrun Hr)|eapply G; eassumption|eapply G; eassumption].
  Qed.
  (** The same program once more, at any later time: the same objects. *)
  Theorem C72_again l s env : ready s -> v_session l = Ok env ->
    exists n, forall fuel, n <= fuel -> always (run a <- o_session fuel l; run b <- o_session fuel l; ret (a, b)) s
      (fun _ r => exists vars, r = Ok (vars, vars)).
  Proof.
    intros Hr E. destruct (session_ref names atomic who t Hsafe Hwho Hnames l) as (n & H). exists n. intros fuel Hf.
    assert (C : computes s (run a <- o_session fuel l; run b <- o_session fuel l; ret (a, b)) (Ok env) (fun s' x y => fst x = snd x)).
    { eapply (ref_bind_ok atomic who t Hwho _ _ _ _ _ (fun s' => Forall2 (has_expr s'))); [exact Hr|rewrite <- E; exact (H fuel Hf s Hr)|]. intros s1 a R1 L1 Ha.
      eapply (ref_bind_ok atomic who t Hwho _ _ _ _ _ (fun s' => Forall2 (has_expr s'))); [exact R1|rewrite <- E; exact (H fuel Hf s1 R1)|]. intros s2 b R2 L2 Hb.
      apply (mono_exprs names t s1 s2 _ _ L2) in Ha. apply (ref_ret atomic who t); [exact R2|intros s3 s4 x y _ K; exact K|]. cbn [rel fst snd]. clear - R2 Ha Hb Hsafe.
      revert b Hb. induction Ha as [|e u a env He _ IH]; intros b Hb; inversion Hb; subst; [reflexivity|]. f_equal; [|apply IH; assumption].
      eapply (C72_comparison s2 e u t); [apply R2|exact He|eassumption|reflexivity]. }
    destruct C as [C1 C2]. split; [exact C1|]. intros s' r Hrun. specialize (C2 s' r Hrun). destruct r as [[a b]|]; [|contradiction]. cbn [fst snd] in C2. subst. exists b. reflexivity.
  Qed.
  (** [e.head( *e.args) is e] for every compound expression; for an atom, [e.head] raises IndexError. *)
  Theorem C72_head_args s e u : ready s -> has_expr s e u ->
    always (run h <- o_head e; run l <- o_args e; o_expr_call h (map OE l)) s
      (fun _ r => r = match children u with [] => Err IndexError | _ => Ok e end).
  Proof.
    intros Hr He.
    assert (C : computes s (run h <- o_head e; run l <- o_args e; o_expr_call h (map OE l)) (do _ <- getitem (children u) 0; Ok tt) (fun _ x _ => x = e)).
    { change (getitem (children u) 0) with (sym_head u).
      eapply (ref_bind atomic who t Hwho _ _ _ _ _ (fun s' h v => has_expr s' h v /\ sym_head u = Ok v)); [exact Hr| |].
      - destruct (head_ref names atomic who t Hsafe Hwho s e u Hr He) as [K1 K2]. split; [exact K1|]. intros s' r Hrun. specialize (K2 s' r Hrun).
        destruct r, (sym_head u); try exact K2. split; [exact K2|reflexivity].
      - intros s1 h v R1 L1 [Hh Ev]. pose proof (has_expr_le names t _ _ _ _ L1 He) as He1.
        eapply (ref_bind_ok atomic who t Hwho _ _ _ _ _ (fun s' => Forall2 (has_expr s'))); [exact R1|exact (args_ref names atomic who t Hsafe Hwho s1 e u R1 He1)|]. intros s2 l R2 L2 Hl.
        pose proof (has_expr_le names t _ _ _ _ L2 He1) as He2. pose proof (has_expr_le names t _ _ _ _ L2 Hh) as Hh2.
        assert (Em : forall m, expr_call v (map PExpr m) = Ok (tree_call v m)).
        { intros m. unfold expr_call. replace (mapM expressify (map PExpr m)) with (Ok m); [reflexivity|]. induction m as [|x m IH]; [reflexivity|]. cbn [map mapM expressify bind]. rewrite <- IH. reflexivity. }
        destruct (expr_call_ref names atomic who t Hsafe Hwho Hnames s2 h v (map OE l) (map PExpr (sym_args u)) R2 Hh2) as [K1 K2].
        { clear - Hl. induction Hl as [|x y l m Hx _ IH]; constructor; [exact Hx|exact IH]. }
        split; [exact K1|]. intros s' r Hrun. specialize (K2 s' r Hrun). rewrite Em in K2. destruct r as [f|]; [|exact K2].
        destruct (runs_ok atomic who t Hwho _ _ _ _ Hrun R2) as [R' L'].
        apply (C72_comparison s' f (tree_call v (sym_args u)) t e u); [apply R'|exact K2|eapply has_expr_le; eassumption|].
        unfold sym_head in Ev. unfold tree_call, sym_args. destruct u as [x|[|c cs]]; try discriminate Ev. injection Ev as ->. reflexivity. }
    destruct C as [C1 C2]. split; [exact C1|]. intros s' r Hrun. specialize (C2 s' r Hrun). destruct (children u); cbn [getitem nth_error bind] in C2; destruct r; try contradiction; congruence.
  Qed.
  (** count_ops_graph on objects. *)
  Theorem C72_count_ops_graph s e u : ready s -> has_expr s e u ->
    exists n, forall fuel, n <= fuel -> always (o_count_ops_graph fuel e) s (fun _ r => r = count_ops_graph u).
  Proof.
    intros Hr He. exists (S (topo_weight u)). intros fuel Hf.
    destruct (count_ops_graph_ref names atomic who t Hsafe Hwho s fuel e u Hr He Hf) as [K1 K2]. split; [exact K1|].
    intros s' r Hrun. specialize (K2 s' r Hrun). unfold req in K2. destruct r, (count_ops_graph u); try contradiction; congruence.
  Qed.
End Props.

(** ** A case: thread 1 is about to store its own object for the Atom of Symbol("x"), while thread 0 runs this program:
      x = Symbol("x"); f = Function("f"); v2 = f(x); diff[v2, x] = v2; v3 = x * v2; v4 = v3.diff(x); v5 = 1 + v4; v6 = v5.xreplace({x: 2, v2: x}); v7 = v6.args[1];
      v8 = f(2); v9 = v6.bin_expand() *)
Definition xc_names (n : nat) : string :=
  if Nat.eqb n (ty_id T_Integer) then "Integer" else if Nat.eqb n (ty_id T_Symbol) then "Symbol" else if Nat.eqb n (ty_id T_Function) then "Function" else "Wild".
Definition xc_program : list statement :=
  [SSymbol "x"; SFunction "f"; SCall 1 [OE 0]; SRule 2 0 2; SBinop OpMul 0 (OE 2); SDiff 3 0 1; SRbinop OpAdd 1 4;
   SXreplace 5 [(OE 0, OI 2); (OE 2, OE 0)]; SArg 6 1; SCall 1 [OI 2]; SBinExpand 6].
Definition xc_x := Symbol "x".
Definition xc_f (u : tree) := Node [Function "f"; u].
Example C72_case : cas_names xc_names /\
  (exists s, ready true (fun _ => True) 0 s /\ at_ (threads s 1) = Made (KAtom (ty_id T_Symbol) (VStr "x")) 0) /\
  v_session xc_program = Ok
    [xc_x; Function "f"; xc_f xc_x; Node [Mul; xc_x; xc_f xc_x];
     Node [Add; Node [Mul; one; xc_f xc_x]; Node [Mul; xc_x; xc_f xc_x]];
     Node [Add; one; Node [Add; Node [Mul; one; xc_f xc_x]; Node [Mul; xc_x; xc_f xc_x]]];
     Node [Add; one; Node [Add; Node [Mul; one; xc_x]; Node [Mul; Integer 2; xc_x]]];
     Node [Add; Node [Mul; one; xc_x]; Node [Mul; Integer 2; xc_x]];
     xc_f (Integer 2);
     Node [Add; one; Node [Add; Node [Mul; one; xc_x]; Node [Mul; Integer 2; xc_x]]]] /\
  v_session (xc_program ++ [SHead 0]) = Err IndexError /\ v_session (xc_program ++ [SFunction "g"; SCall 10 [OE 0]; SDiff 11 0 1]) = Err KeyError.
Proof.
  split; [repeat constructor|]. split.
  - destruct (PropsIntern.run_case pyval_eqb true (fun _ => True)
      [PropsIntern.ACall 1 (KAtom (ty_id T_Symbol) (VStr "x")); PropsIntern.AMove 1 0; PropsIntern.AMove 1 0]
      (fun s => at_ (threads s 0) = Idle /\ at_ (threads s 1) = Made (KAtom (ty_id T_Symbol) (VStr "x")) 0)) as (s & R & H0 & H1); [PropsIntern.all_may|vm_compute; tauto|].
    exists s. split; [split; assumption|exact H1].
  - vm_compute. repeat split; reflexivity.
Qed.
Print Assumptions C72_user_programs.
Print Assumptions C72_comparison.
Print Assumptions C72_variables.
Print Assumptions C72_again.
Print Assumptions C72_head_args.
Print Assumptions C72_count_ops_graph.
