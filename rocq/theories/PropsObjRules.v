(** * C83. Programs of users that define evaluators, on shared objects, with threads and a collector. *)
From Verif Require Import Py ModelTree SpecTree ModelIntern SpecIntern ModelEval ModelDiff ModelSym ModelCas ModelApi ModelObjects SpecObjects
  ModelObjEval SpecObjEval ModelObjExpr SpecObjExpr ModelObjRules SpecObjRules ProofObjects ProofObjTree ProofObjRules.
From Verif Require PropsIntern.

Section Props.
  Context (names : nat -> string) (atomic : bool) (who : nat -> Prop) (t : nat).
  Context (Hsafe : safe atomic who) (Hwho : who t) (Hnames : rule_names names).
  Context {V : Type} (none : V -> bool).
  Notation has_expr := (has_expr names t).
  Notation ready := (ready atomic who t).
  Notation computes := (computes atomic who t).
  Implicit Types (s : state pyval).

  Lemma known_all (l : list (rstatement V)) : known_types l -> Forall known l.
  Proof.
    intros H. apply Forall_forall. intros c Hc. destruct c as [c|name|i| |k pat op args|k i vals]; try exact Logic.I.
    destruct pat as [i|ty i|i|i j]; try exact Logic.I. exact (H k ty i op args Hc).
  Qed.
  (** A program that makes expressions and evaluators, adds rules and evaluates, run among any other threads: it ends as its meaning on
      values says, with the same values, with those expressions in its variables, or with the same exception. *)
  Theorem C83_rule_programs (l : list (rstatement V)) s : ready s -> known_types l ->
    exists n, forall fuel, n <= fuel -> computes s (o_rsession none names fuel l) (v_rsession none l)
      (fun s' o v => Forall2 (has_expr s') (fst o) (fst v) /\ snd o = snd v).
  Proof.
    intros Hr Hk. destruct (rsession_ref names atomic who t Hsafe Hwho Hnames none l (known_all l Hk)) as (n & H). exists n. intros fuel Hf. exact (H fuel Hf s Hr).
  Qed.
  (** Two runs of the same program, in different histories: the same values or the same exception. *)
  Theorem C83_same_output (l : list (rstatement V)) : known_types l -> exists n, forall fuel, n <= fuel ->
    forall s1 s1' s2 s2' r r', ready s1 -> ready s2 ->
    runs atomic who t (o_rsession none names fuel l) s1 s1' r -> runs atomic who t (o_rsession none names fuel l) s2 s2' r' ->
    (do x <- r; Ok (snd x)) = (do x <- r'; Ok (snd x)).
  Proof.
    intros Hk. destruct (rsession_ref names atomic who t Hsafe Hwho Hnames none l (known_all l Hk)) as (n & H). exists n. intros fuel Hf s1 s1' s2 s2' r r' R1 R2 H1 H2.
    pose proof (proj2 (H fuel Hf s1 R1) _ _ H1) as G1. pose proof (proj2 (H fuel Hf s2 R2) _ _ H2) as G2. cbv beta in G1, G2.
    destruct r as [x|e], r' as [y|e'], (v_rsession none l) as [z|e'']; try contradiction; cbn [bind].
    - destruct G1 as [_ G1], G2 as [_ G2]. red in G1, G2. congruence.
    - congruence.
  Qed.

  (** ** The library's own evaluators *)
  Lemma session_eval (rules : list (rstatement V)) ev l i vals :
    foldM (v_rstatement none) rules ([], cas_diff, [], []) = Ok (fn_env, cas_diff, [ev], []) ->
    (do x <- v_rsession none (rules ++ map RDo l ++ [REval 0 i vals]); Ok (snd x)) =
    (do (env, _) <- foldM v_statement l (fn_env, cas_diff); do u <- getitem env i; do d <- v_rvalues env vals; do v <- sym_evaluate none ev u d; Ok [v]).
  Proof.
    intros E. unfold v_rsession.
    assert (F : forall (a b : list (rstatement V)) st, foldM (v_rstatement none) (a ++ b) st = (do st' <- foldM (v_rstatement none) a st; foldM (v_rstatement none) b st')).
    { clear. induction a as [|c a IH]; intros b st; [reflexivity|]. cbn [app foldM]. destruct (v_rstatement none st c); cbn [bind]; [apply IH|reflexivity]. }
    rewrite F, E. cbn [bind]. rewrite F. generalize fn_env, cas_diff. clear E. induction l as [|c l IH]; intros env q.
    - cbn [map foldM bind v_rstatement getitem]. change (getitem [ev] 0) with (Ok ev). cbn [bind].
      destruct (getitem env i); cbn [bind]; [|reflexivity]. destruct (v_rvalues env vals); cbn [bind]; [|reflexivity]. destruct (sym_evaluate none ev _ _); reflexivity.
    - cbn [map foldM v_rstatement]. destruct (v_statement (env, q) c) as [[env' q']|]; cbn [bind]; [apply IH|reflexivity].
  Qed.
End Props.

Section Library.
  Context (names : nat -> string) (atomic : bool) (who : nat -> Prop) (t : nat).
  Context (Hsafe : safe atomic who) (Hwho : who t) (Hnames : rule_names names).
  Notation ready := (ready atomic who t).
  Notation computes := (computes atomic who t).
  Implicit Types (s : state pyval).

  Lemma known_app {V} (a b : list (rstatement V)) : known_types a -> known_types b -> known_types (a ++ b).
  Proof. intros Ha Hb k ty i op args H. apply in_app_or in H as [H|H]; [eapply Ha|eapply Hb]; exact H. Qed.
  Lemma known_user {V} l i vals : known_types (map (@RDo V) l ++ [REval 0 i vals]).
  Proof. intros k ty j op args H. apply in_app_or in H as [H|[H|[]]]; [|discriminate H]. apply in_map_iff in H as (c & H & _). discriminate H. Qed.
  Lemma builtin {V} (none : V -> bool) rules ev l i vals s (spec : res V) : ready s -> known_types rules ->
    foldM (v_rstatement none) rules ([], cas_diff, [], []) = Ok (fn_env, cas_diff, [ev], []) ->
    (do (env, _) <- foldM v_statement l (fn_env, cas_diff); do u <- getitem env i; do d <- v_rvalues env vals; sym_evaluate none ev u d) = spec ->
    exists n, forall fuel, n <= fuel -> computes s (o_rsession none names fuel (rules ++ map RDo l ++ [REval 0 i vals])) spec (fun _ o v => snd o = [v]).
  Proof.
    intros Hr Hk E <-. destruct (C83_rule_programs names atomic who t Hsafe Hwho Hnames none (rules ++ map RDo l ++ [REval 0 i vals]) s Hr) as (n & H);
      [apply known_app; [exact Hk|apply known_user]|].
    exists n. intros fuel Hf. specialize (H fuel Hf). destruct H as [H1 H2]. split; [exact H1|]. intros s' r Hrun. specialize (H2 s' r Hrun).
    pose proof (session_eval none rules ev l i vals E) as S.
    destruct (v_rsession none (rules ++ map RDo l ++ [REval 0 i vals])) as [[env out]|err]; cbn [bind fst snd] in S.
    - destruct r as [[oenv oout]|]; [|contradiction]. destruct H2 as [_ H2]. cbn [snd] in *. subst oout.
      destruct (foldM v_statement l (fn_env, cas_diff)) as [[env' q']|]; cbn [bind] in *; [|discriminate]. destruct (getitem env' i); cbn [bind] in *; [|discriminate].
      destruct (v_rvalues env' vals); cbn [bind] in *; [|discriminate]. destruct (sym_evaluate none ev _ _); cbn [bind] in *; [|discriminate]. injection S as ->. reflexivity.
    - destruct r as [|err']; [contradiction|]. subst err'.
      destruct (foldM v_statement l (fn_env, cas_diff)) as [[env' q']|]; cbn [bind] in *; [|congruence]. destruct (getitem env' i); cbn [bind] in *; [|congruence].
      destruct (v_rvalues env' vals); cbn [bind] in *; [|congruence]. destruct (sym_evaluate none ev _ _); cbn [bind] in *; congruence.
  Qed.
  Ltac known := let H := fresh "Hin" in intros ? ? ? ? ? H; cbn [fn_repr fn_latex fn_f64 fn_vars app In] in H;
    repeat (destruct H as [H|H]; [first [discriminate H|injection H as <- <- <- <- <-; cbn [In]; tauto]|]); destruct H.
  (** str, LaTeX and floating point values of any expression that any program makes: what C40, C41 and C49 are about. *)
  Theorem C83_str l i s : ready s -> exists n, forall fuel, n <= fuel ->
    computes s (o_rsession (fun _ => false) names fuel (fn_repr ++ map RDo l ++ [REval 0 i None])) (do u <- v_variable l i; eval_repr u) (fun _ o text => snd o = [text]).
  Proof.
    intros Hr. destruct eval_repr_ev as [ev|] eqn:E; [|vm_compute in E; discriminate E].
    apply (builtin (fun _ => false) fn_repr ev); [exact Hr|known| |].
    - vm_compute in E. injection E as <-. vm_compute. reflexivity.
    - unfold eval_repr, v_variable. rewrite E. destruct (foldM v_statement l (fn_env, cas_diff)) as [[env q]|]; cbn [bind]; [|reflexivity]. destruct (getitem env i); reflexivity.
  Qed.
  Theorem C83_latex l i s : ready s -> exists n, forall fuel, n <= fuel ->
    computes s (o_rsession (fun _ => false) names fuel (fn_latex ++ map RDo l ++ [REval 0 i None])) (do u <- v_variable l i; eval_latex u) (fun _ o text => snd o = [text]).
  Proof.
    intros Hr. destruct eval_latex_ev as [ev|] eqn:E; [|vm_compute in E; discriminate E].
    apply (builtin (fun _ => false) fn_latex ev); [exact Hr|known| |].
    - vm_compute in E. injection E as <-. vm_compute. reflexivity.
    - unfold eval_latex, v_variable. rewrite E. destruct (foldM v_statement l (fn_env, cas_diff)) as [[env q]|]; cbn [bind]; [|reflexivity]. destruct (getitem env i); reflexivity.
  Qed.
  Theorem C83_floats {F} (o : float_ops F) l i vals s : ready s -> exists n, forall fuel, n <= fuel ->
    computes s (o_rsession (fun _ => false) names fuel (fn_f64 o ++ map RDo l ++ [REval 0 i vals]))
      (do (env, _) <- foldM v_statement l (fn_env, cas_diff); do u <- getitem env i; do d <- v_rvalues env vals; eval_f64 o u d) (fun _ r v => snd r = [v]).
  Proof.
    intros Hr. destruct (eval_f64_ev o) as [ev|] eqn:E; [|vm_compute in E; discriminate E].
    apply (builtin (fun _ => false) (fn_f64 o) ev); [exact Hr|known| |].
    - vm_compute in E. injection E as <-. vm_compute. reflexivity.
    - unfold eval_f64. rewrite E. reflexivity.
  Qed.
End Library.


(** ** A case: thread 1 is about to store its own object for the Atom of Symbol("x"), while thread 0 runs this program:
      x = Symbol("x"); y = Symbol("y"); f = Function("f"); g = Function("g"); a = Wild("a"); b = Wild("b");
      ev = new_evaluator("ev"); ev[Integer[a]] = PyFunc1(int)(a); ev[f(a, b)] = PyOp2(-)(a, b); ev[g(star(a))] = PyOpN(sum)(a);
      e = g(f(x, 1), f(x, 1), y); ev(e, {x: 10, y: 3}); ev(e, {x: 10, y: 3, x: 20}); ev[f(a, b)] = PyOp2(+)(a, b); ev(e, {x: 10, y: 3}) *)
Definition rc_names (n : nat) : string :=
  if Nat.eqb n (ty_id T_Integer) then "Integer" else if Nat.eqb n (ty_id T_Symbol) then "Symbol" else if Nat.eqb n (ty_id T_Function) then "Function"
  else if Nat.eqb n (ty_id T_Wild) then "Wild" else "Star".
Definition rc_int (v : pyval) : res Z := match v with VInt z => Ok z | VStr _ => Err TypeError end.
Definition rc_two (f : Z -> Z -> Z) : callable Z := fun args => match args with [AVal a; AVal b] => Ok (f a b) | _ => Err TypeError end.
Definition rc_sum : callable Z := fun args => match args with [ASeq l] => Ok (fold_left Z.add l 0%Z) | _ => Err TypeError end.
Definition rc_program : list (rstatement Z) :=
  [RDo (SSymbol "x"); RDo (SSymbol "y"); RDo (SFunction "f"); RDo (SFunction "g"); RWild "a"; RWild "b"; REvaluator;
   RSet 0 (RPAtomValue T_Integer 4) (PyFunc1 rc_int) [4];
   RDo (SCall 2 [OE 4; OE 5]); RSet 0 (RPSym 6) (PyOp2 (rc_two Z.sub)) [4; 5];
   RStar 4; RDo (SCall 3 [OE 7]); RSet 0 (RPSym 8) (PyOpN rc_sum) [4];
   RDo (SCall 2 [OE 0; OI 1]); RDo (SCall 3 [OE 9; OE 9; OE 1]);
   REval 0 10 (Some [(0, 10%Z); (1, 3%Z)]); REval 0 10 (Some [(0, 10%Z); (1, 3%Z); (0, 20%Z)]);
   RSet 0 (RPSym 6) (PyOp2 (rc_two Z.add)) [4; 5]; REval 0 10 (Some [(0, 10%Z); (1, 3%Z)])].
Definition rc_f (u v : tree) := Node [Function "f"; u; v].
Definition rc_g (l : list tree) := Node (Function "g" :: l).
Example C83_case : rule_names rc_names /\
  (exists s, ready true (fun _ => True) 0 s /\ at_ (threads s 1) = Made (KAtom (ty_id T_Symbol) (VStr "x")) 0) /\
  known_types rc_program /\
  v_rsession (fun _ => false) rc_program = Ok
    ([Symbol "x"; Symbol "y"; Function "f"; Function "g"; new_wild "a"; new_wild "b"; rc_f (new_wild "a") (new_wild "b"); star (new_wild "a");
      rc_g [star (new_wild "a")]; rc_f (Symbol "x") one; rc_g [rc_f (Symbol "x") one; rc_f (Symbol "x") one; Symbol "y"]], [21; 41; 25]%Z) /\
  v_rsession (fun _ => false) (rc_program ++ [REval 0 10 None]) = Err NoEvaluationRuleError /\
  v_rsession (fun _ => false) (rc_program ++ [RSet 0 (RPSym 6) (PyOp2 (rc_two Z.sub)) [5; 4]]) = Err BadRuleError.
Proof.
  split; [split; [repeat constructor|reflexivity]|]. split; [|split].
  - destruct (PropsIntern.run_case pyval_eqb true (fun _ => True)
      [PropsIntern.ACall 1 (KAtom (ty_id T_Symbol) (VStr "x")); PropsIntern.AMove 1 0; PropsIntern.AMove 1 0]
      (fun s => at_ (threads s 0) = Idle /\ at_ (threads s 1) = Made (KAtom (ty_id T_Symbol) (VStr "x")) 0)) as (s & R & H0 & H1); [PropsIntern.all_may|vm_compute; tauto|].
    exists s. split; [split; assumption|exact H1].
  - intros k ty i op args H. cbn [rc_program In] in H. repeat (destruct H as [H|H]; [first [discriminate H|injection H as <- <- <- <- <-; cbn [In]; tauto]|]). destruct H.
  - vm_compute. repeat split; reflexivity.
Qed.
Print Assumptions C83_rule_programs.
Print Assumptions C83_same_output.
Print Assumptions C83_str.
Print Assumptions C83_latex.
Print Assumptions C83_floats.
