(** * C114. lambdify on shared objects, with threads and a collector: the generated code. *)
From Verif Require Import Py ModelTree SpecTree ModelIntern SpecIntern ModelEval ModelDiff ModelSym ModelCas ModelApi ProofBase ProofIntern ModelObjects SpecObjects
  ModelObjEval SpecObjEval ModelMatrix SpecMatrix ModelObjExpr SpecObjExpr ModelObjMatrix SpecObjMatrix ModelLLVM SpecLLVM SpecLambdify ModelObjLLVM SpecObjLLVM
  ProofTopo ProofObjects ProofObjTree ProofObjEval ProofObjExpr ProofObjMatrix ProofMatrix ProofLLVMMatrix ProofGoodMatrix ProofObjLLVM.
From Verif Require PropsIntern PropsObjExpr PropsObjMatrix PropsLLVM.
From Coq Require Import Floats.SpecFloat.
Local Open Scope string_scope.

Section Props.
  Context (names : nat -> string) (atomic : bool) (who : nat -> Prop) (t : nat).
  Context (Hsafe : safe atomic who) (Hwho : who t) (Hnames : cas_names names).
  Notation has_expr := (has_expr names t).
  Notation ready := (ready atomic who t).
  Notation always := (always atomic who t).
  Notation computes := (computes atomic who t).
  Implicit Types (s : state pyval).

  (** A program that compiles expressions and matrices, after the import of the library: among any other threads it ends as its meaning on values says.
      Its variables hold those expressions and matrices, and it has given llvmlite exactly those texts, in that order; or it raises the same exception. *)
  Theorem C114_lambdify_programs l s : ready s ->
    exists n, forall fuel, n <= fuel -> computes s (o_csession fuel l) (v_csession l)
      (fun s' r v => Forall2 (has_expr s') (fst (fst r)) (fst (fst v)) /\ Forall2 (has_matrix names t s') (snd (fst r)) (snd (fst v)) /\ snd r = snd v).
  Proof.
    intros Hr. destruct (csession_ref names atomic who t Hsafe Hwho Hnames l) as (n & H). exists n. intros fuel Hf.
    apply (ref_weaken atomic who t Hwho _ _ _ _ _ Hr (H fuel Hf s Hr)). intros s1 a b _ _ [[H1 H2] H3]. auto.
  Qed.
  (** The code computes the expression: after any program, [lambdify([v, w], u)] gives llvmlite a text that, compiled and called with numbers for the
      arguments, returns the value of the expression that [u] then is, where the symbols that [v], [w] then are have those numbers. *)
  Theorem C114_code_computes l args i s env ms out symargs e : ready s ->
    v_csession l = Ok (env, ms, out) -> mapM (getitem env) args = Ok symargs -> getitem env i = Ok e -> good_names symargs ->
    (forall mc vals, length vals = length symargs -> exists v, machine_value mc symargs vals e = Some v) ->
    exists n, forall fuel, n <= fuel -> always (o_csession fuel (l ++ [CLambdify args i])%list) s (fun _ r => exists oenv oms text, r = Ok (oenv, oms, (out ++ [text])%list) /\
      forall mc vals m, length vals = length symargs -> exists v, machine_value mc symargs vals e = Some v /\ run_text mc text "jit_func1" (map VF vals) m = Some (Some v, m)).
  Proof.
    intros Hr El Ea Ei Hg Hv.
    destruct (proj2 (PropsLLVM.C46_accepted symargs e)) as (text & Et).
    { split; [|exact Hv]. destruct Hg as (ns & Hn & _). exists ns. exact Hn. }
    assert (E : exists env' ms', v_csession (l ++ [CLambdify args i]) = Ok (env', ms', (out ++ [text])%list)).
    { unfold v_csession in *. destruct (foldM v_cstatement l _) as [[[[env0 q] ms0] out0]|] eqn:Ef; [|discriminate]. cbn [bind fst snd] in El. injection El as -> -> ->.
      rewrite foldM_app, Ef. cbn [bind foldM v_cstatement]. rewrite Ea. cbn [bind]. rewrite Ei. cbn [bind]. rewrite Et. cbn [bind fst snd]. eauto. }
    destruct E as (env' & ms' & E). destruct (C114_lambdify_programs (l ++ [CLambdify args i]) s Hr) as (n & H). exists n. intros fuel Hf.
    destruct (H fuel Hf) as [X Y]. split; [exact X|]. intros s' r Hrun. specialize (Y s' r Hrun). rewrite E in Y. destruct r as [[[oenv oms] o]|]; [|destruct Y].
    destruct Y as (_ & _ & Y). cbn [snd] in Y. subst o. exists oenv, oms, text. split; [reflexivity|]. intros mc vals m Hl.
    exact (PropsLLVM.C46_code_computes_the_expression symargs e text Hg Et mc vals m Hl).
  Qed.
End Props.

(** The text for a matrix is that of ModelLLVM.v, on its heap of lists and dicts, which it does not change. *)
Theorem C114_matrix_meaning symargs m h : to_llvm_f64_matrix symargs m h = (v_to_llvm_f64_matrix symargs (attributes m h), h).
Proof.
  unfold to_llvm_f64_matrix, v_to_llvm_f64_matrix. cbn [attributes vm_graph vm_ncols vm_entrymap]. unfold hbind, hlift, hret, read_dict.
  destruct (bin_expand (m_graph m)) as [u|e]; cbn [bind]; [|reflexivity].
  destruct (forward_graph u) as [gr|e]; cbn [bind]; [|reflexivity].
  destruct (llvm_argnames symargs) as [d|e]; cbn [bind]; [|reflexivity].
  destruct (mapM (atom_identifier symargs d) (g_atoms gr)) as [ids|e]; cbn [bind]; [|reflexivity].
  destruct (mapM _ symargs) as [args|e]; cbn [bind]; [|reflexivity].
  destruct (foldM llvm_op _ _) as [[ids' ins]|e]; cbn [bind]; [|reflexivity].
  destruct (last_item _) as [[f ns]|e]; cbn [bind]; [|reflexivity].
  destruct (foldM (llvm_store _ _ _) _ _) as [[k ins']|e]; cbn [bind]; reflexivity.
Qed.

Section Props.
  Context (names : nat -> string) (atomic : bool) (who : nat -> Prop) (t : nat).
  Context (Hsafe : safe atomic who) (Hwho : who t) (Hnames : cas_names names).
  Notation ready := (ready atomic who t).
  Notation always := (always atomic who t).
  Implicit Types (s : state pyval).

  (** The same for matrices: after any program, [lambdify([v, w], M)] gives llvmlite a text that, compiled and called with the address of an output full of
      zeros and with numbers for the arguments, writes at each place the value of that entry of the matrix that [M] then is, and nothing elsewhere. *)
  Theorem C114_matrix_code l args k s env ms out symargs U : ready s ->
    v_csession l = Ok (env, ms, out) -> mapM (getitem env) args = Ok symargs -> getitem ms k = Ok U ->
    good_names symargs -> (forall a, In a symargs -> tree_str a <> Ok "_out") -> ~ In (Integer 0) symargs ->
    let size := (Z.of_nat (vm_nrows U) * Z.of_nat (vm_ncols U))%Z in (size <= 2 ^ 31)%Z ->
    (forall mc vals e, length vals = length symargs -> In e (vm_elements U) -> exists v, machine_value mc symargs vals e = Some v) ->
    exists n, forall fuel, n <= fuel -> always (o_csession fuel (l ++ [CLambdifyMatrix args k])%list) s (fun _ r => exists oenv oms text, r = Ok (oenv, oms, (out ++ [text])%list) /\
      forall mc vals mem p0, length vals = length symargs -> (forall q, (p0 <= q < p0 + size)%Z -> mem q = S754_zero false) ->
      exists mem', run_text mc text "jit_func1" (VP p0 :: map VF vals) mem = Some (None, mem') /\
        (forall i j, (0 <= i < Z.of_nat (vm_nrows U))%Z -> (0 <= j < Z.of_nat (vm_ncols U))%Z -> exists e, vm_getitem zero U i j = Ok e /\
           machine_value mc symargs vals e = Some (mem' (p0 + (i * Z.of_nat (vm_ncols U) + j))%Z)) /\
        (forall q, ~ (p0 <= q < p0 + size)%Z -> mem' q = mem q)).
  Proof.
    intros Hr El Ea EU Hg Ho Hz size Hs Hv.
    assert (G : good_matrix U).
    { unfold v_csession in El. destruct (foldM v_cstatement l _) as [st|] eqn:Ef; [|discriminate]. cbn [bind] in El. injection El as _ E _.
      apply good_cstatements in Ef as [_ G]; [|split; [left; reflexivity|constructor]]. rewrite E in G. rewrite Forall_forall in G. apply G.
      unfold getitem in EU. destruct (nth_error ms k) eqn:En; [|discriminate]. injection EU as ->. eapply nth_error_In; eassumption. }
    pose (h := mkHeap [vm_elements U] [vm_entrymap U]). pose (m := mkMatrix (vm_nrows U) (vm_ncols U) 0 (vm_graph U) 0).
    assert (Hw : wf h m). { split; [cbn; lia|]. split; [cbn; lia|]. exact G. }
    assert (Eu : attributes m h = U) by (destruct U; reflexivity).
    assert (Hn : exists ns, mapM tree_str symargs = Ok ns) by (destruct Hg as (ns & X & _); eauto). destruct Hn as (ns & Hn).
    destruct (matrix_total symargs ns m h (mkMachine (fun a _ => a) (fun a _ => a) (fun a _ => a) (fun a => a) (fun a => a)) (repeat S754_nan (length symargs)) Hw Hn (repeat_length _ _)) as (text & Et).
    { intros e He. destruct (Hv (mkMachine (fun a _ => a) (fun a _ => a) (fun a _ => a) (fun a => a) (fun a => a)) (repeat S754_nan (length symargs)) e (repeat_length _ _) He) as (v & ->). discriminate. }
    pose proof Et as Ev. rewrite C114_matrix_meaning, Eu in Ev. assert (Ev0 : v_to_llvm_f64_matrix symargs U = Ok text) by congruence. clear Ev. rename Ev0 into Ev.
    assert (E : exists env' ms', v_csession (l ++ [CLambdifyMatrix args k]) = Ok (env', ms', (out ++ [text])%list)).
    { unfold v_csession in *. destruct (foldM v_cstatement l _) as [[[[env0 q] ms0] out0]|] eqn:Ef; [|discriminate]. cbn [bind fst snd] in El. injection El as -> -> ->.
      rewrite foldM_app, Ef. cbn [bind foldM v_cstatement]. rewrite Ea. cbn [bind]. rewrite EU. cbn [bind]. rewrite Ev. cbn [bind fst snd]. eauto. }
    destruct E as (env' & ms' & E). destruct (C114_lambdify_programs names atomic who t Hsafe Hwho Hnames (l ++ [CLambdifyMatrix args k]) s Hr) as (n & H). exists n. intros fuel Hf.
    destruct (H fuel Hf) as [X Y]. split; [exact X|]. intros s' r Hrun. specialize (Y s' r Hrun). rewrite E in Y. destruct r as [[[oenv oms] o]|]; [|destruct Y].
    destruct Y as (_ & _ & Y). cbn [snd] in Y. subst o. exists oenv, oms, text. split; [reflexivity|]. intros mc vals mem p0 Hl Hmem.
    destruct (PropsLLVM.zeros_wf h m symargs text h Hw Hg Ho Hz Hs Et mc vals mem p0 Hl Hmem) as (mem' & R1 & R2 & R3). exists mem'. split; [exact R1|]. split; [|exact R3].
    intros i j Hi Hj. destruct (R2 i j (conj Hi Hj)) as (e & E1 & E2). exists e. split; [|exact E2]. rewrite <- Eu, <- E1. symmetry. apply PropsObjMatrix.get_gives.
  Qed.
End Props.

(** ** A case, with another thread in the middle of making Symbol("x"):
      x = Symbol("x"); y = Symbol("y"); f = Function("sin"); v3 = f(x); v4 = v3**2; v5 = x*y; v6 = v5 + v4; lambdify([x, y], v6);
      M0 = Matrix([[x, 0], [v6, 1]]); lambdify([x, y], M0) *)
Definition xl_program : list cstatement :=
  [CMatrix (MExpr (SSymbol "x")); CMatrix (MExpr (SSymbol "y")); CMatrix (MExpr (SFunction "sin")); CMatrix (MExpr (SCall 2 [OE 0]));
   CMatrix (MExpr (SBinop OpPow 3 (OI 2))); CMatrix (MExpr (SBinop OpMul 0 (OE 1))); CMatrix (MExpr (SBinop OpAdd 5 (OE 4)));
   CLambdify [0; 1] 6; CMatrix (MNew [[OE 0; OI 0]; [OE 6; OI 1]]); CLambdifyMatrix [0; 1] 0].
Definition xl_e : tree := Node [Add; Node [Mul; Symbol "x"; Symbol "y"]; Node [Pow; Node [Function "sin"; Symbol "x"]; Integer 2]].
Example C114_case : cas_names PropsObjExpr.xc_names /\
  (exists s, ready true (fun _ => True) 0 s /\ at_ (threads s 1) = Made (KAtom (ty_id T_Symbol) (VStr "x")) 0) /\
  (exists env M text1 text2, v_csession xl_program = Ok (env, [M], [text1; text2]) /\ mapM (getitem env) [0; 1] = Ok [Symbol "x"; Symbol "y"] /\ getitem env 6 = Ok xl_e /\
     (forall mc a b m, run_text mc text1 "jit_func1" [VF a; VF b] m = Some (Some (mc_add mc (mc_mul mc a b) (mc_pow mc (mc_sin mc a) PropsLLVM.two)), m)) /\
     (forall mc a b, exists mem', run_text mc text2 "jit_func1" [VP 100; VF a; VF b] (fun _ => S754_zero false) = Some (None, mem') /\
        map mem' [99; 100; 101; 102; 103; 104]%Z =
          [S754_zero false; a; S754_zero false; mc_add mc (mc_mul mc a b) (mc_pow mc (mc_sin mc a) PropsLLVM.two); S754_finite false (2 ^ 52) (-52); S754_zero false])) /\
  good_names [Symbol "x"; Symbol "y"] /\ (forall a, In a [Symbol "x"; Symbol "y"] -> tree_str a <> Ok "_out") /\ ~ In (Integer 0) [Symbol "x"; Symbol "y"] /\
  (forall mc vals, length vals = 2 -> exists v, machine_value mc [Symbol "x"; Symbol "y"] vals xl_e = Some v) /\
  v_csession (xl_program ++ [CLambdify [1] 6]) = Err LLVMNotImplementedError /\ v_csession (xl_program ++ [CLambdifyMatrix [1] 0]) = Err LLVMNotImplementedError /\
  v_csession (xl_program ++ [CLambdify [0] 2]) = Err LLVMNotImplementedError /\ v_csession (xl_program ++ [CLambdify [0] 7]) = Err IndexError.
Proof.
  destruct PropsObjExpr.C72_case as (H1 & H2 & _). split; [exact H1|]. split; [exact H2|]. split.
  { eexists _, _, _, _. split; [vm_compute; reflexivity|]. split; [reflexivity|]. split; [reflexivity|]. split.
    - intros mc a b m. vm_compute. reflexivity.
    - intros mc a b. eexists. split; [vm_compute; reflexivity|]. vm_compute. reflexivity. }
  split.
  { exists ["x"; "y"]. split; [reflexivity|]. split.
    { repeat (apply NoDup_cons; [cbn [In]; intuition discriminate|]). apply NoDup_nil. }
    split; [repeat constructor; discriminate|]. intros k [H|[H|[]]]; discriminate. }
  split; [intros a [<-|[<-|[]]]; discriminate|]. split; [intros [H|[H|[]]]; discriminate|]. split.
  { intros mc [|a [|b [|]]] E; try discriminate. eexists. reflexivity. }
  repeat split; vm_compute; reflexivity.
Qed.
Print Assumptions C114_lambdify_programs.
Print Assumptions C114_code_computes.
Print Assumptions C114_matrix_meaning.
Print Assumptions C114_matrix_code.
