(** * Proofs about compiled functions in a process *)
From Coq Require Import SpecFloat.
From Verif Require Import Py ModelTree SpecTree ProofBase ModelDiff ModelSym ModelCas ModelMatrix SpecMatrix ProofMatrix ProofSympy
  PropsMatrix ModelLLVM SpecLLVM SpecLambdify PropsLLVM ModelJit SpecJit.
Local Open Scope string_scope.

(** ** Instructions do not read the memory *)
Definition writes := list (Z * spec_float).
Definition apply (ws : writes) (m : memory) : memory := fold_left (fun m kv => set_mem m (fst kv) (snd kv)) ws m.
Definition nowhere : memory := fun _ => S754_nan.
Definition effect (mc : machine) (decl : list (string * nat)) (i : instr) (r : vars) : option (vars * writes) :=
  match i with
  | IStore a p => match operand_value r a, lookup r p with Some u, Some (VP k) => Some (r, [(k, u)]) | _, _ => None end
  | _ => match exec mc decl i r nowhere with Some (r', _) => Some (r', []) | None => None end
  end.
Lemma exec_effect mc decl i r m :
  exec mc decl i r m = match effect mc decl i r with Some (r', ws) => Some (r', apply ws m) | None => None end.
Proof.
  destruct i as [d a b|d a b|d f args|d b n|a q|a|]; cbn [effect exec]; try reflexivity.
  - destruct (operand_value r a) as [u|]; [|reflexivity]. destruct (operand_value r b) as [v|]; [|reflexivity].
    destruct (define d (VF (mc_add mc u v)) r); reflexivity.
  - destruct (operand_value r a) as [u|]; [|reflexivity]. destruct (operand_value r b) as [v|]; [|reflexivity].
    destruct (define d (VF (mc_mul mc u v)) r); reflexivity.
  - destruct (dict_get String.eqb decl f) as [n|]; [|reflexivity]. destruct (operand_values r args) as [vs|]; [|reflexivity].
    destruct (Nat.eqb n (length vs)); [|reflexivity]. destruct (define_double d (intrinsic mc f vs) r); reflexivity.
  - destruct (lookup r b) as [[u|k]|]; try reflexivity. destruct (define d (VP (k + n)) r); reflexivity.
  - destruct (operand_value r a) as [u|]; [|reflexivity]. destruct (lookup r q) as [[v|k]|]; reflexivity.
Qed.
(** The rest of a body: the result and what it writes. *)
Fixpoint run_rest (mc : machine) (decl : list (string * nat)) (void : bool) (body : list instr) (r : vars) : option (option spec_float * writes) :=
  match body with
  | [] => None
  | [IRet a] => if void then None else match operand_value r a with Some f => Some (Some f, []) | None => None end
  | [IRetVoid] => if void then Some (None, []) else None
  | i :: rest => match effect mc decl i r with
                 | Some (r', ws) => match run_rest mc decl void rest r' with Some (res, ws') => Some (res, ws ++ ws')%list | None => None end
                 | None => None
                 end
  end.
Lemma apply_app (ws ws' : writes) m : apply (ws ++ ws')%list m = apply ws' (apply ws m).
Proof. apply fold_left_app. Qed.
Lemma exec_body_rest mc decl void body : forall r m,
  exec_body mc decl void body r m =
  match run_rest mc decl void body r with Some (res, ws) => Some (res, apply ws m) | None => None end.
Proof.
  induction body as [|i rest IH]; intros r m; [reflexivity|].
  assert (G : match exec mc decl i r m with Some (r', m') => exec_body mc decl void rest r' m' | None => None end =
    match match effect mc decl i r with
          | Some (r', ws) => match run_rest mc decl void rest r' with Some (res, ws') => Some (res, ws ++ ws')%list | None => None end
          | None => None end with Some (res, ws) => Some (res, apply ws m) | None => None end).
  { rewrite exec_effect. destruct (effect mc decl i r) as [[r' ws]|]; [|reflexivity]. rewrite IH.
    destruct (run_rest mc decl void rest r') as [[res ws']|]; [|reflexivity]. rewrite apply_app. reflexivity. }
  destruct i as [d a b|d a b|d f args|d b n|a q|a|]; try exact G; (destruct rest as [|j rest]; [|exact G]); cbn [exec_body run_rest].
  - destruct void; [reflexivity|]. destruct (operand_value r a); reflexivity.
  - destruct void; reflexivity.
Qed.

Lemma apply_other ws : forall m k, ~ In k (map fst ws) -> apply ws m k = m k.
Proof.
  induction ws as [|[k0 v0] ws IH]; intros m k H; [reflexivity|]. cbn [apply fold_left fst snd]. fold (apply ws (set_mem m k0 v0)).
  cbn [map fst In] in H. rewrite IH by tauto. unfold set_mem. destruct (Z.eqb_spec k k0) as [->|_]; [tauto|reflexivity].
Qed.
Lemma apply_ext ws : forall m m' k, m k = m' k -> apply ws m k = apply ws m' k.
Proof.
  induction ws as [|[k0 v0] ws IH]; intros m m' k H; [exact H|]. cbn [apply fold_left fst snd]. apply IH.
  unfold set_mem. destruct (Z.eqb k k0); [reflexivity|exact H].
Qed.
Lemma apply_written ws k : In k (map fst ws) -> exists v, forall m, apply ws m k = v.
Proof.
  induction ws as [|[k0 v0] ws IH]; intros H; [destruct H|]. cbn [map fst In] in H.
  destruct (in_dec Z.eq_dec k (map fst ws)) as [Hi|Hi].
  - destruct (IH Hi) as (v & Hv). exists v. intros m. apply Hv.
  - destruct H as [<-|H]; [|tauto]. exists v0. intros m. cbn [apply fold_left fst snd]. fold (apply ws (set_mem m k0 v0)).
    rewrite apply_other by exact Hi. unfold set_mem. rewrite Z.eqb_refl. reflexivity.
Qed.
Definition differs (v : spec_float) : spec_float := match v with S754_nan => S754_zero false | _ => S754_nan end.
Lemma differs_ne v : differs v <> v.
Proof. destruct v; discriminate. Qed.
Lemma no_writes ws : (forall m, apply ws m = m) -> ws = [].
Proof.
  intros H. destruct ws as [|[k v] ws]; [reflexivity|]. exfalso.
  destruct (apply_written ((k, v) :: ws) k (or_introl eq_refl)) as (u & Hu).
  apply (differs_ne u). specialize (Hu (fun _ => differs u)). rewrite H in Hu. exact Hu.
Qed.

(** ** Addresses in blocks *)
Definition owners (k : Z) (l : list block) : nat := length (filter (fun b => in_block b k) l).
Lemma owners_app k l l' : owners k (l ++ l')%list = owners k l + owners k l'.
Proof. unfold owners. rewrite filter_app, app_length. reflexivity. Qed.
Lemma owners_cons k b l : owners k (b :: l) = (if in_block b k then 1 else 0) + owners k l.
Proof. unfold owners. cbn [filter]. destruct (in_block b k); reflexivity. Qed.
Lemma owners_in k l b : In b l -> in_block b k = true -> 1 <= owners k l.
Proof.
  intros H Hk. apply in_split in H as (l1 & l2 & ->). rewrite owners_app, owners_cons, Hk. lia.
Qed.
Lemma owners_none k l : (forall b, In b l -> in_block b k = false) -> owners k l = 0.
Proof.
  induction l as [|b l IH]; intros H; [reflexivity|]. rewrite owners_cons, (H b (or_introl eq_refl)), IH; [reflexivity|].
  intros b' Hb'. apply H. right. exact Hb'.
Qed.

Lemma set_nth_out {A} (l : list A) i a : length l <= i -> set_nth_any l i a = l.
Proof. intros H. unfold set_nth_any. rewrite skipn_all2, firstn_all2, app_nil_r by exact H. reflexivity. Qed.
Lemma set_nth_other {A} (l : list A) i a k d : k <> i -> nth k (set_nth_any l i a) d = nth k l d.
Proof.
  intros H. destruct (Nat.lt_ge_cases i (length l)) as [Hi|Hi]; [|rewrite set_nth_out by exact Hi; reflexivity].
  rewrite set_nth_any_nth by exact Hi. destruct (Nat.eqb_spec k i); [congruence|reflexivity].
Qed.

Section Invariant.
  Context (mc : machine).

  Definition fits (args : list tree) (m : matrix) : Prop :=
    (forall s, In s args -> tree_str s <> Ok "_out") /\ ~ In (Integer 0) args /\
    (Z.of_nat (m_nrows m) * Z.of_nat (m_ncols m) <= 2 ^ 31)%Z.
  Definition text_ok (p : process) (f : jitfun) (text : string) : Prop :=
    good_names (j_args f) /\
    match j_what f with
    | WExpr e => to_llvm_f64 (j_args f) e = Ok text
    | WMatrix m => exists h0 ms0 h1, history h0 ms0 /\ In m ms0 /\ steps h0 ms0 (p_heap p) (p_mats p) /\ fits (j_args f) m /\
        to_llvm_f64_matrix (j_args f) m h0 = (Ok text, h1)
    end.
  Definition fun_ok (p : process) (f : jitfun) : Prop :=
    In (j_addr f) (p_exe_eng p) /\ exists text, nth (j_addr f) (p_code p) None = Some text /\ text_ok p f text.
  Definition call_ok (p : process) (c : running) : Prop :=
    exists res ws, run_rest mc (r_decl c) (r_void c) (r_rest c) (r_vars c) = Some (res, ws) /\
      match j_what (r_fun c), r_block c with
      | WExpr e, None => ws = [] /\ exists v, res = Some v /\ machine_value mc (j_args (r_fun c)) (r_vals c) e = Some v
      | WMatrix m, Some b => res = None /\ snd b = m_nrows m * m_ncols m /\
          (forall k, In k (map fst ws) -> in_block b k = true) /\ In m (p_mats p) /\
          forall i j, inside m i j -> exists t, get m i j (p_heap p) = Ok t /\
            machine_value mc (j_args (r_fun c)) (r_vals c) t = Some (apply ws (p_mem p) (fst b + (i * Z.of_nat (m_ncols m) + j))%Z)
      | _, _ => False
      end.
  Definition pinv (p : process) : Prop :=
    history (p_heap p) (p_mats p) /\
    (forall a, In a (p_exe_eng p) -> exists text, nth a (p_code p) None = Some text) /\
    (forall f, In f (p_funs p) -> fun_ok p f) /\
    (forall c, In c (p_calls p) -> call_ok p c) /\
    (forall k, owners k (blocks p) <= 1).

  Lemma steps_trans h ms h1 ms1 h2 ms2 : steps h ms h1 ms1 -> steps h1 ms1 h2 ms2 -> steps h ms h2 ms2.
  Proof. intros H1 H2. induction H2 as [|h1 ms1 h2 ms2 h3 ms3 _ IH Hs]; [exact H1|]. eapply steps_more; [apply IH, H1|exact Hs]. Qed.

  Lemma in_block_spec b k : in_block b k = true <-> (fst b <= k < fst b + Z.of_nat (snd b))%Z.
  Proof. unfold in_block. rewrite andb_true_iff, Z.leb_le, Z.ltb_lt. lia. Qed.
  Lemma inside_block m i j p0 : inside m i j -> in_block (p0, m_nrows m * m_ncols m) (p0 + (i * Z.of_nat (m_ncols m) + j)) = true.
  Proof. intros [H1 H2]. apply in_block_spec. cbn [fst snd]. nia. Qed.

  (** Code that runs, runs when entered. *)
  Lemma enter_runs p f text vals b args res : nth (j_addr f) (p_code p) None = Some text ->
    forall m0 m1, run_text mc text "jit_func1" args m0 = Some (res, m1) ->
    exists c ws, enter p f vals b args = Some c /\ r_fun c = f /\ r_vals c = vals /\ r_block c = b /\
      run_rest mc (r_decl c) (r_void c) (r_rest c) (r_vars c) = Some (res, ws) /\
      forall m, run_text mc text "jit_func1" args m = Some (res, apply ws m).
  Proof.
    intros Hc m0 m1 H. unfold enter. rewrite Hc. unfold run_text in *. destruct (parse text) as [items|]; [|discriminate].
    destruct (functions items) as [|fn [|]]; try discriminate. destruct (String.eqb (f_name fn) "jit_func1"); [|discriminate].
    unfold run_func in *. destruct (bind_params (f_params fn) args []) as [r|]; [|discriminate].
    rewrite exec_body_rest in H. destruct (run_rest mc (declared items) (f_void fn) (f_body fn) r) as [[res' ws]|] eqn:E; [|discriminate].
    injection H as -> _. eexists _, ws. split; [reflexivity|]. cbn [r_fun r_vals r_block r_decl r_void r_rest r_vars].
    repeat (split; [reflexivity|]). split; [exact E|]. intros m. rewrite exec_body_rest, E. reflexivity.
  Qed.

  Definition is_call (f : jitfun) (vals : list spec_float) (c : running) : Prop := r_fun c = f /\ r_vals c = vals.
  (** A held function can be called. *)
  Lemma start_ok p f vals p0 : pinv p -> In f (p_funs p) -> length vals = length (j_args f) ->
    exists c mem, start_call f vals p0 p = Goes (with_call p c mem) /\ is_call f vals c /\
      (forall k, (forall b, r_block c = Some b -> in_block b k = false) -> mem k = p_mem p k) /\
      (forall b, r_block c = Some b -> exists m, j_what f = WMatrix m /\ b = (p0, m_nrows m * m_ncols m)) /\
      call_ok (with_call p c mem) c.
  Proof.
    intros (Hh & Hcode & Hf & Hc & Ho) Hin Hl. destruct (Hf f Hin) as (Ha & text & Ht & Hg & Hw).
    unfold start_call. rewrite Hl, Nat.eqb_refl. cbn [negb]. unfold call_ok. destruct (j_what f) as [e|m] eqn:Ew.
    - destruct (C46_code_computes_the_expression _ _ _ Hg Hw mc vals nowhere Hl) as (v & Hv & Hr).
      destruct (enter_runs p f text vals None _ _ Ht _ _ Hr) as (c & ws & -> & E1 & E2 & E3 & E4 & E5).
      exists c, (p_mem p). split; [reflexivity|]. split; [split; assumption|]. split; [reflexivity|].
      split; [intros b Hb; congruence|]. exists (Some v), ws. split; [exact E4|]. rewrite E1, Ew, E3, E2. split.
      + apply no_writes. intros m0. destruct (C46_code_computes_the_expression _ _ _ Hg Hw mc vals m0 Hl) as (v' & Hv' & Hr').
        rewrite E5 in Hr'. congruence.
      + exists v. split; [reflexivity|exact Hv].
    - destruct Hw as (h0 & ms0 & h1 & Hh0 & Hm0 & Hs & (Hout & Hz & Hsize) & Htext).
      set (b := (p0, m_nrows m * m_ncols m)).
      assert (Hsz : forall k, in_block b k = true <-> (p0 <= k < p0 + Z.of_nat (m_nrows m) * Z.of_nat (m_ncols m))%Z).
      { intros k. rewrite in_block_spec. unfold b. cbn [fst snd]. rewrite Nat2Z.inj_mul. reflexivity. }
      pose proof (C48_zeros h0 ms0 m _ text h1 Hh0 Hm0 Hg Hout Hz Hsize Htext mc vals) as Hrun. cbv zeta in Hrun.
      set (mem := fill_zeros b (p_mem p)).
      assert (Hzero : forall k, (p0 <= k < p0 + Z.of_nat (m_nrows m) * Z.of_nat (m_ncols m))%Z -> mem k = S754_zero false).
      { intros k Hk. unfold mem, fill_zeros. apply Hsz in Hk. rewrite Hk. reflexivity. }
      destruct (Hrun mem p0 Hl Hzero) as (mem' & Hr & Hval & _).
      destruct (enter_runs p f text vals (Some b) _ _ Ht _ _ Hr) as (c & ws & -> & E1 & E2 & E3 & E4 & E5).
      exists c, mem. split; [reflexivity|]. split; [split; assumption|]. split.
      { intros k Hk. unfold mem, fill_zeros. rewrite (Hk b E3). reflexivity. }
      split; [intros b' Hb'; exists m; split; [reflexivity|unfold b in E3; congruence]|].
      exists None, ws. split; [exact E4|]. rewrite E1, Ew, E3, E2. split; [reflexivity|]. split; [reflexivity|]. split; [|split].
      + intros k Hk. destruct (in_block b k) eqn:Eb; [reflexivity|]. exfalso.
        destruct (apply_written ws k Hk) as (u & Hu).
        destruct (Hrun (fun k' => if in_block b k' then S754_zero false else differs u) p0 Hl) as (mem2 & Hr2 & _ & Hout2).
        { intros k' Hk'. apply Hsz in Hk'. rewrite Hk'. reflexivity. }
        rewrite E5 in Hr2. injection Hr2 as <-. apply (differs_ne u).
        specialize (Hout2 k). rewrite Hu, Eb in Hout2. symmetry. apply Hout2. intros Hk'. apply Hsz in Hk'. congruence.
      + cbn [with_call p_mats]. apply (C43_matrices_never_change h0 ms0 _ _ m Hh0 Hm0 Hs).
      + intros i j Hij. destruct (Hval i j Hij) as (t & Hgt & Hmv). exists t. cbn [with_call p_heap p_mem b fst].
        split; [|rewrite E5 in Hr; injection Hr as <-; exact Hmv].
        destruct (C43_matrices_never_change h0 ms0 _ _ m Hh0 Hm0 Hs) as (_ & _ & ->). exact Hgt.
  Qed.

  (** What a step does to one call. *)
  Lemma next_ok p c : call_ok p c ->
    (exists res, next mc c (p_mem p) = Some (Ends res) /\ run_rest mc (r_decl c) (r_void c) (r_rest c) (r_vars c) = Some (res, [])) \/
    (exists c' ws ws' res, next mc c (p_mem p) = Some (Continues c' (apply ws (p_mem p))) /\
       run_rest mc (r_decl c) (r_void c) (r_rest c) (r_vars c) = Some (res, ws ++ ws')%list /\
       r_fun c' = r_fun c /\ r_vals c' = r_vals c /\ r_block c' = r_block c /\
       run_rest mc (r_decl c') (r_void c') (r_rest c') (r_vars c') = Some (res, ws') /\
       S (length (r_rest c')) = length (r_rest c) /\
       (forall k, writes_to c = Some k -> In k (map fst ws))).
  Proof.
    intros (res & ws & H & _). unfold next, writes_to. destruct (r_rest c) as [|i rest] eqn:Er; [discriminate|].
    assert (G : match effect mc (r_decl c) i (r_vars c) with
       | Some (r', w1) => match run_rest mc (r_decl c) (r_void c) rest r' with Some (res', w2) => Some (res', w1 ++ w2)%list | None => None end
       | None => None end = Some (res, ws) ->
       exists c' w1 w2 res', match exec mc (r_decl c) i (r_vars c) (p_mem p) with
         | Some (r', mem') => Some (Continues (mkRunning (r_fun c) (r_vals c) (r_block c) (r_decl c) (r_void c) rest r') mem')
         | None => None end = Some (Continues c' (apply w1 (p_mem p))) /\ Some (res, ws) = Some (res', w1 ++ w2)%list /\
       r_fun c' = r_fun c /\ r_vals c' = r_vals c /\ r_block c' = r_block c /\
       run_rest mc (r_decl c') (r_void c') (r_rest c') (r_vars c') = Some (res', w2) /\
       S (length (r_rest c')) = length (i :: rest) /\
       (forall k, match i with IStore _ q => match lookup (r_vars c) q with Some (VP k) => Some k | _ => None end | _ => None end = Some k -> In k (map fst w1))).
    { rewrite exec_effect. destruct (effect mc (r_decl c) i (r_vars c)) as [[r' w1]|] eqn:Ee; [|discriminate].
      destruct (run_rest mc (r_decl c) (r_void c) rest r') as [[res' w2]|] eqn:Er2; [|discriminate]. intros E. injection E as <- <-.
      eexists _, w1, w2, res'. split; [reflexivity|]. split; [reflexivity|]. cbn [r_fun r_vals r_block r_decl r_void r_rest r_vars].
      repeat (split; [reflexivity|]). split; [exact Er2|]. split; [reflexivity|].
      intros k Hk. destruct i as [| | | |a q| |]; try discriminate. cbn [effect] in Ee.
      destruct (operand_value (r_vars c) a); [|discriminate]. destruct (lookup (r_vars c) q) as [[|k']|]; try discriminate.
      injection Ee as <- <-. injection Hk as ->. left. reflexivity. }
    destruct i as [d a b|d a b|d f args|d b n|a q|a|]; try (right; rewrite H; exact (G H));
      (destruct rest as [|i2 rest]; [left|right; rewrite H; exact (G H)]); cbn [run_rest] in *.
    - destruct (r_void c); [discriminate|]. destruct (operand_value (r_vars c) a) as [v|]; [|discriminate].
      exists (Some v). split; reflexivity.
    - destruct (r_void c); [|discriminate]. exists None. split; reflexivity.
  Qed.

  (** A call is not affected by what happens elsewhere. *)
  Lemma call_frame p p' c : call_ok p c -> history (p_heap p) (p_mats p) -> steps (p_heap p) (p_mats p) (p_heap p') (p_mats p') ->
    (forall k b, r_block c = Some b -> in_block b k = true -> p_mem p' k = p_mem p k) -> call_ok p' c.
  Proof.
    intros (res & ws & H & Hm) Hh Hs Hk. exists res, ws. split; [exact H|].
    destruct (j_what (r_fun c)) as [e|m], (r_block c) as [b|] eqn:Eb; try exact Hm.
    destruct Hm as (-> & H2 & H3 & H4 & H5). split; [reflexivity|]. split; [exact H2|]. split; [exact H3|].
    destruct (C43_matrices_never_change _ _ _ _ m Hh H4 Hs) as (H6 & _ & H7). split; [exact H6|].
    intros i j Hij. destruct (H5 i j Hij) as (t & Ht & Hv). exists t. rewrite H7. split; [exact Ht|]. rewrite Hv. f_equal.
    apply apply_ext. symmetry. apply (Hk _ b eq_refl). destruct b as [p0 n]. cbn [fst snd] in *. subst n. apply inside_block, Hij.
  Qed.
  Lemma fun_frame p p' f : fun_ok p f -> (forall a, In a (p_exe_eng p) -> In a (p_exe_eng p')) ->
    (forall a text, In a (p_exe_eng p) -> nth a (p_code p) None = Some text -> nth a (p_code p') None = Some text) ->
    steps (p_heap p) (p_mats p) (p_heap p') (p_mats p') -> fun_ok p' f.
  Proof.
    intros (H1 & text & H2 & H3 & H4) He Hc Hs. split; [apply He, H1|]. exists text. split; [apply Hc; assumption|]. split; [exact H3|].
    destruct (j_what f); [exact H4|]. destruct H4 as (h0 & ms0 & h1 & G1 & G2 & G3 & G4). exists h0, ms0, h1. repeat (split; [assumption|]).
    split; [eapply steps_trans; eauto|exact G4].
  Qed.

  Lemma blocks_split p c front back : p_calls p = (front ++ c :: back)%list ->
    forall k, owners k (blocks p) = owners k (p_arrays p) + (owners k (flat_map call_block front) + (owners k (call_block c) + owners k (flat_map call_block back))).
  Proof. intros E k. unfold blocks. rewrite E, flat_map_app. cbn [flat_map]. rewrite !owners_app. reflexivity. Qed.

  Lemma happens_inv p ev p' : happens mc p ev p' -> pinv p -> pinv p'.
  Proof.
    intros Hs Hi. pose proof Hi as (Hh & Hcode & Hf & Hc & Ho).
    destruct Hs as [p h ms Hst|p args w r p' Hu E|p f front back E|p a Ha|p f vals p0 p' Hin Hfree E|p c c' mem front back Ec En|p c result front back Ec En|p b k v Hb Hk|p b front back E].
    - assert (S1 : steps (p_heap p) (p_mats p) h ms) by (eapply steps_more; [apply steps_none|exact Hst]).
      split; [eapply steps_trans; [exact Hh|exact S1]|]. split; [exact Hcode|]. split; [|split; [|exact Ho]].
      + intros f Hin. eapply fun_frame; [exact (Hf f Hin)|auto|auto|exact S1].
      + intros c Hin. eapply call_frame; [exact (Hc c Hin)|exact Hh|exact S1|reflexivity].
    - unfold jit_lambdify, compile_llvm in E. destruct (module_code args w p) as [text|x] eqn:Em; [|injection E as <- <-; exact Hi].
      destruct (parse text) as [items|] eqn:Ep; [|injection E as <- <-; exact Hi]. injection E as <- <-.
      set (p' := hold_fun _ _).
      assert (Hnth : forall a text', In a (p_exe_eng p) -> nth a (p_code p) None = Some text' -> nth a (p_code p') None = Some text').
      { intros a text' _ H. cbn [p' hold_fun p_code]. destruct (Nat.lt_ge_cases a (length (p_code p))) as [Hl|Hl].
        - rewrite app_nth1 by exact Hl. exact H. - rewrite nth_overflow in H by exact Hl. discriminate. }
      split; [exact Hh|]. split; [|split; [|split; [|exact Ho]]].
      + intros a Hin. cbn [p' hold_fun p_exe_eng] in Hin. apply in_app_iff in Hin as [Hin|[<-|[]]].
        * destruct (Hcode a Hin) as (t' & H). exists t'. apply Hnth; assumption.
        * exists text. apply nth_end.
      + intros f [<-|Hin].
        * split; [cbn [p' hold_fun p_exe_eng j_addr]; apply in_app_iff; right; left; reflexivity|].
          exists text. split; [apply nth_end|]. destruct Hu as (Hg & Hw). split; [exact Hg|]. cbn [j_what j_args]. unfold module_code in Em.
          destruct w as [e|m]; [exact Em|]. destruct Hw as (W1 & W2). destruct (to_llvm_f64_matrix args m (p_heap p)) as [r1 h1] eqn:Eh. cbn [fst] in Em. subst r1.
          exists (p_heap p), (p_mats p), h1. split; [exact Hh|]. split; [exact W1|]. split; [apply steps_none|]. split; [exact W2|exact Eh].
        * eapply fun_frame; [exact (Hf f Hin)| |exact Hnth|apply steps_none]. intros a Ha. cbn [p' hold_fun p_exe_eng]. apply in_app_iff. left. exact Ha.
      + intros c Hin. eapply call_frame; [exact (Hc c Hin)|exact Hh|apply steps_none|reflexivity].
    - split; [exact Hh|]. split; [exact Hcode|]. split; [|split; [|exact Ho]].
      + intros g Hg. eapply fun_frame; [apply Hf|auto|auto|apply steps_none]. rewrite E. cbn [p_funs] in Hg. apply in_app_iff in Hg. apply in_app_iff. simpl. tauto.
      + intros c Hin. eapply call_frame; [exact (Hc c Hin)|exact Hh|apply steps_none|reflexivity].
    - assert (Hnth : forall a' text', In a' (p_exe_eng p) -> nth a' (p_code p) None = Some text' -> nth a' (set_nth_any (p_code p) a None) None = Some text').
      { intros a' text' Hin H. rewrite set_nth_other; [exact H|]. intros ->. exact (Ha Hin). }
      split; [exact Hh|]. split; [|split; [|split; [|exact Ho]]].
      + intros a' Hin. destruct (Hcode a' Hin) as (t' & H). exists t'. apply Hnth; assumption.
      + intros f Hin. eapply fun_frame; [exact (Hf f Hin)|auto|exact Hnth|apply steps_none].
      + intros c Hin. eapply call_frame; [exact (Hc c Hin)|exact Hh|apply steps_none|reflexivity].
    - destruct (Nat.eq_dec (length vals) (length (j_args f))) as [Hl|Hl].
      2:{ unfold start_call in E. apply Nat.eqb_neq in Hl. rewrite Hl in E. discriminate. }
      destruct (start_ok p f vals p0 Hi Hin Hl) as (c & mem & E1 & [Ef Ev] & Hmem & Hbl & Hok). rewrite E1 in E. injection E as <-.
      assert (Hnew : forall b k, r_block c = Some b -> in_block b k = true -> owners k (blocks p) = 0).
      { intros b k Hb Hk. destruct (Hbl b Hb) as (m & Em & ->). apply owners_none. intros b' Hb'. exact (Hfree m Em b' k Hb' Hk). }
      split; [exact Hh|]. split; [exact Hcode|]. split; [|split].
      + intros g Hg. eapply fun_frame; [exact (Hf g Hg)|auto|auto|apply steps_none].
      + intros c' [<-|Hin']; [exact Hok|]. eapply call_frame; [exact (Hc c' Hin')|exact Hh|apply steps_none|].
        intros k b Hb Hk. cbn [with_call p_mem]. apply Hmem. intros b' Hb'. destruct (in_block b' k) eqn:Ek; [|reflexivity]. exfalso.
        pose proof (Hnew b' k Hb' Ek) as H0. apply in_split in Hin' as (l1 & l2 & El). rewrite (blocks_split p c' l1 l2 El) in H0.
        unfold call_block in H0 at 2. rewrite Hb in H0. rewrite owners_cons, Hk in H0. lia.
      + intros k. unfold blocks. cbn [with_call p_arrays p_calls flat_map]. rewrite !owners_app. specialize (Ho k). unfold blocks in Ho. rewrite owners_app in Ho.
        unfold call_block at 1. destruct (r_block c) as [b|] eqn:Eb; [|cbn; lia]. rewrite owners_cons. destruct (in_block b k) eqn:Ek; [|cbn; lia].
        pose proof (Hnew b k eq_refl Ek) as H0. unfold blocks in H0. rewrite owners_app in H0. cbn. lia.
    - assert (Hin : In c (p_calls p)) by (rewrite Ec; apply in_elt).
      destruct (next_ok p c (Hc c Hin)) as [(res & E1 & _)|(c1 & ws & ws' & res & E1 & E2 & F1 & F2 & F3 & E3 & _ & _)]; [congruence|].
      rewrite E1 in En. injection En as <- <-.
      assert (Hbl : call_block c1 = call_block c) by (unfold call_block; rewrite F3; reflexivity).
      destruct (Hc c Hin) as (res0 & ws0 & E0 & Hm0). rewrite E2 in E0. injection E0 as <- <-.
      assert (Hws : forall k, In k (map fst ws) -> exists b, r_block c = Some b /\ in_block b k = true).
      { intros k Hk. destruct (j_what (r_fun c)) as [e|m], (r_block c) as [b|]; try (destruct Hm0; fail).
        - destruct Hm0 as (H0 & _). apply app_eq_nil in H0 as [-> _]. destruct Hk.
        - exists b. split; [reflexivity|]. apply Hm0. rewrite map_app. apply in_app_iff. left. exact Hk. }
      split; [exact Hh|]. split; [exact Hcode|]. split; [|split].
      + intros g Hg. eapply fun_frame; [exact (Hf g Hg)|auto|auto|apply steps_none].
      + intros c' Hin'. cbn [p_calls] in Hin'.
        assert (Hcases : c' = c1 \/ In c' front \/ In c' back) by (apply in_app_iff in Hin' as [H|[H|H]]; auto).
        destruct Hcases as [->|Hother].
        * exists res, ws'. split; [exact E3|]. rewrite F1, F2, F3. cbn [p_mats p_heap p_mem].
          destruct (j_what (r_fun c)) as [e|m], (r_block c) as [b|]; try exact Hm0.
          -- destruct Hm0 as (H0 & H1). apply app_eq_nil in H0 as [_ ->]. split; [reflexivity|exact H1].
          -- destruct Hm0 as (-> & H2 & H3 & H4 & H5). split; [reflexivity|]. split; [exact H2|]. split; [|split; [exact H4|]].
             ++ intros k Hk. apply H3. rewrite map_app. apply in_app_iff. right. exact Hk.
             ++ intros i j Hij. destruct (H5 i j Hij) as (t & Ht & Hv). exists t. split; [exact Ht|]. rewrite Hv, apply_app. reflexivity.
        * eapply call_frame; [apply (Hc c'); rewrite Ec; apply in_app_iff; simpl; tauto|exact Hh|apply steps_none|].
          intros k b Hb Hk. cbn [p_mem]. apply apply_other. intros Hw. destruct (Hws k Hw) as (b0 & Hb0 & Hk0).
          specialize (Ho k). rewrite (blocks_split p c front back Ec) in Ho. unfold call_block in Ho at 2. rewrite Hb0, owners_cons, Hk0 in Ho.
          assert (Hge : 1 <= owners k (flat_map call_block front) + owners k (flat_map call_block back)); [|lia].
          assert (Hone : forall l, In c' l -> 1 <= owners k (flat_map call_block l)).
          { intros l Hl. apply (owners_in k _ b); [|exact Hk]. apply in_flat_map. exists c'. split; [exact Hl|]. unfold call_block. rewrite Hb. left. reflexivity. }
          destruct Hother as [H|H]; apply Hone in H; lia.
      + intros k. specialize (Ho k). rewrite (blocks_split p c front back Ec) in Ho. unfold blocks. cbn [p_arrays p_calls].
        rewrite flat_map_app. cbn [flat_map]. rewrite !owners_app, Hbl. exact Ho.
    - split; [exact Hh|]. split; [exact Hcode|]. split; [|split].
      + intros g Hg. eapply fun_frame; [exact (Hf g Hg)|auto|auto|apply steps_none].
      + intros c' Hin'. eapply call_frame; [apply (Hc c'); rewrite Ec; cbn [p_calls] in Hin'; apply in_app_iff in Hin'; apply in_app_iff; simpl; tauto|exact Hh|apply steps_none|reflexivity].
      + intros k. specialize (Ho k). rewrite (blocks_split p c front back Ec) in Ho. unfold blocks. cbn [p_arrays p_calls]. rewrite flat_map_app, !owners_app. lia.
    - split; [exact Hh|]. split; [exact Hcode|]. split; [|split; [|exact Ho]].
      + intros g Hg. eapply fun_frame; [exact (Hf g Hg)|auto|auto|apply steps_none].
      + intros c Hin. eapply call_frame; [exact (Hc c Hin)|exact Hh|apply steps_none|]. intros k' b' Hb' Hk'. cbn [p_mem]. unfold set_mem.
        destruct (Z.eqb_spec k' k) as [->|_]; [|reflexivity]. exfalso. specialize (Ho k). apply in_split in Hin as (l1 & l2 & El).
        rewrite (blocks_split p c l1 l2 El) in Ho. unfold call_block in Ho at 2. rewrite Hb', owners_cons, Hk' in Ho.
        pose proof (owners_in k _ b Hb Hk). lia.
    - split; [exact Hh|]. split; [exact Hcode|]. split; [|split].
      + intros g Hg. eapply fun_frame; [exact (Hf g Hg)|auto|auto|apply steps_none].
      + intros c Hin. eapply call_frame; [exact (Hc c Hin)|exact Hh|apply steps_none|reflexivity].
      + intros k. specialize (Ho k). unfold blocks in *. cbn [p_arrays p_calls]. rewrite E, !owners_app, owners_cons in Ho. rewrite !owners_app.
        destruct (in_block b k); lia.
  Qed.
  Lemma life_inv p : life mc p -> pinv p.
  Proof.
    intros H. induction H as [mem|p ev p' _ IH Hs]; [|exact (happens_inv p ev p' Hs IH)].
    split; [apply steps_none|]. split; [intros a []|]. split; [intros f []|]. split; [intros c []|]. intros k. cbn. lia.
  Qed.
End Invariant.
