(** * C91: compiled functions in a running process *)
From Coq Require Import SpecFloat.
From Verif Require Import Py ModelTree SpecTree ProofBase ModelDiff ModelSym ModelCas ModelMatrix SpecMatrix ProofMatrix ProofSympy
  Samples PropsMatrix ModelLLVM SpecLLVM SpecLambdify PropsLLVM ModelJit SpecJit ProofJit.
Local Open Scope string_scope.

(** Whatever happens between the call and its return, a function returns the value of its expression, or an array
    with the values of the entries of its matrix. *)
Theorem C91_calls_return_the_values mc p f vals result b p' : life mc p -> happens mc p (Returned f vals result b) p' ->
  match j_what f with
  | WExpr e => b = None /\ exists v, result = Some v /\ machine_value mc (j_args f) vals e = Some v
  | WMatrix m => result = None /\ In m (p_mats p') /\ exists p0, b = Some (p0, m_nrows m * m_ncols m) /\
      In (p0, m_nrows m * m_ncols m) (p_arrays p') /\
      forall i j, inside m i j -> exists t, get m i j (p_heap p') = Ok t /\
        machine_value mc (j_args f) vals t = Some (p_mem p' (p0 + (i * Z.of_nat (m_ncols m) + j))%Z)
  end.
Proof.
  intros Hl Hs. pose proof (life_inv mc p Hl) as (_ & _ & _ & Hc & _). inversion Hs; subst.
  assert (Hin : In c (p_calls p)) by (match goal with E : p_calls p = _ |- _ => rewrite E; apply in_elt end).
  pose proof (Hc c Hin) as Hok.
  destruct (next_ok mc p c Hok) as [(res & E1 & E2)|(c' & ws & ws' & res & E1 & _)]; [|congruence].
  assert (res = result) by congruence. subst res. destruct Hok as (res0 & ws0 & E0 & Hm). rewrite E2 in E0. injection E0 as <- <-.
  destruct (j_what (r_fun c)) as [e|m], (r_block c) as [b|] eqn:Eb; try (destruct Hm; fail).
  - split; [reflexivity|]. apply Hm.
  - destruct Hm as (-> & G2 & _ & G4 & G5). split; [reflexivity|]. split; [exact G4|]. destruct b as [p0 n]. cbn [snd fst] in *. subst n. exists p0.
    split; [reflexivity|]. split; [|exact G5]. cbn [p_arrays]. unfold call_block. rewrite Eb. left. reflexivity.
Qed.

(** lambdify returns a function for its arguments, which the program then holds, unless no code can be generated
    (C46, C48); code that is generated is accepted. *)
Theorem C91_lambdify mc p args w r p' : life mc p -> usable args w p -> jit_lambdify args w p = (r, p') ->
  match module_code args w p with
  | Ok text => exists f, r = Ok f /\ j_args f = args /\ j_what f = w /\ p_funs p' = f :: p_funs p /\
      nth (j_addr f) (p_code p') None = Some text /\ In (j_addr f) (p_exe_eng p') /\ ~ In (j_addr f) (p_exe_eng p)
  | Err x => r = Err x /\ p' = p
  end.
Proof.
  intros Hl (Hg & Hw) E. unfold jit_lambdify in E. destruct (module_code args w p) as [text|x] eqn:Em; [|injection E as <- <-; auto].
  pose proof (life_inv mc p Hl) as (Hh & Hcode & _).
  assert (Hp : exists items, parse text = Some items).
  { set (vals := map (fun _ => S754_nan) args). assert (Hv : length vals = length args) by apply map_length.
    assert (Hr : exists res0 m0 av, run_text mc text "jit_func1" av (fun _ => S754_zero false) = Some (res0, m0)).
    { unfold module_code in Em. destruct w as [e|m].
      - destruct (C46_code_computes_the_expression _ _ _ Hg Em mc vals (fun _ => S754_zero false) Hv) as (v & _ & Hr). eauto.
      - destruct Hw as (W1 & W2 & W3 & W4). destruct (to_llvm_f64_matrix args m (p_heap p)) as [r1 h1] eqn:Eh. cbn [fst] in Em. subst r1.
        destruct (C48_zeros _ _ m _ text h1 Hh W1 Hg W2 W3 W4 Eh mc vals (fun _ => S754_zero false) 0 Hv (fun _ _ => eq_refl)) as (m' & Hr & _). eauto. }
    destruct Hr as (res0 & m0 & av & Hr). unfold run_text in Hr. destruct (parse text); [eauto|discriminate]. }
  destruct Hp as (items & Hp). unfold compile_llvm in E. rewrite Hp in E. injection E as <- <-. eexists. split; [reflexivity|].
  cbn [j_args j_what j_addr hold_fun p_funs p_code p_exe_eng]. repeat (split; [reflexivity|]). split; [apply nth_end|]. split; [apply in_app_iff; right; left; reflexivity|].
  intros Hin. destruct (Hcode _ Hin) as (t & Ht). rewrite nth_overflow in Ht by apply le_n. discriminate.
Qed.

(** No crash: the code of a function that the program holds is loaded, a call can always go on, and it stores
    inside of its own array only. *)
Theorem C91_never_crashes mc p : life mc p -> ~ crashes mc p.
Proof.
  intros Hl. pose proof (life_inv mc p Hl) as Hi. pose proof Hi as (_ & _ & Hf & Hc & _). intros [(f & vals & p0 & Hin & H)|[(c & Hin & H)|(c & k & Hin & Hw & Hb)]].
  - destruct (Nat.eq_dec (length vals) (length (j_args f))) as [E|E].
    + destruct (start_ok mc p f vals p0 Hi Hin E) as (c & mem & E1 & _). congruence.
    + unfold start_call in H. apply Nat.eqb_neq in E. rewrite E in H. discriminate.
  - destruct (next_ok mc p c (Hc c Hin)) as [(res & E & _)|(c' & ws & ws' & res & E & _)]; congruence.
  - destruct (Hc c Hin) as (res & ws & E & Hm). destruct (next_ok mc p c (Hc c Hin)) as [(res' & E1 & E2)|(c' & ws1 & ws2 & res' & E1 & E2 & _ & _ & _ & _ & _ & Hk)].
    + unfold next, writes_to in *. destruct (r_rest c) as [|i rest]; [discriminate|]. destruct i as [ | | | |a q| |]; try discriminate Hw.
      destruct (exec mc (r_decl c) (IStore a q) (r_vars c) (p_mem p)) as [[]|]; discriminate.
    + specialize (Hk k Hw). rewrite E2 in E. injection E as <- <-. assert (Hk' : In k (map fst (ws1 ++ ws2)%list)) by (rewrite map_app; apply in_app_iff; left; exact Hk).
      destruct (j_what (r_fun c)) as [e|m], (r_block c) as [b|]; try (destruct Hm; fail).
      * destruct Hm as (H0 & _). rewrite H0 in Hk'. destruct Hk'.
      * destruct Hm as (_ & _ & H3 & _). specialize (Hb b eq_refl). rewrite (H3 k Hk') in Hb. discriminate.
Qed.

(** Every call ends: a call with the right number of arguments begins, and each of its steps brings the end nearer. *)
Theorem C91_calls_end mc p : life mc p ->
  (forall f vals p0, In f (p_funs p) -> length vals = length (j_args f) ->
     exists c mem, start_call f vals p0 p = Goes (with_call p c mem) /\ r_fun c = f /\ r_vals c = vals) /\
  (forall f vals p0, length vals <> length (j_args f) -> start_call f vals p0 p = Raises TypeError) /\
  (forall c, In c (p_calls p) ->
     (exists res, next mc c (p_mem p) = Some (Ends res)) \/
     (exists c' mem, next mc c (p_mem p) = Some (Continues c' mem) /\ r_fun c' = r_fun c /\ r_vals c' = r_vals c /\
        r_block c' = r_block c /\ length (r_rest c') < length (r_rest c))).
Proof.
  intros Hl. pose proof (life_inv mc p Hl) as Hi. pose proof Hi as (_ & _ & Hf & Hc & _). split; [|split].
  - intros f vals p0 Hin E. destruct (start_ok mc p f vals p0 Hi Hin E) as (c & mem & E1 & [E2 E3] & _). exists c, mem. auto.
  - intros f vals p0 E. unfold start_call. apply Nat.eqb_neq in E. rewrite E. reflexivity.
  - intros c Hin. destruct (next_ok mc p c (Hc c Hin)) as [(res & E & _)|(c' & ws & ws' & res & E & _ & F1 & F2 & F3 & _ & Hn & _)].
    + left. exists res. exact E.
    + right. exists c', (apply ws (p_mem p)). repeat (split; [assumption|]). lia.
Qed.

(** An array that the program holds changes only where the program writes to it; no call does. *)
Theorem C91_arrays_change_only_by_the_program mc p ev p' b k : life mc p -> happens mc p ev p' ->
  In b (p_arrays p) -> in_block b k = true -> ev <> Wrote k -> p_mem p' k = p_mem p k.
Proof.
  intros Hl Hs Hb Hk Hev. pose proof (life_inv mc p Hl) as Hi. pose proof Hi as (_ & _ & _ & Hc & Ho).
  destruct Hs as [p h ms Hst|p args w r p' Hu E|p f front back E|p a Ha|p f vals p0 p' Hin Hfree E|p c c' mem front back Ec En|p c result front back Ec En|p b0 k0 v Hb0 Hk0|p b0 front back E]; try reflexivity.
  - unfold jit_lambdify, compile_llvm in E. destruct (module_code args w p) as [text|x]; [|injection E as _ <-; reflexivity].
    destruct (parse text); injection E as _ <-; reflexivity.
  - destruct (Nat.eq_dec (length vals) (length (j_args f))) as [Hn|Hn].
    2:{ unfold start_call in E. apply Nat.eqb_neq in Hn. rewrite Hn in E. discriminate. }
    destruct (start_ok mc p f vals p0 Hi Hin Hn) as (c & mem & E1 & _ & Hmem & Hbl & _). rewrite E1 in E. injection E as <-.
    cbn [with_call p_mem]. apply Hmem. intros b' Hb'. destruct (in_block b' k) eqn:Ek; [|reflexivity].
    destruct (Hbl b' Hb') as (m & Em & ->). rewrite <- Hk. apply (Hfree m Em b k); [|exact Ek]. apply in_app_iff. left. exact Hb.
  - assert (Hin : In c (p_calls p)) by (rewrite Ec; apply in_elt). cbn [p_mem].
    destruct (next_ok mc p c (Hc c Hin)) as [(res & E1 & _)|(c1 & ws & ws' & res & E1 & E2 & _)]; [congruence|].
    rewrite E1 in En. injection En as _ <-. apply apply_other. intros Hw.
    destruct (Hc c Hin) as (res0 & ws0 & E0 & Hm). rewrite E2 in E0. injection E0 as <- <-.
    assert (Hw' : In k (map fst (ws ++ ws')%list)) by (rewrite map_app; apply in_app_iff; left; exact Hw).
    destruct (j_what (r_fun c)) as [e|m], (r_block c) as [b1|] eqn:Eb; try (destruct Hm; fail).
    + destruct Hm as (H0 & _). rewrite H0 in Hw'. destruct Hw'.
    + destruct Hm as (_ & _ & H3 & _). specialize (Ho k). rewrite (blocks_split p c front back Ec) in Ho. unfold call_block in Ho at 2.
      rewrite Eb, owners_cons, (H3 k Hw') in Ho. pose proof (owners_in k _ b Hb Hk). lia.
  - cbn [p_mem]. unfold set_mem. destruct (Z.eqb_spec k k0) as [->|_]; [congruence|reflexivity].
Qed.
(** The array that a call returns shares no memory with another array. *)
Theorem C91_returned_arrays_are_new mc p f vals result b p' : life mc p -> happens mc p (Returned f vals result (Some b)) p' ->
  p_arrays p' = b :: p_arrays p /\
  forall b' k, In b' (p_arrays p ++ flat_map call_block (p_calls p'))%list -> in_block b k = true -> in_block b' k = false.
Proof.
  intros Hl Hs. pose proof (life_inv mc p Hl) as (_ & _ & _ & _ & Ho). inversion Hs; subst.
  match goal with E : r_block c = Some b |- _ => rename E into Eb end. match goal with E : p_calls p = _ |- _ => rename E into Ec end.
  cbn [p_arrays p_calls]. split; [unfold call_block; rewrite Eb; reflexivity|]. intros b' k Hb' Hk. destruct (in_block b' k) eqn:Ek; [|reflexivity].
  specialize (Ho k). rewrite (blocks_split p c front back Ec) in Ho. unfold call_block in Ho at 2. rewrite Eb, owners_cons, Hk in Ho.
  pose proof (owners_in k _ b' Hb' Ek) as H. rewrite owners_app, flat_map_app, owners_app in H. lia.
Qed.

(** Loaded code stays loaded, also when the program has dropped the function. *)
Theorem C91_code_stays_loaded mc p p' : life mc p -> later mc p p' ->
  (exists more, p_exe_eng p' = (p_exe_eng p ++ more)%list) /\
  forall a, In a (p_exe_eng p) -> exists text, nth a (p_code p) None = Some text /\ nth a (p_code p') None = Some text.
Proof.
  intros Hl H. induction H as [p|p p1 ev p2 H1 IH Hs].
  - split; [exists []; rewrite app_nil_r; reflexivity|]. intros a Ha. destruct (life_inv mc p Hl) as (_ & Hcode & _). destruct (Hcode a Ha) as (text & E). exists text. split; exact E.
  - destruct (IH Hl) as ((more & Em) & Hc). clear IH.
    assert (G : (exists more', p_exe_eng p2 = (p_exe_eng p1 ++ more')%list) /\
      forall a text, In a (p_exe_eng p1) -> nth a (p_code p1) None = Some text -> nth a (p_code p2) None = Some text).
    { destruct Hs as [p1 h ms Hst|p1 args w r p' Hu E|p1 f front back E|p1 a Ha|p1 f vals p0 p' Hin Hfree E|p1 c c' mem front back Ec En|p1 c result front back Ec En|p1 b0 k0 v Hb0 Hk0|p1 b0 front back E];
        try (split; [exists []; rewrite app_nil_r; reflexivity|auto]; fail).
      - unfold jit_lambdify, compile_llvm in E. destruct (module_code args w p1) as [text|x]; [destruct (parse text)|];
          injection E as _ <-; try (split; [exists []; rewrite app_nil_r; reflexivity|auto]; fail).
        split; [eexists; reflexivity|]. intros a text' _ Ht. cbn [hold_fun p_code]. destruct (Nat.lt_ge_cases a (length (p_code p1))) as [Hn|Hn].
        + rewrite app_nth1 by exact Hn. exact Ht.
        + rewrite nth_overflow in Ht by exact Hn. discriminate.
      - split; [exists []; rewrite app_nil_r; reflexivity|]. intros a' text' Hin Ht. cbn [p_code]. rewrite set_nth_other; [exact Ht|]. intros ->. exact (Ha Hin).
      - unfold start_call in E. destruct (negb _); [discriminate|]. destruct (j_what f); destruct (enter _ _ _ _ _); try discriminate; injection E as <-;
          (split; [exists []; rewrite app_nil_r; reflexivity|auto]). }
    destruct G as ((more' & Em') & Hc'). split; [exists (more ++ more')%list; rewrite Em', Em, app_assoc; reflexivity|].
    intros a Ha. destruct (Hc a Ha) as (text & E1 & E2). exists text. split; [exact E1|]. apply Hc'; [|exact E2]. rewrite Em. apply in_app_iff. left. exact Ha.
Qed.
(** So the code of a function that the program can no longer call is never unloaded: a program that compiles in a
    loop grows without bound. *)
Theorem C91_code_is_freed_refuted mc : forall n, exists p, life mc p /\ p_funs p = [] /\ p_calls p = [] /\ p_arrays p = [] /\ p_mats p = [] /\
  forall p', later mc p p' -> n <= length (filter (fun c => match c with Some _ => true | None => false end) (p_code p')).
Proof.
  assert (G : forall n, exists p, life mc p /\ p_funs p = [] /\ p_calls p = [] /\ p_arrays p = [] /\ p_mats p = [] /\ p_exe_eng p = seq 0 n /\ length (p_code p) = n).
  { induction n as [|n (p & Hl & E1 & E2 & E3 & E4 & E5 & E6)].
    - exists (start_process nowhere). split; [apply life_start|]. repeat (split; [reflexivity|]). reflexivity.
    - destruct (to_llvm_f64 [x] x) as [text|] eqn:Et; [|discriminate].
      assert (Hu : usable [x] (WExpr x) p).
      { split; [|exact Logic.I]. exists ["x"]. split; [reflexivity|]. split; [repeat constructor; intros []|].
        split; [repeat constructor; discriminate|]. intros k [H|[]]. discriminate. }
      assert (Hp : exists items, parse text = Some items) by (vm_compute in Et; injection Et as <-; eexists; vm_compute; reflexivity).
      destruct Hp as (items & Hp).
      destruct (jit_lambdify [x] (WExpr x) p) as [r p1] eqn:Ej.
      pose proof (ev_lambdify mc _ _ _ _ _ Hu Ej) as Hs1.
      unfold jit_lambdify, compile_llvm, module_code in Ej. rewrite Et, Hp in Ej. injection Ej as <- <-.
      eexists. split; [eapply life_more; [eapply life_more; [exact Hl|exact Hs1]|eapply (ev_forget mc _ _ [] _)]; reflexivity|].
      cbn [hold_fun p_funs p_calls p_arrays p_mats p_exe_eng p_code app]. repeat (split; [assumption|]). rewrite E5, E6, seq_S, app_length, E6. cbn. split; [reflexivity|lia]. }
  intros n. destruct (G n) as (p & Hl & E1 & E2 & E3 & E4 & E5 & E6). exists p. repeat (split; [assumption|]).
  intros p' Hp. destruct (C91_code_stays_loaded mc p p' Hl Hp) as (_ & H). rewrite E5 in H.
  assert (K : forall (l : list (option string)) n, (forall a, a < n -> exists text, nth a l None = Some text) -> n <= length (filter (fun c => match c with Some _ => true | None => false end) l)).
  { induction l as [|o l IH]; intros [|n'] Hn; [cbn; lia| |cbn; lia|].
    - destruct (Hn 0 ltac:(lia)) as (text & E). discriminate.
    - destruct (Hn 0 ltac:(lia)) as (text & E). cbn in E. subst o. cbn [filter length]. apply le_n_S, IH. intros a Ha. apply (Hn (S a)). lia. }
  apply K. intros a Ha. destruct (H a) as (text & _ & E); [apply in_seq; lia|]. exists text. exact E.
Qed.
(** ** A program with two calls that run at the same time *)
Definition tick (mc : machine) (i : nat) (p : process) : process :=
  match skipn i (p_calls p) with
  | [] => p
  | c :: back =>
      match next mc c (p_mem p) with
      | Some (Continues c' mem) =>
          mkProcess (p_heap p) (p_mats p) (p_code p) (p_exe_eng p) (p_funs p) (firstn i (p_calls p) ++ c' :: back)%list (p_arrays p) mem
      | Some (Ends _) =>
          mkProcess (p_heap p) (p_mats p) (p_code p) (p_exe_eng p) (p_funs p) (firstn i (p_calls p) ++ back)%list (call_block c ++ p_arrays p)%list (p_mem p)
      | None => p
      end
  end.
Lemma tick_later mc i p p' : later mc p p' -> later mc p (tick mc i p').
Proof.
  intros H. unfold tick. destruct (skipn i (p_calls p')) as [|c back] eqn:E; [exact H|].
  assert (Ec : p_calls p' = (firstn i (p_calls p') ++ c :: back)%list) by (rewrite <- E; symmetry; apply firstn_skipn).
  destruct (next mc c (p_mem p')) as [[c' mem|result]|] eqn:En; [| |exact H].
  - eapply later_more; [exact H|]. eapply ev_instr; eauto.
  - eapply later_more; [exact H|]. eapply ev_return; eauto.
Qed.
Lemma ticks_later mc is p : later mc p (fold_left (fun p i => tick mc i p) is p).
Proof.
  assert (G : forall is p', later mc p p' -> later mc p (fold_left (fun p i => tick mc i p) is p')).
  { induction is0 as [|i r IH]; intros p' H; [exact H|]. cbn [fold_left]. apply IH, tick_later, H. }
  apply G, later_now.
Qed.
Lemma later_life mc p p' : life mc p -> later mc p p' -> life mc p'.
Proof. intros Hl H. induction H as [|p p' ev p'' _ IH Hs]; [exact Hl|]. eapply life_more; [apply IH, Hl|exact Hs]. Qed.

(** The matrices of C42_case, and a function of three arguments for the first one. *)
Definition text_a : string := match to_llvm_f64_matrix [y; z; x] mat_a heap_ab with (Ok text, _) => text | _ => "" end.
Definition fun_a : jitfun := mkJit [y; z; x] (WMatrix mat_a) 0.
Definition process_a (mem : memory) : process :=
  mkProcess heap_ab [mat_b; mat_a] [Some text_a] [0] [fun_a] [] [] mem.
Lemma process_a_life mc mem : life mc (process_a mem).
Proof.
  assert (L : life mc (mkProcess heap_ab [mat_b; mat_a] [] [] [] [] [] mem)).
  { assert (G : forall h ms, history h ms -> life mc (mkProcess h ms [] [] [] [] [] mem)); [|exact (G _ _ history_ab)].
    intros h ms H. unfold history in H. remember empty_heap as h0 eqn:E0. remember (@nil matrix) as ms0 eqn:E1.
    induction H as [h ms|h ms h1 ms1 h2 ms2 _ IH Hs]; subst; [apply life_start|].
    eapply life_more; [exact (IH eq_refl eq_refl)|]. apply (ev_matrix mc (mkProcess h1 ms1 [] [] [] [] [] mem) h2 ms2 Hs). }
  eapply life_more; [exact L|].
  assert (Hu : usable [y; z; x] (WMatrix mat_a) (mkProcess heap_ab [mat_b; mat_a] [] [] [] [] [] mem)).
  { split; [exact good_names_case|]. split; [simpl; auto|]. destruct C48_case as (_ & _ & _ & H1 & H2 & H3 & _). split; [exact H1|]. split; [exact H2|exact H3]. }
  eapply ev_lambdify; [exact Hu|]. vm_compute. reflexivity.
Qed.
Example C91_case mc mem (a b c a' b' c' : spec_float) : exists p1 p2,
  life mc (process_a mem) /\ life mc p1 /\ later mc p1 p2 /\
  start_call fun_a [a'; b'; c'] 204 (process_a mem) <> Crashes /\
  (* two calls are running, both have filled a part of their array *)
  length (p_calls p1) = 2 /\ map (p_mem p1) [200; 201; 202; 203; 204; 205; 206; 207]%Z =
    [c; S754_zero false; S754_zero false; S754_zero false; c'; S754_zero false; S754_zero false; S754_zero false] /\
  (* later, both have returned *)
  p_calls p2 = [] /\ p_arrays p2 = [(200%Z, 4); (204%Z, 4)] /\ map (p_mem p2) [200; 201; 202; 203; 204; 205; 206; 207]%Z =
    [c; S754_zero false; three; a; c'; S754_zero false; three; a'].
Proof.
  set (p0 := process_a mem). assert (L0 : life mc p0) by apply process_a_life.
  destruct (start_call fun_a [a; b; c] 200 p0) as [| |q1] eqn:E1; [vm_compute in E1; discriminate..|].
  assert (S1 : happens mc p0 Quiet q1).
  { eapply ev_call; [left; reflexivity| |exact E1]. intros m _ b0 k []. }
  assert (Hq1 : p_funs q1 = [fun_a] /\ blocks q1 = [(200%Z, 4)]) by (vm_compute in E1; injection E1 as <-; split; reflexivity).
  destruct (start_call fun_a [a'; b'; c'] 204 q1) as [| |q2] eqn:E2; [vm_compute in E1; injection E1 as <-; vm_compute in E2; discriminate..|].
  assert (S2 : happens mc q1 Quiet q2).
  { eapply ev_call; [rewrite (proj1 Hq1); left; reflexivity| |exact E2]. intros m Hm b0 k Hb Hk. rewrite (proj2 Hq1) in Hb. destruct Hb as [<-|[]].
    injection Hm as <-. apply in_block_spec in Hk. change (204 <= k < 208)%Z in Hk. unfold in_block. cbn [fst snd]. apply andb_false_iff. right. apply Z.ltb_ge. lia. }
  assert (L2 : life mc q2) by (eapply life_more; [eapply life_more; [exact L0|exact S1]|exact S2]).
  exists (fold_left (fun p i => tick mc i p) [0; 1; 1; 0] q2). eexists. split; [exact L0|]. split; [eapply later_life; [exact L2|apply ticks_later]|].
  split; [apply (ticks_later mc [0; 1; 1; 1; 0; 1; 0; 0; 0; 1; 0; 0; 0; 0])|].
  vm_compute in E1. injection E1 as <-. vm_compute in E2. injection E2 as <-.
  split; [vm_compute; discriminate|]. vm_compute. repeat split; reflexivity.
Qed.

(** The function asks the matrix for its shape at each call: were the program to change that attribute, the code,
    which is that of the original shape, would store outside of the new array. *)
Theorem C91_shape_is_fixed_refuted (mc : machine) (mem : memory) : exists p f m p' c k b,
  life mc p /\ In f (p_funs p) /\ j_what f = WMatrix m /\
  start_call (mkJit (j_args f) (WMatrix (mkMatrix 1 1 (m_elements m) (m_graph m) (m_entrymap m))) (j_addr f))
    [S754_nan; S754_nan; S754_nan] 100 p = Goes p' /\
  In c (p_calls (fold_left (fun p i => tick mc i p) [0; 0; 0] p')) /\
  r_block c = Some b /\ writes_to c = Some k /\ in_block b k = false.
Proof.
  exists (process_a mem), fun_a, mat_a. eexists _, _, _, _. split; [apply process_a_life|]. split; [left; reflexivity|]. split; [reflexivity|].
  split; [vm_compute; reflexivity|]. split; [vm_compute; left; reflexivity|]. split; [vm_compute; reflexivity|]. split; [vm_compute; reflexivity|]. vm_compute. reflexivity.
Qed.
Print Assumptions C91_calls_return_the_values.
Print Assumptions C91_lambdify.
Print Assumptions C91_never_crashes.
Print Assumptions C91_calls_end.
Print Assumptions C91_arrays_change_only_by_the_program.
Print Assumptions C91_returned_arrays_are_new.
Print Assumptions C91_code_stays_loaded.
Print Assumptions C91_code_is_freed_refuted.
Print Assumptions C91_shape_is_fixed_refuted.
