(** * Compiled Jacobians: C110. *)
From Coq Require Import SpecFloat Reals Lra.
From Verif Require Import Py ModelTree SpecTree ProofBase ModelEval SpecEval ModelDiff ModelSym ModelCas ModelMatrix ModelLLVM ModelApi SpecMatrix SpecLLVM SpecLambdify SpecApi
  SpecReal ProofReal SpecDiff ProofDiff ProofBin ProofCasDiff SpecCas ProofFloat ProofLLVM PropsLLVM SpecExact SpecError ProofError ProofApi PropsMatrix PropsApi PropsReal
  SpecBound ProofBound PropsBound SpecOverflow ProofOverflow PropsOverflow PropsChain PropsCurve Samples.
Local Open Scope string_scope.
Local Open Scope R_scope.

(** [[e.diff(s) for s in names] for e in es] is [dss]. *)
Definition partials (es : list tree) (names : list string) (dss : list (list tree)) : Prop :=
  Forall2 (fun e ds => Forall2 (fun s d => expr_diff e (Symbol s) 1 = Ok d) names ds) es dss.
(** [v] is within the bound of the derivative of [e] by [s], which exists. *)
Definition near_derivative (acc : accuracy) (names : list string) (vals : list spec_float) (env : string -> R) (e : tree) (s : string) (v : spec_float) (b : R) : Prop :=
  exists d l, expr_diff e (Symbol s) 1 = Ok d /\ code_estimate acc names (map double_value vals) d = Some (l, b) /\
    has_derivative env e s l /\ Rabs (double_value v - l) <= b.

Lemma Forall2_nth {A B} (P : A -> B -> Prop) l : forall l', length l = length l' ->
  (forall i a b, nth_error l i = Some a -> nth_error l' i = Some b -> P a b) -> Forall2 P l l'.
Proof.
  induction l as [|a l IH]; intros [|b l'] Hl H; try discriminate; constructor; [exact (H 0%nat a b eq_refl eq_refl)|].
  apply IH; [injection Hl; auto|]. intros i c d Hc Hd. exact (H (S i) c d Hc Hd).
Qed.
Lemma nth_Forall2 {A B} (P : A -> B -> Prop) l l' i a : Forall2 P l l' -> nth_error l i = Some a -> exists b, nth_error l' i = Some b /\ P a b.
Proof. intros H. revert i. induction H as [|c d l l' Hcd _ IH]; intros [|i] Ha; try discriminate; [injection Ha as <-; exists d; auto|exact (IH i Ha)]. Qed.

Section Platform.
  Context (mc : machine) {code : Type} (load : string -> res code)
    (call_f64 : code -> list spec_float -> spec_float) (call_fill : code -> nat -> list spec_float -> list spec_float).
  Context (Hplatform : faithful mc load call_f64 call_fill) (Hadd : ieee_add mc) (Hmul : ieee_mul mc) (acc : accuracy) (Hacc : accurate_machine acc mc) (Htot : total_machine mc).
  Notation call := (call_compiled call_f64 call_fill).

  (** C110. The matrix of the partial derivatives of [es] can be made and compiled, and the array that the function returns holds
      the partial derivatives, within the bounds. *)
  Theorem C110_jacobian names vals es dss h ms env : history h ms -> es <> [] ->
    good_names (map Symbol names) -> ~ In "_out"%string names -> (Z.of_nat (length es) * Z.of_nat (length names) <= 2 ^ 31)%Z ->
    length vals = length names -> Forall is_double vals -> Forall finite vals -> Forall2 (fun n v => env n = double_value v) names vals ->
    partials es names dss -> (forall e, In e es -> reval env e <> None) ->
    (forall ds d, In ds dss -> In d ds -> exponents_fit d /\ moderate_everywhere (code_estimate acc names (map double_value vals)) d) ->
    exists J h', matrix_new (PRows (map (fun ds => PRow (map PExpr ds)) dss)) h = (Ok J, h') /\
      exists f, lambdify load (map OExpr (map Symbol names)) (OMatrix J) h' = (Ok f, h') /\
      exists rows, call f vals = Ok (FArray rows) /\
        Forall2 (fun e row => Forall2 (fun s v => finite v /\ exists b, near_derivative acc names vals env e s v b) names row) es rows.
  Proof.
    intros Hh Hne Hg Ho Hs Hl Hd Hfin Henv Hp Hdef Hmod.
    assert (Hlen : length es = length dss) by apply (Forall2_len _ _ _ Hp).
    assert (Hcols : forall ds, In ds dss -> length ds = length names).
    { clear - Hp. intros ds Hds. induction Hp as [|e ds' es dss H _ IH]; [destruct Hds|]. destruct Hds as [<-|Hds]; [symmetry; apply (Forall2_len _ _ _ H)|exact (IH Hds)]. }
    destruct (C42_construction_round_trip h ms (map (map PExpr) dss) (length names) dss Hh) as (J & h' & HJ & Hh' & Hr & Hc & Hget).
    - intros E. apply Hne. destruct es; [reflexivity|]. destruct dss; discriminate.
    - intros r Hr. apply in_map_iff in Hr as (ds & <- & Hds). rewrite map_length. apply Hcols, Hds.
    - clear. induction dss as [|ds dss IH]; constructor; [|exact IH]. induction ds; constructor; [reflexivity|assumption].
    - rewrite map_map in HJ. rewrite map_length in Hr. destruct (Hget h' (J :: ms) (steps_none _ _)) as [_ Hent]. exists J, h'. split; [exact HJ|].
      assert (Hin : forall i j, inside J i j -> exists ds d, nth_error dss (Z.to_nat i) = Some ds /\ nth_error ds (Z.to_nat j) = Some d /\ get J i j h' = Ok d).
      { intros i j [[Hi0 Hi] [Hj0 Hj]]. rewrite Hr in Hi. rewrite Hc in Hj.
        destruct (nth_error dss (Z.to_nat i)) as [ds|] eqn:Ei; [|apply nth_error_None in Ei; lia].
        assert (Lds : length ds = length names) by (apply Hcols; eapply nth_error_In; exact Ei).
        destruct (nth_error ds (Z.to_nat j)) as [d|] eqn:Ej; [|apply nth_error_None in Ej; lia].
        exists ds, d. split; [reflexivity|]. split; [exact Ej|]. rewrite <- (Z2Nat.id i Hi0), <- (Z2Nat.id j Hj0). eapply Hent; eassumption. }
      destruct (C109_lambdify_matrix mc load call_f64 call_fill Hplatform Hadd Hmul acc Hacc Htot names vals J h' (J :: ms) Hh' (or_introl eq_refl) Hg Ho) as (f & Hf & rows & Hcall & Hnr & Hnc & Hall);
        [rewrite Hr, Hc, <- Hlen; exact Hs|exact Hl|exact Hd|exact Hfin| |].
      { intros i j Hij. destruct (Hin i j Hij) as (ds & d & Ei & Ej & Eg). exists d. split; [exact Eg|]. apply (Hmod ds d); eapply nth_error_In; eassumption. }
      exists f. split; [exact Hf|]. exists rows. split; [exact Hcall|]. rewrite Hr in Hnr. rewrite Hc in Hnc.
      apply Forall2_nth; [congruence|]. intros i e row He Hrow.
      destruct (nth_Forall2 _ _ _ i e Hp He) as (ds & Hds & Hpd). rewrite Forall_forall in Hnc. assert (Lrow : length row = length names) by (apply Hnc; eapply nth_error_In; exact Hrow).
      apply Forall2_nth; [congruence|]. intros j s v Hsj Hv. destruct (nth_Forall2 _ _ _ j s Hpd Hsj) as (d & Hdj & Hdiff).
      assert (Hij : inside J (Z.of_nat i) (Z.of_nat j)).
      { unfold inside. rewrite Hr, Hc. assert (i < length es)%nat by (apply nth_error_Some; congruence). assert (j < length names)%nat by (apply nth_error_Some; congruence). lia. }
      destruct (Hall _ _ Hij) as (t & row' & v' & l & b & Ht & Hrow' & Hv' & He' & F & B). rewrite !Nat2Z.id in *. replace row' with row in * by congruence. replace v' with v in * by congruence.
      assert (E : t = d) by (specialize (Hent i j ds d Hds Hdj); congruence). subst t. split; [exact F|]. exists b, d, l. split; [exact Hdiff|]. split; [exact He'|]. split; [|exact B].
      destruct (reval env e) as [r|] eqn:Er; [|exfalso; apply (Hdef e); [eapply nth_error_In; exact He|exact Er]].
      eapply C24_diff_is_the_derivative; [exact Hdiff|exact Er|]. apply (C92_exact_value acc names (map double_value vals) env d (l, b)); [|left; exact He'].
      clear - Henv. induction Henv; constructor; assumption.
  Qed.
  (** Its product with a velocity is the derivative of the values of [es] along any curve through the point with that velocity, within a bound. *)
  Theorem C110_velocity (curve : R -> string -> R) t0 bs names vals e row bounds v : NoDup names ->
    Forall2 (fun n v => curve t0 n = double_value v) names vals -> Forall2 (fun s b => derivable_pt_lim (fun t => curve t s) t0 b) names bs ->
    (forall s t, contains e s -> ~ In s names -> curve t s = curve t0 s) -> reval (curve t0) e = Some v ->
    length bounds = length row ->
    Forall2 (fun s vb => near_derivative acc names vals (curve t0) e s (fst vb) (snd vb)) names (combine row bounds) ->
    exists F delta D, 0 < delta /\ (forall t, Rabs (t - t0) < delta -> reval (curve t) e = Some (F t)) /\ derivable_pt_lim F t0 D /\
      Rabs (dot (map double_value row) bs - D) <= dot bounds (map Rabs bs).
  Proof.
    intros Hnd Henv Hcurve Hout Hv Hlen Hrow.
    assert (G : exists ls, gradient (curve t0) e names ls /\ Forall2 (fun vb l => Rabs (double_value (fst vb) - l) <= snd vb) (combine row bounds) ls).
    { assert (Henv' : Forall2 (fun n x => curve t0 n = x) names (map double_value vals)) by (clear - Henv; induction Henv; constructor; assumption).
      clear - Hrow Henv'. unfold gradient.
      assert (X : forall ns cs, Forall2 (fun s vb => near_derivative acc names vals (curve t0) e s (fst vb) (snd vb)) ns cs ->
        exists ls, Forall2 (fun s l => exists d, expr_diff e (Symbol s) 1 = Ok d /\ reval (curve t0) d = Some l) ns ls /\ Forall2 (fun vb l => Rabs (double_value (fst vb) - l) <= snd vb) cs ls);
        [|exact (X names _ Hrow)].
      intros ns cs H. induction H as [|s vb ns cs (d & l & Hd & He & _ & B) _ (ls & IH1 & IH2)]; [exists []; split; constructor|]. exists (l :: ls). split; constructor; try assumption.
      exists d. split; [exact Hd|]. exact (C92_exact_value acc names (map double_value vals) (curve t0) d (l, snd vb) Henv' (or_introl He)). }
    destruct G as (ls & Hgrad & Hls). destruct (C102_total_derivative curve t0 e names bs ls v Hnd Hcurve Hout Hv Hgrad) as (F & delta & Hdelta & HF & Hlim).
    exists F, delta, (dot ls bs). split; [exact Hdelta|]. split; [exact HF|]. split; [exact Hlim|].
    assert (Hb : length bs = length ls) by (rewrite <- (Forall2_len _ _ _ Hcurve); apply (Forall2_len _ _ _ Hgrad)).
    clear - Hlen Hls Hb. revert row bounds bs Hlen Hls Hb. induction ls as [|l ls IH]; intros row bounds bs Hlen Hls Hb.
    - destruct bs; [|discriminate]. destruct row, bounds; try discriminate; cbn [map dot combine] in *; try (inversion Hls); unfold Rminus; rewrite Rplus_opp_r, Rabs_R0; apply Rle_refl.
    - destruct bs as [|b bs]; [discriminate|]. destruct row as [|w row], bounds as [|c bounds]; try discriminate; cbn [combine] in Hls; inversion Hls as [|? ? ? ? B Hls']; subst.
      cbn [map dot fst snd] in *. specialize (IH row bounds bs). injection Hlen as Hlen. injection Hb as Hb. specialize (IH Hlen Hls' Hb).
      replace (double_value w * b + dot (map double_value row) bs - (l * b + dot ls bs)) with ((double_value w - l) * b + (dot (map double_value row) bs - dot ls bs)) by ring.
      apply Rle_trans with (1 := Rabs_triang _ _). rewrite Rabs_mult. apply Rplus_le_compat; [|exact IH]. apply Rmult_le_compat_r; [apply Rabs_pos|exact B].
  Qed.
End Platform.

(** ** Cases *)
Lemma atom_moderate (est : tree -> option estimated) a i : est (Atm a) = Some i -> moderate i -> moderate_everywhere est (Atm a).
Proof.
  intros E M. split.
  - intros s Hs. apply ProofTopo.post_reach in Hs as [<-|[]]. exists i. auto.
  - intros h args k _ Hs. apply ProofTopo.post_reach in Hs as [Hs|[]]. discriminate.
Qed.
Lemma mul_moderate acc sum names xs a b i j : estimate acc sum names xs (Atm a) = Some i -> estimate acc sum names xs (Atm b) = Some j ->
  0 <= snd i -> 0 <= snd j -> size i <= 10 -> size j <= 10 -> moderate_everywhere (estimate acc sum names xs) (Node [Mul; Atm a; Atm b]).
Proof.
  intros Ea Eb Hi Hj Si Sj. set (est := estimate acc sum names xs) in *.
  assert (Em : est (Node [Mul; Atm a; Atm b]) = Some (mul_estimate i j)) by (unfold est; rewrite (estimate_node acc sum names xs Mul); cbn [opt_map]; fold est; rewrite Ea, Eb; reflexivity).
  assert (Pi : 0 <= size i) by (unfold size; pose proof (Rabs_pos (fst i)); lra). assert (Pj : 0 <= size j) by (unfold size; pose proof (Rabs_pos (fst j)); lra).
  assert (Mm : moderate (mul_estimate i j)) by (apply small_moderate; apply Rle_trans with (1 := size_mul i j Hi Hj); nra).
  assert (Hpost : postorder false [] (Node [Mul; Atm a; Atm b]) = [Atm a; Atm b; Node [Mul; Atm a; Atm b]]) by reflexivity.
  split.
  - intros s Hs. apply ProofTopo.post_reach in Hs. rewrite Hpost in Hs. destruct Hs as [<-|[<-|[<-|[]]]]; [exists i|exists j|eexists]; (split; [eassumption|]); try assumption; apply small_moderate; lra.
  - intros h args k _ Hs Hk. apply ProofTopo.post_reach in Hs. rewrite Hpost in Hs. destruct Hs as [Hs|[Hs|[Hs|[]]]]; try discriminate. injection Hs as <- <-.
    destruct k as [|[|k]]; [| |cbn [length] in Hk; lia]; cbn [firstn].
    + exists i. split; [unfold est; rewrite (estimate_node acc sum names xs Mul); cbn [opt_map]; fold est; rewrite Ea; reflexivity|apply small_moderate; lra].
    + eexists. split; [exact Em|exact Mm].
Qed.
Lemma no_powers_fit e : (forall b x, ~ In (Node [Pow; b; x]) (postorder false [] e)) -> exponents_fit e.
Proof. intros H b x Hs. apply ProofTopo.post_reach in Hs. destruct (H b x Hs). Qed.
(** The Jacobian of (sin(x) + x**(-2), x*y) at (2, 2). *)
Definition jac_es := [e_wave; m_mul x y].
Definition jac_dss := [[d_wave; int 0]; [Node [Mul; int 1; y]; Node [Mul; x; int 1]]].
Definition jac_env : string -> R := fun _ => 2.
Definition ray (t : R) (s : string) : R := if String.eqb s "x" then 2 + t * 3 else if String.eqb s "y" then 2 + t * -5 else 2.
Lemma jac_conditions :
  history empty_heap [] /\ good_names (map Symbol ["x"; "y"]) /\ ~ In "_out" ["x"; "y"] /\ Forall is_double [v_two; v_two] /\ Forall finite [v_two; v_two] /\
  Forall2 (fun n v => jac_env n = double_value v) ["x"; "y"] [v_two; v_two] /\ partials jac_es ["x"; "y"] jac_dss /\ (forall e, In e jac_es -> reval jac_env e <> None) /\
  (forall ds d, In ds jac_dss -> In d ds -> exponents_fit d /\ moderate_everywhere (code_estimate acc_round ["x"; "y"] (map double_value [v_two; v_two])) d).
Proof.
  destruct C92_case as (_ & _ & _ & _ & _ & _ & _ & _ & _ & _ & H11 & H12 & H13 & H14 & _).
  split; [apply steps_none|]. split.
  { exists ["x"; "y"]. split; [reflexivity|]. split; [repeat constructor; cbn; intuition discriminate|]. split; [repeat constructor; discriminate|]. intros k [H|[H|[]]]; discriminate. }
  split; [cbn; intuition discriminate|]. split; [constructor; [exact v_two_double|constructor; [exact v_two_double|constructor]]|]. split; [constructor; [exact Logic.I|constructor; [exact Logic.I|constructor]]|].
  split; [constructor; [symmetry; exact H11|constructor; [symmetry; exact H11|constructor]]|].
  split; [repeat apply Forall2_cons; try apply Forall2_nil; [exact H13|vm_compute; reflexivity..]|].
  split; [intros e [<-|[<-|[]]]; [exact H12|discriminate]|].
  cbn [map]. rewrite H11.
  assert (T : size (2, 0) <= 10) by (unfold size; cbn [fst snd]; rewrite Rabs_pos_eq by lra; lra).
  assert (O : size (1, 0) <= 10) by (unfold size; cbn [fst snd]; rewrite Rabs_pos_eq by lra; lra).
  assert (Zr : size (0, 0) <= 1000) by (unfold size; cbn [fst snd]; rewrite Rabs_R0; lra).
  intros ds d [<-|[<-|[]]] [<-|[<-|[]]].
  - split; [exact H14|]. apply wave_moderate; [repeat split; reflexivity|intros i Hi; cbn [fold_left]; unfold size; pose proof (Rabs_pos (fst i)); lra|intros i j; apply size_add].
  - split; [apply no_powers_fit; intros b x0 [H|[]]; discriminate|]. eapply atom_moderate; [reflexivity|apply small_moderate; exact Zr].
  - split; [apply no_powers_fit; intros b x0 [H|[H|[H|[]]]]; discriminate|]. apply mul_moderate with (i := (1, 0)) (j := (2, 0)); [reflexivity|reflexivity|cbn [snd]; lra|cbn [snd]; lra|exact O|exact T].
  - split; [apply no_powers_fit; intros b x0 [H|[H|[H|[]]]]; discriminate|]. apply mul_moderate with (i := (2, 0)) (j := (1, 0)); [reflexivity|reflexivity|cbn [snd]; lra|cbn [snd]; lra|exact T|exact O].
Qed.
Example C110_case :
  ieee_add mc_round /\ ieee_mul mc_round /\ accurate_machine acc_round mc_round /\ total_machine mc_round /\ faithful mc_round sample_load (sample_f64 mc_round) (sample_fill mc_round) /\
  history empty_heap [] /\ good_names (map Symbol ["x"; "y"]) /\ ~ In "_out" ["x"; "y"] /\ Forall is_double [v_two; v_two] /\ Forall finite [v_two; v_two] /\
  Forall2 (fun n v => jac_env n = double_value v) ["x"; "y"] [v_two; v_two] /\ partials jac_es ["x"; "y"] jac_dss /\ (forall e, In e jac_es -> reval jac_env e <> None) /\
  (forall ds d, In ds jac_dss -> In d ds -> exponents_fit d /\ moderate_everywhere (code_estimate acc_round ["x"; "y"] (map double_value [v_two; v_two])) d).
Proof.
  destruct C109_case as (_ & _ & _ & _ & _ & H1 & H2 & H3 & H4 & H5 & _). repeat (split; [assumption|]). exact jac_conditions.
Qed.
Lemma choose_bounds (F : spec_float -> Prop) (P : string -> spec_float -> R -> Prop) ns row : Forall2 (fun s v => F v /\ exists b, P s v b) ns row ->
  exists bounds, length bounds = length row /\ Forall2 (fun s vb => P s (fst vb) (snd vb)) ns (combine row bounds).
Proof.
  intros H. induction H as [|s v ns row (_ & b & Hb) _ (bounds & L & IH)]; [exists []; split; constructor|].
  exists (b :: bounds). split; [cbn [length]; congruence|]. constructor; [exact Hb|exact IH].
Qed.
Example C110_case_velocity :
  NoDup ["x"; "y"] /\ Forall2 (fun n v => ray 0 n = double_value v) ["x"; "y"] [v_two; v_two] /\
  Forall2 (fun s b => derivable_pt_lim (fun t => ray t s) 0 b) ["x"; "y"] [3; -5] /\
  (forall e s t, In e jac_es -> contains e s -> ~ In s ["x"; "y"] -> ray t s = ray 0 s) /\ (forall e, In e jac_es -> reval (ray 0) e <> None) /\
  forall e, In e jac_es -> exists row bounds, length bounds = length row /\
    Forall2 (fun s vb => near_derivative acc_round ["x"; "y"] [v_two; v_two] (ray 0) e s (fst vb) (snd vb)) ["x"; "y"] (combine row bounds).
Proof.
  destruct C110_case as (H1 & H2 & H3 & H4 & H5 & H6 & H7 & H8 & H9 & H10 & H11 & H12 & H13 & H14).
  split; [repeat constructor; cbn; intuition discriminate|].
  assert (Hv : Forall2 (fun n v => ray 0 n = double_value v) ["x"; "y"] [v_two; v_two]) by (repeat apply Forall2_cons; try apply Forall2_nil; unfold ray; cbn [String.eqb Ascii.eqb Bool.eqb]; rewrite v_two_value; lra).
  split; [exact Hv|].
  assert (L : forall c s b, derivable_pt_lim (fun t : R => c + t * b) s b).
  { intros c s b. assert (X : derivable_pt_lim (fun t : R => c + t * b) s (0 + (1 * b + s * 0))); [|replace (0 + (1 * b + s * 0)) with b in X by ring; exact X].
    apply (derivable_pt_lim_plus (fun _ => c) (fun t => t * b)); [apply derivable_pt_lim_const|].
    apply (derivable_pt_lim_mult (fun t => t) (fun _ => b)); [apply derivable_pt_lim_id|apply derivable_pt_lim_const]. }
  split; [repeat apply Forall2_cons; try apply Forall2_nil; unfold ray; cbn [String.eqb Ascii.eqb Bool.eqb]; apply L|].
  split; [intros e s t _ _ Hs; unfold ray; destruct (String.eqb_spec s "x") as [->|_]; [destruct Hs; left; reflexivity|]; destruct (String.eqb_spec s "y") as [->|_]; [destruct Hs; right; left; reflexivity|reflexivity]|].
  assert (Er : forall s, ray 0 s = 2) by (intros s; unfold ray; destruct (String.eqb s "x"), (String.eqb s "y"); lra).
  assert (Hdef : forall e, In e jac_es -> reval (ray 0) e <> None).
  { intros e He. replace (ray 0) with jac_env; [exact (H13 e He)|]. apply FunctionalExtensionality.functional_extensionality. intros s. symmetry. apply Er. }
  split; [exact Hdef|].
  destruct (C110_jacobian mc_round sample_load (sample_f64 mc_round) (sample_fill mc_round) H5 H1 H2 acc_round H3 H4 ["x"; "y"] [v_two; v_two] jac_es jac_dss empty_heap [] (ray 0) H6) as (J & h' & _ & f & _ & rows & _ & Hrows);
    [discriminate|exact H7|exact H8|vm_compute; discriminate|reflexivity|exact H9|exact H10|exact Hv|exact H12|exact Hdef|exact H14|].
  intros e He. apply In_nth_error in He as [i Hi]. destruct (nth_Forall2 _ _ _ i e Hrows Hi) as (row & _ & Hrow). exists row.
  exact (choose_bounds _ (fun s v b => near_derivative acc_round ["x"; "y"] [v_two; v_two] (ray 0) e s v b) _ row Hrow).
Qed.
Print Assumptions C110_jacobian.
Print Assumptions C110_velocity.
Print Assumptions C110_case_velocity.
