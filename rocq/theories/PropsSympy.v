(** * Properties of the SymPy conversions: C52 - C54. *)
From Verif Require Import Py ModelTree SpecTree ProofBase ModelEval SpecEval ModelSym ModelCas ModelMatrix ModelSympy SpecMatrix SpecSympy
  ProofMatrix ProofSympy PropsMatrix Samples.
Local Open Scope string_scope.

(** C52. *)
Theorem C52_cache_is_transparent s : from_sympy s = convert s.
Proof. apply from_sympy_convert. Qed.
Theorem C52_what_converts s :
  ((exists t, from_sympy s = Ok t) <-> convertible s) /\ 
  (forall x, from_sympy s = Err x -> x = NotImplementedErr \/ (x = TypeError /\ has_class s)).
Proof. rewrite from_sympy_convert. split; [apply convert_iff|]. intros x. apply convert_err. Qed.

(** SymPy constructors that build the object, without simplifying. *)
Definition sympy_plain : sympy_ops :=
  mkSympy (fun l => Ok (SApp SAdd l)) (fun l => Ok (SApp SMul l)) (fun a b => Ok (SApp SPow [a; b]))
    (fun a => Ok (SApp SSin [a])) (fun a => Ok (SApp SCos [a])) (fun name l => Ok (SApp (SUndef name 0) l)).
(** [f(sin(x), x**2) + sin(x)], where sin(x) is shared *)
Definition s_sin := SApp SSin [SSym "x" 0].
Definition s_sample := SApp SAdd [SApp (SUndef "f" 0) [s_sin; SApp SPow [SSym "x" 0; SInt 2]]; s_sin].
Example C52_case :
  from_sympy s_sample = Ok (m_add (tree_call f [tree_call sin [x]; m_pow x (int 2)]) (tree_call sin [x])) /\
  convertible s_sample /\
  from_sympy (SApp SAdd [s_sin; SApp (SOtherClass 7) [s_sin]]) = Err NotImplementedErr.
Proof. repeat split; repeat (constructor || discriminate). Qed.
Print Assumptions C52_cache_is_transparent.
Print Assumptions C52_what_converts.

(** C53. [canonical o s]: rebuilding [s] with SymPy's constructors [o] gives [s]; see SpecSympy.v. *)
Theorem C53_round_trip o s t : canonical o s -> from_sympy s = Ok t -> to_sympy o t = Ok s.
Proof. rewrite from_sympy_convert. apply round_trip. Qed.
Lemma canonical_convertible o s : canonical o s -> convertible s.
Proof.
  induction s as [p|s n|s|n|h args IH] using sexpr_ind_all; intros H; inversion H; subst; try constructor; auto.
  - intros n E. destruct args as [|a [|b [|]]]; rewrite E in H3; discriminate.
  - rewrite Forall_forall in *. auto.
Qed.
Theorem C53_round_trip_exists o s : canonical o s -> exists t, from_sympy s = Ok t /\ to_sympy o t = Ok s.
Proof.
  intros H. destruct (proj1 (C52_what_converts s)) as [_ G]. destruct (G (canonical_convertible o s H)) as [t Ht].
  exists t. split; [exact Ht|]. apply C53_round_trip; assumption.
Qed.
(** Without the conditions it fails: the assumptions of a symbol are lost (so x with and without are
    confused), and an undefined function called sin becomes the sine. *)
Theorem C53_assumptions_lost_refuted o : exists s s' t, s <> s' /\ from_sympy s = Ok t /\ from_sympy s' = Ok t /\ to_sympy o t = Ok s'.
Proof. exists (SSym "x" 1), (SSym "x" 0), (Symbol "x"). split; [discriminate|]. repeat split. Qed.
Theorem C53_name_clash_refuted : exists s s' t, s <> s' /\ from_sympy s = Ok t /\ from_sympy s' = Ok t /\ to_sympy sympy_plain t = Ok s' /\
  canonical sympy_plain s'.
Proof.
  exists (SApp (SUndef "sin" 0) [SSym "x" 0]), s_sin, (tree_call sin [x]). split; [discriminate|]. repeat split.
  constructor; try discriminate; repeat constructor.
Qed.

Lemma meaning_list o l : meaning sp_leaf (sp_op o) (tree_call List_ l) =
  (do vs <- mapM (meaning sp_leaf (sp_op o)) l; Ok (SApp STuple vs)).
Proof. reflexivity. Qed.
Lemma mapM_getitem {A B C} (f : A -> res B) (l : list A) (ss : list B) (d : list (C * nat)) d0 :
  mapM f l = Ok ss -> (forall e, In e d -> snd e < length l) ->
  exists sets, mapM (fun pn => do s <- getitem ss (snd pn); Ok (fst pn, s)) d = Ok sets /\
    map fst sets = map fst d /\
    Forall2 (fun e (q : C * B) => f (nth (snd e) l d0) = Ok (snd q)) d sets.
Proof.
  intros Hm. induction d as [|e d IH]; intros Hd; [exists []; repeat split; constructor|].
  destruct IH as (sets & E & H1 & H2); [intros e' He'; apply Hd; right; exact He'|].
  assert (Hlt : snd e < length l) by (apply Hd; left; reflexivity).
  assert (Hl : length ss = length l) by apply (mapM_length _ _ _ Hm).
  assert (exists b, nth_error ss (snd e) = Some b) as [b Hb].
  { destruct (nth_error ss (snd e)) eqn:En; [eauto|]. apply nth_error_None in En. lia. }
  exists ((fst e, b) :: sets). cbn [mapM]. unfold getitem, of_option. rewrite Hb. cbn [bind].
  unfold getitem, of_option in E. rewrite E. split; [reflexivity|]. split; [cbn [map fst]; congruence|].
  constructor; [|exact H2]. cbn [snd]. rewrite (mapM_nth _ _ _ _ d0 b Hm Hlt). f_equal. apply nth_error_nth, Hb.
Qed.

(** Matrix.to_sympy converts the stored entries, each once, at their positions. *)
Theorem C53_matrix_to_sympy o h ms m : history h ms -> In m ms ->
  (forall i j t, inside m i j -> stored m i j h -> get m i j h = Ok t -> exists s, to_sympy o t = Ok s) ->
  exists sets, to_sympy_matrix o m h = (Ok (m_nrows m, m_ncols m, sets), h) /\ NoDup (map fst sets) /\
    (forall i j, inside m (Z.of_nat i) (Z.of_nat j) -> (In (i, j) (map fst sets) <-> stored m (Z.of_nat i) (Z.of_nat j) h)) /\
    (forall i j s, In ((i, j), s) sets -> inside m (Z.of_nat i) (Z.of_nat j) /\
       exists t, get m (Z.of_nat i) (Z.of_nat j) h = Ok t /\ to_sympy o t = Ok s).
Proof.
  intros Hh Hm Hall. pose proof (history_wf _ _ Hh _ Hm) as Hw. pose proof Hw as (W1 & W2 & W3 & G1 & G2 & G3).
  assert (Hlt : forall e, In e (emap h m) -> snd e < length (elems h m)).
  { intros e He. apply (in_map snd) in He. rewrite G2 in He. apply in_seq in He. simpl in He. lia. }
  assert (Hget : forall p n, In (p, n) (emap h m) -> inside m (Z.of_nat (fst p)) (Z.of_nat (snd p)) /\
     get m (Z.of_nat (fst p)) (Z.of_nat (snd p)) h = Ok (nth n (elems h m) zero)).
  { intros p n Hp. pose proof (G3 p (in_map fst _ _ Hp)) as [R1 R2].
    assert (Hin : inside m (Z.of_nat (fst p)) (Z.of_nat (snd p))) by (unfold inside; lia). split; [exact Hin|].
    rewrite (get_inside h m _ _ Hw Hin), !Nat2Z.id. unfold entry. replace (fst p, snd p) with p by (destruct p; reflexivity).
    rewrite (dget_in _ _ _ G1 Hp). reflexivity. }
  assert (Hconv : exists ss, mapM (meaning sp_leaf (sp_op o)) (elems h m) = Ok ss).
  { apply mapM_all_iff, Forall_forall. intros a Ha. apply In_nth with (d := zero) in Ha as (n & Hn & Ha).
    assert (Hn' : In n (map snd (emap h m))) by (rewrite G2; apply in_seq; lia).
    apply in_map_iff in Hn' as ([p n'] & E & Hp). cbn [snd] in E. subst n'.
    destruct (Hget p n Hp) as [Hin Hg]. rewrite Ha in Hg. 
    destruct (Hall (Z.of_nat (fst p)) (Z.of_nat (snd p)) a Hin) as [s Hs]; [|exact Hg|exists s; apply to_sympy_meaning, Hs].
    unfold stored. rewrite !Nat2Z.id. replace (fst p, snd p) with p by (destruct p; reflexivity). apply (in_map fst _ _ Hp). }
  destruct Hconv as [ss Hss].
  destruct (mapM_getitem _ _ _ (emap h m) zero Hss Hlt) as (sets & E & Hk & Hf).
  exists sets. split; [|split; [|split]].
  - unfold to_sympy_matrix. rewrite W3.
    assert (Et : to_sympy o (tree_call List_ (elems h m)) = Ok (SApp STuple ss)).
    { apply to_sympy_meaning. rewrite meaning_list, Hss. reflexivity. }
    rewrite Et. unfold hbind at 1, hlift at 1. unfold hbind, read_dict, hlift, hret. cbn [s_args]. fold (emap h m). rewrite E. reflexivity.
  - rewrite Hk. exact G1.
  - intros i j _. rewrite Hk. unfold stored. rewrite !Nat2Z.id. reflexivity.
  - intros i j s Hs. assert (G : exists n, In ((i, j), n) (emap h m) /\ meaning sp_leaf (sp_op o) (nth n (elems h m) zero) = Ok s).
    { clear -Hk Hf Hs. induction Hf as [|e q d sets Heq _ IH]; [destruct Hs|]. cbn [map] in Hk. injection Hk as H1 H2.
      destruct Hs as [->|Hs].
      - cbn [fst snd] in *. exists (snd e). split; [left; rewrite H1; destruct e; reflexivity|exact Heq].
      - destruct (IH H2 Hs) as (n & Hn & Hv). exists n. split; [right; exact Hn|exact Hv]. }
    destruct G as (n & Hn & Hv). destruct (Hget (i, j) n Hn) as [Hin Hg]. cbn [fst snd] in *. split; [exact Hin|].
    exists (nth n (elems h m) zero). split; [exact Hg|]. apply to_sympy_meaning, Hv.
Qed.
(** The round trip of a matrix, also after any further program. *)
Theorem C53_matrix_round_trip o h ms sm : history h ms -> smatrix_ok sm -> sm_dok sm <> [] ->
  Forall (canonical o) (map snd (sm_dok sm)) ->
  exists m h', from_sympy_matrix sm h = (Ok m, h') /\ history h' (m :: ms) /\
    forall h2 ms2, steps h' (m :: ms) h2 ms2 ->
      to_sympy_matrix o m h2 = (Ok (sm_rows sm, sm_cols sm, sm_dok sm), h2).
Proof.
  intros Hh Hok Hne Hcan.
  assert (Hts : exists ts, mapM convert (map snd (sm_dok sm)) = Ok ts).
  { apply mapM_all_iff. eapply Forall_impl; [|exact Hcan]. intros s Hs. apply convert_iff, (canonical_convertible o), Hs. }
  destruct (from_matrix sm h Hok) as [(m & h' & ts & E & Hext & Hwf & Enr & Enc & Em & _ & Ee & Ed)|(x0 & h' & _ & _ & _ & Hno)]; [|destruct Hno; auto].
  exists m, h'. split; [exact E|]. assert (Hh' : history h' (m :: ms)).
  { eapply steps_more; [exact Hh|]. exact (step_sympy _ _ _ _ _ Hok E). }
  split; [exact Hh'|]. intros h2 ms2 Hs. destruct (steps_inv _ _ _ _ Hs (history_wf _ _ Hh')) as (Hx & Hin & Hw2).
  destruct (extends_same _ _ _ Hwf Hx) as [Ee2 Ed2]. pose proof Hwf as (_ & _ & Wg & _).
  assert (Et : to_sympy o (m_graph m) = Ok (SApp STuple (map snd (sm_dok sm)))).
  { apply round_trip.
    - constructor; [|reflexivity|discriminate|exact Hcan]. destruct (sm_dok sm); [congruence|discriminate].
    - rewrite Wg, Ee. destruct (sm_dok sm) as [|e l]; [congruence|]. cbn [map] in *. cbn [convert head_for].
      change (mapM (fun s => convert s)) with (mapM convert). rewrite Em. reflexivity. }
  unfold to_sympy_matrix. rewrite Et. unfold hbind at 1, hlift at 1. unfold hbind, read_dict, hlift, hret. cbn [s_args].
  fold (emap h2 m). rewrite Ed2, Ed, Enr, Enc.
  assert (G : forall (l : list (pos * sexpr)) front,
    mapM (fun pn => do s <- getitem (front ++ map snd l)%list (snd pn); Ok (fst pn, s))
      (map (fun e : nat * (pos * sexpr) => (fst (snd e), fst e)) (enumerate_from (length front) l)) = Ok l).
  { clear. induction l as [|[p s] l IH]; intros front; [reflexivity|]. cbn [enumerate_from map mapM fst snd].
    unfold getitem at 1, of_option. rewrite nth_error_app2, Nat.sub_diag by lia. cbn [nth_error bind].
    specialize (IH (front ++ [s])%list). rewrite app_length, Nat.add_1_r, <- app_assoc in IH. cbn [app] in IH. rewrite IH. reflexivity. }
  specialize (G (sm_dok sm) []). cbn [app length] in G. rewrite G. reflexivity.
Qed.
Definition sm_sample := mkSMatrix 2 3 [((0, 1), s_sample); ((1, 2), SInt 5)].
Example C53_case :
  canonical sympy_plain s_sample /\ smatrix_ok sm_sample /\ Forall (canonical sympy_plain) (map snd (sm_dok sm_sample)) /\
  history heap_ab [mat_b; mat_a] /\
  fst ((let! m <- from_sympy_matrix sm_sample; to_sympy_matrix sympy_plain m) heap_ab) = Ok (2, 3, sm_dok sm_sample).
Proof.
  assert (H : canonical sympy_plain s_sample).
  { assert (Hx : canonical sympy_plain (SSym "x" 0)) by constructor.
    assert (Hs : canonical sympy_plain s_sin) by (constructor; [discriminate|reflexivity|discriminate|auto]).
    assert (Hp : canonical sympy_plain (SApp SPow [SSym "x" 0; SInt 2])) by (constructor; [discriminate|reflexivity|discriminate|repeat constructor]).
    assert (Hf : canonical sympy_plain (SApp (SUndef "f" 0) [s_sin; SApp SPow [SSym "x" 0; SInt 2]])).
    { constructor; [discriminate|reflexivity| |auto]. intros name n E. injection E as <- <-. split; [reflexivity|]. simpl. intuition discriminate. }
    constructor; [discriminate|reflexivity|discriminate|auto]. }
  split; [exact H|]. split; [|split; [|split; [exact history_ab|]]].
  - split; [repeat constructor; simpl; intuition congruence|]. simpl. intros p [<-|[<-|[]]]; simpl; lia.
  - constructor; [exact H|]. repeat constructor.
  - vm_compute. reflexivity.
Qed.
Print Assumptions C53_round_trip.
Print Assumptions C53_round_trip_exists.
Print Assumptions C53_matrix_to_sympy.
Print Assumptions C53_matrix_round_trip.
Print Assumptions C53_assumptions_lost_refuted.
Print Assumptions C53_name_clash_refuted.

(** C54. *)
Theorem C54_empty_applications hd : from_sympy (SApp hd []) = Err NotImplementedErr.
Proof. rewrite from_sympy_convert. reflexivity. Qed.
Theorem C54_zero_matrices nr nc h : fst (from_sympy_matrix (mkSMatrix nr nc []) h) = Err NotImplementedErr.
Proof. reflexivity. Qed.
(** These are the only matrices of convertible entries that fail; the zero Matrix itself can be made, and
    converted to SymPy. *)
Theorem C54_only_zero_matrices h sm : smatrix_ok sm -> Forall convertible (map snd (sm_dok sm)) ->
  (sm_dok sm <> [] <-> exists m h', from_sympy_matrix sm h = (Ok m, h')).
Proof.
  intros Hok Hc.
  destruct (from_matrix sm h Hok) as [(m & h' & ts & E & _ & _ & _ & _ & _ & Hne & _)|(x0 & h' & E & _ & _ & Hno)].
  - split; eauto.
  - split; [|intros (m & h2 & E2); rewrite E2 in E; discriminate]. intros Hne. exfalso. apply Hno. split; [exact Hne|].
    apply mapM_all_iff. eapply Forall_impl; [|exact Hc]. intros s. apply convert_iff.
Qed.
Example C54_case :
  fst ((let! m <- matrix_new (PRows [PRow [PInt 0; PInt 0]]); to_sympy_matrix sympy_plain m) empty_heap) = Ok (1, 2, []) /\
  from_sympy (SApp (SUndef "f" 0) []) = Err NotImplementedErr /\ smatrix_ok (mkSMatrix 1 2 []).
Proof. split; [vm_compute; reflexivity|]. split; [reflexivity|]. split; [constructor|intros p []]. Qed.
Print Assumptions C54_empty_applications.
Print Assumptions C54_zero_matrices.
Print Assumptions C54_only_zero_matrices.
