(** * C107: which exception code generation raises *)
From Coq Require Import SpecFloat.
From Verif Require Import Py ModelTree SpecTree ModelEval SpecEval ModelDiff ModelSym ModelCas ModelMatrix ModelLLVM ModelApi
  SpecCas SpecPrint SpecMatrix SpecLLVM SpecLambdify SpecApi SpecOutcome
  ProofBase ProofTopo ProofGraph ProofTree ProofEval ProofBin ProofFloat ProofLLVM ProofMatrix ProofSympy ProofOutcome PropsMatrix PropsCas PropsTreeText PropsLLVM ProofLLVMMatrix ProofApi PropsApi Samples.
Local Open Scope string_scope.

(** ** Specification *)
(** The calls in an expression, arguments before the call, from left to right: the function and the number of arguments. *)
Fixpoint calls (t : tree) : list (tree * nat) :=
  match t with
  | Node (f :: args) => (flat_map calls args ++ [(f, length args)])%list
  | _ => []
  end.
(** A sum or product of nothing. *)
Definition of_nothing (c : tree * nat) : bool := Nat.eqb (snd c) 0 && (tree_eqb (fst c) Add || tree_eqb (fst c) Mul).
(** What is wrong with an atom that is not an argument: an integer too large for a double; anything but an integer. *)
Definition atom_problem (symargs : list tree) (a : tree) : option exn :=
  if existsb (tree_eqb a) symargs then None
  else match a with
       | Atm (mkAtom ty (VInt n)) =>
           if atype_eqb ty T_Integer then match constant n with Some _ => None | None => Some OverflowError end
           else Some LLVMNotImplementedError
       | _ => Some LLVMNotImplementedError
       end.
(** What is wrong with a call: too few arguments; another function. *)
Definition call_problem (c : tree * nat) : option exn :=
  if tree_eqb (fst c) Add || tree_eqb (fst c) Mul then None
  else if tree_eqb (fst c) Pow then (if Nat.leb 2 (snd c) then None else Some IndexError)
  else if tree_eqb (fst c) sin || tree_eqb (fst c) cos then (if Nat.leb 1 (snd c) then None else Some IndexError)
  else Some LLVMNotImplementedError.
Fixpoint first_problem {A} (p : A -> option exn) (l : list A) : option exn :=
  match l with
  | [] => None
  | a :: r => match p a with Some x => Some x | None => first_problem p r end
  end.
(** Sums and products of nothing come first, then the atoms, then the calls. *)
Definition code_problem (symargs es : list tree) : option exn :=
  if existsb of_nothing (flat_map calls es) then Some TypeError
  else match first_problem (atom_problem symargs) (flat_map leaves es) with
       | Some x => Some x
       | None => first_problem call_problem (flat_map calls es)
       end.

(** ** Proofs *)
Definition as_res {A} (p : A -> option exn) (a : A) : res unit := match p a with Some x => Err x | None => Ok tt end.
Lemma fp_fe {A} (p : A -> option exn) l : first_problem p l = first_error (as_res p) l.
Proof. induction l as [|a l IH]; [reflexivity|]. cbn [first_problem first_error]. unfold as_res at 1. destruct (p a); [reflexivity|exact IH]. Qed.
Lemma fe_same {A V W} (f : A -> res V) (g : A -> res W) l : (forall a, In a l -> match f a, g a with Ok _, Ok _ => True | Err x, Err y => x = y | _, _ => False end) ->
  first_error f l = first_error g l.
Proof.
  induction l as [|a l IH]; intros H; [reflexivity|]. cbn [first_error]. pose proof (H a (or_introl eq_refl)) as Ha.
  destruct (f a), (g a); try contradiction; [apply IH; intros b Hb; apply H; right; exact Hb|congruence].
Qed.
Lemma fe_map {A B V} (f : B -> res V) (g : A -> B) l : first_error f (map g l) = first_error (fun a => f (g a)) l.
Proof. induction l as [|a l IH]; [reflexivity|]. cbn [map first_error]. destruct (f (g a)); [exact IH|reflexivity]. Qed.
Definition call_of (s : tree) : tree * nat := (head_of s, length (args_of s)).
Lemma calls_post e : calls e = map call_of (filter compound (postorder false [] e)).
Proof.
  induction e as [a|cs IH] using tree_ind_all; [reflexivity|]. destruct cs as [|f args]; [reflexivity|].
  cbn [calls postorder mem existsb]. rewrite app_nil_l, filter_app, map_app. f_equal.
  clear - IH. induction args as [|a args IHa]; [reflexivity|]. cbn [flat_map]. rewrite filter_app, map_app. f_equal; [apply IH; right; left; reflexivity|].
  apply IHa. intros c [<-|Hc]; apply IH; [left; reflexivity|right; right; exact Hc].
Qed.

(** bin_expand keeps the atoms and the calls that are not sums or products. *)
Definition plain_call (c : tree * nat) : bool := negb (tree_eqb (fst c) Add || tree_eqb (fst c) Mul).
Lemma nest_leaves h r : forall a, leaves (fold_left (call2 h) r a) = (leaves a ++ flat_map leaves r)%list.
Proof.
  induction r as [|b r IH]; intros a; cbn [fold_left flat_map]; [rewrite app_nil_r; reflexivity|]. rewrite IH.
  change (leaves (call2 h a b)) with (leaves a ++ leaves b ++ [])%list. rewrite app_nil_r, app_assoc. reflexivity.
Qed.
Lemma nest_calls h r : plain_call (h, 2) = false -> forall a, filter plain_call (calls (fold_left (call2 h) r a)) = filter plain_call (calls a ++ flat_map calls r)%list.
Proof.
  intros Hh. induction r as [|b r IH]; intros a; cbn [fold_left flat_map]; [rewrite app_nil_r; reflexivity|]. rewrite IH, !filter_app.
  change (calls (call2 h a b)) with ((calls a ++ calls b ++ []) ++ [(h, 2)])%list. rewrite !filter_app. cbn [filter]. rewrite Hh, !app_nil_r, app_assoc. reflexivity.
Qed.
Lemma bin_keeps e : forall e', meaning bin_leaf bin_op e = Ok e' -> leaves e' = leaves e /\ filter plain_call (calls e') = filter plain_call (calls e).
Proof.
  induction e as [a|cs IH] using tree_ind_all; intros e' H; [injection H as <-; auto|]. destruct cs as [|f args]; [discriminate|].
  cbn [meaning] in H. destruct (mapM (meaning bin_leaf bin_op) args) as [vs|] eqn:E; [|discriminate]. cbn [bind] in H.
  assert (G : flat_map leaves vs = flat_map leaves args /\ filter plain_call (flat_map calls vs) = filter plain_call (flat_map calls args)).
  { apply mapM_Ok_Forall2 in E. assert (IH' : forall c, In c args -> forall e', meaning bin_leaf bin_op c = Ok e' -> leaves e' = leaves c /\ filter plain_call (calls e') = filter plain_call (calls c))
      by (intros c Hc; apply IH; right; exact Hc). clear - E IH'.
    induction E as [|a v args vs Ha _ IHa]; [auto|]. cbn [flat_map]. destruct (IH' a (or_introl eq_refl) v Ha) as [L C].
    destruct IHa as [L' C']; [intros c Hc; apply IH'; right; exact Hc|]. rewrite !filter_app, L, L', C, C'. auto. }
  destruct G as [L C]. apply mapM_length in E. unfold bin_op in H.
  assert (N : forall h, plain_call (h, length args) = plain_call (h, 2)) by reflexivity.
  assert (R : forall h, plain_call (h, 2) = false -> reduce (call2 h) vs = Ok e' ->
    leaves e' = leaves (Node (h :: args)) /\ filter plain_call (calls e') = filter plain_call (calls (Node (h :: args)))).
  { intros h Hh Hr. destruct vs as [|v vs]; [discriminate|]. injection Hr as <-. cbn [leaves calls]. rewrite nest_leaves, nest_calls by exact Hh.
    split; [exact L|]. rewrite (filter_app _ (flat_map calls args)). cbn [filter]. rewrite (N h), Hh, app_nil_r, <- C. reflexivity. }
  destruct (tree_eqb_spec f Add) as [->|]; [apply R; [reflexivity|exact H]|]. destruct (tree_eqb_spec f Mul) as [->|]; [apply R; [reflexivity|exact H]|].
  injection H as <-. cbn [tree_call leaves calls]. split; [exact L|]. rewrite !filter_app, C. do 2 f_equal. unfold call_of. rewrite E. reflexivity.
Qed.
Lemma empty_calls es : existsb of_nothing (flat_map calls es) = false <-> forall e, In e es -> no_empty e.
Proof.
  assert (G : forall e, existsb of_nothing (calls e) = false <-> no_empty e).
  { intros e. rewrite calls_post. unfold no_empty. split.
    - intros H h Hh Hr. rewrite <- Bool.not_true_iff_false in H. apply H, existsb_exists. exists (h, 0). split.
      + apply in_map_iff. exists (Node [h]). split; [reflexivity|]. apply filter_In. split; [apply post_reach, Hr|reflexivity].
      + unfold of_nothing. cbn [fst snd]. destruct Hh as [->| ->]; reflexivity.
    - intros H. apply Bool.not_true_iff_false. intros Hx. apply existsb_exists in Hx as (c & Hc & Ho). apply in_map_iff in Hc as (s & <- & Hs).
      apply filter_In in Hs as [Hs Hc]. apply post_reach in Hs. destruct s as [a|[|f [|b args]]]; try discriminate.
      unfold of_nothing, call_of in Ho. cbn in Ho. apply (H f); [|exact Hs].
      destruct (tree_eqb_spec f Add) as [->|]; [left; reflexivity|]. destruct (tree_eqb_spec f Mul) as [->|]; [right; reflexivity|]. discriminate. }
  induction es as [|e es IH]; [split; [intros _ e []|reflexivity]|]. cbn [flat_map]. rewrite existsb_app, Bool.orb_false_iff, IH, G. split.
  - intros [H1 H2] u [<-|Hu]; auto.
  - intros H. split; [apply H; left; reflexivity|intros u Hu; apply H; right; exact Hu].
Qed.

(** Atoms. *)
Lemma atom_outcome symargs d a : (forall s, In s symargs -> exists n, dict_getitem tree_eqb d s = Ok n) -> a <> Node [] -> children a = [] ->
  (forall at_, a = Atm at_ -> atom_type at_ = T_Integer -> exists z, atom_value at_ = VInt z) ->
  match atom_identifier symargs d a, as_res (atom_problem symargs) a with Ok _, Ok _ => True | Err x, Err y => x = y | _, _ => False end.
Proof.
  intros Hd Ha Hc Hi. unfold atom_identifier, as_res, atom_problem. destruct (mem a symargs) eqn:Em.
  - assert (Em' : existsb (tree_eqb a) symargs = true) by exact Em. rewrite Em'. apply mem_true in Em as Hin. destruct (Hd a Hin) as (n & ->). exact I.
  - assert (Em' : existsb (tree_eqb a) symargs = false) by exact Em. rewrite Em'. destruct a as [[ty v]|[|c cs]]; [|congruence|discriminate].
    cbn [tree_value bind atom_type atom_value]. destruct (atype_eqb ty T_Integer) eqn:Et.
    + destruct (Hi (mkAtom ty v) eq_refl) as (z & Hz); [destruct (atype_eqb_spec ty T_Integer); [assumption|discriminate]|]. cbn [atom_value] in Hz. subst v.
      unfold double_to_hex. cbn [bind]. unfold float_of_int, constant. destruct (binary_normalize 53 1024 z 0 false); cbn; auto.
    + destruct v; reflexivity.
Qed.
(** Calls. *)
Lemma call_outcome ids ins h indices : whole h -> (forall i, In i indices -> i < S (length ids)) ->
  match call_problem (h, length indices) with
  | Some x => llvm_op (ids, ins) (h, indices) = Err x
  | None => exists i l, llvm_op (ids, ins) (h, indices) = Ok ((ids ++ [i])%list, (ins ++ [l])%list)
  end.
Proof.
  intros Hw Hi. unfold llvm_op.
  assert (Ha : exists argids, mapM (getitem (ids ++ [temp (length ins)])%list) indices = Ok argids).
  { induction indices as [|i is IH]; [eexists; reflexivity|]. destruct IH as (l & Hl); [intros j Hj; apply Hi; right; exact Hj|].
    cbn [mapM]. unfold getitem at 1. destruct (nth_error (ids ++ [temp (length ins)]) i) as [u|] eqn:E; [cbn [of_option bind]; rewrite Hl; eexists; reflexivity|].
    apply nth_error_None in E. rewrite app_length in E. cbn [length] in E. specialize (Hi i (or_introl eq_refl)). lia. }
  destruct Ha as (argids & Ha). rewrite Ha. apply mapM_length in Ha. cbn [bind]. unfold call_problem. cbn [fst snd]. rewrite <- Ha.
  destruct (tree_eqb_spec h Add) as [->|N1]; [cbn [orb bind]; eauto|]. destruct (tree_eqb_spec h Mul) as [->|N2]; [cbn [orb bind]; eauto|]. cbn [orb].
  destruct (tree_eqb_spec h Pow) as [->|N3]; [destruct argids as [|a [|b r]]; cbn; eauto|].
  destruct (tree_eqb_spec h sin) as [->|N4]; [destruct argids as [|a r]; cbn; eauto|].
  destruct (tree_eqb_spec h cos) as [->|N5]; [destruct argids as [|a r]; cbn; eauto|]. cbn [orb].
  assert (E : tree_repr_raises h = None); [|unfold not_implemented; rewrite E; reflexivity].
  clear - Hw. induction h as [a|cs IH] using tree_ind_all; [reflexivity|]. destruct cs as [|c cs]; [destruct Hw; constructor; intros []|].
  assert (G : forall d, In d (c :: cs) -> tree_repr_raises d = None).
  { intros d Hd. apply IH; [exact Hd|]. intros Hr. apply Hw. eapply reach_child; [intros []|exact Hd|exact Hr]. }
  cbn [tree_repr_raises]. rewrite (G c (or_introl eq_refl)). clear IH Hw. assert (G' : forall d, In d cs -> tree_repr_raises d = None) by (intros d Hd; apply G; right; exact Hd).
  clear G. induction cs as [|d ds IHd]; [reflexivity|]. rewrite (G' d (or_introl eq_refl)). apply IHd. intros u Hu. apply G'. right. exact Hu.
Qed.

Lemma calls_run e' q2 : forall q p ids ins, filter compound (tsort e' []) = (p ++ q ++ q2)%list ->
  length ids = length (filter childless (tsort e' [])) + length p -> (forall s, In s q -> whole (head_of s)) ->
  match first_problem call_problem (map call_of q) with
  | Some x => foldM llvm_op (map (op_of (forder e')) q) (ids, ins) = Err x
  | None => exists r, foldM llvm_op (map (op_of (forder e')) q) (ids, ins) = Ok r /\ length (fst r) = length ids + length q
  end.
Proof.
  induction q as [|s q IH]; intros p ids ins EN Hlen Hw; cbn [map first_problem foldM].
  - eexists. split; [reflexivity|]. cbn [fst length]. lia.
  - assert (Hi : forall i, In i (map (index_of (forder e')) (args_of s)) -> i < S (length ids)).
    { intros i Hi. apply in_map_iff in Hi as (c & <- & Hc). assert (Hb : In c (filter childless (tsort e' []) ++ p)) by (eapply forder_args_before; [exact EN|exact Hc]).
      assert (Hfo : forder e' = ((filter childless (tsort e' []) ++ p) ++ s :: q ++ q2)%list) by (unfold forder; rewrite EN, <- app_assoc; reflexivity).
      rewrite Hfo, index_of_app_l by exact Hb. pose proof (index_of_lt _ _ Hb) as G. rewrite app_length in G. lia. }
    pose proof (call_outcome ids ins (head_of s) (map (index_of (forder e')) (args_of s)) (Hw s (or_introl eq_refl)) Hi) as H. rewrite map_length in H.
    change (op_of (forder e') s) with (head_of s, map (index_of (forder e')) (args_of s)). unfold call_of at 1.
    destruct (call_problem (head_of s, length (args_of s))) as [x|]; [rewrite H; reflexivity|]. destruct H as (i & l & ->). cbn [bind].
    specialize (IH (p ++ [s])%list (ids ++ [i])%list (ins ++ [l])%list).
    assert (E1 : filter compound (tsort e' []) = ((p ++ [s]) ++ q ++ q2)%list) by (rewrite EN, <- app_assoc; reflexivity).
    assert (E2 : length (ids ++ [i]) = length (filter childless (tsort e' [])) + length (p ++ [s])) by (rewrite !app_length; cbn [length]; lia).
    specialize (IH E1 E2 (fun u Hu => Hw u (or_intror Hu))).
    destruct (first_problem call_problem (map call_of q)) as [x|]; [exact IH|]. destruct IH as (r & Er & Hr). exists r. split; [exact Er|].
    rewrite Hr, app_length. cbn [length]. lia.
Qed.
Lemma problem_filter l : first_problem call_problem (filter plain_call l) = first_problem call_problem l.
Proof.
  rewrite !fp_fe. apply fe_filter. intros [h n] _ H. exists tt. unfold as_res, call_problem. cbn [fst snd]. unfold plain_call in H. cbn [fst] in H.
  apply Bool.negb_false_iff in H. rewrite H. reflexivity.
Qed.
Lemma whole_calls e c : whole e -> In c (calls e) -> whole (fst c).
Proof.
  intros Hw H. rewrite calls_post in H. apply in_map_iff in H as (s & <- & Hs). apply filter_In in Hs as [Hs Hc]. apply post_reach in Hs.
  destruct s as [a|[|f args]]; try discriminate. cbn. intros Hr. apply Hw. apply reach_false_true in Hs. eapply reach_true_trans; [exact Hs|].
  eapply reach_child; [intros []|left; reflexivity|exact Hr].
Qed.
Lemma whole_proper e : whole e -> proper e.
Proof. intros H Hr. apply H, reach_false_true, Hr. Qed.
(** The generators up to the last step, for the expression or for the list of the entries. *)
Lemma graph_outcome symargs e e' d q q2 : whole e -> int_atoms e -> bin_expand e = Ok e' -> Forall whole symargs ->
  (forall s, In s symargs -> exists n, dict_getitem tree_eqb d s = Ok n) -> filter compound (tsort e' []) = (q ++ q2)%list ->
  match first_problem (atom_problem symargs) (leaves e) with
  | Some x => mapM (atom_identifier symargs d) (filter childless (tsort e' [])) = Err x
  | None => exists ids, mapM (atom_identifier symargs d) (filter childless (tsort e' [])) = Ok ids /\ length ids = length (filter childless (tsort e' [])) /\
      match first_problem call_problem (map call_of q) with
      | Some x => foldM llvm_op (map (op_of (forder e')) q) (ids, []) = Err x
      | None => exists r, foldM llvm_op (map (op_of (forder e')) q) (ids, []) = Ok r /\ length (fst r) = length ids + length q
      end
  end.
Proof.
  intros Hw Hi Hb Hs Hd EN. apply bin_expand_meaning in Hb as Hm. destruct (bin_keeps e e' Hm) as [L C].
  assert (Ea : first_problem (atom_problem symargs) (leaves e) = match mapM (atom_identifier symargs d) (filter childless (tsort e' [])) with Ok _ => None | Err x => Some x end).
  { rewrite <- fe_mapM, fp_fe, <- L. unfold tsort. rewrite <- keep_first_filter, fe_keep_first, <- leaves_post. symmetry. apply fe_same.
    intros a Ha. rewrite L in Ha. pose proof (leaves_childless e a Ha) as Hc. apply atom_outcome; [exact Hd| |exact Hc|].
    - intros ->. apply (whole_proper e Hw). rewrite leaves_post in Ha. apply filter_In in Ha as [Ha _]. apply post_reach, Ha.
    - intros at_ -> Ht. exact (Hi at_ Ha Ht). }
  rewrite Ea. destruct (mapM (atom_identifier symargs d) (filter childless (tsort e' []))) as [ids|x] eqn:Em; [|reflexivity]. exists ids. split; [reflexivity|].
  apply mapM_length in Em. split; [exact Em|]. apply (calls_run e' q2 q [] ids []); [exact EN|cbn [length]; lia|].
  intros s Hin. assert (Hc : In (call_of s) (calls e')).
  { rewrite calls_post. apply in_map. assert (G : In s (filter compound (tsort e' []))) by (rewrite EN; apply in_or_app; left; exact Hin).
    apply filter_In in G as [G1 G2]. unfold tsort in G1. apply (proj1 (keep_first_In _ _)) in G1. apply filter_In. auto. }
  destruct (plain_call (call_of s)) eqn:Ep.
  - assert (Hc' : In (call_of s) (filter plain_call (calls e))) by (rewrite <- C; apply filter_In; auto). apply filter_In in Hc' as [Hc' _].
    exact (whole_calls e _ Hw Hc').
  - unfold plain_call, call_of in Ep. cbn [fst] in Ep. apply Bool.negb_false_iff, Bool.orb_true_iff in Ep.
    intros Hr. destruct Ep as [Ep|Ep]; apply tree_eqb_iff in Ep; rewrite Ep in Hr; inversion Hr as [|t c u _ Hk _]; destruct Hk.
Qed.
Lemma names_ok symargs : Forall whole symargs -> exists names, mapM tree_str symargs = Ok names.
Proof.
  induction 1 as [|s l Hs _ (names & IH)]; [exists []; reflexivity|]. apply C94_when_str_succeeds in Hs as (n & Hn). exists (n :: names).
  cbn [mapM]. rewrite Hn, IH. reflexivity.
Qed.

(** C107. *)
Theorem C107_expression symargs e : whole e -> int_atoms e -> Forall whole symargs ->
  match code_problem symargs [e] with
  | Some x => to_llvm_f64 symargs e = Err x
  | None => exists text, to_llvm_f64 symargs e = Ok text
  end.
Proof.
  intros Hw Hi Hs. unfold code_problem. cbn [flat_map]. rewrite !app_nil_r. pose proof (empty_calls [e]) as He. cbn [flat_map] in He. rewrite app_nil_r in He.
  unfold to_llvm_f64. destruct (bin_expand_cases e (whole_proper e Hw)) as [[Hn (e' & Hb)]|[Hn Hb]]; rewrite Hb.
  - rewrite (proj2 He) by (intros u [<-|[]]; exact Hn). cbn [bind]. destruct (forward_graph_spec e') as (hs & Eg & _). rewrite Eg. cbn [bind g_atoms g_operations].
    destruct (names_ok symargs Hs) as (names & Hnm). destruct (argnames_spec symargs names Hnm) as (d & Ed & Hd). rewrite Ed. cbn [bind].
    pose proof (graph_outcome symargs e e' d (filter compound (tsort e' [])) [] Hw Hi Hb Hs) as G.
    assert (Hd' : forall s, In s symargs -> exists n, dict_getitem tree_eqb d s = Ok n).
    { intros s Hin. destruct (Hd s Hin) as (nm & _ & E). eexists. unfold dict_getitem. rewrite E. reflexivity. }
    specialize (G Hd' ltac:(rewrite app_nil_r; reflexivity)). destruct (first_problem (atom_problem symargs) (leaves e)) as [x|]; [rewrite G; reflexivity|].
    destruct G as (ids & Ei & Hl & G). rewrite Ei. cbn [bind]. rewrite (params_ok symargs names d Hnm Hd). cbn [bind].
    assert (Ec : first_problem call_problem (map call_of (filter compound (tsort e' []))) = first_problem call_problem (calls e)).
    { apply bin_expand_meaning in Hb. rewrite <- (problem_filter (calls e)), <- (proj2 (bin_keeps e e' Hb)), problem_filter, calls_post, !fp_fe, !fe_map.
      unfold tsort. rewrite <- keep_first_filter. apply fe_keep_first. }
    rewrite Ec in G. destruct (first_problem call_problem (calls e)) as [x|]; [rewrite G; reflexivity|]. destruct G as ([ids' ins] & -> & Hlen). cbn [bind].
    destruct (last_item_nonempty ids') as (result & ->); [|eexists; reflexivity]. cbn [fst] in Hlen.
    destruct (forder_last e') as (l0 & El0). unfold forder in El0. apply (f_equal (@length tree)) in El0. rewrite !app_length in El0. cbn [length] in El0.
    intros ->. cbn [length] in Hlen. lia.
  - destruct (existsb of_nothing (calls e)) eqn:E; [reflexivity|]. destruct Hn. apply (proj1 He eq_refl). left. reflexivity.
Qed.

(** Matrices: the problems of the stored entries, in the order in which they were stored. *)
Theorem C107_matrix symargs h ms m : history h ms -> In m ms -> let es := nth (m_elements m) (h_lists h) [] in
  Forall whole es -> Forall int_atoms es -> Forall whole symargs ->
  match code_problem symargs es with
  | Some x => to_llvm_f64_matrix symargs m h = (Err x, h)
  | None => exists text, to_llvm_f64_matrix symargs m h = (Ok text, h)
  end.
Proof.
  intros Hh Hm es Hw Hi Hs. destruct (history_wf _ _ Hh _ Hm) as (_ & _ & Hgraph & Hgood). change (elems h m) with es in *.
  set (e := tree_call List_ es) in *.
  assert (Hwe : whole e).
  { intros Hr. inversion Hr as [|t c u _ Hk Hr']; subst. destruct Hk as [<-|Hk]; [inversion Hr' as [|t c u _ Hk _]; destruct Hk|].
    rewrite Forall_forall in Hw. exact (Hw c Hk Hr'). }
  assert (Hie : int_atoms e).
  { intros a Ha. change (leaves e) with (flat_map leaves es) in Ha. apply in_flat_map in Ha as (u & Hu & Ha). rewrite Forall_forall in Hi. exact (Hi u Hu a Ha). }
  unfold code_problem. pose proof (empty_calls es) as He.
  assert (Hne : no_empty e <-> forall u, In u es -> no_empty u).
  { split.
    - intros H u Hu f Hf Hr. apply (H f Hf). eapply reach_arg; [exact Hu|exact Hr].
    - intros H f Hf Hr. apply reach_node_inv in Hr as [E|(u & Hu & Hr)]; [|exact (H u Hu f Hf Hr)]. injection E as E _. destruct Hf as [->| ->]; discriminate. }
  unfold to_llvm_f64_matrix. rewrite Hgraph. fold e. unfold hbind, hlift, hret, read_dict.
  destruct (bin_expand_cases e (whole_proper e Hwe)) as [[Hn (e' & Hb)]|[Hn Hb]]; rewrite Hb.
  - rewrite (proj2 He) by (apply Hne, Hn). pose proof Hb as Hb'. apply list_expand in Hb' as (elts' & Ee & Em).
    destruct (forward_graph_spec e') as (hs & Eg & _). rewrite Eg. cbn [g_atoms g_operations].
    destruct (names_ok symargs Hs) as (names & Hnm). destruct (argnames_spec symargs names Hnm) as (d & Ed & Hd). rewrite Ed.
    assert (Hd' : forall s, In s symargs -> exists n, dict_getitem tree_eqb d s = Ok n).
    { intros s Hin. destruct (Hd s Hin) as (nm & _ & E). eexists. unfold dict_getitem. rewrite E. reflexivity. }
    set (X := filter compound (flat_map (postorder false []) elts')).
    assert (EN : filter compound (tsort e' []) = (keep_first X ++ [e'])%list).
    { unfold tsort. rewrite <- keep_first_filter, Ee. cbn [postorder mem existsb]. rewrite app_nil_l, filter_app. fold X. cbn [filter compound childless children negb].
      apply keep_first_app_new. intros Hin. apply filter_In in Hin as [Hin _]. apply in_flat_map in Hin as (u & Hu & Hr). apply post_reach in Hr. apply reach_tsize in Hr.
      assert (tsize u < tsize (Node (List_ :: elts'))) by (apply (kids_tsize false); exact Hu). destruct Hr as [E|Hr]; [rewrite <- E in *|]; lia. }
    pose proof (graph_outcome symargs e e' d (keep_first X) [e'] Hwe Hie Hb Hs Hd' EN) as G. change (leaves e) with (flat_map leaves es) in G.
    destruct (first_problem (atom_problem symargs) (flat_map leaves es)) as [x|]; [rewrite G; reflexivity|].
    destruct G as (ids & Ei & Hl & G). rewrite Ei, (params_ok symargs names d Hnm Hd).
    assert (Ec : first_problem call_problem (map call_of (keep_first X)) = first_problem call_problem (flat_map calls es)).
    { assert (K : filter plain_call (flat_map calls elts') = filter plain_call (flat_map calls es)).
      { apply mapM_Ok_Forall2 in Em. clear - Em. induction Em as [|a v args vs Ha _ IHa]; [reflexivity|]. cbn [flat_map]. rewrite !filter_app, IHa, (proj2 (bin_keeps a v Ha)). reflexivity. }
      rewrite <- (problem_filter (flat_map calls es)), <- K, problem_filter.
      assert (EX : flat_map calls elts' = map call_of X).
      { unfold X. clear. induction elts' as [|a l IH]; [reflexivity|]. cbn [flat_map]. rewrite filter_app, map_app, IH, calls_post. reflexivity. }
      rewrite EX, !fp_fe, !fe_map. apply fe_keep_first. }
    rewrite Ec in G. rewrite EN, map_app. cbn [map]. rewrite removelast_app1, last_item_app.
    destruct (first_problem call_problem (flat_map calls es)) as [x|]; [rewrite G; reflexivity|]. destruct G as ([ids' ins] & Ef & Hlen). rewrite Ef. cbn [fst] in Hlen.
    destruct (op_of (forder e') e') as [hd0 indices] eqn:Eo. assert (Eo' : indices = map (index_of (forder e')) (args_of e')) by (unfold op_of in Eo; congruence).
    clear Eo. assert (Eo : map (index_of (forder e')) elts' = indices) by (rewrite Eo', Ee; reflexivity).
    cbv beta iota. fold (emap h m).
    destruct (stores_total (m_ncols m) ids' indices (sort_items (emap h m)) (length ins) ins) as ([n out] & ->); [| |eexists; reflexivity].
    + intros q k Hq. apply (Permutation.Permutation_in _ (sort_perm _)) in Hq. destruct Hgood as (_ & Hsnd & _). apply (in_map snd) in Hq. rewrite Hsnd in Hq. apply in_seq in Hq. cbn [snd] in Hq.
      rewrite <- Eo, map_length. apply mapM_length in Em. fold es in Hq. lia.
    + intros k Hk. rewrite <- Eo in Hk. apply in_map_iff in Hk as (c & <- & Hc). rewrite Hlen, Hl.
      assert (Hb2 : In c (filter childless (tsort e' []) ++ keep_first X)).
      { eapply (forder_args_before e' (keep_first X) e' []); [exact EN|]. rewrite Ee. exact Hc. }
      assert (Hfo : forder e' = ((filter childless (tsort e' []) ++ keep_first X) ++ [e'])%list) by (unfold forder; rewrite EN, app_assoc; reflexivity).
      rewrite Hfo, index_of_app_l by exact Hb2. pose proof (index_of_lt _ _ Hb2) as Hlt. rewrite app_length in Hlt. exact Hlt.
  - destruct (existsb of_nothing (flat_map calls es)) eqn:E; [reflexivity|]. destruct Hn. apply Hne, He. reflexivity.
Qed.
(** So lambdify and to_llvm_ir raise this exception, on any platform, and change nothing. *)
Theorem C107_lambdify {code} (load : string -> res code) symargs e x h : whole e -> int_atoms e -> Forall whole symargs ->
  code_problem symargs [e] = Some x ->
  lambdify load (map OExpr symargs) (OExpr e) h = (Err x, h) /\ expr_to_llvm_ir e (map OExpr symargs) = Err x.
Proof.
  intros Hw Hi Hs Hp. pose proof (C107_expression symargs e Hw Hi Hs) as H. rewrite Hp in H.
  unfold lambdify, expr_to_llvm_ir. rewrite reps_map. unfold hbind, hlift, lambdify_llvm. cbn [bind]. rewrite H. auto.
Qed.
Theorem C107_lambdify_matrix {code} (load : string -> res code) symargs h ms m x : history h ms -> In m ms -> let es := nth (m_elements m) (h_lists h) [] in
  Forall whole es -> Forall int_atoms es -> Forall whole symargs -> code_problem symargs es = Some x ->
  lambdify load (map OExpr symargs) (OMatrix m) h = (Err x, h) /\ matrix_to_llvm_ir m (map OExpr symargs) h = (Err x, h).
Proof.
  intros Hh Hm es Hw Hi Hs Hp. pose proof (C107_matrix symargs h ms m Hh Hm Hw Hi Hs) as H. fold es in H. rewrite Hp in H.
  unfold lambdify, matrix_to_llvm_ir. rewrite reps_map. unfold hbind, hlift, lambdify_llvm_matrix, hbind. rewrite H. auto.
Qed.
(** The exceptions that occur. *)
Theorem C107_only_these symargs es x : code_problem symargs es = Some x -> In x [TypeError; OverflowError; LLVMNotImplementedError; IndexError].
Proof.
  unfold code_problem. destruct (existsb _ _); [intros H; injection H as <-; simpl; auto|].
  assert (G : forall A (p : A -> option exn) l, (forall a w, p a = Some w -> In w [TypeError; OverflowError; LLVMNotImplementedError; IndexError]) ->
    forall w, first_problem p l = Some w -> In w [TypeError; OverflowError; LLVMNotImplementedError; IndexError]).
  { intros A p l Hp w. induction l as [|a l IH]; [discriminate|]. cbn [first_problem]. destruct (p a) eqn:E; [intros H; injection H as <-; eauto|exact IH]. }
  destruct (first_problem (atom_problem symargs) (flat_map leaves es)) as [w0|] eqn:E.
  - intros H. injection H as <-. revert E. apply G. intros a w. unfold atom_problem. destruct (existsb _ _); [discriminate|].
    destruct a as [[ty [z0|s]]|l]; try (intros H; injection H as <-; simpl; tauto). destruct (atype_eqb ty T_Integer); [|intros H; injection H as <-; simpl; tauto].
    destruct (constant z0); [discriminate|]. intros H. injection H as <-. simpl. tauto.
  - apply G. intros [f0 n] w. unfold call_problem. cbn [fst snd]. destruct (_ || _); [discriminate|]. destruct (tree_eqb f0 Pow).
    + destruct (Nat.leb 2 n); [discriminate|]. intros H. injection H as <-. simpl. tauto.
    + destruct (_ || _).
      * destruct (Nat.leb 1 n); [discriminate|]. intros H. injection H as <-. simpl. tauto.
      * intros H. injection H as <-. simpl. tauto.
Qed.
(** A case for each: f(pow(x)) + y with and without y as an argument, 2**1024, and Add(). *)
Example C107_case : code_problem [x] [m_add (tree_call f [tree_call Pow [x]]) y] = Some LLVMNotImplementedError /\
  code_problem [x; y] [m_add (tree_call f [tree_call Pow [x]]) y] = Some IndexError /\
  code_problem [x; y] [m_add (tree_call f [x]) (m_mul y (int (2 ^ 1024)))] = Some OverflowError /\
  code_problem [] [m_add y (tree_call Add [])] = Some TypeError /\
  code_problem [x; y] [m_add x (m_pow y (int 2))] = None /\
  lambdify sample_load [OExpr x; OExpr y] (OExpr (m_add (tree_call f [tree_call Pow [x]]) y)) heap_ab = (Err IndexError, heap_ab) /\
  history heap_ab [mat_b; mat_a] /\ code_problem [x] (nth (m_elements mat_a) (h_lists heap_ab) []) = Some LLVMNotImplementedError.
Proof. repeat (split; [vm_compute; reflexivity|]). split; [exact history_ab|]. vm_compute. reflexivity. Qed.
Print Assumptions C107_expression.
Print Assumptions C107_matrix.
Print Assumptions C107_lambdify.
Print Assumptions C107_lambdify_matrix.
Print Assumptions C107_only_these.
