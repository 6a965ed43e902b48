(** * Properties of the outermost calls: C65 to C68 *)
From Coq Require Import SpecFloat.
From Verif Require Import PropsDiff.
From Verif Require Import Py ModelTree ModelEval ModelDiff ModelSym ModelCas ModelMatrix ModelLLVM ModelRepr ModelApi
  SpecTree SpecMatrix SpecLLVM SpecLambdify SpecPrint SpecApi
  ProofBase ProofTree ProofMatrix ProofPrint PropsMatrix PropsLLVM ProofApi Samples.
Local Open Scope string_scope.

Section Platform.
  Context (mc : machine) {code : Type} (load : string -> res code)
    (call_f64 : code -> list spec_float -> spec_float) (call_fill : code -> nat -> list spec_float -> list spec_float).
  Context (Hplatform : faithful mc load call_f64 call_fill).
  Notation call := (call_compiled call_f64 call_fill).

  (** C65. lambdify of an expression. *)
  Theorem C65_lambdify_expression symargs e h : good_names symargs ->
    ((exists f, lambdify load (map OExpr symargs) (OExpr e) h = (Ok f, h)) <->
     forall mc vals, length vals = length symargs -> exists v, machine_value mc symargs vals e = Some v) /\
    forall f h', lambdify load (map OExpr symargs) (OExpr e) h = (Ok f, h') ->
      h' = h /\
      (forall vals, length vals = length symargs ->
         exists v, machine_value mc symargs vals e = Some v /\ call f vals = Ok (FFloat v)) /\
      (forall vals, length vals < length symargs -> call f vals = Err TypeError).
  Proof.
    intros Hg. unfold lambdify. rewrite reps_map. unfold hbind, hlift, lambdify_llvm. destruct Hplatform as [Hload Hcall].
    split.
    - split.
      + intros (f & H). destruct (to_llvm_f64 symargs e) as [text|] eqn:Et; [|discriminate].
        exact (proj2 (proj1 (C46_accepted symargs e) (ex_intro _ _ Et))).
      + intros H. destruct (proj2 (C46_accepted symargs e)) as (text & Et).
        { split; [destruct Hg as (names & Hn & _); eauto|exact H]. }
        rewrite Et. cbn [bind]. destruct (C47_scalar_ssa symargs e text Hg Et) as (items & f & names & Hp & Hf & Hs & _).
        destruct (Hload text) as (c & ->); [exists items, f; auto|]. eexists. reflexivity.
    - intros f h' H. destruct (to_llvm_f64 symargs e) as [text|] eqn:Et; [|discriminate]. cbn [bind] in H.
      destruct (load text) as [c|] eqn:El; [|discriminate]. cbn [bind] in H. injection H as <- <-.
      split; [reflexivity|]. split.
      + intros vals Hl. destruct (proj1 (Hcall text c El) vals) as (mem & Hm).
        destruct (C46_code_computes_the_expression symargs e text Hg Et mc vals mem Hl) as (v & Hv & Hr).
        exists v. split; [exact Hv|]. cbn [call_compiled]. rewrite Hl, Nat.eqb_refl, (Hm v mem Hr). reflexivity.
      + intros vals Hl. cbn [call_compiled]. rewrite (proj2 (Nat.eqb_neq _ _)) by lia. reflexivity.
  Qed.

  (** lambdify of a matrix; the function may be called at any later time ([steps]). *)
  Theorem C65_lambdify_matrix symargs m h ms : history h ms -> In m ms ->
    good_names symargs -> (forall s, In s symargs -> tree_str s <> Ok "_out") -> ~ In (Integer 0) symargs ->
    (Z.of_nat (m_nrows m) * Z.of_nat (m_ncols m) <= 2 ^ 31)%Z ->
    forall f h', lambdify load (map OExpr symargs) (OMatrix m) h = (Ok f, h') ->
      h' = h /\
      forall h2 ms2, steps h ms h2 ms2 ->
      (forall vals, length vals = length symargs ->
         exists rows, call f vals = Ok (FArray rows) /\
           length rows = m_nrows m /\ Forall (fun r => length r = m_ncols m) rows /\
           forall i j, inside m i j -> exists t row v, get m i j h2 = Ok t /\
             nth_error rows (Z.to_nat i) = Some row /\ nth_error row (Z.to_nat j) = Some v /\
             machine_value mc symargs vals t = Some v) /\
      (forall vals, length vals < length symargs -> call f vals = Err TypeError).
  Proof.
    intros Hh Hm Hg Hout Hz Hsize f h' H. unfold lambdify in H. rewrite reps_map in H. unfold hbind, hlift, lambdify_llvm_matrix, hbind in H.
    destruct Hplatform as [Hload Hcall].
    destruct (to_llvm_f64_matrix symargs m h) as [[text|] h1] eqn:Et; [|discriminate].
    assert (h1 = h) by (eapply (proj1 (C48_code_fills_the_output h ms m symargs text h1 Hh Hm Hg Hout Hsize Et))). subst h1.
    destruct (load text) as [c|] eqn:El; [|discriminate]. cbn [bind] in H. injection H as <- <-.
    split; [reflexivity|]. intros h2 ms2 Hs. split.
    - intros vals Hl. cbn [call_compiled]. rewrite Hl, Nat.eqb_refl. eexists. split; [reflexivity|].
      set (size := m_nrows m * m_ncols m). destruct (proj2 (Hcall text c El) size vals) as (p0 & mem & Hmem & Hfill).
      destruct (C48_zeros h ms m symargs text h Hh Hm Hg Hout Hz Hsize Et mc vals mem p0 Hl) as (mem' & Hr & Hval & _).
      { intros k Hk. replace k with (p0 + Z.of_nat (Z.to_nat (k - p0)))%Z by lia. apply Hmem. unfold size. nia. }
      rewrite (Hfill mem' Hr). split; [apply chunks_length|]. split; [apply chunks_widths; rewrite block_length; apply Nat.le_refl|].
      intros i j Hin. destruct (Hval i j Hin) as (t & Ht & Hv).
      exists t, (firstn (m_ncols m) (skipn (Z.to_nat i * m_ncols m) (block p0 size mem'))), (mem' (p0 + (i * Z.of_nat (m_ncols m) + j))%Z).
      split; [rewrite <- Ht; apply (proj2 (C43_matrices_never_change h ms h2 ms2 m Hh Hm Hs))|].
      destruct Hin as [Hi Hj]. split; [apply chunks_row; lia|]. split; [|exact Hv].
      rewrite nth_error_firstn' by lia. rewrite nth_error_skipn', block_nth by (unfold size; nia).
      do 2 f_equal. nia.
    - intros vals Hl. cbn [call_compiled]. rewrite (proj2 (Nat.eqb_neq _ _)) by lia. reflexivity.
  Qed.
  Theorem C65_lambdify_matrix_accepts symargs m h ms : history h ms -> In m ms ->
    good_names symargs -> (forall s, In s symargs -> tree_str s <> Ok "_out") ->
    (Z.of_nat (m_nrows m) * Z.of_nat (m_ncols m) <= 2 ^ 31)%Z ->
    ((exists f, lambdify load (map OExpr symargs) (OMatrix m) h = (Ok f, h)) <->
     forall mc vals, length vals = length symargs -> forall i j, inside m i j -> stored m i j h ->
       exists t v, get m i j h = Ok t /\ machine_value mc symargs vals t = Some v).
  Proof.
    intros Hh Hm Hg Hout Hsize. unfold lambdify. rewrite reps_map. unfold hbind, hlift, lambdify_llvm_matrix, hbind.
    destruct Hplatform as [Hload Hcall]. split.
    - intros (f & H). destruct (to_llvm_f64_matrix symargs m h) as [[text|] h1] eqn:Et; [|discriminate].
      assert (h1 = h) by (eapply (proj1 (C48_code_fills_the_output h ms m symargs text h1 Hh Hm Hg Hout Hsize Et))). subst h1.
      exact (proj2 (proj1 (C48_accepted h ms m symargs Hh Hm) (ex_intro _ _ Et))).
    - intros H. destruct (proj2 (C48_accepted h ms m symargs Hh Hm)) as (text & Et).
      { split; [destruct Hg as (names & Hn & _); eauto|exact H]. }
      rewrite Et. destruct (C47_matrix_ssa h ms m symargs text h Hh Hm Hg Hout Hsize Et) as (items & f & names & Hp & Hf & Hs & _).
      destruct (Hload text) as (c & ->); [exists items, f; auto|]. eexists. reflexivity.
  Qed.

  (** Everything else is refused. *)
  Theorem C65_lambdify_rejects args o h :
    ((exists a, In a args /\ ~ is_expr a) -> lambdify load args o h = (Err AttributeError, h)) /\
    ((forall a, In a args -> is_expr a) -> ~ is_expr o -> ~ is_matrix o -> lambdify load args o h = (Err TypeError, h)).
  Proof.
    unfold lambdify, hbind, hlift. split.
    - intros H. rewrite (reps_bad _ H). reflexivity.
    - intros H He Hm. assert (Hr : exists l, mapM obj_rep args = Ok l).
      { induction args as [|a args IH]; [eexists; reflexivity|]. destruct (H a (or_introl eq_refl)) as [t ->].
        destruct IH as [l Hl]; [intros b Hb; apply H; right; exact Hb|]. cbn [mapM obj_rep bind]. rewrite Hl. eexists. reflexivity. }
      destruct Hr as [l ->]. destruct o; try reflexivity; [destruct He|destruct Hm]; eexists; reflexivity.
  Qed.
End Platform.
(** With the sample platform, which interprets the text. *)
Example C65_case mc :
  faithful mc sample_load (sample_f64 mc) (sample_fill mc) /\
  good_names [y; z; x] /\ history heap_ab [mat_b; mat_a] /\
  (exists f, lambdify sample_load [OExpr y; OExpr z; OExpr x] (OExpr e_code) heap_ab = (Ok f, heap_ab) /\
     forall a b c, call_compiled (sample_f64 mc) (sample_fill mc) f [a; b; c] =
       Ok (FFloat (mc_add mc (mc_add mc (mc_pow mc (mc_sin mc c) two) (mc_mul mc (mc_mul mc three c) a)) (mc_sin mc c)))) /\
  (exists f, lambdify sample_load [OExpr y; OExpr z; OExpr x] (OMatrix mat_a) heap_ab = (Ok f, heap_ab) /\
     (forall a b c, call_compiled (sample_f64 mc) (sample_fill mc) f [a; b; c] =
       Ok (FArray [[c; S754_zero false]; [three; a]])) /\
     forall a b, call_compiled (sample_f64 mc) (sample_fill mc) f [a; b] = Err TypeError) /\
  fst (lambdify sample_load [OExpr x; OInt 1] OOther heap_ab) = Err AttributeError /\
  fst (lambdify sample_load [OExpr x] OOther heap_ab) = Err TypeError.
Proof.
  split; [apply sample_faithful|]. split; [exact good_names_case|]. split; [exact history_ab|].
  split; [eexists; split; [vm_compute; reflexivity|intros; vm_compute; reflexivity]|].
  split; [eexists; split; [vm_compute; reflexivity|split; intros; vm_compute; reflexivity]|].
  split; vm_compute; reflexivity.
Qed.
Print Assumptions C65_lambdify_expression.
Print Assumptions C65_lambdify_matrix.
Print Assumptions C65_lambdify_matrix_accepts.
Print Assumptions C65_lambdify_rejects.

(** C66. Operators on any objects. *)
Theorem C66_expressions op l r a b h : (is_expr l \/ is_expr r) ->
  expression_of l = Some a -> expression_of r = Some b -> py_binop op l r h = (Ok (OExpr (combined op a b)), h).
Proof.
  intros H Ha Hb. destruct l as [t|m|z0|b0|], r as [u|m'|z1|b1|]; try discriminate;
    try (destruct H as [[w H]|[w H]]; discriminate); injection Ha as <-; injection Hb as <-; destruct op; reflexivity.
Qed.
(** Matrices of one shape are added entry by entry, those of different shapes are refused. *)
Theorem C66_matrices h ms A B : history h ms -> In A ms -> In B ms ->
  (m_nrows A = m_nrows B /\ m_ncols A = m_ncols B ->
     exists C h', py_binop OpAdd (OMatrix A) (OMatrix B) h = (Ok (OMatrix C), h') /\
       m_nrows C = m_nrows A /\ m_ncols C = m_ncols A /\
       forall i j, inside A i j -> exists t, get C i j h' = Ok t /\ binop_entry_spec A B Add h i j t) /\
  (m_nrows A <> m_nrows B \/ m_ncols A <> m_ncols B -> py_binop OpAdd (OMatrix A) (OMatrix B) h = (Err TypeError, h)).
Proof.
  intros Hh HA HB.
  assert (E : py_binop OpAdd (OMatrix A) (OMatrix B) h =
    (match fst (matrix_add A B h) with Ok C => Ok (OMatrix C) | Err x => Err x end, snd (matrix_add A B h))).
  { unfold py_binop, left_method, hbind. destruct (matrix_add A B h) as [[C|x] h']; reflexivity. }
  rewrite E. split.
  - intros [Hr Hc]. destruct (C43_addition_is_entrywise h ms A B Hh HA HB Hr Hc) as (C & h' & Ha & _ & R1 & R2 & R3).
    exists C, h'. rewrite Ha. auto.
  - intros Hd. rewrite C43_shape_mismatch by (intros Ep; injection Ep; intros; lia). reflexivity.
Qed.
(** Nothing else is supported: a matrix and an expression or number, other operators on matrices, other objects. *)
Theorem C66_rejected op l r h : (is_expr l \/ is_expr r \/ is_matrix l \/ is_matrix r) ->
  expression_of l = None \/ expression_of r = None ->
  ~ (op = OpAdd /\ is_matrix l /\ is_matrix r) ->
  py_binop op l r h = (Err TypeError, h).
Proof.
  intros H Hn Hm. destruct l as [t|m|z0|b0|], r as [u|m'|z1|b1|];
    try (destruct Hn as [Hn|Hn]; discriminate Hn); destruct op; try reflexivity.
  destruct Hm. split; [reflexivity|]. split; eexists; reflexivity.
Qed.
(** C27, for the method with Python arguments: e.diff(s, n). *)
Theorem C27_diff_method e s n :
  ((n <= 0)%Z -> py_expr_diff e (OExpr s) n = Ok e) /\
  ((0 <= n)%Z -> py_expr_diff e (OExpr s) (n + 1) = (do d <- py_expr_diff e (OExpr s) n; diff_forward d s cas_diff)).
Proof.
  assert (E : forall n, py_expr_diff e (OExpr s) n = expr_diff e s n) by reflexivity. rewrite !E. split; intros H.
  - apply C27_nonpositive_ntimes, H.
  - apply (C27_ntimes_is_iteration e s n n); lia.
Qed.
Print Assumptions C27_diff_method.
(** The variable of a derivative must be an Expr. *)
Theorem C66_diff_variable (A : matrix) (e : tree) o n h : ~ is_expr o ->
  py_matrix_diff A o h = (Err TypeError, h) /\
  py_expr_diff e o n = (if (n <=? 0)%Z then Ok e else Err AttributeError).
Proof.
  intros Ho. split; [destruct o; try reflexivity; destruct Ho; eexists; reflexivity|].
  assert (E : obj_rep o = Err AttributeError) by (destruct o; try reflexivity; destruct Ho; eexists; reflexivity).
  unfold py_expr_diff. destruct (n <=? 0)%Z eqn:En.
  - apply Z.leb_le in En. replace (Z.to_nat n) with 0 by lia. reflexivity.
  - apply Z.leb_gt in En. destruct (Z.to_nat n) as [|k] eqn:Ek; [lia|]. cbn [repeatM]. rewrite E. reflexivity.
Qed.
Example C66_case :
  py_binop OpSub (OInt 2) (OExpr x) heap_ab = (Ok (OExpr (m_sub (int 2) x)), heap_ab) /\
  py_binop OpDiv (OExpr x) (OBool true) heap_ab = (Ok (OExpr (m_truediv x (int 1))), heap_ab) /\
  py_binop OpMul (OInt 2) (OMatrix mat_a) heap_ab = (Err TypeError, heap_ab) /\
  py_binop OpAdd (OExpr x) (OMatrix mat_a) heap_ab = (Err TypeError, heap_ab) /\
  py_binop OpAdd (OMatrix mat_a) OOther heap_ab = (Err TypeError, heap_ab) /\
  (exists C h', py_binop OpAdd (OMatrix mat_a) (OMatrix mat_b) heap_ab = (Ok (OMatrix C), h') /\
     tolist C h' = Ok [[m_add x y; int 1]; [int 3; m_add y y]]).
Proof.
  repeat (split; [vm_compute; reflexivity|]). eexists _, _. split; [vm_compute; reflexivity|vm_compute; reflexivity].
Qed.
Print Assumptions C66_expressions.
Print Assumptions C66_matrices.
Print Assumptions C66_rejected.
Print Assumptions C66_diff_variable.

(** C67. repr of a matrix: the texts of its entries in brackets, row by row. *)
Theorem C67_matrix_text h ms m rows : history h ms -> In m ms -> tolist m h = Ok rows ->
  forall texts, Forall2 (Forall2 (fun e s => eval_repr e = Ok s)) rows texts ->
  matrix_repr m h = (Ok ("Matrix([" ++ join ", " (map (fun row => "[" ++ join ", " row ++ "]") texts) ++ "])"), h).
Proof.
  intros Hh Hm Ht texts H. unfold matrix_repr, hbind. unfold tolist in Ht.
  destruct (matrix_tolist m h) as [r h1] eqn:E. cbn [fst] in Ht. subst r.
  assert (h1 = h) by (unfold matrix_tolist, hbind, read_dict, read_list, hlift in E; injection E as _ E; auto). subst h1.
  unfold hlift. assert (Er : mapM (fun row => do l <- mapM eval_repr row; Ok (repr_list l)) rows = Ok (map repr_list texts)).
  { clear - H. induction H as [|row ts rows texts Hr _ IH]; [reflexivity|]. cbn [mapM map].
    assert (E : mapM eval_repr row = Ok ts).
    { induction Hr as [|e s row ts He _ IHr]; [reflexivity|]. cbn [mapM]. rewrite He, IHr. reflexivity. }
    rewrite E, IH. reflexivity. }
  rewrite Er. unfold hret. f_equal. unfold repr_list. cbn. rewrite app_assoc_s. reflexivity.
Qed.
(** It succeeds exactly if all entries can be printed. *)
Theorem C67_when_repr_succeeds h ms m rows : history h ms -> In m ms -> tolist m h = Ok rows ->
  ((exists s, matrix_repr m h = (Ok s, h)) <-> forall row e, In row rows -> In e row -> exists s, eval_repr e = Ok s).
Proof.
  intros Hh Hm Ht. split.
  - intros (s & H). unfold matrix_repr, hbind in H. unfold tolist in Ht. destruct (matrix_tolist m h) as [r h1]. cbn [fst] in Ht. subst r.
    unfold hlift in H. destruct (mapM (fun row => do l <- mapM eval_repr row; Ok (repr_list l)) rows) as [l|] eqn:E; [|discriminate].
    intros row e Hr He. pose proof (proj1 (mapM_some_iff _ rows) (ex_intro _ _ E)) as Hall.
    rewrite Forall_forall in Hall. specialize (Hall row Hr). destruct Hall as (b & Hb).
    destruct (mapM eval_repr row) as [ts|] eqn:Er; [|discriminate].
    pose proof (proj1 (mapM_some_iff _ row) (ex_intro _ _ Er)) as Hall. rewrite Forall_forall in Hall. exact (Hall e He).
  - intros H. assert (Hf : exists texts, Forall2 (Forall2 (fun e s => eval_repr e = Ok s)) rows texts).
    { clear Ht. induction rows as [|row rows IH]; [exists []; constructor|].
      destruct IH as (texts & IH); [intros r e Hr He; apply (H r e); [right; exact Hr|exact He]|].
      assert (Hrow : forall e, In e row -> exists s, eval_repr e = Ok s) by (intros e He; exact (H row e (or_introl eq_refl) He)).
      assert (Hts : exists ts, Forall2 (fun e s => eval_repr e = Ok s) row ts).
      { clear - Hrow. induction row as [|e row IH]; [exists []; constructor|].
        destruct IH as (ts & IH); [intros a Ha; apply Hrow; right; exact Ha|].
        destruct (Hrow e (or_introl eq_refl)) as [s Hs]. exists (s :: ts). constructor; assumption. }
      destruct Hts as (ts & Hts). exists (ts :: texts). constructor; assumption. }
    destruct Hf as (texts & Hf). eexists. exact (C67_matrix_text h ms m rows Hh Hm Ht texts Hf).
Qed.
(** Matrices of printable entries with the same text have the same entries. *)
Theorem C67_matrix_repr_injective h ms m m' rows rows' s : history h ms -> In m ms -> In m' ms ->
  tolist m h = Ok rows -> tolist m' h = Ok rows' ->
  Forall (Forall printable) rows -> Forall (Forall printable) rows' ->
  matrix_repr m h = (Ok s, h) -> matrix_repr m' h = (Ok s, h) -> rows = rows'.
Proof.
  assert (F : forall rows, Forall (Forall printable) rows ->
    Forall2 (Forall2 (fun e s => eval_repr e = Ok s)) rows (map (map txt) rows)).
  { intros l H. induction H as [|row l Hr _ IH]; [constructor|]. cbn [map]. constructor; [|exact IH].
    induction Hr as [|e row He _ IHr]; [constructor|]. cbn [map]. constructor; [apply eval_repr_eq, printable_ok, He|exact IHr]. }
  intros Hh Hm Hm' Ht Ht' Hp Hp' E E'.
  rewrite (C67_matrix_text h ms m rows Hh Hm Ht _ (F _ Hp)) in E. rewrite (C67_matrix_text h ms m' rows' Hh Hm' Ht' _ (F _ Hp')) in E'.
  injection E as E. injection E' as E'. rewrite <- E' in E. injection E as E.
  apply (rows_inj rows rows' ")" ")" Hp Hp'). unfold repr_list, row_text. rewrite !map_map in E. rewrite !app_assoc_s.
  cbn. f_equal. exact E.
Qed.
(** In general not: C40. A matrix without rows does not show its number of columns either. *)
Example C67_case : history heap_ab [mat_b; mat_a] /\ In mat_a [mat_b; mat_a] /\
  tolist mat_a heap_ab = Ok [[x; int 0]; [int 3; y]] /\
  matrix_repr mat_a heap_ab = (Ok "Matrix([[x, 0], [3, y]])", heap_ab) /\
  Forall (Forall printable) [[x; int 0]; [int 3; y]].
Proof.
  split; [exact history_ab|]. split; [right; left; reflexivity|]. repeat (split; [vm_compute; reflexivity|]).
  repeat constructor; reflexivity.
Qed.
Print Assumptions C67_matrix_text.
Print Assumptions C67_when_repr_succeeds.
Print Assumptions C67_matrix_repr_injective.

(** C68. funcs_symbols: atoms made by one call are equal only for the same role and name, and are never equal to
    atoms made by another call, although they print alike. *)
Theorem C68_within_a_call fnames snames n fs ss n' : funcs_symbols fnames snames n = ((fs, ss), n') ->
  length fs = length fnames /\ length ss = length snames /\
  (forall i j f g, nth_error fs i = Some f -> nth_error fs j = Some g -> (f = g <-> nth_error fnames i = nth_error fnames j)) /\
  (forall i j f g, nth_error ss i = Some f -> nth_error ss j = Some g -> (f = g <-> nth_error snames i = nth_error snames j)) /\
  (forall i f, nth_error fs i = Some f -> option_map (@Ok string) (nth_error fnames i) = Some (tree_str f)) /\
  (forall i f, nth_error ss i = Some f -> option_map (@Ok string) (nth_error snames i) = Some (tree_str f)) /\
  (forall f s, In f fs -> In s ss -> f <> s).
Proof.
  intros H. injection H as <- <- <-. rewrite !map_length. split; [reflexivity|]. split; [reflexivity|].
  assert (G : forall ty names i j f g, nth_error (map (fun name => Tr (mkAtom ty (VStr name))) names) i = Some f ->
    nth_error (map (fun name => Tr (mkAtom ty (VStr name))) names) j = Some g -> (f = g <-> nth_error names i = nth_error names j)).
  { intros ty names i j f g Hi Hj. rewrite nth_error_map in Hi, Hj.
    destruct (nth_error names i) as [a|]; [|discriminate]. destruct (nth_error names j) as [b|]; [|discriminate].
    cbn in Hi, Hj. injection Hi as <-. injection Hj as <-. split; [intros H; injection H as ->; reflexivity|intros H; injection H as ->; reflexivity]. }
  split; [apply G|]. split; [apply G|].
  assert (P : forall ty names i f, nth_error (map (fun name => Tr (mkAtom ty (VStr name))) names) i = Some f ->
    option_map (@Ok string) (nth_error names i) = Some (tree_str f)).
  { intros ty names i f Hi. rewrite nth_error_map in Hi. destruct (nth_error names i); [|discriminate]. injection Hi as <-. reflexivity. }
  split; [apply P|]. split; [apply P|].
  intros f s Hf Hs. apply in_map_iff in Hf as (a & <- & _). apply in_map_iff in Hs as (b & <- & _). discriminate.
Qed.
Theorem C68_between_calls fnames snames n fs ss n' fnames2 snames2 n2 fs2 ss2 n3 :
  funcs_symbols fnames snames n = ((fs, ss), n') -> n' <= n2 -> funcs_symbols fnames2 snames2 n2 = ((fs2, ss2), n3) ->
  forall t t', In t (fs ++ ss)%list -> In t' (fs2 ++ ss2)%list -> t <> t'.
Proof.
  intros H Hn H2 t t' Ht Ht'. injection H as <- <- <-. injection H2 as <- <- <-.
  apply in_app_iff in Ht. apply in_app_iff in Ht'.
  assert (A : exists ty a, t = Tr (mkAtom ty a) /\ ty_id ty < S (S n)).
  { destruct Ht as [Ht|Ht]; apply in_map_iff in Ht as (a & <- & _); eexists _, _; (split; [reflexivity|]); cbn; lia. }
  assert (B : exists ty a, t' = Tr (mkAtom ty a) /\ n2 <= ty_id ty).
  { destruct Ht' as [Ht'|Ht']; apply in_map_iff in Ht' as (a & <- & _); eexists _, _; (split; [reflexivity|]); cbn; lia. }
  destruct A as (ty & a & -> & A), B as (ty' & a' & -> & B). intros E. injection E as <- _. lia.
Qed.
Example C68_case : exists f1 x1 y1 f2 x2,
  funcs_symbols ["f"] ["x"; "y"] 5 = (([f1], [x1; y1]), 7) /\ funcs_symbols ["f"] ["x"] 7 = (([f2], [x2]), 9) /\
  x1 <> y1 /\ x1 <> x2 /\ tree_str x1 = Ok "x" /\ tree_str x2 = Ok "x".
Proof. eexists _, _, _, _, _. split; [reflexivity|]. split; [reflexivity|]. repeat split; discriminate. Qed.
Print Assumptions C68_within_a_call.
Print Assumptions C68_between_calls.
