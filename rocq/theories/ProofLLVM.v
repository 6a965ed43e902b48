(** * Code generation: proofs for C46 - C49 *)
From Coq Require Import SpecFloat.
From Verif Require Import Py ModelTree SpecTree ProofBase ProofTopo ProofGraph ModelEval SpecEval ProofEval ModelDiff ModelSym
  ModelCas SpecPrint ProofBin ProofPrint ProofTree ModelMatrix ModelLLVM SpecLLVM SpecLambdify ProofLex ProofFloat.
Local Open Scope string_scope.

Definition tmp (n : nat) : string := "." ++ str_int (Z.of_nat n).
Lemma temp_tmp n : temp n = opstr (OLocal (tmp n)).
Proof. unfold temp, tmp. cbn [opstr]. rewrite string_app_assoc. reflexivity. Qed.
Lemma tmp_inj a b : tmp a = tmp b -> a = b.
Proof. unfold tmp. intros H. injection H as H. apply str_int_inj in H. lia. Qed.
Lemma str_forall_impl p q s : (forall c, p c = true -> q c = true) -> str_forall p s = true -> str_forall q s = true.
Proof. intros H. induction s as [|c s IH]; [reflexivity|]. cbn [str_forall]. intros E. apply andb_prop in E as [E1 E2]. rewrite (H _ E1), IH by exact E2. reflexivity. Qed.
Lemma word_plain c : is_word c = true -> plain_char c = true.
Proof. destruct c as [[] [] [] [] [] [] [] []]; vm_compute; intros H; try discriminate H; reflexivity. Qed.
Lemma tmp_legal n : legal (tmp n).
Proof.
  unfold tmp. split; [discriminate|]. rewrite str_forall_app. change (str_forall plain_char ".") with true. cbn [andb].
  destruct (str_int_word (Z.of_nat n)) as ((_ & H) & _); [lia|]. exact (str_forall_impl _ _ _ word_plain H).
Qed.

(** ** The generator, with instructions instead of text *)
Definition gen_instr (h : tree) (d : string) (argids : list operand) : option instr :=
  if tree_eqb h Add then match argids with [a; b] => Some (IFadd d a b) | _ => None end
  else if tree_eqb h Mul then match argids with [a; b] => Some (IFmul d a b) | _ => None end
  else if tree_eqb h Pow then match argids with a :: b :: _ => Some (ICall d "llvm.pow.f64" [a; b]) | _ => None end
  else if tree_eqb h sin then match argids with a :: _ => Some (ICall d "llvm.sin.f64" [a]) | _ => None end
  else if tree_eqb h cos then match argids with a :: _ => Some (ICall d "llvm.cos.f64" [a]) | _ => None end
  else None.
(** What matters for acceptance. *)
Definition gen_ok (h : tree) (n : nat) : bool :=
  if tree_eqb h Add then Nat.eqb n 2
  else if tree_eqb h Mul then Nat.eqb n 2
  else if tree_eqb h Pow then Nat.leb 2 n
  else if tree_eqb h sin then Nat.leb 1 n
  else if tree_eqb h cos then Nat.leb 1 n
  else false.
Definition binary_op (h : tree) (n : nat) : Prop := h = Add \/ h = Mul -> n = 2.
Lemma gen_instr_ok h d argids : gen_ok h (length argids) = true -> exists i, gen_instr h d argids = Some i /\ defines i = [d].
Proof.
  unfold gen_ok, gen_instr. destruct (tree_eqb h Add); [|destruct (tree_eqb h Mul); [|destruct (tree_eqb h Pow); [|destruct (tree_eqb h sin); [|destruct (tree_eqb h cos)]]]];
    destruct argids as [|a [|b [|c l]]]; cbn; intros H; try discriminate H; eexists; (split; [reflexivity|reflexivity]).
Qed.
Lemma not_implemented_err {A} t (v : A) : not_implemented t <> Ok v.
Proof. unfold not_implemented. destruct (tree_repr_raises t); discriminate. Qed.

Lemma mapM_opstr ids indices argids : mapM (getitem ids) indices = Ok argids ->
  mapM (getitem (map opstr ids)) indices = Ok (map opstr argids).
Proof.
  intros H. apply mapM_Ok_Forall2. apply mapM_Ok_Forall2 in H. induction H as [|i a l l' Ha H IH]; cbn [map]; constructor; [|exact IH].
  unfold getitem in *. destruct (nth_error ids i) as [b|] eqn:E; [|discriminate]. injection Ha as <-.
  rewrite (map_nth_error opstr _ _ E). reflexivity.
Qed.
Lemma mapM_getitem_app {A} (ids : list A) extra indices argids : mapM (getitem ids) indices = Ok argids ->
  mapM (getitem (ids ++ extra)%list) indices = Ok argids.
Proof.
  intros H. apply mapM_Ok_Forall2. apply mapM_Ok_Forall2 in H. induction H as [|i a l l' Ha H IH]; constructor; [|exact IH].
  unfold getitem in *. destruct (nth_error ids i) as [b|] eqn:E; [|discriminate].
  rewrite nth_error_app1 by (apply nth_error_Some; congruence). rewrite E. exact Ha.
Qed.
Lemma mapM_getitem_in {A} (ids : list A) indices argids : mapM (getitem ids) indices = Ok argids -> forall a, In a argids -> In a ids.
Proof.
  intros H. apply mapM_Ok_Forall2 in H. induction H as [|i a l l' Ha H IH]; intros x [].
  - subst. unfold getitem in Ha. destruct (nth_error ids i) eqn:E; [|discriminate]. injection Ha as <-. eapply nth_error_In; eauto.
  - auto.
Qed.

(** One step of the generator. *)
Lemma llvm_op_gen ids ins h indices argids :
  mapM (getitem ids) indices = Ok argids -> binary_op h (length indices) ->
  (forall s', llvm_op (map opstr ids, map istr ins) (h, indices) = Ok s' ->
     exists i, gen_instr h (tmp (length ins)) argids = Some i /\
       s' = (map opstr (ids ++ [OLocal (tmp (length ins))])%list, map istr (ins ++ [i])%list)) /\
  (forall i, gen_instr h (tmp (length ins)) argids = Some i ->
     llvm_op (map opstr ids, map istr ins) (h, indices) =
       Ok (map opstr (ids ++ [OLocal (tmp (length ins))])%list, map istr (ins ++ [i])%list)).
Proof.
  intros Ha Hbin. pose proof (mapM_length _ _ _ Ha) as Hl.
  apply mapM_opstr in Ha. apply (mapM_getitem_app _ [temp (length ins)]) in Ha.
  assert (E : llvm_op (map opstr ids, map istr ins) (h, indices) =
    match gen_instr h (tmp (length ins)) argids with
    | Some i => Ok (map opstr (ids ++ [OLocal (tmp (length ins))])%list, map istr (ins ++ [i])%list)
    | None => match llvm_op (map opstr ids, map istr ins) (h, indices) with Ok _ => Err KeyError | r => r end
    end).
  { unfold llvm_op. rewrite map_length, Ha. cbn [bind]. unfold gen_instr.
    assert (Et : forall i l, istr i = l -> Ok ((map opstr ids ++ [temp (length ins)])%list, (map istr ins ++ [l])%list) =
              Ok (map opstr (ids ++ [OLocal (tmp (length ins))])%list, map istr (ins ++ [i])%list)).
    { intros i l <-. rewrite !map_app, temp_tmp. reflexivity. }
    destruct (tree_eqb_spec h Add) as [->|Hna].
    { destruct argids as [|a [|b [|]]]; cbn [length] in Hl; try (specialize (Hbin (or_introl eq_refl)); lia).
      cbn [bind]. apply Et. rewrite temp_tmp. reflexivity. }
    destruct (tree_eqb_spec h Mul) as [->|Hnm].
    { destruct argids as [|a [|b [|]]]; cbn [length] in Hl; try (specialize (Hbin (or_intror eq_refl)); lia).
      cbn [bind]. apply Et. rewrite temp_tmp. reflexivity. }
    destruct (tree_eqb_spec h Pow) as [->|Hnp].
    { destruct argids as [|a [|b r]]; cbn [map]; try reflexivity. cbn [getitem nth_error of_option bind]. apply Et. rewrite temp_tmp. reflexivity. }
    destruct (tree_eqb_spec h sin) as [->|Hns].
    { destruct argids as [|a r]; cbn [map]; try reflexivity. cbn [getitem nth_error of_option bind]. apply Et. rewrite temp_tmp. reflexivity. }
    destruct (tree_eqb_spec h cos) as [->|Hnc].
    { destruct argids as [|a r]; cbn [map]; try reflexivity. cbn [getitem nth_error of_option bind]. apply Et. rewrite temp_tmp. reflexivity. }
    destruct (not_implemented h) as [v|x] eqn:En; [destruct (not_implemented_err _ _ En)|]. reflexivity. }
  split.
  - intros s' Hs. rewrite E in Hs. destruct (gen_instr h (tmp (length ins)) argids) as [i|]; [|destruct (llvm_op _ _); discriminate].
    exists i. split; [reflexivity|]. congruence.
  - intros i Hi. rewrite E, Hi. reflexivity.
Qed.

(** ** Values *)
Lemma Forall2_len {A B} (R : A -> B -> Prop) l l' : Forall2 R l l' -> length l = length l'.
Proof. induction 1; simpl; congruence. Qed.
Lemma opt_map_Forall2 {A B} (f : A -> option B) l vs : opt_map f l = Some vs <-> Forall2 (fun a v => f a = Some v) l vs.
Proof.
  revert vs. induction l as [|a l IH]; intros vs; cbn [opt_map].
  - split; [intros H; injection H as <-; constructor|intros H; inversion H; reflexivity].
  - split.
    + destruct (f a) as [b|] eqn:Ea; [|discriminate]. destruct (opt_map f l) as [bs|] eqn:El; [|discriminate].
      intros H. injection H as <-. constructor; [exact Ea|]. apply IH. reflexivity.
    + intros H. inversion H as [|? b ? bs Hb Hbs]; subst. rewrite Hb. apply IH in Hbs. rewrite Hbs. reflexivity.
Qed.
Lemma machine_value_node mc symargs vals h args : machine_value mc symargs vals (Node (h :: args)) =
  match opt_map (machine_value mc symargs vals) args with Some vs => machine_op mc h vs | None => None end.
Proof. reflexivity. Qed.

Lemma operand_values_Forall2 r l vs : operand_values r l = Some vs <-> Forall2 (fun o v => operand_value r o = Some v) l vs.
Proof.
  revert vs. induction l as [|a l IH]; intros vs; cbn [operand_values].
  - split; [intros H; injection H as <-; constructor|intros H; inversion H; reflexivity].
  - split.
    + destruct (operand_value r a) as [b|] eqn:Ea; [|discriminate]. destruct (operand_values r l) as [bs|] eqn:El; [|discriminate].
      intros H. injection H as <-. constructor; [exact Ea|]. apply IH. reflexivity.
    + intros H. inversion H as [|? b ? bs Hb Hbs]; subst. rewrite Hb. apply IH in Hbs. rewrite Hbs. reflexivity.
Qed.

Definition decls : list (string * nat) := [("llvm.pow.f64", 2); ("llvm.sin.f64", 1); ("llvm.cos.f64", 1)].

Lemma exec_gen mc h d argids i vs r m : gen_instr h d argids = Some i ->
  Forall2 (fun o v => operand_value r o = Some v) argids vs -> lookup r d = None ->
  exists v, machine_op mc h vs = Some v /\ exec mc decls i r m = Some ((d, VF v) :: r, m).
Proof.
  intros Hg Hv Hd. unfold gen_instr, machine_op in *.
  destruct (tree_eqb h Add).
  { destruct Hv as [|a u l vs Ha [|b w l' vs' Hb [|]]]; try discriminate. injection Hg as <-. cbn [fold_left exec].
    rewrite Ha, Hb. unfold define. rewrite Hd. eauto. }
  destruct (tree_eqb h Mul).
  { destruct Hv as [|a u l vs Ha [|b w l' vs' Hb [|]]]; try discriminate. injection Hg as <-. cbn [fold_left exec].
    rewrite Ha, Hb. unfold define. rewrite Hd. eauto. }
  destruct (tree_eqb h Pow).
  { destruct Hv as [|a u l vs Ha [|b w l' vs' Hb _]]; try discriminate. injection Hg as <-. cbn [exec].
    change (dict_get String.eqb decls "llvm.pow.f64") with (Some 2). cbn [operand_values]. rewrite Ha, Hb. cbn [length Nat.eqb].
    unfold intrinsic. change (String.eqb "llvm.pow.f64" "llvm.pow.f64") with true. cbv iota. unfold define_double, define. rewrite Hd. eauto. }
  destruct (tree_eqb h sin).
  { destruct Hv as [|a u l vs Ha _]; try discriminate. injection Hg as <-. cbn [exec].
    change (dict_get String.eqb decls "llvm.sin.f64") with (Some 1). cbn [operand_values]. rewrite Ha. cbn [length Nat.eqb].
    unfold intrinsic. cbn [String.eqb Ascii.eqb Bool.eqb]. unfold define_double, define. rewrite Hd. eauto. }
  destruct (tree_eqb h cos).
  { destruct Hv as [|a u l vs Ha _]; try discriminate. injection Hg as <-. cbn [exec].
    change (dict_get String.eqb decls "llvm.cos.f64") with (Some 1). cbn [operand_values]. rewrite Ha. cbn [length Nat.eqb].
    unfold intrinsic. cbn [String.eqb Ascii.eqb Bool.eqb]. unfold define_double, define. rewrite Hd. eauto. }
  discriminate.
Qed.
(** An instruction that computes a number. *)
Definition computes (i : instr) : Prop := match i with IFadd _ _ _ | IFmul _ _ _ | ICall _ _ _ => True | _ => False end.
Lemma gen_computes h d argids i : gen_instr h d argids = Some i -> computes i.
Proof.
  unfold gen_instr.
  destruct (tree_eqb h Add); [|destruct (tree_eqb h Mul); [|destruct (tree_eqb h Pow); [|destruct (tree_eqb h sin); [|destruct (tree_eqb h cos)]]]];
    destruct argids as [|a [|b [|c l]]]; intros H; try discriminate H; injection H as <-; exact I.
Qed.
Lemma gen_uses h d argids i : gen_instr h d argids = Some i -> defines i = [d] /\ forall x, In x (uses i) -> In (OLocal x) argids.
Proof.
  unfold gen_instr. assert (Hu : forall o x, In x (uses_operand o) -> o = OLocal x) by (intros [y|b] x; [intros [->|[]]; reflexivity|intros []]).
  destruct (tree_eqb h Add); [|destruct (tree_eqb h Mul); [|destruct (tree_eqb h Pow); [|destruct (tree_eqb h sin); [|destruct (tree_eqb h cos)]]]];
    destruct argids as [|a [|b [|c l]]]; intros H; try discriminate H; injection H as <-; (split; [reflexivity|]); intros x Hx; cbn [uses flat_map] in Hx;
    rewrite ?app_nil_r in Hx; try apply in_app_or in Hx as [Hx|Hx]; apply Hu in Hx; subst; simpl; auto.
Qed.
Lemma gen_instr_legal h d argids i : gen_instr h d argids = Some i -> legal d -> Forall op_ok argids -> instr_ok i.
Proof.
  intros H Hd Ha. unfold gen_instr in H.
  assert (Hw : wordlike "llvm.pow.f64" /\ wordlike "llvm.sin.f64" /\ wordlike "llvm.cos.f64") by (repeat split; try discriminate; reflexivity).
  destruct Hw as (W1 & W2 & W3).
  destruct (tree_eqb h Add); [|destruct (tree_eqb h Mul); [|destruct (tree_eqb h Pow); [|destruct (tree_eqb h sin); [|destruct (tree_eqb h cos)]]]];
    destruct Ha as [|a l Ha [|b l' Hb [|c l'' Hc Hl]]]; try discriminate H; injection H as <-; cbn [instr_ok]; repeat split; auto; try apply Hd; try apply W1; try apply W2; try apply W3.
Qed.

(** Running a list of instructions. *)
Fixpoint exec_list (mc : machine) (ins : list instr) (r : vars) (m : memory) : option (vars * memory) :=
  match ins with
  | [] => Some (r, m)
  | i :: rest => match exec mc decls i r m with Some (r', m') => exec_list mc rest r' m' | None => None end
  end.
Lemma exec_list_app mc a b r m : exec_list mc (a ++ b)%list r m =
  match exec_list mc a r m with Some (r', m') => exec_list mc b r' m' | None => None end.
Proof.
  revert r m. induction a as [|i a IH]; intros r m; [reflexivity|]. cbn [app exec_list].
  destruct (exec mc decls i r m) as [[r' m']|]; [apply IH|reflexivity].
Qed.
Lemma exec_body_app mc void a i r m r' m' : exec_list mc a r m = Some (r', m') ->
  exec_body mc decls void (a ++ [i])%list r m = exec_body mc decls void [i] r' m'.
Proof.
  revert r m. induction a as [|j a IH]; intros r m H.
  - injection H as <- <-. reflexivity.
  - cbn [exec_list] in H. destruct (exec mc decls j r m) as [[r1 m1]|] eqn:E; [|discriminate].
    rewrite <- (IH _ _ H). cbn [app].
    assert (E2 : exec_body mc decls void (j :: a ++ [i])%list r m =
      match j, (a ++ [i])%list with
      | IRet o, [] => if void then None else match operand_value r o with Some f => Some (Some f, m) | None => None end
      | IRetVoid, [] => if void then Some (None, m) else None
      | _, _ => match exec mc decls j r m with Some (r', m') => exec_body mc decls void (a ++ [i])%list r' m' | None => None end
      end) by (destruct j, (a ++ [i])%list; reflexivity).
    rewrite E2, E. destruct j; try reflexivity; destruct (a ++ [i])%list eqn:Ea; try reflexivity; apply app_eq_nil in Ea as [_ Ea]; discriminate.
Qed.
Lemma lookup_cons_other x v r y w : lookup r y = Some w -> lookup r x = None -> lookup ((x, v) :: r) y = Some w.
Proof. intros Hy Hx. unfold lookup in *. cbn [dict_get]. destruct (String.eqb_spec y x) as [->|]; congruence. Qed.
Lemma operand_cons x v r o w : operand_value r o = Some w -> lookup r x = None -> operand_value ((x, v) :: r) o = Some w.
Proof.
  destruct o as [y|b]; cbn [operand_value]; [|auto]. intros H Hx. destruct (lookup r y) as [u|] eqn:E; [|discriminate].
  rewrite (lookup_cons_other _ _ _ _ _ E Hx). exact H.
Qed.

(** ** The loop *)
Section Gen.
  Variable symargs : list tree.
  Variable e : tree.
  Hypothesis Hbin : binary e.
  Let A := filter childless (tsort e []).
  Let N := filter compound (tsort e []).
  Variable pnames : list string.
  Hypothesis Hfresh : forall k, ~ In (tmp k) pnames.
  Hypothesis Hnames : forall a nm, In a symargs -> tree_str a = Ok nm -> In nm pnames /\ legal nm.

  (** The operand of an atom. *)
  Definition atom_op (a : tree) (o : operand) : Prop :=
    (In a symargs /\ exists at_ nm, a = Atm at_ /\ tree_str a = Ok nm /\ o = OLocal nm) \/
    (~ In a symargs /\ exists n f, a = Integer n /\ constant n = Some f /\ o = OBits (bits_of_double f)).
  Definition good_env (vals : list spec_float) (r0 : vars) : Prop :=
    (forall a nm v, In a symargs -> tree_str a = Ok nm -> argument symargs vals a = Some v -> lookup r0 nm = Some (VF v)) /\
    (forall x, lookup r0 x <> None -> In x pnames).
  Record inv (p : list tree) (ids : list operand) (ins : list instr) : Prop := mkInv {
    inv_ids : length ids = length (A ++ p);
    inv_ins : length ins = length p;
    inv_ops : Forall op_ok ids;
    inv_oks : Forall instr_ok ins;
    inv_defs : flat_map defines ins = map tmp (seq 0 (length ins));
    inv_refs : forall x, In (OLocal x) ids -> In x (pnames ++ flat_map defines ins);
    inv_uses : forall front i back, ins = (front ++ i :: back)%list -> forall x, In x (uses i) -> In x (pnames ++ flat_map defines front);
    inv_sem : forall mc vals r0 m, length vals = length symargs -> good_env vals r0 ->
      exists vs r, Forall2 (fun s v => machine_value mc symargs vals s = Some v) (A ++ p) vs /\
        exec_list mc ins r0 m = Some (r, m) /\
        Forall2 (fun o v => operand_value r o = Some v) ids vs /\
        (forall x, lookup r x <> None -> In x (pnames ++ flat_map defines ins)) /\
        (forall x v, lookup r0 x = Some v -> lookup r x = Some v);
    inv_pure : Forall computes ins
  }.
  Lemma argument_some vals a : length vals = length symargs -> In a symargs -> exists v, argument symargs vals a = Some v.
  Proof.
    clear. revert vals. induction symargs as [|s ss IH]; intros [|v vals] Hl Ha; try discriminate; [destruct Ha|].
    cbn [argument]. destruct (tree_eqb_spec a s) as [->|Hne]; [eauto|]. destruct Ha as [->|Ha]; [congruence|].
    apply IH; [injection Hl; auto|exact Ha].
  Qed.
  Lemma argument_none vals a : ~ In a symargs -> argument symargs vals a = None.
  Proof.
    clear. revert vals. induction symargs as [|s ss IH]; intros [|v vals] Ha; try reflexivity. cbn [argument].
    destruct (tree_eqb_spec a s) as [->|Hne]; [destruct Ha; left; reflexivity|]. apply IH. intros H. apply Ha. right. exact H.
  Qed.
  Lemma inv_start ids : Forall2 atom_op A ids -> inv [] ids [].
  Proof.
    intros H. split; cbn [flat_map map seq length]; rewrite ?app_nil_r.
    - symmetry. eapply Forall2_len; eauto.
    - reflexivity.
    - induction H as [|a o l l' [(Ha & at_ & nm & _ & Hs & ->)|(_ & n & f & _ & Hc & ->)] _ IH]; constructor; try exact IH.
      + exact (proj2 (Hnames a nm Ha Hs)).
      + apply bits_range, (constant_double n f Hc).
    - constructor.
    - reflexivity.
    - induction H as [|a o l l' Hao _ IH]; [intros x []|]. intros x [E|Hx]; [|apply IH, Hx]. subst o.
      destruct Hao as [(Ha & at_ & nm & _ & Hs & E)|(_ & n & f & _ & Hc & E)]; [|discriminate]. injection E as <-. exact (proj1 (Hnames a x Ha Hs)).
    - intros front i back E. destruct front; discriminate.
    - intros mc vals r0 m Hl [Henv Hdom].
      assert (G : exists vs, Forall2 (fun s v => machine_value mc symargs vals s = Some v) A vs /\
                 Forall2 (fun o v => operand_value r0 o = Some v) ids vs).
      { clear Hdom. induction H as [|a o l l' Hao _ (vs & H1 & H2)]; [exists []; split; constructor|].
        destruct Hao as [(Ha & at_ & nm & -> & Hs & ->)|(Ha & n & f & -> & Hc & ->)].
        - destruct (argument_some vals _ Hl Ha) as (v & Hv). exists (v :: vs). split; constructor; try assumption.
          + cbn [machine_value machine_leaf]. rewrite Hv. reflexivity.
          + cbn [operand_value]. rewrite (Henv _ _ _ Ha Hs Hv). reflexivity.
        - exists (f :: vs). split; constructor; try assumption.
          + assert (E : machine_value mc symargs vals (Integer n) = match argument symargs vals (Integer n) with Some v => Some v | None => constant n end) by reflexivity.
            rewrite E, (argument_none vals (Integer n) Ha). exact Hc.
          + cbn [operand_value]. rewrite bits_round_trip; [reflexivity|]. apply (constant_double n f Hc). }
      destruct G as (vs & H1 & H2). exists vs, r0. repeat split; try assumption. auto.
    - constructor.
  Qed.
  Lemma inv_step p s q ids ins argids i : N = (p ++ s :: q)%list -> inv p ids ins ->
    mapM (getitem ids) (map (index_of (A ++ p)) (args_of s)) = Ok argids ->
    gen_instr (head_of s) (tmp (length ins)) argids = Some i ->
    inv (p ++ [s]) (ids ++ [OLocal (tmp (length ins))])%list (ins ++ [i])%list.
  Proof.
    intros EN [H1 H2 H3 H4 H5 H6 H7 H8 H9] Hargs Hgen. destruct (gen_uses _ _ _ _ Hgen) as [Hdef Hus].
    assert (Hd : flat_map defines (ins ++ [i])%list = (flat_map defines ins ++ [tmp (length ins)])%list).
    { rewrite flat_map_app. cbn [flat_map]. rewrite Hdef, app_nil_r. reflexivity. }
    split.
    - rewrite !app_length in *. cbn [length] in *. lia.
    - rewrite !app_length. cbn [length]. lia.
    - apply Forall_app. split; [exact H3|]. repeat constructor; apply tmp_legal.
    - apply Forall_app. split; [exact H4|]. constructor; [|constructor]. eapply gen_instr_legal; [exact Hgen|apply tmp_legal|].
      apply Forall_forall. intros o Ho. rewrite Forall_forall in H3. apply H3. eapply mapM_getitem_in; eauto.
    - rewrite Hd, app_length. cbn [length]. rewrite Nat.add_1_r, seq_S, map_app, H5. reflexivity.
    - intros x Hx. rewrite Hd, app_assoc. apply in_or_app. apply in_app_or in Hx as [Hx|[Hx|[]]]; [left; apply H6, Hx|right; left; congruence].
    - intros front j back E x Hx. destruct back as [|b back] using rev_ind.
      + apply app_inj_tail in E as [<- <-]. apply H6. eapply mapM_getitem_in; [exact Hargs|]. apply Hus, Hx.
      + clear IHback. rewrite app_comm_cons, app_assoc in E. apply app_inj_tail in E as [E _]. exact (H7 _ _ _ E x Hx).
    - intros mc vals r0 m Hl Henv. destruct (H8 mc vals r0 m Hl Henv) as (vs & r & G1 & G2 & G3 & G4 & G5).
      assert (Hs : In s N) by (rewrite EN; apply in_or_app; right; left; reflexivity).
      assert (Hc : children s <> []) by (unfold N in Hs; apply filter_In in Hs as [_ Hs]; unfold compound, childless in Hs; destruct (children s); [discriminate|congruence]).
      assert (Hbefore : forall c, In c (args_of s) -> In c (A ++ p)) by (intros c; eapply forder_args_before; exact EN).
      assert (Hvals : exists avs, Forall2 (fun o v => operand_value r o = Some v) argids avs /\ Forall2 (fun c v => machine_value mc symargs vals c = Some v) (args_of s) avs).
      { clear - Hargs G1 G3 Hbefore. apply mapM_Ok_Forall2 in Hargs. revert argids Hargs Hbefore.
        induction (args_of s) as [|c cs IH]; intros argids Hargs Hbefore; cbn [map] in Hargs; inversion Hargs; subst.
        - exists []. split; constructor.
        - destruct (IH l' H3) as (avs & F1 & F2); [intros c' Hc'; apply Hbefore; right; exact Hc'|].
          assert (Hin : In c (A ++ p)) by (apply Hbefore; left; reflexivity).
          apply index_of_nth in Hin. unfold getitem in H1. set (k := index_of (A ++ p) c) in *. clearbody k.
          assert (G : exists v, machine_value mc symargs vals c = Some v /\ operand_value r y = Some v).
          { clear - G1 G3 Hin H1. revert k vs ids G1 G3 Hin H1. induction (A ++ p)%list as [|t l IH]; intros [|k] vs ids G1 G3 Hin H1; try discriminate;
              inversion G1; subst; inversion G3; subst.
            - injection Hin as ->. injection H1 as ->. eauto.
            - cbn [nth_error] in *. eapply IH; eauto. }
          destruct G as (v & Gv & Go). exists (v :: avs). split; constructor; assumption. }
      destruct Hvals as (avs & F1 & F2).
      assert (Hnew : lookup r (tmp (length ins)) = None).
      { destruct (lookup r (tmp (length ins))) eqn:E; [exfalso|reflexivity].
        assert (Hin : In (tmp (length ins)) (pnames ++ flat_map defines ins)) by (apply G4; congruence).
        apply in_app_or in Hin as [Hin|Hin]; [exact (Hfresh _ Hin)|]. rewrite H5 in Hin. apply in_map_iff in Hin as (k & Ek & Hk).
        apply tmp_inj in Ek. apply in_seq in Hk. lia. }
      destruct (exec_gen mc _ _ _ _ _ r m Hgen F1 Hnew) as (v & Hv & Hx).
      exists (vs ++ [v])%list, ((tmp (length ins), VF v) :: r). split; [|split; [|split; [|split]]].
      + rewrite app_assoc. apply Forall2_app; [exact G1|]. constructor; [|constructor].
        destruct s as [a|[|h args]]; [destruct Hc; reflexivity|destruct Hc; reflexivity|]. rewrite machine_value_node.
        change (args_of (Node (h :: args))) with args in F2. apply opt_map_Forall2 in F2. rewrite F2. exact Hv.
      + rewrite exec_list_app, G2. cbn [exec_list]. rewrite Hx. reflexivity.
      + apply Forall2_app; [|constructor; [|constructor]].
        * clear - G3 Hnew. induction G3; constructor; [apply operand_cons; assumption|assumption].
        * cbn [operand_value]. unfold lookup. cbn [dict_get]. rewrite String.eqb_refl. reflexivity.
      + intros x Hxx. rewrite Hd, app_assoc. apply in_or_app. unfold lookup in Hxx. cbn [dict_get] in Hxx.
        destruct (String.eqb_spec x (tmp (length ins))) as [Exx|Hne]; [right; left; congruence|left; apply G4, Hxx].
      + intros x w Hw. apply lookup_cons_other; [apply G5, Hw|exact Hnew].
    - apply Forall_app. split; [exact H9|]. constructor; [exact (gen_computes _ _ _ _ Hgen)|constructor].
  Qed.

  (** The operands of the arguments are found. *)
  Lemma inv_args p s q ids ins : N = (p ++ s :: q)%list -> inv p ids ins ->
    map (index_of (forder e)) (args_of s) = map (index_of (A ++ p)) (args_of s) /\ exists argids, mapM (getitem ids) (map (index_of (A ++ p)) (args_of s)) = Ok argids /\ length argids = length (args_of s).
  Proof.
    intros EN Hinv. assert (Hbefore : forall c, In c (args_of s) -> In c (A ++ p)) by (intros c; eapply forder_args_before; exact EN).
    split.
    - apply map_ext_in. intros c Hc.
      assert (Hfo : forder e = ((A ++ p) ++ s :: q)%list) by (unfold forder; fold A N; rewrite EN, app_assoc; reflexivity).
      rewrite Hfo. apply index_of_app_l, Hbefore, Hc.
    - destruct Hinv as [Hlen _ _ _ _ _ _ _ _].
      assert (G : exists argids, mapM (getitem ids) (map (index_of (A ++ p)) (args_of s)) = Ok argids).
      { induction (args_of s) as [|c cs IH]; [exists []; reflexivity|]. destruct IH as (l & Hl); [intros c' Hc'; apply Hbefore; right; exact Hc'|].
        cbn [map mapM]. rewrite Hl. unfold getitem at 1. destruct (nth_error ids (index_of (A ++ p) c)) as [o|] eqn:E; [cbn [of_option bind]; eauto|].
        apply nth_error_None in E. pose proof (index_of_lt (A ++ p) c (Hbefore c (or_introl eq_refl))). lia. }
      destruct G as (argids & G). exists argids. split; [exact G|]. apply mapM_length in G. rewrite map_length in G. exact G.
  Qed.
  Lemma node_binary s : In s N -> binary_op (head_of s) (length (args_of s)).
  Proof.
    intros Hs. assert (Hr : reach false [] e s) by (apply forder_In; unfold forder; fold A N; apply in_or_app; right; exact Hs).
    apply filter_In in Hs as [_ Hs]. destruct s as [a|[|h args]]; try discriminate. intros Hh. exact (Hbin h args Hr Hh).
  Qed.
  Lemma inv_run q2 : forall q p ids ins s', N = (p ++ q ++ q2)%list -> inv p ids ins ->
    foldM llvm_op (map (op_of (forder e)) q) (map opstr ids, map istr ins) = Ok s' ->
    exists ids' ins', s' = (map opstr ids', map istr ins') /\ inv (p ++ q) ids' ins'.
  Proof.
    induction q as [|s q IH]; intros p ids ins s' EN Hinv H; cbn [map foldM] in H.
    - injection H as <-. exists ids, ins. split; [reflexivity|]. rewrite app_nil_r. exact Hinv.
    - destruct (inv_args p s (q ++ q2) ids ins EN Hinv) as [Em (argids & Ea & Hla)].
      assert (Hb : binary_op (head_of s) (length (args_of s))) by (apply node_binary; rewrite EN; apply in_or_app; right; left; reflexivity).
      change (op_of (forder e) s) with (head_of s, map (index_of (forder e)) (args_of s)) in H. rewrite Em in H.
      destruct (llvm_op_gen ids ins (head_of s) _ _ Ea) as [G _]; [rewrite map_length; exact Hb|].
      destruct (llvm_op (map opstr ids, map istr ins) (head_of s, map (index_of (A ++ p)) (args_of s))) as [s1|] eqn:E1; [|discriminate].
      cbn [bind] in H. destruct (G s1 eq_refl) as (i & Hi & ->).
      destruct (IH (p ++ [s])%list _ _ _ ltac:(rewrite <- app_assoc; exact EN) (inv_step p s (q ++ q2) ids ins argids i EN Hinv Ea Hi) H) as (ids' & ins' & -> & Hinv').
      exists ids', ins'. split; [reflexivity|]. rewrite <- app_assoc in Hinv'. exact Hinv'.
  Qed.
  Lemma inv_total q2 : forall q p ids ins, N = (p ++ q ++ q2)%list -> inv p ids ins ->
    (forall s, In s q -> gen_ok (head_of s) (length (args_of s)) = true) ->
    exists ids' ins', foldM llvm_op (map (op_of (forder e)) q) (map opstr ids, map istr ins) = Ok (map opstr ids', map istr ins').
  Proof.
    induction q as [|s q IH]; intros p ids ins EN Hinv Hok; cbn [map foldM].
    - eauto.
    - destruct (inv_args p s (q ++ q2) ids ins EN Hinv) as [Em (argids & Ea & Hla)].
      assert (Hb : binary_op (head_of s) (length (args_of s))) by (apply node_binary; rewrite EN; apply in_or_app; right; left; reflexivity).
      change (op_of (forder e) s) with (head_of s, map (index_of (forder e)) (args_of s)). rewrite Em.
      destruct (llvm_op_gen ids ins (head_of s) _ _ Ea) as [_ G]; [rewrite map_length; exact Hb|].
      destruct (gen_instr_ok (head_of s) (tmp (length ins)) argids) as (i & Hi & _); [rewrite Hla; apply Hok; left; reflexivity|].
      rewrite (G i Hi). cbn [bind].
      apply (IH (p ++ [s])%list); [rewrite <- app_assoc; exact EN|exact (inv_step p s (q ++ q2) ids ins argids i EN Hinv Ea Hi)|].
      intros u Hu. apply Hok. right. exact Hu.
  Qed.
End Gen.

(** ** bin_expand does not change the value *)
Lemma mv_nest mc symargs vals h (op : machine -> spec_float -> spec_float -> spec_float) :
  (forall u v, machine_op mc h [u; v] = Some (op mc u v)) ->
  forall r a, machine_value mc symargs vals (fold_left (call2 h) r a) =
    match machine_value mc symargs vals a, opt_map (machine_value mc symargs vals) r with
    | Some v, Some vs => Some (fold_left (op mc) vs v)
    | _, _ => None
    end.
Proof.
  intros Hop. induction r as [|b r IH]; intros a; cbn [fold_left opt_map].
  - destruct (machine_value mc symargs vals a); reflexivity.
  - rewrite IH. unfold call2, tree_call. rewrite machine_value_node. cbn [opt_map].
    destruct (machine_value mc symargs vals a) as [v|]; [|reflexivity].
    destruct (machine_value mc symargs vals b) as [w|]; [|reflexivity]. rewrite Hop.
    destruct (opt_map (machine_value mc symargs vals) r); reflexivity.
Qed.
Lemma opt_map_ext_in {X Y} (f : X -> option Y) (g : X -> option Y) l : (forall a, In a l -> f a = g a) -> opt_map f l = opt_map g l.
Proof. induction l as [|a l IH]; intros H; [reflexivity|]. cbn [opt_map]. rewrite (H a) by (left; reflexivity). rewrite IH; [reflexivity|]. intros b Hb. apply H. right. exact Hb. Qed.
Lemma bin_machine mc symargs vals e : forall e', meaning bin_leaf bin_op e = Ok e' ->
  machine_value mc symargs vals e' = machine_value mc symargs vals e.
Proof.
  induction e as [a|cs IH] using tree_ind_all; intros e' H.
  - injection H as <-. reflexivity.
  - destruct cs as [|h args]; [discriminate|]. cbn [meaning] in H.
    destruct (mapM (meaning bin_leaf bin_op) args) as [vs|x] eqn:E; [|discriminate]. cbn [bind] in H.
    assert (Ev : opt_map (machine_value mc symargs vals) vs = opt_map (machine_value mc symargs vals) args).
    { apply mapM_Ok_Forall2 in E. assert (IH' : forall a, In a args -> forall e', meaning bin_leaf bin_op a = Ok e' ->
        machine_value mc symargs vals e' = machine_value mc symargs vals a) by (intros a Ha; apply (IH a); right; exact Ha).
      clear - E IH'. induction E as [|a v l l' Ha E IHE]; [reflexivity|]. cbn [opt_map].
      rewrite (IH' a (or_introl eq_refl) v Ha), IHE; [reflexivity|]. intros b Hb. apply IH'. right. exact Hb. }
    rewrite machine_value_node, <- Ev. unfold bin_op in H.
    destruct (tree_eqb_spec h Add) as [->|Hna].
    { destruct vs as [|v vs]; [discriminate|]. cbn [reduce] in H. injection H as <-.
      rewrite (mv_nest _ _ _ Add mc_add) by reflexivity. cbn [opt_map]. unfold machine_op. rewrite tree_eqb_refl.
      destruct (machine_value mc symargs vals v), (opt_map (machine_value mc symargs vals) vs); reflexivity. }
    destruct (tree_eqb_spec h Mul) as [->|Hnm].
    { destruct vs as [|v vs]; [discriminate|]. cbn [reduce] in H. injection H as <-.
      rewrite (mv_nest _ _ _ Mul mc_mul) by reflexivity. cbn [opt_map]. unfold machine_op. 
      change (tree_eqb Mul Add) with false. rewrite tree_eqb_refl.
      destruct (machine_value mc symargs vals v), (opt_map (machine_value mc symargs vals) vs); reflexivity. }
    injection H as <-. unfold tree_call. rewrite machine_value_node. reflexivity.
Qed.
Lemma machine_bin mc symargs vals e v : machine_value mc symargs vals e = Some v -> exists e', meaning bin_leaf bin_op e = Ok e'.
Proof.
  revert v. induction e as [a|cs IH] using tree_ind_all; intros v H.
  - eexists; reflexivity.
  - destruct cs as [|h args]; [discriminate|]. rewrite machine_value_node in H.
    destruct (opt_map (machine_value mc symargs vals) args) as [vs|] eqn:E; [|discriminate].
    assert (G : exists es, mapM (meaning bin_leaf bin_op) args = Ok es /\ length es = length vs).
    { apply opt_map_Forall2 in E. assert (IH' : forall a, In a args -> forall v, machine_value mc symargs vals a = Some v ->
        exists e', meaning bin_leaf bin_op a = Ok e') by (intros a Ha; apply (IH a); right; exact Ha).
      clear - E IH'. induction E as [|a v l l' Ha E IHE]; [exists []; split; reflexivity|].
      destruct IHE as (es & H1 & H2); [intros b Hb; apply IH'; right; exact Hb|].
      destruct (IH' a (or_introl eq_refl) v Ha) as (e' & He). exists (e' :: es). cbn [mapM]. rewrite He, H1. cbn [bind length]. split; [reflexivity|lia]. }
    destruct G as (es & H1 & H2). cbn [meaning]. rewrite H1. cbn [bind]. unfold bin_op.
    assert (Hne : h = Add \/ h = Mul -> es <> []).
    { intros Hh ->. destruct vs; [|discriminate H2]. destruct Hh as [->| ->]; discriminate H. }
    destruct (tree_eqb_spec h Add) as [->|Hna]; [destruct es; [destruct Hne; auto|eexists; reflexivity]|].
    destruct (tree_eqb_spec h Mul) as [->|Hnm]; [destruct es; [destruct Hne; auto|eexists; reflexivity]|]. eexists; reflexivity.
Qed.

(** ** Atoms and parameters *)
Lemma argnames_spec symargs names : mapM tree_str symargs = Ok names ->
  exists d, llvm_argnames symargs = Ok d /\
    forall s, In s symargs -> exists nm, tree_str s = Ok nm /\ dict_get tree_eqb d s = Some (opstr (OLocal nm)).
Proof.
  intros H. unfold llvm_argnames.
  assert (E : mapM (fun s => do name <- tree_str s; Ok (s, "%" ++ quote ++ name ++ quote)) symargs =
              Ok (map (fun p => (fst p, opstr (OLocal (snd p)))) (combine symargs names)) /\
              forall s nm, In (s, nm) (combine symargs names) -> tree_str s = Ok nm).
  { apply mapM_Ok_Forall2 in H. clear - H. induction H as [|s nm l l' Hs H (IH1 & IH2)]; [split; [reflexivity|intros ? ? []]|].
    cbn [mapM combine map]. rewrite Hs, IH1. cbn [bind fst snd opstr]. split; [reflexivity|].
    intros s' nm' [E|Hin]; [injection E as <- <-; exact Hs|apply IH2, Hin]. }
  destruct E as [E1 E2]. rewrite E1. cbn [bind]. eexists. split; [reflexivity|].
  intros s Hs. rewrite (dict_update_get _ tree_eqb_spec). rewrite <- map_rev.
  assert (Hlen : length names = length symargs) by (eapply mapM_length; eauto).
  assert (G : In s (map fst (rev (combine symargs names)))).
  { rewrite map_rev. apply -> in_rev. clear - Hs Hlen. revert names Hlen. induction symargs as [|t l IH]; intros [|n names] Hlen; try discriminate; [destruct Hs|].
    cbn [combine map fst]. destruct Hs as [->|Hs]; [left; reflexivity|right; apply IH; [exact Hs|injection Hlen; auto]]. }
  assert (E3 : forall t nm, In (t, nm) (rev (combine symargs names)) -> tree_str t = Ok nm) by (intros t nm Ht; apply E2, in_rev, Ht).
  clear - G E3. induction (rev (combine symargs names)) as [|[t nm] l IH]; [destruct G|]. cbn [map dict_get fst snd].
  destruct (tree_eqb_spec s t) as [->|Hne].
  - exists nm. split; [apply E3; left; reflexivity|reflexivity].
  - destruct G as [E|G]; [cbn in E; congruence|]. apply IH; [exact G|]. intros t' nm' Ht. apply E3. right. exact Ht.
Qed.
Lemma argnames_ok symargs d : llvm_argnames symargs = Ok d -> exists names, mapM tree_str symargs = Ok names.
Proof.
  unfold llvm_argnames. intros H.
  destruct (mapM (fun s => do name <- tree_str s; Ok (s, "%" ++ quote ++ name ++ quote)) symargs) as [ps|] eqn:E; [|discriminate].
  clear H d. revert ps E. induction symargs as [|s l IH]; intros ps E; [exists []; reflexivity|]. cbn [mapM] in *.
  destruct (tree_str s) as [nm|]; [|discriminate]. cbn [bind] in *. destruct (mapM _ l) as [ps'|] eqn:E2; [|discriminate].
  destruct (IH _ eq_refl) as (names & ->). cbn [bind]. eauto.
Qed.
Lemma params_ok symargs names d : mapM tree_str symargs = Ok names ->
  (forall s, In s symargs -> exists nm, tree_str s = Ok nm /\ dict_get tree_eqb d s = Some (opstr (OLocal nm))) ->
  mapM (fun arg => do n <- dict_getitem tree_eqb d arg; Ok ("double " ++ n)) symargs = Ok (map pstr (map (pair PDouble) names)).
Proof.
  intros H Hd. apply mapM_Ok_Forall2 in H. apply mapM_Ok_Forall2. induction H as [|s nm l l' Hs H IH]; cbn [map]; constructor.
  - destruct (Hd s (or_introl eq_refl)) as (nm' & Hs' & Eg). unfold dict_getitem. rewrite Eg. cbn [of_option bind].
    replace nm' with nm by congruence. reflexivity.
  - apply IH. intros t Ht. apply Hd. right. exact Ht.
Qed.
Lemma atoms_op symargs names d A identifiers : mapM tree_str symargs = Ok names ->
  (forall s, In s symargs -> exists nm, tree_str s = Ok nm /\ dict_get tree_eqb d s = Some (opstr (OLocal nm))) ->
  (forall a, In a A -> childless a = true) ->
  mapM (atom_identifier symargs d) A = Ok identifiers ->
  exists ids, identifiers = map opstr ids /\ Forall2 (atom_op symargs) A ids.
Proof.
  intros Hn Hd Hc H. apply mapM_Ok_Forall2 in H. induction H as [|a s l l' Ha H IH]; [exists []; split; [reflexivity|constructor]|].
  destruct IH as (ids & -> & F); [intros b Hb; apply Hc; right; exact Hb|].
  assert (G : exists o, s = opstr o /\ atom_op symargs a o).
  { unfold atom_identifier in Ha. destruct (mem_spec a symargs) as [Hin|Hin].
    - destruct (Hd a Hin) as (nm & Hs & Eg). unfold dict_getitem in Ha. rewrite Eg in Ha. injection Ha as <-.
      exists (OLocal nm). split; [reflexivity|]. left. split; [exact Hin|].
      destruct a as [at_|cs]; [eauto|]. specialize (Hc _ (or_introl eq_refl)). unfold childless in Hc. cbn [children] in Hc.
      destruct cs; [discriminate Hs|discriminate Hc].
    - destruct a as [[ty v]|cs]; [|discriminate]. cbn [tree_value bind atom_type atom_value] in Ha.
      destruct (atype_eqb_spec ty T_Integer) as [->|Hne]; [|destruct (not_implemented_err _ _ Ha)].
      destruct v as [n|t]; [|discriminate]. cbn [double_to_hex] in Ha. rewrite float_of_int_constant in Ha.
      destruct (constant n) as [f|] eqn:Ef; [|discriminate]. injection Ha as <-.
      exists (OBits (bits_of_double f)). split; [reflexivity|]. right. split; [exact Hin|]. exists n, f. auto. }
  destruct G as (o & -> & Ho). exists (o :: ids). split; [reflexivity|constructor; assumption].
Qed.
Lemma atoms_total symargs d A mc vals : 
  (forall s, In s symargs -> exists nm, tree_str s = Ok nm /\ dict_get tree_eqb d s = Some (opstr (OLocal nm))) ->
  (forall a, In a A -> childless a = true) ->
  (forall a, In a A -> machine_value mc symargs vals a <> None) ->
  exists identifiers, mapM (atom_identifier symargs d) A = Ok identifiers.
Proof.
  intros Hd Hc Hv. induction A as [|a A IH]; [exists []; reflexivity|].
  destruct IH as (ids & E); [intros b Hb; apply Hc; right; exact Hb|intros b Hb; apply Hv; right; exact Hb|].
  cbn [mapM]. rewrite E.
  assert (G : exists s, atom_identifier symargs d a = Ok s); [|destruct G as (s & ->); cbn [bind]; eauto].
  specialize (Hv a (or_introl eq_refl)). specialize (Hc a (or_introl eq_refl)).
  unfold atom_identifier. destruct (mem_spec a symargs) as [Hin|Hin].
  - destruct (Hd a Hin) as (nm & Hs & Eg). unfold dict_getitem. rewrite Eg. eexists; reflexivity.
  - destruct a as [[ty v]|cs]; [|destruct cs; [destruct Hv; reflexivity|discriminate Hc]].
    cbn [machine_value machine_leaf] in Hv. rewrite argument_none in Hv by exact Hin. cbn [tree_value bind atom_type atom_value].
    destruct v as [n|t]; [|congruence]. destruct (atype_eqb ty T_Integer); [|congruence].
    cbn [double_to_hex]. rewrite float_of_int_constant. destruct (constant n); [eexists; reflexivity|congruence].
Qed.

Lemma bind_params_env symargs names vals r : NoDup names -> mapM tree_str symargs = Ok names -> length vals = length symargs ->
  (forall x, In x names -> lookup r x = None) ->
  exists r0, bind_params (map (pair PDouble) names) (map VF vals) r = Some r0 /\
    (forall a nm v, In a symargs -> tree_str a = Ok nm -> argument symargs vals a = Some v -> lookup r0 nm = Some (VF v)) /\
    (forall x, lookup r0 x <> None -> In x names \/ lookup r x <> None) /\
    (forall x v, lookup r x = Some v -> lookup r0 x = Some v).
Proof.
  intros Hnd Hn. apply mapM_Ok_Forall2 in Hn. revert vals r.
  induction Hn as [|s nm l l' Hs H IH]; intros [|v vals] r Hl Hfree; try discriminate.
  - exists r. repeat split; auto. intros a nm v [].
  - inversion Hnd as [|? ? Hnin Hnd']; subst. cbn [map bind_params has_ptype]. unfold define. rewrite (Hfree nm (or_introl eq_refl)).
    assert (Hnew : lookup r nm = None) by (apply Hfree; left; reflexivity).
    destruct (IH Hnd' vals ((nm, VF v) :: r)) as (r0 & E & G1 & G2 & G3).
    + injection Hl; auto.
    + intros x Hx. unfold lookup. cbn [dict_get]. destruct (String.eqb_spec x nm) as [->|]; [contradiction|]. apply Hfree. right. exact Hx.
    + exists r0. split; [exact E|]. split; [|split].
      * intros a nm' v' Ha Hs' Hv. cbn [argument] in Hv. destruct (tree_eqb_spec a s) as [->|Hne].
        -- injection Hv as <-. replace nm' with nm by congruence. apply G3. unfold lookup. cbn [dict_get]. rewrite String.eqb_refl. reflexivity.
        -- destruct Ha as [->|Ha]; [congruence|]. eapply G1; eauto.
      * intros x Hx. destruct (G2 x Hx) as [Hin|Hr]; [left; right; exact Hin|]. unfold lookup in Hr. cbn [dict_get] in Hr.
        destruct (String.eqb_spec x nm) as [->|]; [left; left; reflexivity|right; exact Hr].
      * intros x w Hw. apply G3. apply lookup_cons_other; assumption.
Qed.

(** ** _to_llvm_f64 *)
Lemma NoDup_app {X} (l l' : list X) : NoDup l -> NoDup l' -> (forall x, In x l -> ~ In x l') -> NoDup (l ++ l')%list.
Proof.
  intros H H'. induction H as [|x l Hx H IH]; intros Hd; [exact H'|]. cbn [app]. constructor.
  - intros Hin. apply in_app_or in Hin as [Hin|Hin]; [contradiction|]. exact (Hd x (or_introl eq_refl) Hin).
  - apply IH. intros y Hy. apply Hd. right. exact Hy.
Qed.
Lemma last_opstr ids result : last_item (map opstr ids) = Ok result -> exists l o, ids = (l ++ [o])%list /\ result = opstr o.
Proof.
  intros H. destruct ids as [|o l _] using rev_ind; [discriminate|]. rewrite map_app in H. cbn [map] in H. rewrite last_item_app in H.
  injection H as <-. eauto.
Qed.
Definition scalar_func (names : list string) (ins : list instr) (o : operand) : func :=
  mkFunc false "jit_func1" (map (pair PDouble) names) (ins ++ [IRet o])%list.
Lemma jit_legal : legal "jit_func1". Proof. split; [discriminate|reflexivity]. Qed.

Lemma to_llvm_struct_full symargs names e text : to_llvm_f64 symargs e = Ok text ->
  mapM tree_str symargs = Ok names -> NoDup names -> Forall legal names -> (forall k, ~ In (tmp k) names) ->
  exists ins o, let f := scalar_func names ins o in
    text = llvm_header ++ join newline (func_lines f) /\ func_ok f /\ ssa f /\
    (forall e', bin_expand e = Ok e' -> length ins = length (filter compound (tsort e' []))) /\
    forall mc vals m, length vals = length symargs ->
      exists v, machine_value mc symargs vals e = Some v /\ run_func mc decls f (map VF vals) m = Some (Some v, m).
Proof.
  intros H Hn Hnd Hleg Hfresh. unfold to_llvm_f64 in H.
  destruct (bin_expand e) as [e'|] eqn:Eb; [|discriminate]. cbn [bind] in H.
  destruct (forward_graph_spec e') as (hs & Eg & _). rewrite Eg in H. cbn [bind g_atoms g_operations] in H.
  destruct (argnames_spec symargs names Hn) as (d & Ed & Hd). rewrite Ed in H. cbn [bind] in H.
  set (A := filter childless (tsort e' [])) in *. set (N := filter compound (tsort e' [])) in *.
  destruct (mapM (atom_identifier symargs d) A) as [identifiers|] eqn:Ei; [|discriminate]. cbn [bind] in H.
  rewrite (params_ok symargs names d Hn Hd) in H. cbn [bind] in H.
  destruct (atoms_op symargs names d A identifiers Hn Hd) as (ids & -> & Hao); [|exact Ei|].
  { intros a Ha. apply filter_In in Ha as [_ Ha]. exact Ha. }
  assert (Hbin : binary e') by (apply (bin_expand_result e e' Eb)).
  assert (Hnames : forall a nm, In a symargs -> tree_str a = Ok nm -> In nm names /\ legal nm).
  { intros a nm Ha Hs. assert (Hin : In nm names).
    { clear - Hn Ha Hs. apply mapM_Ok_Forall2 in Hn. induction Hn as [|s n l l' H1 H2 IH]; [destruct Ha|].
      destruct Ha as [->|Ha]; [left; congruence|right; apply IH, Ha]. }
    split; [exact Hin|]. rewrite Forall_forall in Hleg. apply Hleg, Hin. }
  pose proof (inv_start symargs e' names Hnames ids Hao) as Hinv.
  destruct (foldM llvm_op (map (op_of (forder e')) N) (map opstr ids, [])) as [s'|] eqn:Ef; [|discriminate]. cbn [bind] in H.
  destruct (inv_run symargs e' Hbin names Hfresh [] N [] ids [] s') as (ids' & ins & -> & Hinv'); [rewrite app_nil_r; reflexivity|exact Hinv|exact Ef|].
  destruct (last_item (map opstr ids')) as [result|] eqn:El; [|discriminate]. cbn [bind] in H. injection H as <-.
  apply last_opstr in El as (l & o & -> & ->). exists ins, o. cbv zeta.
  destruct Hinv' as [H1 H2 H3 H4 H5 H6 H7 H8]. cbn [app] in *. fold A N in H1, H8.
  assert (Ho : op_ok o) by (rewrite Forall_forall in H3; apply H3, in_or_app; right; left; reflexivity).
  split; [|split; [|split; [|split]]].
  - f_equal. unfold func_lines, scalar_func. cbn [f_void f_name f_params f_body]. rewrite map_app. reflexivity.
  - split; [apply jit_legal|]. split; cbn [scalar_func f_params f_body].
    + apply Forall_forall. intros p Hp. apply in_map_iff in Hp as (nm & <- & Hnm). rewrite Forall_forall in Hleg. apply Hleg, Hnm.
    + apply Forall_app. split; [exact H4|repeat constructor; exact Ho].
  - assert (Emap : map snd (f_params (scalar_func names ins o)) = names).
    { cbn [scalar_func f_params]. rewrite map_map. cbn [snd]. apply map_id. }
    split; rewrite Emap; cbn [scalar_func f_body].
    + rewrite flat_map_app. cbn [flat_map defines]. rewrite app_nil_r, H5.
      apply NoDup_app; [exact Hnd|apply FinFun.Injective_map_NoDup; [intros a b; apply tmp_inj|apply seq_NoDup]|].
      intros x Hx Hx'. apply in_map_iff in Hx' as (k & <- & _). exact (Hfresh k Hx).
    + intros front i back E x Hx. destruct back as [|b back _] using rev_ind.
      * apply app_inj_tail in E as [<- <-]. apply H6. cbn [uses] in Hx. destruct o as [y|b]; [|destruct Hx]. destruct Hx as [<-|[]].
        apply in_or_app. right. left. reflexivity.
      * rewrite app_comm_cons, app_assoc in E. apply app_inj_tail in E as [E _]. exact (H7 _ _ _ E x Hx).
  - intros e2 He2. assert (e2 = e') as -> by congruence. exact H2.
  - intros mc vals m Hl. unfold run_func. cbn [scalar_func f_params f_void f_body].
    destruct (bind_params_env symargs names vals [] Hnd Hn Hl) as (r0 & -> & G1 & G2 & _); [reflexivity|].
    assert (Henv : good_env symargs names vals r0).
    { split; [exact G1|]. intros x Hx. destruct (G2 x Hx) as [|E]; [assumption|destruct E; reflexivity]. }
    destruct (H8 mc vals r0 m Hl Henv) as (vs & r & F1 & F2 & F3 & _ & _).
    rewrite (exec_body_app _ _ _ _ _ _ _ _ F2). cbn [exec_body].
    apply Forall2_app_inv_l in F3 as (vs1 & vs2 & F3 & F4 & ->). inversion F4 as [|? v ? ? Hv F5]; subst. inversion F5; subst.
    rewrite Hv. exists v. split; [|reflexivity].
    rewrite <- (bin_machine mc symargs vals e e') by (apply bin_expand_meaning; exact Eb).
    destruct (forder_last e') as (l0 & El0). unfold forder in El0. fold A N in El0. rewrite El0 in F1.
    apply Forall2_app_inv_l in F1 as (ws1 & ws2 & K1 & K2 & Ews). inversion K2 as [|? w ? ? Hw K3]; subst. inversion K3; subst.
    apply app_inj_tail in Ews as [_ <-]. exact Hw.
Qed.
Lemma to_llvm_struct symargs names e text : to_llvm_f64 symargs e = Ok text ->
  mapM tree_str symargs = Ok names -> NoDup names -> Forall legal names -> (forall k, ~ In (tmp k) names) ->
  exists ins o, let f := scalar_func names ins o in
    text = llvm_header ++ join newline (func_lines f) /\ func_ok f /\ ssa f /\
    forall mc vals m, length vals = length symargs ->
      exists v, machine_value mc symargs vals e = Some v /\ run_func mc decls f (map VF vals) m = Some (Some v, m).
Proof.
  intros H Hn Hnd Hleg Hfresh. destruct (to_llvm_struct_full symargs names e text H Hn Hnd Hleg Hfresh) as (ins & o & H1 & H2 & H3 & _ & H4).
  exists ins, o. auto.
Qed.

(** What is accepted. *)
Lemma machine_sub mc symargs vals e v : machine_value mc symargs vals e = Some v ->
  forall s, reach false [] e s -> machine_value mc symargs vals s <> None.
Proof.
  revert v. induction e as [a|cs IH] using tree_ind_all; intros v H s Hr.
  - apply reach_leaf in Hr; [|reflexivity]. subst. congruence.
  - destruct cs as [|h args]; [discriminate|]. apply reach_node_inv in Hr as [->|(a & Ha & Hr)]; [congruence|].
    rewrite machine_value_node in H. destruct (opt_map (machine_value mc symargs vals) args) as [vs|] eqn:E; [|discriminate].
    apply opt_map_Forall2 in E. assert (G : exists w, machine_value mc symargs vals a = Some w).
    { clear - E Ha. induction E as [|b w l l' Hb E IH]; [destruct Ha|]. destruct Ha as [->|Ha]; [eauto|apply IH, Ha]. }
    destruct G as (w & Hw). exact (IH a (or_intror Ha) w Hw s Hr).
Qed.
Lemma machine_op_ok mc h vs : machine_op mc h vs <> None -> binary_op h (length vs) -> gen_ok h (length vs) = true.
Proof.
  unfold machine_op, gen_ok, binary_op. intros H Hb.
  destruct (tree_eqb_spec h Add) as [->|_]; [rewrite Hb by auto; reflexivity|].
  destruct (tree_eqb_spec h Mul) as [->|_]; [rewrite Hb by auto; reflexivity|].
  destruct (tree_eqb h Pow); [destruct vs as [|? [|]]; [congruence..|reflexivity]|].
  destruct (tree_eqb h sin); [destruct vs; [congruence|reflexivity]|].
  destruct (tree_eqb h cos); [destruct vs; [congruence|reflexivity]|]. congruence.
Qed.
(** Code for the arithmetic alone: used for both generators. The argument names need not be good. *)
Lemma gen_total symargs d mc vals e' : length vals = length symargs -> binary e' ->
  (forall s, In s symargs -> exists nm, tree_str s = Ok nm /\ dict_get tree_eqb d s = Some (opstr (OLocal nm))) ->
  forall q q2 , filter compound (tsort e' []) = (q ++ q2)%list ->
  (forall s, In s (filter childless (tsort e' []) ++ q) -> machine_value mc symargs vals s <> None) ->
  exists identifiers, mapM (atom_identifier symargs d) (filter childless (tsort e' [])) = Ok identifiers /\
  exists ids ins, foldM llvm_op (map (op_of (forder e')) q) (identifiers, []) = Ok (ids, ins) /\ length ids = length identifiers + length q.
Proof.
  intros Hl Hbin Hd q q2 EN Hv.
  destruct (atoms_total symargs d (filter childless (tsort e' [])) mc vals Hd) as (identifiers & Ei).
  { intros a Ha. apply filter_In in Ha as [_ Ha]. exact Ha. }
  { intros a Ha. apply Hv, in_or_app. left. exact Ha. }
  exists identifiers. split; [exact Ei|].
  assert (Hlen : length identifiers = length (filter childless (tsort e' []))) by (eapply mapM_length; eauto).
  assert (Hmv : forall s, In s q -> gen_ok (head_of s) (length (args_of s)) = true).
  { intros s Hs. assert (Hin : In s (filter compound (tsort e' []))) by (rewrite EN; apply in_or_app; left; exact Hs).
    pose proof (node_binary e' Hbin s Hin) as Hb. specialize (Hv s (in_or_app _ _ _ (or_intror Hs))).
    apply filter_In in Hin as [_ Hc]. destruct s as [a|[|h args]]; try discriminate. cbn [head_of args_of children tl hd] in *.
    rewrite machine_value_node in Hv. destruct (opt_map (machine_value mc symargs vals) args) as [vs|] eqn:E; [|congruence].
    assert (Hlv : length args = length vs) by (apply opt_map_Forall2, Forall2_len in E; exact E).
    unfold args_of in *. cbn [children tl] in *. rewrite Hlv in *. eapply machine_op_ok; eauto. }
  clear Hv Ei.
  assert (G : forall q p ids ins, filter compound (tsort e' []) = (p ++ q ++ q2)%list ->
            length ids = length (filter childless (tsort e' []) ++ p) -> (forall s, In s q -> gen_ok (head_of s) (length (args_of s)) = true) ->
            exists ids' ins', foldM llvm_op (map (op_of (forder e')) q) (ids, ins) = Ok (ids', ins') /\ length ids' = length ids + length q).
  { clear. induction q as [|s q IH]; intros p ids ins EN Hlen Hok; cbn [map foldM].
    - exists ids, ins. split; [reflexivity|cbn [length]; lia].
    - assert (Hbefore : forall c, In c (args_of s) -> In c (filter childless (tsort e' []) ++ p)) by (intros c; eapply forder_args_before; exact EN).
      change (op_of (forder e') s) with (head_of s, map (index_of (forder e')) (args_of s)).
      assert (G : exists argids, mapM (getitem (ids ++ [temp (length ins)])%list) (map (index_of (forder e')) (args_of s)) = Ok argids /\ length argids = length (args_of s)).
      { assert (Hfo : forder e' = ((filter childless (tsort e' []) ++ p) ++ s :: q ++ q2)%list) by (unfold forder; rewrite EN, <- app_assoc; reflexivity).
        rewrite Hfo. clear - Hbefore Hlen. induction (args_of s) as [|c cs IH]; [exists []; split; reflexivity|].
        destruct IH as (l & Hl & Hll); [intros c' Hc'; apply Hbefore; right; exact Hc'|].
        cbn [map mapM]. rewrite Hl. pose proof (Hbefore c (or_introl eq_refl)) as Hin. rewrite index_of_app_l by exact Hin.
        apply index_of_lt in Hin. rewrite <- Hlen in Hin. unfold getitem at 1. rewrite nth_error_app1 by exact Hin.
        destruct (nth_error ids _) as [o|] eqn:E; [|apply nth_error_None in E; lia]. cbn [of_option bind]. exists (o :: l). split; [reflexivity|cbn [length]; lia]. }
      destruct G as (argids & Ea & Hla). unfold llvm_op at 1. cbv beta iota zeta. rewrite Ea. cbn [bind].
      pose proof (Hok s (or_introl eq_refl)) as Hs. rewrite <- Hla in Hs. unfold gen_ok in Hs.
      assert (Hline : forall h, h = head_of s -> exists line, (if tree_eqb h Add then Ok (temp (length ins) ++ " = fadd double " ++ join ", " argids)
     else if tree_eqb h Mul then Ok (temp (length ins) ++ " = fmul double " ++ join ", " argids)
     else if tree_eqb h Pow then
       do a0 <- getitem argids 0;
       do a1 <- getitem argids 1;
       Ok (temp (length ins) ++ " = call double @llvm.pow.f64(double " ++ a0 ++ ", double " ++ a1 ++ ")")
     else if tree_eqb h sin then
       do a0 <- getitem argids 0;
       Ok (temp (length ins) ++ " = call double @llvm.sin.f64(double " ++ a0 ++ ")")
     else if tree_eqb h cos then
       do a0 <- getitem argids 0;
       Ok (temp (length ins) ++ " = call double @llvm.cos.f64(double " ++ a0 ++ ")")
     else not_implemented h) = Ok line).
      { intros h ->. destruct (tree_eqb (head_of s) Add); [eauto|]. destruct (tree_eqb (head_of s) Mul); [eauto|].
        destruct (tree_eqb (head_of s) Pow); [destruct argids as [|a [|b l]]; [discriminate..|eexists; reflexivity]|].
        destruct (tree_eqb (head_of s) sin); [destruct argids as [|a l]; [discriminate|eexists; reflexivity]|].
        destruct (tree_eqb (head_of s) cos); [destruct argids as [|a l]; [discriminate|eexists; reflexivity]|]. discriminate. }
      destruct (Hline _ eq_refl) as (line & El). rewrite El. cbn [bind].
      destruct (IH (p ++ [s])%list (ids ++ [temp (length ins)])%list (ins ++ [line])%list) as (ids' & ins' & E & Hlen').
      + rewrite <- app_assoc. exact EN.
      + rewrite !app_length in *. cbn [length]. lia.
      + intros u Hu. apply Hok. right. exact Hu.
      + exists ids', ins'. split; [exact E|]. rewrite Hlen', app_length. cbn [length]. lia. }
  destruct (G q [] identifiers []) as (ids' & ins' & E & Hlen'); [exact EN|rewrite app_nil_r; exact Hlen|exact Hmv|]. eauto.
Qed.
Lemma to_llvm_total symargs names mc vals e v : mapM tree_str symargs = Ok names -> length vals = length symargs ->
  machine_value mc symargs vals e = Some v -> exists text, to_llvm_f64 symargs e = Ok text.
Proof.
  intros Hn Hl Hv. destruct (machine_bin mc symargs vals e v Hv) as (e' & Hm).
  rewrite <- (bin_machine mc symargs vals e e' Hm) in Hv. apply bin_expand_meaning in Hm.
  unfold to_llvm_f64. rewrite Hm. cbn [bind]. destruct (forward_graph_spec e') as (hs & Eg & _). rewrite Eg. cbn [bind g_atoms g_operations].
  destruct (argnames_spec symargs names Hn) as (d & Ed & Hd). rewrite Ed. cbn [bind].
  destruct (gen_total symargs d mc vals e' Hl) with (q := filter compound (tsort e' [])) (q2 := @nil tree) as (identifiers & Ei & ids & ins & Ef & Hlen).
  - apply (bin_expand_result e e' Hm).
  - exact Hd.
  - rewrite app_nil_r. reflexivity.
  - intros s Hs. apply (machine_sub mc symargs vals e' v Hv). apply forder_In. exact Hs.
  - rewrite Ei. cbn [bind]. rewrite (params_ok symargs names d Hn Hd). cbn [bind]. rewrite Ef. cbn [bind].
    destruct (last_item_nonempty ids) as (result & ->).
    { apply mapM_length in Ei. destruct (forder_last e') as (l0 & El0). unfold forder in El0.
      assert (Hl0 : length (filter childless (tsort e' []) ++ filter compound (tsort e' [])) > 0) by (rewrite El0, app_length; cbn [length]; lia).
      rewrite app_length in Hl0. intros ->. cbn [length] in Hlen. lia. }
    cbn [bind]. eauto.
Qed.

(** The other direction, whatever the names. *)
Lemma llvm_op_ok s op s' : llvm_op s op = Ok s' -> binary_op (fst op) (length (snd op)) -> gen_ok (fst op) (length (snd op)) = true.
Proof.
  destruct s as [ids ins], op as [h indices]. unfold llvm_op. cbn [fst snd]. intros H Hb.
  destruct (mapM _ indices) as [argids|] eqn:Ea; [|discriminate]. cbn [bind] in H. apply mapM_length in Ea. rewrite <- Ea in *.
  unfold gen_ok. destruct (tree_eqb_spec h Add) as [->|_]; [rewrite Hb by auto; reflexivity|].
  destruct (tree_eqb_spec h Mul) as [->|_]; [rewrite Hb by auto; reflexivity|].
  destruct (tree_eqb h Pow); [destruct argids as [|a [|b l]]; [discriminate..|reflexivity]|].
  destruct (tree_eqb h sin); [destruct argids; [discriminate|reflexivity]|].
  destruct (tree_eqb h cos); [destruct argids; [discriminate|reflexivity]|].
  destruct (not_implemented h) eqn:En; [destruct (not_implemented_err _ _ En)|discriminate].
Qed.
Lemma fold_ok e : binary e -> forall q p q2 s s', filter compound (tsort e []) = (p ++ q ++ q2)%list ->
  foldM llvm_op (map (op_of (forder e)) q) s = Ok s' -> forall u, In u q -> gen_ok (head_of u) (length (args_of u)) = true.
Proof.
  intros Hbin. induction q as [|t q IH]; intros p q2 s s' EN H u [].
  - subst t. cbn [map foldM] in H. destruct (llvm_op s (op_of (forder e) u)) as [s1|] eqn:E; [|discriminate].
    apply llvm_op_ok in E; unfold op_of in *; cbn [fst snd] in *; rewrite map_length in *; [exact E|].
    apply (node_binary e Hbin). rewrite EN. apply in_or_app. right. left. reflexivity.
  - cbn [map foldM] in H. destruct (llvm_op s (op_of (forder e) t)) as [s1|] eqn:E; [|discriminate].
    apply (IH (p ++ [t])%list q2 s1 s'); [rewrite <- app_assoc; exact EN|exact H|assumption].
Qed.
Lemma gen_ok_value mc h vs : gen_ok h (length vs) = true -> machine_op mc h vs <> None.
Proof.
  unfold gen_ok, machine_op. destruct (tree_eqb h Add); [destruct vs; discriminate|]. destruct (tree_eqb h Mul); [destruct vs; discriminate|].
  destruct (tree_eqb h Pow); [destruct vs as [|? [|]]; discriminate|]. destruct (tree_eqb h sin); [destruct vs; discriminate|].
  destruct (tree_eqb h cos); [destruct vs; discriminate|]. discriminate.
Qed.
Lemma value_defined mc symargs vals t :
  (forall s, reach false [] t s -> children s = [] -> machine_value mc symargs vals s <> None) ->
  (forall h args, reach false [] t (Node (h :: args)) -> gen_ok h (length args) = true) ->
  machine_value mc symargs vals t <> None.
Proof.
  induction t as [a|cs IH] using tree_ind_all; intros Hl Ho.
  - apply Hl; [apply reach_refl|reflexivity].
  - destruct cs as [|h args]; [apply Hl; [apply reach_refl|reflexivity]|].
    rewrite machine_value_node.
    assert (G : exists vs, opt_map (machine_value mc symargs vals) args = Some vs).
    { assert (Ha : forall a, In a args -> machine_value mc symargs vals a <> None).
      { intros a Ha. apply (IH a (or_intror Ha)).
        - intros s Hs Hc. apply Hl; [eapply reach_arg; eauto|exact Hc].
        - intros h' args' Hs. apply Ho. eapply reach_arg; eauto. }
      clear - Ha. induction args as [|a l IH]; [exists []; reflexivity|]. cbn [opt_map].
      destruct (machine_value mc symargs vals a) eqn:E; [|destruct (Ha a (or_introl eq_refl) E)].
      destruct IH as (vs & ->); [intros b Hb; apply Ha; right; exact Hb|]. eauto. }
    destruct G as (vs & E). rewrite E. apply gen_ok_value. apply opt_map_Forall2, Forall2_len in E. rewrite <- E. apply Ho, reach_refl.
Qed.
Lemma atom_op_value symargs mc vals a o : length vals = length symargs -> atom_op symargs a o -> machine_value mc symargs vals a <> None.
Proof.
  intros Hl [(Ha & at_ & nm & -> & _ & _)|(Ha & n & f & -> & Hc & _)].
  - cbn [machine_value machine_leaf]. destruct (argument_some symargs vals (Atm at_) Hl Ha) as (v & ->). discriminate.
  - assert (E : machine_value mc symargs vals (Integer n) = match argument symargs vals (Integer n) with Some v => Some v | None => constant n end) by reflexivity.
    rewrite E, (argument_none symargs vals (Integer n) Ha), Hc. discriminate.
Qed.
Lemma Forall2_in_l {X Y} (R : X -> Y -> Prop) l l' a : Forall2 R l l' -> In a l -> exists b, R a b.
Proof. induction 1 as [|x y l l' Hxy _ IH]; intros []; [subst; eauto|auto]. Qed.
(** The values of what was compiled are defined. *)
Lemma compiled_value symargs names d e identifiers q q2 s mc vals : mapM tree_str symargs = Ok names -> length vals = length symargs ->
  (forall s, In s symargs -> exists nm, tree_str s = Ok nm /\ dict_get tree_eqb d s = Some (opstr (OLocal nm))) ->
  binary e -> mapM (atom_identifier symargs d) (filter childless (tsort e [])) = Ok identifiers ->
  filter compound (tsort e []) = (q ++ q2)%list ->
  foldM llvm_op (map (op_of (forder e)) q) (identifiers, []) = Ok s ->
  forall t, (forall u, reach false [] t u -> In u (filter childless (tsort e []) ++ q)) -> machine_value mc symargs vals t <> None.
Proof.
  intros Hn Hl Hd Hbin Ei EN Ef t Ht.
  destruct (atoms_op symargs names d (filter childless (tsort e [])) identifiers Hn Hd) as (ids & _ & Hao); [|exact Ei|].
  { intros a Ha. apply filter_In in Ha as [_ Ha]. exact Ha. }
  apply value_defined.
  - intros u Hu Hc. apply Ht in Hu. apply in_app_or in Hu as [Hu|Hu].
    + destruct (Forall2_in_l _ _ _ _ Hao Hu) as (o & Ho). eapply atom_op_value; eauto.
    + exfalso. assert (Hin : In u (filter compound (tsort e []))) by (rewrite EN; apply in_or_app; left; exact Hu).
      apply filter_In in Hin as [_ Hin]. unfold compound, childless in Hin. rewrite Hc in Hin. discriminate.
  - intros h args Hu. apply Ht in Hu. apply in_app_or in Hu as [Hu|Hu].
    + apply filter_In in Hu as [_ Hu]. discriminate.
    + exact (fold_ok e Hbin q [] q2 _ _ EN Ef _ Hu).
Qed.
Lemma to_llvm_accepts symargs e text : to_llvm_f64 symargs e = Ok text ->
  exists names, mapM tree_str symargs = Ok names /\
  forall mc vals, length vals = length symargs -> exists v, machine_value mc symargs vals e = Some v.
Proof.
  intros H. unfold to_llvm_f64 in H.
  destruct (bin_expand e) as [e'|] eqn:Eb; [|discriminate]. cbn [bind] in H.
  destruct (forward_graph_spec e') as (hs & Eg & _). rewrite Eg in H. cbn [bind g_atoms g_operations] in H.
  destruct (llvm_argnames symargs) as [d|] eqn:Ed; [|discriminate]. destruct (argnames_ok symargs d Ed) as (names & Hn).
  exists names. split; [exact Hn|]. destruct (argnames_spec symargs names Hn) as (d' & Ed' & Hd). replace d' with d in * by congruence.
  cbn [bind] in H. destruct (mapM (atom_identifier symargs d) _) as [identifiers|] eqn:Ei; [|discriminate]. cbn [bind] in H.
  rewrite (params_ok symargs names d Hn Hd) in H. cbn [bind] in H.
  destruct (foldM llvm_op (map (op_of (forder e')) (filter compound (tsort e' []))) (identifiers, [])) as [s'|] eqn:Ef; [|discriminate].
  intros mc vals Hl. rewrite <- (bin_machine mc symargs vals e e') by (apply bin_expand_meaning; exact Eb).
  destruct (machine_value mc symargs vals e') as [v|] eqn:Ev; [eauto|exfalso].
  apply (compiled_value symargs names d e' identifiers (filter compound (tsort e' [])) [] s' mc vals) with (t := e'); auto.
  - apply (bin_expand_result e e' Eb).
  - rewrite app_nil_r. reflexivity.
  - intros u Hu. apply forder_In in Hu. exact Hu.
Qed.
