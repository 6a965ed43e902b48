(** * C123: a polynomial is determined by its derivatives at one point. *)
From Coq Require Import Reals Lra Lia.
From Verif Require Import Py ModelTree SpecTree ProofBase ModelDiff SpecDiff ProofDiff ModelSym ModelCas SpecCas ProofCasDiff ProofTopo ProofEval ProofCas ProofBin ProofSwell
  SpecReal ProofReal PropsReal PropsTaylor SpecPolynomial PropsPolynomial SpecLeibniz PropsLeibniz Samples.
Local Open Scope R_scope.

Definition defd (env : string -> R) (e : tree) : Prop := reval env e <> None.
Lemma all_defd env args : (forall a, In a args -> defd env a) <-> exists vs, all_defined (reval env) args = Some vs.
Proof.
  unfold defd. induction args as [|a args IH]; cbn [all_defined]; [split; [eexists; reflexivity|intros _ a []]|]. split.
  - intros H. pose proof (H a (or_introl eq_refl)) as Ha. destruct (proj1 IH (fun b Hb => H b (or_intror Hb))) as [vs ->]. destruct (reval env a); [eexists; reflexivity|contradiction].
  - intros [vs H] b Hb. destruct (reval env a) as [v|] eqn:Ea; [|discriminate]. destruct (all_defined (reval env) args) as [ws|] eqn:Ew; [|discriminate].
    destruct Hb as [<-|Hb]; [rewrite Ea; discriminate|]. exact (proj2 IH (ex_intro _ ws eq_refl) b Hb).
Qed.
Lemma def_add env args : defd env (Node (Add :: args)) <-> forall a, In a args -> defd env a.
Proof.
  rewrite all_defd. unfold defd. change (reval env (Node (Add :: args))) with (match all_defined (reval env) args with Some vs => rop Add vs | None => None end).
  destruct (all_defined (reval env) args) as [vs|]; [|split; [congruence|intros [vs H]; discriminate]]. split; [intros _; exists vs; reflexivity|intros _]. change (rop Add vs) with (Some (fold_right Rplus 0 vs)). discriminate.
Qed.
Lemma def_mul env args : defd env (Node (Mul :: args)) <-> forall a, In a args -> defd env a.
Proof.
  rewrite all_defd. unfold defd. change (reval env (Node (Mul :: args))) with (match all_defined (reval env) args with Some vs => rop Mul vs | None => None end).
  destruct (all_defined (reval env) args) as [vs|]; [|split; [congruence|intros [vs H]; discriminate]]. split; [intros _; exists vs; reflexivity|intros _]. change (rop Mul vs) with (Some (fold_right Rmult 1 vs)). discriminate.
Qed.
Lemma def_total env l : (forall t, In t l -> defd env t) -> defd env (total cas_diff l).
Proof. intros H. destruct l as [|t [|t' l]]; [discriminate|apply H; left; reflexivity|]. apply def_add, H. Qed.
Lemma F2_in {A B} (P : A -> B -> Prop) l l' a : Forall2 P l l' -> In a l -> exists b, P a b.
Proof. induction 1 as [|x y l l' Hx _ IH]; intros H; [destruct H|]. destruct H as [<-|H]; [exists y; exact Hx|exact (IH H)]. Qed.

Section PolyDef.
  Variable s : string.
  Lemma poly_def env e u : forall n, polynomial s e n -> defd env e -> defd (upd env s u) e.
  Proof.
    induction e as [a|cs IH] using tree_ind_all; intros n Hp Hd.
    1: inversion Hp as [? ? H1 H2|? H1| |]; subst.
    3: inversion Hp as [? ? H1 H2| |args ? H1|args ns ? H1 H2]; subst.
    1, 3: unfold defd in *; rewrite (reval_ext (upd env s u) env); [exact Hd|intros s' Hs'; unfold upd; destruct (String.eqb_spec s' s) as [->|]; [contradiction|reflexivity]].
    - discriminate.
    - apply def_add. intros a Ha. apply (IH a (or_intror Ha) n (H1 a Ha)). exact (proj1 (def_add env args) Hd a Ha).
    - apply def_mul. intros a Ha. destruct (F2_in _ _ _ a H1 Ha) as [m Hm]. apply (IH a (or_intror Ha) m Hm). exact (proj1 (def_mul env args) Hd a Ha).
  Qed.
  Lemma poly_deriv_def env e : forall n d, polynomial s e n -> defd env e -> deriv cas_diff (Symbol s) e = Ok d -> defd env d.
  Proof.
    assert (Hc : forall e (n : nat) d, ~ contains e s -> (forall args, ~ reach false [] e (Node (List_ :: args))) -> deriv cas_diff (Symbol s) e = Ok d -> defd env d).
    { intros e0 n d H1 H2 E. destruct (const_good s e0 n H1 H2) as (d' & E' & _). assert (E0 : deriv cas_diff (Symbol s) e0 = Ok zero).
      { apply (deriv_absent cas_diff); [intros [_ H]; exact (H1 H)|]. intros h args H [<-|[]]. exact (H2 args H). }
      rewrite E in E0. injection E0 as ->. discriminate. }
    induction e as [a|cs IH] using tree_ind_all; intros n d Hp Hd E.
    1: inversion Hp as [? ? H1 H2|? H1| |]; subst; [exact (Hc _ n d H1 H2 E)|].
    2: inversion Hp as [? ? H1 H2| |args ? H1|args ns ? H1 H2]; subst; [exact (Hc _ n d H1 H2 E)| |].
    - change (Atm _) with (Symbol s) in E. rewrite sym_D, String.eqb_refl in E. injection E as <-. discriminate.
    - rewrite D_add in E. destruct (mapM (deriv cas_diff (Symbol s)) args) as [ds|] eqn:Ed; [|discriminate]. injection E as <-. apply mapM_Ok_Forall2 in Ed.
      apply def_total. intros t Ht. apply in_map_iff in Ht as (id & <- & Hid). apply dependent_split in Hid as [_ (pre & post & -> & _)].
      apply Forall2_app_inv_r in Ed as (apre & arest & _ & Hr & ->). inversion Hr as [|a ? apost ? Ha _]; subst.
      assert (Hin : In a (apre ++ a :: apost)) by (apply in_or_app; right; left; reflexivity).
      exact (IH a (or_intror Hin) n _ (H1 a Hin) (proj1 (def_add env _) Hd a Hin) Ha).
    - rewrite D_mul in E. destruct (mapM (deriv cas_diff (Symbol s)) args) as [ds|] eqn:Ed; [|discriminate]. injection E as <-. apply mapM_Ok_Forall2 in Ed.
      apply def_total. intros t Ht. apply in_map_iff in Ht as (id & <- & Hid). apply dependent_split in Hid as [_ (pre & post & -> & ->)].
      apply Forall2_app_inv_r in Ed as (apre & arest & Hpre & Hr & ->). inversion Hr as [|a ? apost ? Ha _]; subst.
      rewrite <- (F2_len _ _ _ Hpre), set_nth_mid. assert (Hin : In a (apre ++ a :: apost)) by (apply in_or_app; right; left; reflexivity).
      destruct (F2_in _ _ _ a H1 Hin) as [m Hm]. apply def_mul. intros b Hb. apply in_app_or in Hb as [Hb|[<-|Hb]].
      + apply (proj1 (def_mul env _) Hd). apply in_or_app. left. exact Hb.
      + exact (IH a (or_intror Hin) m _ Hm (proj1 (def_mul env _) Hd a Hin) Ha).
      + apply (proj1 (def_mul env _) Hd). apply in_or_app. right. right. exact Hb.
  Qed.
  Lemma poly_diff_def env k : forall e n, polynomial s e n -> defd env e -> exists d, expr_diff e (Symbol s) (Z.of_nat k) = Ok d /\ polynomial s d (n - k) /\ defd env d.
  Proof.
    induction k as [|k IH]; intros e n Hp Hd; [exists e; rewrite Nat.sub_0_r; split; [reflexivity|split; assumption]|].
    destruct (poly_good s e n Hp) as (d & E & Hpd & _). destruct (IH d (pred n) Hpd (poly_deriv_def env e n d Hp Hd E)) as (d' & E' & H1 & H2).
    exists d'. rewrite (diff_S s e d k E). replace (n - S k)%nat with (pred n - k)%nat by lia. auto.
  Qed.
End PolyDef.

(** C123. Around any point the Taylor expansion of a polynomial is exact, with the computed derivatives at that point as coefficients. *)
Theorem C123_exact env s e n a b : polynomial s e n -> reval (upd env s a) e <> None ->
  exists c, derivatives (upd env s a) s e n c /\ reval (upd env s b) e = Some (sum_f_R0 (fun j => (b - a) ^ j / INR (fact j) * c j) n).
Proof.
  intros Hp Ha.
  assert (Hall : forall u, defd (upd env s u) e).
  { intros u. pose proof (poly_def s (upd env s a) e u n Hp Ha) as H. unfold defd in *. rewrite (reval_ext (upd env s u) (upd (upd env s a) s u)); [exact H|]. intros s' _. symmetry. apply upd_upd. }
  set (ds := fun j => match expr_diff e (Symbol s) (Z.of_nat j) with Ok d => d | Err _ => zero end).
  assert (Hds : forall j, expr_diff e (Symbol s) (Z.of_nat j) = Ok (ds j)).
  { intros j. destruct (poly_diff_def s (upd env s a) j e n Hp Ha) as (d & E & _). unfold ds. rewrite E. reflexivity. }
  assert (Hdd : forall j u, defd (upd env s u) (ds j)).
  { intros j u. destruct (poly_diff_def s (upd env s u) j e n Hp (Hall u)) as (d & E & _ & Hd). unfold ds. rewrite E. exact Hd. }
  destruct (Req_EM_T a b) as [<-|Hne].
  - set (c := fun j => match reval (upd env s a) (ds j) with Some v => v | None => 0 end).
    assert (Hc : forall j, reval (upd env s a) (ds j) = Some (c j)) by (intros j; unfold c; pose proof (Hdd j a) as H; unfold defd in H; destruct (reval (upd env s a) (ds j)); [reflexivity|contradiction]).
    exists c. split; [intros j _; exists (ds j); auto|]. pose proof (Hc 0%nat) as H0. change (ds 0%nat) with e in H0. rewrite H0. f_equal. clear. rewrite Rminus_diag_eq by reflexivity.
    induction n as [|n IH]; cbn [sum_f_R0 pow fact]; [change (INR 1) with 1; field|]. rewrite <- IH. unfold Rdiv. ring.
  - destruct (C101_taylor env s e ds n a b) as (x0 & vb & c & r & _ & Hvb & Hc & Hr & E); [intros j _; apply Hds|exact Hne|intros u j _ _; apply Hdd|].
    exists c. split; [intros j Hj; exists (ds j); split; [apply Hds|apply Hc, Hj]|]. rewrite Hvb, E. f_equal.
    assert (Hz : ds (S n) = zero). { pose proof (C121_zero s e n (S n) Hp (Nat.lt_succ_diag_r n)) as Hz. rewrite Hds in Hz. injection Hz as ->. reflexivity. }
    rewrite Hz in Hr. injection Hr as <-. change (IZR 0) with 0. ring.
Qed.
(** So two polynomials whose derivatives agree at one point have the same values everywhere. *)
Theorem C123_determined env s e f n m k a b c : polynomial s e n -> polynomial s f m -> (n <= k)%nat -> (m <= k)%nat ->
  derivatives (upd env s a) s e k c -> derivatives (upd env s a) s f k c -> reval (upd env s b) e = reval (upd env s b) f.
Proof.
  assert (W : forall e n, polynomial s e n -> (n <= k)%nat -> polynomial s e k).
  { clear. intros e. induction e as [a|cs IH] using tree_ind_all; intros n H Hn.
    - inversion H as [? ? H1 H2|? H1| |]; subst; [apply poly_const; assumption|apply poly_sym; lia].
    - inversion H as [? ? H1 H2| |args ? H1|args ns ? H1 H2]; subst; [apply poly_const; assumption| |apply (poly_mul s _ ns); [exact H1|lia]].
      apply poly_add. intros a Ha. exact (IH a (or_intror Ha) n (H1 a Ha) Hn). }
  intros Hp Hq Hn Hm He Hf. apply W in Hp; [|exact Hn]. apply W in Hq; [|exact Hm].
  destruct (C123_exact env s e k a b Hp) as (c1 & H1 & ->). { rewrite (J_0 _ _ _ _ _ He). discriminate. }
  destruct (C123_exact env s f k a b Hq) as (c2 & H2 & ->). { rewrite (J_0 _ _ _ _ _ Hf). discriminate. }
  f_equal. apply sum_eq. intros j Hj. f_equal.
  destruct (H1 j Hj) as (d1 & E1 & V1), (H2 j Hj) as (d2 & E2 & V2), (He j Hj) as (d3 & E3 & V3), (Hf j Hj) as (d4 & E4 & V4).
  rewrite E1 in E3. injection E3 as ->. rewrite E2 in E4. injection E4 as ->. congruence.
Qed.
(** A case: x*x*y + sin(y) around x = 1: its derivatives there are y + sin(y), 2*y and 2*y. *)
Example C123_case env b : let e := m_add (m_mul (m_mul x x) y) (Node [sin; y]) in let v := env "y"%string in
  exists c, derivatives (upd env "x" 1) "x" e 2 c /\ reval (upd env "x" b) e = Some (sum_f_R0 (fun j => (b - 1) ^ j / INR (fact j) * c j) 2) /\ c 2%nat = 2 * v.
Proof.
  cbv zeta. destruct (C123_exact env "x" (m_add (m_mul (m_mul x x) y) (Node [sin; y])) 2 1 b) as (c & Hc & Hv); [apply C121_case|discriminate|].
  exists c. split; [exact Hc|]. split; [exact Hv|]. destruct (Hc 2%nat (le_n 2)) as (d & Hd & Hw). destruct C121_case as (_ & E & _). change (Symbol "x") with x in Hd. change (Z.of_nat 2) with 2%Z in Hd. rewrite E in Hd. injection Hd as <-.
  assert (K : reval (upd env "x" 1) (Node [Mul; Node [Add; Node [Mul; int 1; int 1]; Node [Mul; int 1; int 1]]; y]) = Some ((1 * 1 + 1 * 1) * env "y"%string)).
  { apply mul_value; [|reflexivity]. apply add_value; apply mul_value; reflexivity. }
  rewrite K in Hw. injection Hw as <-. ring.
Qed.
