(** * Work: C77. *)
From Verif Require Import Py ModelTree SpecTree ProofBase ModelEval SpecEval ProofEval ModelSym ModelCas ModelMatrix ModelSympy SpecSympy ProofSympy ModelWork SpecWork Samples.
Local Open Scope string_scope.

Lemma Forall2_length_eq {A B} (P : A -> B -> Prop) l m : Forall2 P l m -> length l = length m.
Proof. induction 1; simpl; congruence. Qed.
(** ** Recursive evaluation *)
Lemma traced_map_snd {A B E} (f : A -> list E * res B) g l : (forall a, In a l -> snd (f a) = g a) -> snd (traced_map f l) = mapM g l.
Proof.
  induction l as [|a l IH]; intros H; [reflexivity|]. cbn [traced_map mapM]. rewrite <- (H a (or_introl eq_refl)).
  destruct (f a) as [e v]. cbn [snd]. destruct v as [b|x]; [|reflexivity]. cbn [bind]. rewrite <- IH by (intros c Hc; apply H; right; exact Hc).
  destruct (traced_map f l) as [e2 vs]. cbn [snd]. destruct vs; reflexivity.
Qed.
Section Rec.
  Context {V : Type} (ev : evaluator V) (values : dict tree V).
  Lemma recursive_traced_snd e : snd (recursive_traced ev values e) = eval_recursive ev values e.
  Proof.
    induction e as [a|cs IH] using tree_ind_all; cbn [recursive_traced eval_recursive].
    - destruct (dict_get tree_eqb values (Atm a)); reflexivity.
    - destruct (dict_get tree_eqb values (Node cs)); [reflexivity|]. destruct cs as [|h args]; [reflexivity|].
      rewrite <- (traced_map_snd (recursive_traced ev values) (eval_recursive ev values) args (fun a Ha => IH a (or_intror Ha))).
      destruct (traced_map _ args) as [e vs]. cbn [snd]. destruct vs; reflexivity.
  Qed.
  Lemma values_keys t : dict_get tree_eqb values t = None <-> ~ In t (map fst values).
  Proof.
    induction values as [|[k v] d IH]; cbn [dict_get map fst In]; [tauto|]. destruct (tree_eqb_spec t k) as [->|Hn]; [|rewrite IH; intuition congruence].
    split; [discriminate|]. intros H. exfalso. apply H. left. reflexivity.
  Qed.
  Definition good_trace (e : tree) (occ : list tree) (tr : list (event V)) (ok : bool) : Prop :=
    exists called rest, occ = (called ++ rest)%list /\ Forall2 (call_for (eval_recursive ev values)) called tr /\ (ok = true -> rest = []).
  Lemma recursive_trace e : good_trace e (postorder false (map fst values) e) (fst (recursive_traced ev values e)) (is_ok (snd (recursive_traced ev values e))).
  Proof.
    induction e as [a|cs IH] using tree_ind_all.
    - cbn [recursive_traced postorder]. destruct (dict_get tree_eqb values (Atm a)) as [v|] eqn:Ev.
      + assert (Hm : mem (Atm a) (map fst values) = true).
        { apply mem_true. destruct (in_dec tree_eq_dec (Atm a) (map fst values)) as [H|H]; [exact H|apply values_keys in H; congruence]. }
        rewrite Hm. exists [], []. repeat split. constructor.
      + apply values_keys, mem_false in Ev. rewrite Ev. exists [Atm a], []. split; [reflexivity|]. split; [|reflexivity].
        constructor; [reflexivity|constructor].
    - cbn [recursive_traced postorder]. destruct (dict_get tree_eqb values (Node cs)) as [v|] eqn:Ev.
      + assert (Hm : mem (Node cs) (map fst values) = true).
        { apply mem_true. destruct (in_dec tree_eq_dec (Node cs) (map fst values)) as [H|H]; [exact H|apply values_keys in H; congruence]. }
        rewrite Hm. exists [], []. repeat split. constructor.
      + pose proof Ev as Ev'. apply values_keys, mem_false in Ev. rewrite Ev. destruct cs as [|h args].
        { exists [Node []], []. split; [reflexivity|]. split; [|reflexivity]. constructor; [reflexivity|constructor]. }
        cbn [app].
        assert (G : good_trace (Node []) (flat_map (postorder false (map fst values)) args) (fst (traced_map (recursive_traced ev values) args)) (is_ok (snd (traced_map (recursive_traced ev values) args)))).
        { assert (IH' : forall c, In c args -> good_trace c (postorder false (map fst values) c) (fst (recursive_traced ev values c)) (is_ok (snd (recursive_traced ev values c)))) by (intros c Hc; apply IH; right; exact Hc).
          clear - IH'. induction args as [|a l IHl]; [exists [], []; repeat split; constructor|]. cbn [flat_map traced_map].
          destruct (IH' a (or_introl eq_refl)) as (ca & ra & Ea & Fa & Ra). destruct (recursive_traced ev values a) as [e1 v]. cbn [fst snd] in *.
          destruct v as [b|x]; cbn [is_ok] in Ra.
          - specialize (Ra eq_refl). subst ra. rewrite app_nil_r in Ea. destruct (IHl (fun c Hc => IH' c (or_intror Hc))) as (cl & rl & El & Fl & Rl).
            destruct (traced_map (recursive_traced ev values) l) as [e2 vs]. cbn [fst snd] in *. exists (ca ++ cl)%list, rl.
            split; [rewrite Ea, El, app_assoc; reflexivity|]. split; [apply Forall2_app; assumption|]. destruct vs; exact Rl.
          - exists ca, (ra ++ flat_map (postorder false (map fst values)) l)%list. cbn [fst snd is_ok].
            split; [rewrite Ea, app_assoc; reflexivity|]. split; [exact Fa|discriminate]. }
        destruct G as (cl & rl & El & Fl & Rl). pose proof (traced_map_snd (recursive_traced ev values) (eval_recursive ev values) args (fun a _ => recursive_traced_snd a)) as Hs.
        destruct (traced_map (recursive_traced ev values) args) as [e2 vs]. cbn [fst snd] in *. destruct vs as [vs|x]; cbn [is_ok] in Rl.
        * specialize (Rl eq_refl). subst rl. rewrite app_nil_r in El. cbn [fst snd]. exists (cl ++ [Node (h :: args)])%list, [].
          split; [rewrite El, app_nil_r; reflexivity|]. split; [|reflexivity]. apply Forall2_app; [exact Fl|]. constructor; [|constructor].
          exists vs. split; [symmetry; exact Hs|reflexivity].
        * cbn [fst snd is_ok]. exists cl, (rl ++ [Node (h :: args)])%list. split; [rewrite El, app_assoc; reflexivity|]. split; [exact Fl|discriminate].
  Qed.
End Rec.

(** C77. eval_recursive calls a rule for every occurrence of a subexpression (that is not inside one with a given
    value), in post-order; up to the first one that raises. *)
Theorem C77_recursive_evaluation_works_per_occurrence {V} (ev : evaluator V) values e :
  snd (recursive_traced ev values e) = eval_recursive ev values e /\
  exists called rest, postorder false (map fst values) e = (called ++ rest)%list /\
    Forall2 (call_for (eval_recursive ev values)) called (fst (recursive_traced ev values e)) /\
    (is_ok (eval_recursive ev values e) = true -> rest = []).
Proof.
  split; [apply recursive_traced_snd|]. destruct (recursive_trace ev values e) as (c & r & H1 & H2 & H3). rewrite recursive_traced_snd in H3. exists c, r. auto.
Qed.
Lemma postorder_length e : length (postorder false [] e) = occurrences e.
Proof.
  induction e as [a|cs IH] using tree_ind_all; [reflexivity|]. cbn [postorder mem existsb]. destruct cs as [|h args]; [reflexivity|].
  cbn [occurrences app]. rewrite app_length, Nat.add_1_r. f_equal. assert (IH' : forall c, In c args -> length (postorder false [] c) = occurrences c) by (intros c Hc; apply IH; right; exact Hc).
  clear IH. induction args as [|a l IHl]; [reflexivity|]. cbn [flat_map map list_sum fold_right]. rewrite app_length, IHl by (intros c Hc; apply IH'; right; exact Hc).
  rewrite (IH' a (or_introl eq_refl)). reflexivity.
Qed.
Lemma doubled_occurrences f x n : children x = [] -> occurrences (doubled f x n) = 2 ^ (S n) - 1.
Proof.
  intros Hx. induction n as [|n IH]; [destruct x as [a|[|]]; try discriminate; reflexivity|].
  cbn [doubled occurrences map list_sum fold_right]. rewrite IH. cbn [Nat.pow]. pose proof (Nat.pow_nonzero 2 n). lia.
Qed.
Lemma doubled_inj f x m n : children x = [] -> doubled f x m = doubled f x n -> m = n.
Proof.
  intros Hx E. pose proof (doubled_occurrences f x m Hx) as Hm. pose proof (doubled_occurrences f x n Hx) as Hn. rewrite E in Hm. rewrite Hm in Hn.
  apply (Nat.pow_inj_r 2); [lia|]. cbn [Nat.pow] in Hn. pose proof (Nat.pow_nonzero 2 m). pose proof (Nat.pow_nonzero 2 n). lia.
Qed.
Lemma doubled_reach f x n s : children x = [] -> reach false [] (doubled f x n) s <-> exists m, m <= n /\ s = doubled f x m.
Proof.
  intros Hx. split.
  - induction n as [|n IH]; intros H.
    + exists 0. split; [lia|]. cbn [doubled] in *. inversion H as [|t c s' _ Hc _]; subst; [reflexivity|]. unfold kids in Hc. rewrite Hx in Hc. destruct Hc.
    + inversion H as [|t c s' _ Hc Hr]; subst; [exists (S n); split; [lia|reflexivity]|]. assert (Hr' : reach false [] (doubled f x n) s).
      { cbn in Hc. destruct Hc as [<-|[<-|[]]]; exact Hr. } destruct (IH Hr') as (m & Hm & ->). exists m. split; [lia|reflexivity].
  - intros (m & Hm & ->). induction n as [|n IH]; [replace m with 0 by lia; apply reach_here; auto|].
    destruct (Nat.eq_dec m (S n)) as [->|Hne]; [apply reach_here; auto|].
    apply reach_child with (c := doubled f x n); [auto|left; reflexivity|]. apply IH. lia.
Qed.
(** The difference is exponential: f(f(..), f(..)) nested n deep takes 2^(n+1) - 1 calls when evaluated recursively
    and n + 1 calls when evaluated as usual, for any evaluator that can evaluate it. *)
Theorem C77_recursive_evaluation_is_exponential {V} (is_none : V -> bool) (ev : evaluator V) f x n v : children x = [] ->
  eval_recursive ev [] (doubled f x n) = Ok v ->
  length (fst (recursive_traced ev [] (doubled f x n))) = 2 ^ (S n) - 1 /\
  length (fst (eval_traced is_none ev [] (doubled f x n))) = S n /\ evaluate is_none ev (doubled f x n) None = Ok v.
Proof.
  intros Hx Hv. split; [|split].
  - destruct (C77_recursive_evaluation_works_per_occurrence ev [] (doubled f x n)) as (_ & c & r & H1 & H2 & H3). rewrite Hv in H3. rewrite (H3 eq_refl), app_nil_r in H1.
    rewrite <- (Forall2_length_eq _ _ _ H2), <- H1. cbn [map]. rewrite postorder_length. apply doubled_occurrences, Hx.
  - assert (Hf : eval_forward is_none ev [] (doubled f x n) = Ok v) by (apply forward_eq_recursive; [intros s w _ Hw; discriminate Hw|exact Hv]).
    destruct (eval_traced_spec is_none ev [] (doubled f x n)) as (order & c & r & (Hn & Ho & _) & H1 & H2 & _ & H3). rewrite Hf in H3. rewrite (H3 eq_refl), app_nil_r in H1.
    rewrite <- (Forall2_length_eq _ _ _ H2), <- H1. rewrite filter_all.
    2:{ intros s _. unfold needs_call. cbn [dict_get]. destruct (children s); reflexivity. }
    assert (P : Permutation.Permutation order (map (doubled f x) (seq 0 (S n)))).
    { apply Permutation.NoDup_Permutation; [exact Hn| |].
      - apply FinFun.Injective_map_NoDup; [intros a b; apply doubled_inj, Hx|apply seq_NoDup].
      - intros s. rewrite Ho, doubled_reach by exact Hx. rewrite in_map_iff. split; [intros (m & Hm & ->)|intros (m & <- & Hm)].
        + exists m. split; [reflexivity|apply in_seq; lia].
        + exists m. apply in_seq in Hm. split; [lia|reflexivity]. }
    rewrite (Permutation.Permutation_length P), map_length, seq_length. reflexivity.
  - apply forward_eq_recursive; [intros s w _ Hw; discriminate Hw|exact Hv].
Qed.

(** ** from_sympy *)
Fixpoint go_traced (args : list sexpr) (c : cache) : list sevent * res (list tree * cache) :=
  match args with
  | [] => ([], Ok ([], c))
  | a :: r =>
      let (e1, v) := from_sympy_traced a c in
      match v with
      | Err x => (e1, Err x)
      | Ok (t, c1) => let (e2, w) := go_traced r c1 in ((e1 ++ e2)%list, match w with Ok (ts, c2) => Ok (t :: ts, c2) | Err x => Err x end)
      end
  end.
Fixpoint go_cache (args : list sexpr) (c : cache) : res (list tree * cache) :=
  match args with
  | [] => Ok ([], c)
  | a :: r => do (t, c1) <- from_sympy_cache a c; do (ts, c2) <- go_cache r c1; Ok (t :: ts, c2)
  end.
Lemma traced_unfold h a args c : from_sympy_traced (SApp h (a :: args)) c =
  match dict_get sexpr_eqb c (SApp h (a :: args)) with
  | Some ret => ([Asked (SApp h (a :: args))], Ok (ret, c))
  | None => let (e, r) := go_traced (a :: args) c in
      match r with
      | Err x => (Asked (SApp h (a :: args)) :: e, Err x)
      | Ok (args', c') => (Asked (SApp h (a :: args)) :: e ++ [Converted (SApp h (a :: args))],
               do ret <- from_sympy_call h args'; Ok (ret, dict_set sexpr_eqb c' (SApp h (a :: args)) ret))
      end
  end%list.
Proof. reflexivity. Qed.
Lemma cache_unfold h a args c : from_sympy_cache (SApp h (a :: args)) c =
  match dict_get sexpr_eqb c (SApp h (a :: args)) with
  | Some ret => Ok (ret, c)
  | None => do (ret, c') <- (do (args', c') <- go_cache (a :: args) c; do ret <- from_sympy_call h args'; Ok (ret, c')); Ok (ret, dict_set sexpr_eqb c' (SApp h (a :: args)) ret)
  end.
Proof. reflexivity. Qed.
Lemma traced_snd s : forall c, snd (from_sympy_traced s c) = from_sympy_cache s c.
Proof.
  induction s as [p|s n|s|n|h args IH] using sexpr_ind_all; intros c.
  1-4: cbn [from_sympy_traced from_sympy_cache]; destruct (dict_get sexpr_eqb c _); reflexivity.
  destruct args as [|a args]; [cbn [from_sympy_traced from_sympy_cache]; destruct (dict_get sexpr_eqb c _); reflexivity|].
  rewrite traced_unfold, cache_unfold. destruct (dict_get sexpr_eqb c _); [reflexivity|].
  assert (G : forall l c, (forall a, In a l -> forall c, snd (from_sympy_traced a c) = from_sympy_cache a c) -> snd (go_traced l c) = go_cache l c).
  { clear. induction l as [|a l IHl]; intros c H; [reflexivity|]. cbn [go_traced go_cache]. rewrite <- (H a (or_introl eq_refl) c).
    destruct (from_sympy_traced a c) as [e1 v]. cbn [snd]. destruct v as [[t c1]|x]; [|reflexivity]. cbn [bind]. rewrite <- (IHl c1) by (intros b Hb; apply H; right; exact Hb).
    destruct (go_traced l c1) as [e2 w]. cbn [snd]. destruct w as [[ts c2]|x]; reflexivity. }
  rewrite <- (G (a :: args) c IH). destruct (go_traced (a :: args) c) as [e r]. cbn [snd]. destruct r as [[args' c']|x]; [|reflexivity]. cbn [snd bind].
  destruct (from_sympy_call h args'); reflexivity.
Qed.

Fixpoint ssize (s : sexpr) : nat := match s with SApp _ l => S (list_sum (map ssize l)) | _ => 1 end.
Lemma arg_size s a : In a (s_args s) -> ssize a < ssize s.
Proof.
  destruct s; cbn [s_args In]; try tauto. intros H. cbn [ssize]. apply (in_map ssize) in H. apply list_sum_in in H. lia.
Qed.
Lemma spart_size s t : spart s t -> ssize t <= ssize s.
Proof. induction 1 as [|s a t Ha _ IH]; [lia|]. apply arg_size in Ha. lia. Qed.
Lemma arg_not_part s a : In a (s_args s) -> ~ spart a s.
Proof. intros Ha H. apply spart_size in H. apply arg_size in Ha. lia. Qed.

Definition keys (c : cache) : list sexpr := map fst c.
(** Distinct, and the arguments of each come before it. *)
Definition ordered (l : list sexpr) : Prop := NoDup l /\ forall l1 s l2, l = (l1 ++ s :: l2)%list -> incl (s_args s) l1.
Lemma cache_none (c : cache) s : dict_get sexpr_eqb c s = None <-> ~ In s (keys c).
Proof.
  induction c as [|[k v] c IH]; cbn [dict_get keys map fst In]; [tauto|]. fold (keys c). destruct (sexpr_eqb_spec s k) as [->|Hn]; [|rewrite IH; intuition congruence].
  split; [discriminate|]. intros H. exfalso. apply H. left. reflexivity.
Qed.
Lemma keys_set (c : cache) s t : ~ In s (keys c) -> keys (dict_set sexpr_eqb c s t) = (keys c ++ [s])%list.
Proof.
  induction c as [|[k v] c IH]; intros H; [reflexivity|]. cbn [dict_set keys map fst In] in *. fold (keys c) in *.
  destruct (sexpr_eqb_spec s k) as [->|Hn]; [tauto|]. cbn [map fst app]. f_equal. apply IH. tauto.
Qed.
Lemma ordered_snoc l s : ordered l -> ~ In s l -> incl (s_args s) l -> ordered (l ++ [s]).
Proof.
  intros [Hn Ho] Hs Ha. split.
  - apply NoDup_rev in Hn. rewrite <- (rev_involutive (l ++ [s])). apply NoDup_rev. rewrite rev_app_distr. cbn [rev app]. constructor; [|exact Hn].
    intros H. apply Hs, in_rev, H.
  - intros l1 t l2 E. destruct l2 as [|b l2] using rev_ind.
    + apply app_inj_tail in E as [<- <-]. exact Ha.
    + change (l1 ++ t :: (l2 ++ [b]))%list with (l1 ++ (t :: l2) ++ [b])%list in E. rewrite app_assoc in E. apply app_inj_tail in E as [E _]. exact (Ho l1 t l2 E).
Qed.
Definition total_args (l : list sexpr) : nat := list_sum (map (fun s => length (s_args s)) l).
Lemma total_args_app l m : total_args (l ++ m) = total_args l + total_args m.
Proof. unfold total_args. rewrite map_app, list_sum_app. reflexivity. Qed.
Lemma converted_app a b : converted (a ++ b) = (converted a ++ converted b)%list.
Proof. apply flat_map_app. Qed.
Lemma asked_app a b : asked (a ++ b) = (asked a ++ asked b)%list.
Proof. apply flat_map_app. Qed.

(** What a conversion does, from a cache with keys [K]: [src] are the objects converted, [n] the calls. *)
Definition work_ok (src : list sexpr) (n : nat) (K : list sexpr) (tr : list sevent) (c' : option cache) : Prop :=
  (forall s, In s (converted tr) -> exists e, In e src /\ spart e s) /\ NoDup (K ++ converted tr) /\
  match c' with
  | None => True
  | Some c' => keys c' = (K ++ converted tr)%list /\ ordered (keys c') /\ incl src (keys c') /\
      length (asked tr) = n + total_args (converted tr)
  end.
Definition cache_of {A} (r : res (A * cache)) : option cache := match r with Ok (_, c) => Some c | Err _ => None end.
Lemma traced_work s : forall c, ordered (keys c) -> work_ok [s] 1 (keys c) (fst (from_sympy_traced s c)) (cache_of (snd (from_sympy_traced s c))).
Proof.
  assert (L : forall s c, s_args s = [] -> ordered (keys c) -> ~ In s (keys c) -> work_ok [s] 1 (keys c) [Asked s; Converted s]
     (cache_of (do ret <- from_sympy_leaf s; Ok (ret, dict_set sexpr_eqb c s ret)))).
  { clear. intros s c Ha Ho Hs. split; [intros t [<-|[]]; exists s; split; [left; reflexivity|constructor]|].
    assert (On : ordered (keys c ++ [s])) by (apply ordered_snoc; [exact Ho|exact Hs|rewrite Ha; intros a []]).
    split; [apply On|]. destruct (from_sympy_leaf s) as [t|x]; cbn [bind cache_of]; [|exact I]. rewrite (keys_set c s t Hs). split; [reflexivity|]. split; [exact On|].
    split; [intros t' [<-|[]]; apply in_or_app; right; left; reflexivity|]. cbn. rewrite Ha. reflexivity. }
  assert (B : forall s c r, ordered (keys c) -> In s (keys c) -> work_ok [s] 1 (keys c) [Asked s] (cache_of (Ok (A := tree * cache) (r, c)))).
  { clear. intros s c r Ho Hs. split; [intros t []|]. cbn [converted flat_map app cache_of]. rewrite app_nil_r. split; [apply Ho|]. split; [reflexivity|]. split; [exact Ho|].
    split; [intros t' [<-|[]]; exact Hs|]. reflexivity. }
  assert (IN : forall c s r, dict_get sexpr_eqb c s = Some r -> In s (keys c)).
  { clear. intros c s r H. destruct (in_dec (fun a b => reflect_dec _ _ (sexpr_eqb_spec a b)) s (keys c)) as [Hi|Hi]; [exact Hi|]. apply cache_none in Hi. congruence. }
  induction s as [p|s n|s|n|h args IH] using sexpr_ind_all; intros c Ho.
  1-4: cbn [from_sympy_traced]; match goal with |- context [dict_get sexpr_eqb ?d ?e] => destruct (dict_get sexpr_eqb d e) as [r|] eqn:E end;
       [apply B; [assumption|eapply IN; eassumption]|apply L; [reflexivity|assumption|apply cache_none; assumption]].
  destruct args as [|a args].
  { cbn [from_sympy_traced]. destruct (dict_get sexpr_eqb c (SApp h [])) as [r|] eqn:E; [apply B; [exact Ho|eapply IN, E]|apply L; [reflexivity|exact Ho|apply cache_none, E]]. }
  rewrite traced_unfold. destruct (dict_get sexpr_eqb c (SApp h (a :: args))) as [r|] eqn:E; [apply B; [exact Ho|eapply IN, E]|].
  apply cache_none in E.
  assert (G : forall l c, (forall a, In a l -> forall c, ordered (keys c) -> work_ok [a] 1 (keys c) (fst (from_sympy_traced a c)) (cache_of (snd (from_sympy_traced a c)))) ->
     ordered (keys c) -> work_ok l (length l) (keys c) (fst (go_traced l c)) (cache_of (snd (go_traced l c)))).
  { clear. induction l as [|a l IHl]; intros c H Ho.
    - split; [intros t []|]. cbn [go_traced fst snd converted flat_map cache_of]. rewrite app_nil_r. split; [apply Ho|]. split; [reflexivity|]. split; [exact Ho|].
      split; [intros t []|]. reflexivity.
    - cbn [go_traced]. destruct (H a (or_introl eq_refl) c Ho) as (W1 & W2 & W3). destruct (from_sympy_traced a c) as [e1 v]. cbn [fst snd] in *.
      destruct v as [[t c1]|x]; cbn [cache_of] in W3.
      + destruct W3 as (Ek & Ho1 & Hi1 & Hl1). destruct (IHl c1 (fun b Hb => H b (or_intror Hb)) Ho1) as (V1 & V2 & V3). destruct (go_traced l c1) as [e2 w]. cbn [fst snd] in *.
        assert (R1 : forall s, In s (converted (e1 ++ e2)) -> exists e, In e (a :: l) /\ spart e s).
        { intros s Hs. rewrite converted_app in Hs. apply in_app_or in Hs as [Hs|Hs]; [destruct (W1 s Hs) as (e & [<-|[]] & He); exists a; split; [left; reflexivity|exact He]|].
          destruct (V1 s Hs) as (e & He & Hp). exists e. split; [right; exact He|exact Hp]. }
        assert (R2 : NoDup (keys c ++ converted (e1 ++ e2))) by (rewrite converted_app, app_assoc, <- Ek; exact V2).
        split; [exact R1|]. split; [exact R2|]. destruct w as [[ts c2]|x]; cbn [cache_of] in *; [|exact I]. destruct V3 as (Ek2 & Ho2 & Hi2 & Hl2).
        split; [rewrite converted_app, app_assoc, <- Ek; exact Ek2|]. split; [exact Ho2|].
        split; [intros s [<-|Hs]; [|apply Hi2, Hs]; rewrite Ek2; apply in_or_app; left; apply Hi1; left; reflexivity|].
        rewrite asked_app, app_length, Hl1, Hl2, converted_app, total_args_app. cbn [length]. lia.
      + split; [intros s Hs; destruct (W1 s Hs) as (e & [<-|[]] & He); exists a; split; [left; reflexivity|exact He]|]. split; [exact W2|exact I]. }
  destruct (G (a :: args) c IH Ho) as (W1 & W2 & W3). clear G. destruct (go_traced (a :: args) c) as [e r]. cbn [fst snd] in *. set (t := SApp h (a :: args)) in *.
  assert (P1 : forall s, In s (converted e) -> spart t s) by (intros s Hs; destruct (W1 s Hs) as (b & Hb & Hp); exact (spart_arg t b s Hb Hp)).
  assert (Hnt : ~ In t (keys c ++ converted e)).
  { intros H. apply in_app_or in H as [H|H]; [exact (E H)|]. destruct (W1 t H) as (b & Hb & Hp). exact (arg_not_part t b Hb Hp). }
  destruct r as [[args' c']|x]; cbn [cache_of] in W3.
  - destruct W3 as (Ek & Ho1 & Hi1 & Hl1). cbn [fst snd]. 
    assert (Ec : converted (Asked t :: e ++ [Converted t]) = (converted e ++ [t])%list) by (change (Asked t :: e ++ [Converted t])%list with ([Asked t] ++ e ++ [Converted t])%list; rewrite !converted_app; reflexivity).
    assert (Ea : asked (Asked t :: e ++ [Converted t]) = (t :: asked e)%list) by (change (Asked t :: e ++ [Converted t])%list with ([Asked t] ++ e ++ [Converted t])%list; rewrite !asked_app, app_nil_r; reflexivity).
    assert (On : ordered ((keys c ++ converted e) ++ [t])) by (rewrite <- Ek in *; apply ordered_snoc; [exact Ho1|exact Hnt|exact Hi1]).
    unfold work_ok. rewrite Ec, Ea. split.
    { intros s Hs. apply in_app_or in Hs as [Hs|[<-|[]]]; exists t; (split; [left; reflexivity|]); [apply P1, Hs|constructor]. }
    rewrite app_assoc. split; [apply On|]. destruct (from_sympy_call h args') as [ret|x]; cbn [bind cache_of]; [|exact I].
    rewrite keys_set by (rewrite Ek; exact Hnt). rewrite Ek. split; [reflexivity|]. split; [exact On|].
    split; [intros s [<-|[]]; apply in_or_app; right; left; reflexivity|]. cbn [length]. rewrite Hl1, total_args_app. cbn [total_args map list_sum fold_right t s_args length]. lia.
  - unfold work_ok. cbn [fst snd cache_of converted flat_map app]. fold (converted e). split; [intros s Hs; exists t; split; [left; reflexivity|apply P1, Hs]|].
    split; [exact W2|exact I].
Qed.

(** from_sympy: each distinct part of the SymPy object is converted at most once, and, if the conversion succeeds,
    exactly once, after its arguments; the number of lookups is one more than the number of arguments of distinct parts. *)
Theorem C77_from_sympy_works_once s :
  (do (t, _) <- snd (from_sympy_traced s []); Ok t) = from_sympy s /\
  let done := converted (fst (from_sympy_traced s [])) in
  NoDup done /\ (forall p, In p done -> spart s p) /\
  (is_ok (from_sympy s) = true ->
     (forall p, In p done <-> spart s p) /\
     (forall l1 p l2, done = (l1 ++ p :: l2)%list -> incl (s_args p) l1) /\
     length (asked (fst (from_sympy_traced s []))) = 1 + list_sum (map (fun p => length (s_args p)) done)).
Proof.
  split; [rewrite traced_snd; reflexivity|]. cbv zeta.
  assert (Ho : ordered (keys [])) by (split; [constructor|intros l1 t l2 E; destruct l1; discriminate]).
  destruct (traced_work s [] Ho) as (W1 & W2 & W3). cbn [keys map app] in *.
  split; [exact W2|]. assert (P : forall p, In p (converted (fst (from_sympy_traced s []))) -> spart s p) by (intros p Hp; destruct (W1 p Hp) as (e & [<-|[]] & He); exact He).
  split; [exact P|]. unfold from_sympy. rewrite <- traced_snd. intros Hok.
  destruct (snd (from_sympy_traced s [])) as [[t c]|x] eqn:Es; [|discriminate]. cbn [cache_of] in W3. destruct W3 as (Ek & [Hn Ho1] & Hi & Hl). rewrite Ek in *.
  split; [|split; [exact Ho1|exact Hl]]. intros p. split; [apply P|]. intros Hp.
  assert (Hin : In s (converted (fst (from_sympy_traced s [])))) by (apply Hi; left; reflexivity).
  revert Hin Ho1. generalize (converted (fst (from_sympy_traced s []))) as K. clear - Hp. intros K Hin Ho1. induction Hp as [|s a p Ha _ IH]; [exact Hin|]. apply IH. apply in_split in Hin as (l1 & l2 & E). pose proof (Ho1 l1 s l2 E) as H.
  rewrite E. apply in_or_app. left. apply H, Ha.
Qed.

(** f(f(f(2, 2), ..), ..): 15 calls instead of 4; and [f(sin(x), x**2) + sin(x)], where x and sin(x) occur several
    times, takes 6 conversions and 8 lookups. *)
Definition s_shared :=
  SApp SAdd [SApp (SUndef "f" 0) [SApp SSin [SSym "x" 0]; SApp SPow [SSym "x" 0; SInt 2]]; SApp SSin [SSym "x" 0]].
Example C77_case :
  children (int 2) = [] /\ is_ok (eval_recursive ev_sample [] (doubled g (int 2) 3)) = true /\
  length (fst (recursive_traced ev_sample [] (doubled g (int 2) 3))) = 15 /\
  length (fst (eval_traced nn ev_sample [] (doubled g (int 2) 3))) = 4 /\
  is_ok (from_sympy s_shared) = true /\
  map (fun p => length (s_args p)) (converted (fst (from_sympy_traced s_shared []))) = [0; 1; 0; 2; 2; 2] /\
  length (asked (fst (from_sympy_traced s_shared []))) = 8.
Proof. repeat split; vm_compute; reflexivity. Qed.

Print Assumptions C77_recursive_evaluation_works_per_occurrence.
Print Assumptions C77_recursive_evaluation_is_exponential.
Print Assumptions C77_from_sympy_works_once.
