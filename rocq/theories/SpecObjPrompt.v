(** * Specification: sessions at a prompt. Statements that fail or are interrupted are given up and the session goes on; variables may be
    deleted; what a statement needed only while it ran is dropped, and may be collected, at any later time. *)
From Verif Require Import Py ModelTree ModelIntern SpecIntern ModelEval ModelDiff ModelSym ModelCas ModelApi ModelObjects SpecObjects
  ModelObjEval ModelObjExpr SpecObjExpr.

(** What a user enters. Variables are numbered, in the order of their creation; those after a deleted one move up. *)
Inductive command :=
| CDo (c : statement)           (* the statement runs to its end, or raises *)
| CStop (c : statement)         (* Ctrl-C (KeyboardInterrupt) while the statement runs *)
| CDel (i : nat).               (* del v *)
(** What the user sees: nothing, or an exception; of a stopped statement, KeyboardInterrupt. *)
Inductive shown := Silent | Exception (e : exn) | Interrupted.

(** ** The meaning, where expressions are values *)
Definition without {A} (l : list A) (i : nat) : list A := firstn i l ++ skipn (S i) l.
Definition v_command (st : list tree * diff_props) (c : command) : (list tree * diff_props) * shown :=
  match c with
  | CDo c => match v_statement st c with Ok st' => (st', Silent) | Err e => (st, Exception e) end
  | CStop _ => (st, Interrupted)
  | CDel i => match getitem (fst st) i with Ok _ => ((without (fst st) i, snd st), Silent) | Err e => (st, Exception e) end
  end.
Fixpoint v_commands (st : list tree * diff_props) (l : list command) : (list tree * diff_props) * list shown :=
  match l with
  | [] => (st, [])
  | c :: l => let (st1, o) := v_command st c in let (st2, os) := v_commands st1 l in (st2, o :: os)
  end.
(** A session: the import of the library, then the commands. *)
Definition v_prompt (l : list command) : list tree * list shown :=
  let '((env, _), os) := v_commands ([], cas_diff) l in (env, os).

(** ** Sessions on objects *)
Section Runs.
  Context (atomic : bool) (who : nat -> Prop) (t : nat).
  Notation step := (step pyval_eqb atomic who).
  Implicit Types (s : state pyval).
  (** What has to stay: the names of the module, its differentiation rules, and the variables of the user. *)
  Definition module_refs (g : o_module) : list addr :=
    [om_zero g; om_one g; om_negone g; om_Pow g; om_sin g; om_cos g; om_Add g; om_Mul g; om_List g].
  Definition props_refs (p : o_diff_props) : list addr :=
    od_zero p :: od_one p :: od_add p :: od_mul p :: od_distributive p ++ flat_map (fun r => fst (fst r) :: snd (fst (snd r))) (od_rules p).
  Definition live (g : o_module) (st : list addr * o_diff_props) : list addr := module_refs g ++ fst st ++ props_refs (snd st).
  (** Any steps of all threads and the collector. Thread [t] is in no call; it may drop everything that is not in the list. *)
  Inductive between (l : list addr) s : state pyval -> Prop :=
  | between_none : between l s s
  | between_more s1 s2 : between l s s1 -> step s1 s2 -> at_ (threads s2 t) = Idle ->
      (forall a, In a l -> In a (held (threads s2 t))) -> between l s s2.
  (** Thread [t] runs a part of the program, up to some point in or between its calls of constructors, where an exception stops it. *)
  Inductive stopped {A} : prog A -> state pyval -> state pyval -> Prop :=
  | stopped_here p s : stopped p s s
  | stopped_others p s s1 s' : step s s1 -> keeps t s s1 -> at_ (threads s1 t) = Idle -> stopped p s1 s' -> stopped p s s'
  | stopped_read a c s o s' : In a (held (threads s t)) -> heap s a = Some o -> stopped (c o) (hold_all t s (obj_refs o)) s' -> stopped (Read a c) s s'
  | stopped_new k c s s1 b s' : (forall a, In a (key_refs k) -> In a (held (threads s t))) ->
      in_call atomic who t (goto s t (Call k)) s1 -> at_ (threads s1 t) = Done k b ->
      stopped (c b) (goto (hold s1 t b) t Idle) s' -> stopped (New k c) s s'
  | stopped_call k c s s1 : (forall a, In a (key_refs k) -> In a (held (threads s t))) ->
      in_call atomic who t (goto s t (Call k)) s1 -> at_ (threads s1 t) <> Idle -> stopped (New k c) s (goto s1 t Idle).
  (** The commands, from the variables and rules [st]. *)
  Inductive prompt (fuel : nat) (g : o_module) : list command -> list addr * o_diff_props -> state pyval ->
      state pyval -> list addr * o_diff_props -> list shown -> Prop :=
  | prompt_end st s : prompt fuel g [] st s s st []
  | prompt_between l st s s1 s' st' os : between (live g st) s s1 -> prompt fuel g l st s1 s' st' os -> prompt fuel g l st s s' st' os
  | prompt_do c l st s s1 st1 s' st' os : runs atomic who t (o_statement fuel g st c) s s1 (Ok st1) ->
      prompt fuel g l st1 s1 s' st' os -> prompt fuel g (CDo c :: l) st s s' st' (Silent :: os)
  | prompt_raise c l st s s1 e s' st' os : runs atomic who t (o_statement fuel g st c) s s1 (Err e) ->
      prompt fuel g l st s1 s' st' os -> prompt fuel g (CDo c :: l) st s s' st' (Exception e :: os)
  | prompt_stop c l st s s1 s' st' os : stopped (o_statement fuel g st c) s s1 ->
      prompt fuel g l st s1 s' st' os -> prompt fuel g (CStop c :: l) st s s' st' (Interrupted :: os)
  | prompt_del i l st s s' st' os : i < length (fst st) ->
      prompt fuel g l (without (fst st) i, snd st) s s' st' os -> prompt fuel g (CDel i :: l) st s s' st' (Silent :: os)
  | prompt_del_no i l st s s' st' os : length (fst st) <= i ->
      prompt fuel g l st s s' st' os -> prompt fuel g (CDel i :: l) st s s' st' (Exception IndexError :: os).
  (** The import and then the commands. *)
  Definition session (fuel : nat) (l : list command) s s' (g : o_module) (st : list addr * o_diff_props) (os : list shown) : Prop :=
    exists s1 p, runs atomic who t (o_import fuel) s s1 (Ok (g, p)) /\ prompt fuel g l ([], p) s1 s' st os.
End Runs.
(** [v] is an expression in [u]. *)
Inductive part_of (v : tree) : tree -> Prop :=
| part_self : part_of v v
| part_child us u : In u us -> part_of v u -> part_of v (Node us).
(** The expressions of the library: its names and the rules that it comes with. *)
Definition rule_trees (p : diff_props) : list tree :=
  dp_zero p :: dp_one p :: dp_add p :: dp_mul p :: dp_distributive p ++ flat_map (fun r => fst (fst r) :: sf_atoms (snd r)) (dp_rules p).
Definition module_trees : list tree := [zero; one; negone; Pow; sin; cos; Add; Mul; List_].
