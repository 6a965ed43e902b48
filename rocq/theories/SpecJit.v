(** * Specification: what can happen in a process that uses compiled functions *)
From Coq Require Import SpecFloat.
From Verif Require Import Py ModelTree ModelDiff ModelCas ModelMatrix SpecMatrix SpecLLVM SpecLambdify ModelLLVM ModelJit.
Local Open Scope string_scope.

(** Arguments that the earlier properties are about; see C46 - C48. *)
Definition usable (args : list tree) (w : what) (p : process) : Prop :=
  good_names args /\
  match w with
  | WExpr _ => True
  | WMatrix m => In m (p_mats p) /\ (forall s, In s args -> tree_str s <> Ok "_out") /\ ~ In (Integer 0) args /\
      (Z.of_nat (m_nrows m) * Z.of_nat (m_ncols m) <= 2 ^ 31)%Z
  end.
(** A free place for an array. *)
Definition free_place (b : block) (p : process) : Prop :=
  forall b' k, In b' (blocks p) -> in_block b k = true -> in_block b' k = false.

(** What the program sees of a step. *)
Inductive event :=
| Quiet
| Returned (f : jitfun) (vals : list spec_float) (result : option spec_float) (b : option block)
| Wrote (k : Z).

(** The steps of a process. *)
Inductive happens (mc : machine) : process -> event -> process -> Prop :=
| ev_matrix p h ms : step (p_heap p) (p_mats p) h ms ->                  (* a call of the matrix methods *)
    happens mc p Quiet (mkProcess h ms (p_code p) (p_exe_eng p) (p_funs p) (p_calls p) (p_arrays p) (p_mem p))
| ev_lambdify p args w r p' : usable args w p -> jit_lambdify args w p = (r, p') -> happens mc p Quiet p'
| ev_forget p f front back : p_funs p = (front ++ f :: back)%list ->    (* the program drops a function *)
    happens mc p Quiet (mkProcess (p_heap p) (p_mats p) (p_code p) (p_exe_eng p) (front ++ back)%list (p_calls p) (p_arrays p) (p_mem p))
| ev_collect p a : ~ In a (p_exe_eng p) ->                               (* an engine that nobody refers to is destroyed *)
    happens mc p Quiet (mkProcess (p_heap p) (p_mats p) (set_nth_any (p_code p) a None) (p_exe_eng p) (p_funs p) (p_calls p) (p_arrays p) (p_mem p))
| ev_call p f vals p0 p' : In f (p_funs p) ->
    (forall m, j_what f = WMatrix m -> free_place (p0, m_nrows m * m_ncols m) p) ->
    start_call f vals p0 p = Goes p' -> happens mc p Quiet p'
| ev_instr p c c' mem front back : p_calls p = (front ++ c :: back)%list -> next mc c (p_mem p) = Some (Continues c' mem) ->
    happens mc p Quiet (mkProcess (p_heap p) (p_mats p) (p_code p) (p_exe_eng p) (p_funs p) (front ++ c' :: back)%list (p_arrays p) mem)
| ev_return p c result front back : p_calls p = (front ++ c :: back)%list -> next mc c (p_mem p) = Some (Ends result) ->
    happens mc p (Returned (r_fun c) (r_vals c) result (r_block c))
      (mkProcess (p_heap p) (p_mats p) (p_code p) (p_exe_eng p) (p_funs p) (front ++ back)%list (call_block c ++ p_arrays p)%list (p_mem p))
| ev_write p b k v : In b (p_arrays p) -> in_block b k = true ->         (* the program changes an array it holds *)
    happens mc p (Wrote k) (mkProcess (p_heap p) (p_mats p) (p_code p) (p_exe_eng p) (p_funs p) (p_calls p) (p_arrays p) (set_mem (p_mem p) k v))
| ev_drop p b front back : p_arrays p = (front ++ b :: back)%list ->    (* and drops one *)
    happens mc p Quiet (mkProcess (p_heap p) (p_mats p) (p_code p) (p_exe_eng p) (p_funs p) (p_calls p) (front ++ back)%list (p_mem p)).

Definition start_process (mem : memory) : process := mkProcess empty_heap [] [] [] [] [] [] mem.
Inductive life (mc : machine) : process -> Prop :=
| life_start mem : life mc (start_process mem)
| life_more p ev p' : life mc p -> happens mc p ev p' -> life mc p'.

(** What happens later on. *)
Inductive later (mc : machine) : process -> process -> Prop :=
| later_now p : later mc p p
| later_more p p' ev p'' : later mc p p' -> happens mc p' ev p'' -> later mc p p''.

(** The process crashes: a function is called whose code is gone or does not fit, or a running call cannot go on,
    or it writes outside of its array. *)
Definition crashes (mc : machine) (p : process) : Prop :=
  (exists f vals p0, In f (p_funs p) /\ start_call f vals p0 p = Crashes) \/
  (exists c, In c (p_calls p) /\ next mc c (p_mem p) = None) \/
  (exists c k, In c (p_calls p) /\ writes_to c = Some k /\ forall b, r_block c = Some b -> in_block b k = false).
