(** C94: on linear problems Levenberg-Marquardt never moves away from an optimum (exact arithmetic). *)
From Coq Require Import List Arith ZArith QArith Bool Reals Lra Lia.
From Verif Require Import Base Sparse Graph SpecGraph SpecOpt Geom Vars VarsLemmas FactorLib SpecShape Optimizer OptWork OptMore Real RSum SpecSolver SpecSteps OptStepsLib SpecRest SpecContract SpecNearer NearerRun.
From Verif Require Import OptToy Ldlt LdltSolver OptReal LdltCase OrderCase RestCase ResumeCase ContractCase UnitsCase.
Import ListNotations.
Local Open Scope nat_scope.
Set Bullet Behavior "Strict Subproofs".

(** vectors and points with generic priors, generic differences and linear velocities; [hs] holds any values at which the gradient vanishes.
    The problem may be singular, so that there are many such [hs]. *)
Theorem C94_nearer : forall {S : Type} (SV : solver RN S) (EV : nat -> env (N:=RN) (V:=lvar RN)), (forall n, env_ok (EV n)) -> factorising_solver SV ->
  forall l1 l2 h1 g1 (p p' : pstate (N:=RN) (V:=lvar RN) (S:=S)) hs,
  finalized_history (lib RN) l1 l2 h1 (p_heap p) g1 (p_graph p) -> unfinalized (lib RN) ([], empty_graph) l1 -> careful ([], empty_graph) l1 -> careful (h1, g1) l2 ->
  let vs := get_all_variables (p_graph p) in let fs := get_all_factors (p_graph p) in let st := p_set p in
  Forall (factor_wf (lib RN) (p_heap p) vs) fs -> some_active (lib RN) (p_heap p) fs -> (forall a v, nth_error (p_heap p) a = Some v -> real_kind (l_kind v)) ->
  vector_problem (p_heap p) vs fs -> revalued (lib RN) (p_heap p) hs -> reassigned (lib RN) (p_heap p) hs vs -> stationary (lib RN) hs vs fs ->
  st_method st = LevenbergMarquardt -> 1 <= st_max_iter st -> (0 < st_lambda0 st)%R -> (0 < st_up st)%R -> (0 < st_max_lambda st)%R -> (0 < st_rate st < 2)%R ->
  optimize (lib RN) SV EV p = (p', Ok tt) -> p_caught p' = false ->
  p_heap p' = p_heap p \/ (distance_sq (lib RN) hs (p_heap p') vs < distance_sq (lib RN) hs (p_heap p) vs)%R.
Proof. exact @lm_nearer_lib. Qed.

(** any variables to which increments are added and that can be put back, and any factors with residuals affine in them *)
Theorem C94_nearer_any : forall {V : Type} (VC : vclass RN V) {S : Type} (SV : solver RN S) (EV : nat -> env (N:=RN) (V:=V)), vclass_ok VC -> (forall n, env_ok (EV n)) -> factorising_solver SV ->
  forall (I : V -> Prop) l1 l2 h1 g1 (p p' : pstate (N:=RN) (V:=V) (S:=S)) hs,
  undoable VC I -> (forall a v, nth_error (p_heap p) a = Some v -> I v) ->
  finalized_history VC l1 l2 h1 (p_heap p) g1 (p_graph p) -> unfinalized VC ([], empty_graph) l1 ->
  let vs := get_all_variables (p_graph p) in let fs := get_all_factors (p_graph p) in let st := p_set p in
  Forall (factor_wf VC (p_heap p) vs) fs -> some_active VC (p_heap p) fs -> Forall buf_indep fs -> shape_contract VC (p_heap p) fs ->
  linear_problem VC (p_heap p) vs fs -> revalued VC (p_heap p) hs -> reassigned VC (p_heap p) hs vs -> stationary VC hs vs fs ->
  st_method st = LevenbergMarquardt -> 1 <= st_max_iter st -> (0 < st_lambda0 st)%R -> (0 < st_up st)%R -> (0 < st_max_lambda st)%R -> (0 < st_rate st < 2)%R ->
  optimize VC SV EV p = (p', Ok tt) -> p_caught p' = false ->
  p_heap p' = p_heap p \/ (distance_sq VC hs (p_heap p') vs < distance_sq VC hs (p_heap p) vs)%R.
Proof. exact @lm_nearer. Qed.

(** the variable at 7 with priors 3 and 5, optimum at 4: a step with damping 1 ends at 5 *)
Example C94_case : exists p', optimize (lib RN) LS EV0 (lstart LevenbergMarquardt) = (p', Ok tt) /\ p_heap (lstart LevenbergMarquardt) = at_ 7 /\ p_heap p' = at_ 5 /\
  (distance_sq (lib RN) (at_ 4) (p_heap p') [0%nat] < distance_sq (lib RN) (at_ 4) (p_heap (lstart LevenbergMarquardt)) [0%nat])%R.
Proof.
  destruct lm_one as (p' & E & Hc & Hi & Hh). exists p'. split; [exact E|]. split; [reflexivity|]. split; [exact Hh|]. destruct astart_hist as (A & B & C & D & F).
  assert (Rk : forall a v, nth_error (at_ 7) a = Some v -> real_kind (l_kind v)) by (intros a v Hv; destruct a as [|a]; [injection Hv as <-; exact I|destruct a; discriminate]).
  destruct (C94_nearer LS EV0 EV0_ok LS_factorising _ _ _ _ (lstart LevenbergMarquardt) p' (at_ 4) A B C I D F Rk b_vector b_revalued b_reassigned b_stationary eq_refl (le_n 1)
    ltac:(cbn; lra) ltac:(cbn; lra) ltac:(cbn; lra) ltac:(cbn; lra) E Hc) as [G|G]; [|exact G].
  exfalso. rewrite Hh in G. change (p_heap (lstart LevenbergMarquardt)) with (at_ 7) in G. injection G as G. lra.
Qed.

Print Assumptions C94_nearer.
Print Assumptions C94_nearer_any.
