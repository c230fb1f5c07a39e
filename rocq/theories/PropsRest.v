(** Property C86: optimising an estimate whose gradient already vanishes.  Statements use SpecGraph, SpecOpt, SpecSteps and SpecRest. *)
From Coq Require Import List Arith ZArith QArith Bool Reals Lra Lia.
From Verif Require Import Base Sparse Graph SpecGraph SpecOpt Optimizer OptWork Real RSum SpecSolver SpecSteps Geom Vars VarsLemmas FactorLib SpecShape OptToy Ldlt LdltSolver LdltCase OptStepsLib OrderCase SpecRest RestRun RestVars RestCase.
Set Bullet Behavior "Strict Subproofs".
Import ListNotations.
Local Open Scope nat_scope.

(** ** exact arithmetic, any class of variables and factors, a solver that computes LDL^T factorisations exactly *)
Section Rest.
Context {V : Type} (VC : vclass RN V) {S : Type} (SV : solver RN S) (EV : nat -> env (N:=RN) (V:=V)).
Notation pstate := (pstate (N:=RN) (V:=V) (S:=S)).
Hypothesis Hok : vclass_ok VC.
Hypothesis HE : forall n, env_ok (EV n).
Hypothesis HF : factorising_solver SV.

(** Gauss-Newton changes nothing and reports SUCCESS, after one iteration if the residual tolerance is positive; or the Jacobian is singular or ill-conditioned *)
Theorem C86_gauss_newton_stays : forall l1 l2 h1 g1 (p : pstate),
  let vs := get_all_variables (p_graph p) in let fs := get_all_factors (p_graph p) in
  finalized_history VC l1 l2 h1 (p_heap p) g1 (p_graph p) -> unfinalized VC ([], empty_graph) l1 ->
  Forall (factor_wf VC (p_heap p) vs) fs -> some_active VC (p_heap p) fs -> Forall buf_indep fs -> shape_contract VC (p_heap p) fs ->
  stationary VC (p_heap p) vs fs -> all_rest VC (p_heap p) vs ->
  forall p', st_method (p_set p) = GaussNewton -> optimize VC SV EV p = (p', Ok tt) -> p_caught p' = false ->
  p_heap p' = p_heap p /\ ss_chi2 (p_cur p') = ss_chi2 (p_init p') /\
  (ss_status (p_cur p') = SUCCESS /\ ((0 < st_res_tol (p_set p))%R -> ss_iter (p_cur p') <= 1) \/
   (ss_status (p_cur p') = FAILED \/ ss_status (p_cur p') = SINGULAR_HESSIAN \/ ss_status (p_cur p') = ILL_CONDITIONED) /\ ss_valid (p_cur p') = false /\
   exists J, jacobian_at VC (p_heap p) vs fs J /\ verdict (ss_status (p_cur p')) J).
Proof. exact (gn_stays VC SV EV Hok HE HF). Qed.
(** ... and rests nowhere else, if only increments of zero leave variables unchanged *)
Theorem C86_rests_only_there : forall l1 l2 h1 g1 (p p' : pstate),
  finalized_history VC l1 l2 h1 (p_heap p) g1 (p_graph p) -> unfinalized VC ([], empty_graph) l1 ->
  let vs := get_all_variables (p_graph p) in let fs := get_all_factors (p_graph p) in
  Forall (factor_wf VC (p_heap p) vs) fs -> some_active VC (p_heap p) fs -> Forall buf_indep fs -> shape_contract VC (p_heap p) fs ->
  all_responsive VC (p_heap p) vs -> st_rate (p_set p) <> 0%R ->
  st_method (p_set p) = GaussNewton -> st_max_iter (p_set p) = 1 -> optimize VC SV EV p = (p', Ok tt) -> ss_status (p_cur p') = SUCCESS ->
  p_heap p' = p_heap p -> stationary VC (p_heap p) vs fs.
Proof. exact (gn_rests_only_there VC SV EV Hok HE HF). Qed.

(** Levenberg-Marquardt changes nothing either, but always reports a failure *)
Theorem C86_levenberg_marquardt_fails : forall l1 l2 h1 g1 (p : pstate),
  let vs := get_all_variables (p_graph p) in let fs := get_all_factors (p_graph p) in
  finalized_history VC l1 l2 h1 (p_heap p) g1 (p_graph p) -> unfinalized VC ([], empty_graph) l1 ->
  Forall (factor_wf VC (p_heap p) vs) fs -> some_active VC (p_heap p) fs -> Forall buf_indep fs -> shape_contract VC (p_heap p) fs ->
  stationary VC (p_heap p) vs fs -> all_rest VC (p_heap p) vs ->
  forall (I : V -> Prop) p', let st := p_set p in
  undoable VC I -> (forall a v, nth_error (p_heap p) a = Some v -> I v) ->
  (0 < st_lambda0 st)%R -> (0 < st_up st)%R -> (0 < st_max_lambda st)%R ->
  st_method st = LevenbergMarquardt -> 1 <= st_max_iter st -> optimize VC SV EV p = (p', Ok tt) -> p_caught p' = false ->
  p_heap p' = p_heap p /\
  (ss_status (p_cur p') = FAILED \/ ss_status (p_cur p') = SINGULAR_HESSIAN \/ ss_status (p_cur p') = ILL_CONDITIONED) /\ ss_valid (p_cur p') = false.
Proof. exact (lm_stays VC SV EV Hok HE HF). Qed.
End Rest.

(** residuals of zero are such an estimate *)
Theorem C86_fitting_estimates : forall {V : Type} (VC : vclass RN V) h vs (fs : list (factor (N:=RN) (V:=V))) J,
  stacked h fs (repeat 0%R (total_rows fs)) -> jacobian_at VC h vs fs J -> stationary VC h vs fs.
Proof. exact @fit_stationary. Qed.
(** the library's variables *)
Theorem C86_library_variables : forall v : lvar RN, settled (l_kind v) -> rests (lib RN) v.
Proof. exact settled_rests. Qed.
Theorem C86_linear_variables : forall v : lvar RN, match l_kind v with KGeneric _ => True | KLandmark x => length x = 3 | _ => False end -> responsive (lib RN) v.
Proof. exact linear_responsive. Qed.

(** ** A variable at 4 with priors 3 and 5 *)
Example C86_case : exists p', optimize (lib RN) LS EV0 (tstart GaussNewton) = (p', Ok tt) /\ p_heap p' = p_heap (tstart GaussNewton) /\
  ss_status (p_cur p') = SUCCESS /\ ss_iter (p_cur p') <= 1 /\ ss_chi2 (p_cur p') = ss_chi2 (p_init p').
Proof.
  destruct (t_run GaussNewton) as (p' & E & Hc). exists p'. split; [exact E|]. destruct (tstart_hist GaussNewton) as (A & B & C & D & F).
  destruct (lib_history _ _ _ _ _ _ A C I) as (G1 & G2).
  destruct (C86_gauss_newton_stays (lib RN) LS EV0 lib_ok EV0_ok LS_factorising _ _ _ _ (tstart GaussNewton) A B D F G1 G2 t_stationary t_rest p' eq_refl E Hc) as (X & Y & Z).
  split; [exact X|]. destruct Z as [(Z1 & Z2)|(Z1 & _ & J & Z2 & Z3)]; [split; [exact Z1|]; split; [apply Z2; cbn; lra|exact Y]|exfalso].
  change (get_all_factors (p_graph (tstart GaussNewton))) with [tf1; tf2] in Z2. change (get_all_variables (p_graph (tstart GaussNewton))) with [0] in Z2. change (p_heap (tstart GaussNewton)) with theap in Z2.
  destruct (OptVerdict.jacobian_unique (lib RN) _ _ _ _ _ Z2 tjacobian) as (U1 & U2 & U3).
  apply t_posed. apply (OptVerdict.ill_posed_same J tjac 0 U1 U2 U3). exact (OptVerdict.verdict_ill _ J Z1 Z3).
Qed.
(** SUCCESS at an optimum is false of Levenberg-Marquardt *)
Theorem C86_levenberg_marquardt_refuted : exists p', optimize (lib RN) LS EV0 (tstart LevenbergMarquardt) = (p', Ok tt) /\ p_heap p' = p_heap (tstart LevenbergMarquardt) /\
  stationary (lib RN) (p_heap (tstart LevenbergMarquardt)) (get_all_variables (p_graph (tstart LevenbergMarquardt))) (get_all_factors (p_graph (tstart LevenbergMarquardt))) /\
  ss_valid (p_cur p') = false /\ ss_status (p_cur p') <> SUCCESS.
Proof.
  destruct (t_run LevenbergMarquardt) as (p' & E & Hc). exists p'. split; [exact E|]. destruct (tstart_hist LevenbergMarquardt) as (A & B & C & D & F).
  destruct (lib_history _ _ _ _ _ _ A C I) as (G1 & G2).
  assert (X : forall a v, nth_error (p_heap (tstart LevenbergMarquardt)) a = Some v -> real_kind (l_kind v)).
  { change (p_heap (tstart LevenbergMarquardt)) with theap. intros a v Hv. destruct a as [|a]; [injection Hv as <-; exact I|destruct a; discriminate]. }
  destruct (C86_levenberg_marquardt_fails (lib RN) LS EV0 lib_ok EV0_ok LS_factorising _ _ _ _ (tstart LevenbergMarquardt) A B D F G1 G2 t_stationary t_rest
    (fun v => real_kind (l_kind v)) p' lib_real X) as (Y1 & Y2 & Y3); [cbn; lra|cbn; lra|cbn; lra|reflexivity|cbn; lia|exact E|exact Hc|].
  split; [exact Y1|]. split; [exact t_stationary|]. split; [exact Y3|]. intros K. rewrite K in Y2. destruct Y2 as [Y2|[Y2|Y2]]; discriminate Y2.
Qed.
(** a pose at rest *)
Example C86_pose_case : settled (KPose (N:=RN) [1; 2; 3; 0; 0; 0]%R m3id) /\ ~ settled (KPose2 (N:=RN) [1; 2; 7]%R).
Proof. exact pose_settled. Qed.

Print Assumptions C86_gauss_newton_stays.
Print Assumptions C86_rests_only_there.
Print Assumptions C86_levenberg_marquardt_fails.
Print Assumptions C86_fitting_estimates.
Print Assumptions C86_library_variables.
Print Assumptions C86_linear_variables.
Print Assumptions C86_levenberg_marquardt_refuted.
