(** Properties C56-C58, C62 and C63: what the optimisers' steps are and how a run ends.  Statements use SpecGraph, SpecOpt, SpecSteps and
    SpecEnds; [limit k p] is the state [p] with max_num_iterations set to [k]. *)
From Coq Require Import List Arith ZArith QArith Bool Reals Lra Lia.
From Verif Require Import Base Sparse Graph SpecGraph Optimizer SpecOpt OptLemmas OptWork OptLM OptRun Real RSum SpecSolver OptMore
  SpecSteps OptSteps OptDescent SpecEnds OptEnds Geom Vars VarsLemmas FactorsLin FactorsLinFacts FactorLib SpecShape FactorSafe OptStepsLib Float OptToy OptInst OptCases OptReal Ldlt LdltCase OptEndsCases.
Set Bullet Behavior "Strict Subproofs".
Import ListNotations.
Local Open Scope nat_scope.

(** ** C57: ends of runs, for every scalar type, class of variables, factor class and linear solver *)
Section Ends.
Context {N : num} {V : Type} (VC : vclass N V) {S : Type} (SV : solver N S) (EV : nat -> env (N:=N) (V:=V)).
Notation pstate := (pstate (N:=N) (V:=V) (S:=S)).
Hypothesis HE : forall n, env_ok (EV n).

(** C57 *)
Theorem C57_how_a_run_ends : forall (p p' : pstate), optimize VC SV EV p = (p', Ok tt) -> p_caught p' = false ->
  ss_status (p_cur p') = SUCCESS \/ ss_status (p_cur p') = DIVERGED ->
  let k := ss_iter (p_cur p') in let t1 := st_step_tol (p_set p) in let t2 := st_res_tol (p_set p) in
  k <= st_max_iter (p_set p) /\
  (forall j, j < k -> exists q, optimize VC SV EV (limit j p) = (q, Ok tt) /\ ss_status (p_cur q) = SUCCESS /\ ss_iter (p_cur q) = j) /\
  (forall j q q', Datatypes.S j < k -> optimize VC SV EV (limit j p) = (q, Ok tt) -> optimize VC SV EV (limit (Datatypes.S j) p) = (q', Ok tt) ->
     goes_on t1 t2 (p_init p') (p_cur q) (p_cur q')) /\
  ((k = st_max_iter (p_set p) /\ ss_status (p_cur p') = SUCCESS) \/
   exists j q, k = Datatypes.S j /\ optimize VC SV EV (limit j p) = (q, Ok tt) /\
     stops t1 t2 (p_init p') (p_cur q) (p_cur p') (ss_status (p_cur p'))).
Proof. exact (run_ends VC SV EV HE). Qed.
End Ends.

(** C62: doubles, library classes, default tolerances of 10^-6, one iteration allowed: SUCCESS after a step of more than 3 that lowered
    the residual norm by more than 1 *)
Theorem C62_success_means_converged_refuted : exists p p', optimize (lib B0) (solver1 B0) EV0 p = (p', Ok tt) /\ p_caught p' = false /\
  ss_status (p_cur p') = SUCCESS /\ ss_iter (p_cur p') = 1 /\ p_set p = defaults GaussNewton 1 /\
  nltb (ss_delta (p_cur p')) (nlit 3) = false /\ nltb (decrease (p_init p') (p_cur p')) (nlit 1) = false.
Proof.
  exists one_start, (fst one_end). destruct one_facts as (_ & B & C & D & E & F). split; [apply one_pair|]. split; [exact B|]. split; [exact C|].
  split; [exact D|]. split; [reflexivity|]. split; [exact E|exact F].
Qed.

(** ** C56, C58: exact arithmetic, exact linear solver, arbitrary classes of variables and factors *)
Section Steps.
Context {V : Type} (VC : vclass RN V) {S : Type} (SV : solver RN S) (EV : nat -> env (N:=RN) (V:=V)).
Notation pstate := (pstate (N:=RN) (V:=V) (S:=S)).
Hypothesis Hok : vclass_ok VC.
Hypothesis HE : forall n, env_ok (EV n).

(** C58: the variables go through one step per iteration; an exception can break off one more *)
Theorem C58_gauss_newton_steps : forall l1 l2 h1 g1 (p p' : pstate),
  exact_solver SV -> finalized_history VC l1 l2 h1 (p_heap p) g1 (p_graph p) -> unfinalized VC ([], empty_graph) l1 ->
  let vs := get_all_variables (p_graph p) in let fs := get_all_factors (p_graph p) in
  Forall (factor_wf VC (p_heap p) vs) fs -> some_active VC (p_heap p) fs -> Forall buf_indep fs -> shape_contract VC (p_heap p) fs ->
  st_method (p_set p) = GaussNewton -> optimize VC SV EV p = (p', Ok tt) ->
  exists k h, moves (newton_step VC vs fs (st_rate (p_set p)) 0) k (p_heap p) h /\
    (p_heap p' = h \/ p_caught p' = true /\ broken_off_step VC vs fs (st_rate (p_set p)) 0 h (p_heap p')) /\
    (p_caught p' = false -> ss_iter (p_cur p') = k).
Proof. exact (gn_path VC SV EV Hok HE). Qed.

(** C56, for a linear solver that computes LDL^T factorisations exactly (such as [LS], see [C66_ldlt_exact]).  Missing: runs that end with an exception inside a step, and variables that set_value_from_vector(value()) does not restore. *)
Theorem C56_levenberg_marquardt_steps_partial : forall (I : V -> Prop) l1 l2 h1 g1 (p p' : pstate),
  undoable VC I -> (forall a v, nth_error (p_heap p) a = Some v -> I v) ->
  factorising_solver SV -> finalized_history VC l1 l2 h1 (p_heap p) g1 (p_graph p) -> unfinalized VC ([], empty_graph) l1 ->
  let vs := get_all_variables (p_graph p) in let fs := get_all_factors (p_graph p) in let st := p_set p in
  Forall (factor_wf VC (p_heap p) vs) fs -> some_active VC (p_heap p) fs -> Forall buf_indep fs -> shape_contract VC (p_heap p) fs ->
  st_method st = LevenbergMarquardt -> 1 <= st_max_iter st -> optimize VC SV EV p = (p', Ok tt) -> p_caught p' = false ->
  exists k, p_nfact p' = p_nfact p + k /\
    moves (lm_move VC vs fs (st_rate st) (st_up st) (st_down st) (st_max_lambda st)) k
      (p_heap p, st_lambda0 st) (p_heap p', ss_lambda (p_cur p')).
Proof. exact (lm_path VC SV EV Hok HE). Qed.
End Steps.

(** the hypotheses on factors hold in every program that uses library classes correctly *)
Theorem C58_library_graphs : forall l1 l2 h1 (h : @heap (lvar RN)) g1 g,
  finalized_history (lib RN) l1 l2 h1 h g1 g -> careful ([], empty_graph) l1 -> careful (h1, g1) l2 ->
  Forall buf_indep (get_all_factors g) /\ shape_contract (lib RN) h (get_all_factors g).
Proof. exact lib_history. Qed.

(** C63: the gradient of |r|^2 / 2 is J^T r; along a solution the slope is negative *)
Theorem C63_descent_direction : forall l (J : mat RN) (r x : list R) i, damped_solution l J r x -> (0 <= l)%R -> i < mcols J ->
  rsum (mrows J) (fun k => mat_at J k i * nth k r 0)%R <> 0%R ->
  (rsum (mcols J) (fun i => rsum (mrows J) (fun k => mat_at J k i * nth k r 0) * nth i x 0) < 0)%R.
Proof. intros l J r x i H. exact (descent l J r x H i). Qed.

(** ** Concrete cases *)
(** C57: the second step is below the tolerance, the first was not *)
Example C57_case : let p := case_start GaussNewton in let p' := fst (case_end GaussNewton) in
  optimize (lib B0) (solver1 B0) EV0 p = (p', Ok tt) /\ p_caught p' = false /\ ss_status (p_cur p') = SUCCESS /\ ss_iter (p_cur p') = 2 /\
  nltb (ss_delta (p_cur p')) (st_step_tol (p_set p)) = true.
Proof.
  cbn zeta. destruct (case_facts GaussNewton) as (A & B & C & D & E & F & G). split; [apply case_pair|]. split; [exact B|]. split; [exact C|]. split; [exact F|].
  exact two_facts.
Qed.
Example C57_diverged_case : optimize (lib B0) (solver_neg B0) EV0 away_start = (fst away_end, Ok tt) /\ p_caught (fst away_end) = false /\
  ss_status (p_cur (fst away_end)) = DIVERGED.
Proof. destruct away_facts as (A & B & C & D). split; [apply away_pair|]. split; [exact B|exact C]. Qed.

(** C56 and C58 on the variable at 7 with priors 3 and 5 (library classes): all hypotheses hold; Gauss-Newton ends at 4 after one step *)
Lemma small_graph m : let p := rstart m in
  finalized_history (lib RN) rl [] (fst rs0) (p_heap p) (fst (finalize_structure (lib RN) (fst rs0) (snd rs0))) (p_graph p) /\
  unfinalized (lib RN) ([], empty_graph) rl /\ Forall (factor_wf (lib RN) (p_heap p) [0]) (get_all_factors (p_graph p)) /\
  some_active (lib RN) (p_heap p) (get_all_factors (p_graph p)) /\ careful ([], empty_graph) rl.
Proof.
  cbn zeta. set (f1 := generic_prior (lib RN) 10 0 [3%R] 1%R). set (f2 := generic_prior (lib RN) 11 0 [5%R] 1%R).
  set (v := LVar (N:=RN) 1 false (KGeneric [7%R])).
  assert (Fs : get_all_factors (p_graph (rstart m)) = [f1; f2]) by (destruct m; reflexivity).
  assert (Hp : p_heap (rstart m) = [v]) by (destruct m; reflexivity).
  assert (W : forall id x, factor_wf (lib RN) [v] [0] (generic_prior (lib RN) id 0 [x] 1%R)).
  { intros id x. split; [cbn; lia|]. split; [|cbn; constructor; [intros []|constructor]].
    intros q [<-|[]]. exists 0, v. split; auto. split; auto. split; [intros _; split; [left; reflexivity|cbn; lia]|]. intros b [<-|[]] _. reflexivity. }
  split; [apply rfinalized|]. split; [repeat (split; [discriminate|]); exact I|]. rewrite Fs, Hp.
  split; [constructor; [apply W|constructor; [apply W|constructor]]|]. split; [exists f1, 0, v; cbn; auto|].
  assert (U : forall id x, exists lf, generic_prior (lib RN) id 0 [x] 1%R = build lf /\ well_used [v] lf).
  { intros id x. exists (LGenericPrior id 0 [x] 1%R). split; [reflexivity|]. exists v. split; [reflexivity|]. split; reflexivity. }
  split; [reflexivity|]. split; [exact I|]. split; [apply U|]. split; [apply U|exact I].
Qed.
Example C58_case : exists p', optimize (lib RN) (solver1 RN) EV0 (rstart GaussNewton) = (p', Ok tt) /\ p_caught p' = false /\
  p_heap p' = [LVar 1 false (KGeneric [4%R])] /\
  moves (newton_step (lib RN) [0] (get_all_factors (p_graph (rstart GaussNewton))) 1%R 0) (ss_iter (p_cur p')) (p_heap (rstart GaussNewton)) (p_heap p').
Proof.
  destruct gn_real as (p' & E & Hc & _ & _ & _ & _ & _ & Hh). exists p'. split; [exact E|]. split; [exact Hc|]. split; [exact Hh|].
  destruct (small_graph GaussNewton) as (A & B & C & D & F). destruct (C58_library_graphs _ _ _ _ _ _ A F I) as (G1 & G2).
  destruct (C58_gauss_newton_steps (lib RN) (solver1 RN) EV0 lib_ok EV0_ok _ _ _ _ _ p' solver1_exact A B C D G1 G2 eq_refl E) as (k & h & M1 & [M2|(M2 & _)] & M3); [|congruence].
  rewrite (M3 Hc), M2. exact M1.
Qed.
Lemma same_start m : p_heap (lstart m) = p_heap (rstart m) /\ p_graph (lstart m) = p_graph (rstart m) /\ p_set (lstart m) = p_set (rstart m).
Proof. destruct m; repeat split; reflexivity. Qed.
Example C56_case : exists p' k, optimize (lib RN) LS EV0 (lstart LevenbergMarquardt) = (p', Ok tt) /\ ss_lambda (p_cur p') = (1/2)%R /\
  moves (lm_move (lib RN) [0] (get_all_factors (p_graph (lstart LevenbergMarquardt))) 1%R 2%R (1/2)%R 4%R) k
    (p_heap (lstart LevenbergMarquardt), 1%R) (p_heap p', (1/2)%R).
Proof.
  destruct llm_real as (p' & E & Hc & Hl). exists p'. destruct (same_start LevenbergMarquardt) as (Sh & Sg & _).
  destruct (small_graph LevenbergMarquardt) as (A & B & C & D & F). destruct (C58_library_graphs _ _ _ _ _ _ A F I) as (G1 & G2).
  cbn zeta in A, C, D. rewrite <- Sh, <- Sg in A, C, D, G2. rewrite <- Sg in G1.
  assert (X : forall a v, nth_error (p_heap (lstart LevenbergMarquardt)) a = Some v -> exact_kind (l_kind v)).
  { intros a v Hv. destruct a as [|a]; [inversion Hv; subst; exact I|destruct a; discriminate]. }
  destruct (C56_levenberg_marquardt_steps_partial (lib RN) LS EV0 lib_ok EV0_ok (fun v => exact_kind (l_kind v)) _ _ _ _ (lstart LevenbergMarquardt) p'
    lib_exact X LS_factorising A B C D G1 G2 eq_refl (le_n 1) E Hc) as (k & _ & M).
  exists k. split; [exact E|]. split; [exact Hl|]. rewrite Hl in M. exact M.
Qed.
(** C63: J = (1, 1)^T, r = (4, 2), damping 1: x = -2, slope -12 *)
Example C63_case : let J : mat RN := Mat (N:=RN) 2 1 (fun _ _ => 1%R) in damped_solution 1 J [4%R; 2%R] [(-2)%R] /\
  rsum (mrows J) (fun k => mat_at J k 0 * nth k [4%R; 2%R] 0)%R <> 0%R.
Proof.
  cbn zeta. split; [|cbn; lra]. split; [reflexivity|]. cbn. intros i Hi. assert (i = 0) by lia. subst. lra.
Qed.

Print Assumptions C57_how_a_run_ends.
Print Assumptions C62_success_means_converged_refuted.
Print Assumptions C58_gauss_newton_steps.
Print Assumptions C56_levenberg_marquardt_steps_partial.
Print Assumptions C58_library_graphs.
Print Assumptions C63_descent_direction.
