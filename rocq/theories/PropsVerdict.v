(** Properties C64-C67, and more about C23, C24: exact arithmetic with a linear solver that computes LDL^T factorisations exactly.
    Statements use SpecGraph, SpecOpt, SpecSolver and SpecSteps. *)
From Coq Require Import List Arith ZArith QArith Bool Reals Lra Lia Permutation.
From Verif Require Import Base Sparse Graph SpecGraph Optimizer SpecOpt OptLemmas OptWork OptLM OptRun Real RSum SpecSolver OptMore
  SpecSteps Gram OptSteps OptLinear OptVerdict OptCovFull OptDamping Geom Vars VarsLemmas FactorsLin FactorsLinFacts FactorLib SpecShape FactorSafe OptStepsLib
  OptToy OptInst OptCases OptReal Ldlt LdltSolver LdltCase PropsSteps.
Set Bullet Behavior "Strict Subproofs".
Import ListNotations.
Local Open Scope nat_scope.

(** C66: the factorisation of Eigen's SimplicialLDLT, for every fill-reducing ordering *)
Theorem C66_ldlt_exact : forall ord : mat RN -> list nat, (forall H, Permutation (ord H) (seq 0 (mrows H))) ->
  factorising_solver (ldlt_solver (N:=RN) ord) /\ exact_solver (ldlt_solver (N:=RN) ord).
Proof. intros ord Hord. split; [exact (ldlt_factorising ord Hord)|exact (factorising_exact _ (ldlt_factorising ord Hord))]. Qed.

Section Verdicts.
Context {V : Type} (VC : vclass RN V) {S : Type} (SV : solver RN S) (EV : nat -> env (N:=RN) (V:=V)).
Notation pstate := (pstate (N:=RN) (V:=V) (S:=S)).
Hypothesis Hok : vclass_ok VC.
Hypothesis HE : forall n, env_ok (EV n).
Hypothesis HF : factorising_solver SV.

(** C64 *)
Theorem C64_failure_codes : forall l1 l2 h1 g1 (p p' : pstate),
  finalized_history VC l1 l2 h1 (p_heap p) g1 (p_graph p) -> unfinalized VC ([], empty_graph) l1 ->
  let vs := get_all_variables (p_graph p) in let fs := get_all_factors (p_graph p) in
  Forall (factor_wf VC (p_heap p) vs) fs -> some_active VC (p_heap p) fs -> Forall buf_indep fs -> shape_contract VC (p_heap p) fs ->
  st_method (p_set p) = GaussNewton -> optimize VC SV EV p = (p', Ok tt) -> p_caught p' = false ->
  ss_status (p_cur p') = FAILED \/ ss_status (p_cur p') = SINGULAR_HESSIAN \/ ss_status (p_cur p') = ILL_CONDITIONED ->
  exists J, jacobian_at VC (p_heap p') vs fs J /\ verdict (ss_status (p_cur p')) J.
Proof. exact (gn_failure_codes VC SV EV Hok HE HF). Qed.

(** C65 *)
Theorem C65_unobservable_fails : forall l1 l2 h1 g1 (p p' : pstate) J x,
  finalized_history VC l1 l2 h1 (p_heap p) g1 (p_graph p) -> unfinalized VC ([], empty_graph) l1 ->
  let vs := get_all_variables (p_graph p) in let fs := get_all_factors (p_graph p) in
  Forall (factor_wf VC (p_heap p) vs) fs -> some_active VC (p_heap p) fs -> Forall buf_indep fs -> shape_contract VC (p_heap p) fs ->
  st_method (p_set p) = GaussNewton -> 1 <= st_max_iter (p_set p) -> jacobian_at VC (p_heap p) vs fs J -> unobservable J x ->
  optimize VC SV EV p = (p', Ok tt) -> p_caught p' = false ->
  ss_status (p_cur p') = FAILED /\ p_heap p' = p_heap p /\ ss_iter (p_cur p') = 0.
Proof. exact (gn_unobservable VC SV EV Hok HE HF). Qed.
Theorem C65_well_posed_steps : forall l1 l2 h1 g1 (p p' : pstate) J,
  finalized_history VC l1 l2 h1 (p_heap p) g1 (p_graph p) -> unfinalized VC ([], empty_graph) l1 ->
  let vs := get_all_variables (p_graph p) in let fs := get_all_factors (p_graph p) in
  Forall (factor_wf VC (p_heap p) vs) fs -> some_active VC (p_heap p) fs -> Forall buf_indep fs -> shape_contract VC (p_heap p) fs ->
  st_method (p_set p) = GaussNewton -> st_max_iter (p_set p) = 1 -> jacobian_at VC (p_heap p) vs fs J -> ~ ill_posed 0 J ->
  optimize VC SV EV p = (p', Ok tt) -> p_caught p' = false ->
  ~ (ss_status (p_cur p') = FAILED \/ ss_status (p_cur p') = SINGULAR_HESSIAN \/ ss_status (p_cur p') = ILL_CONDITIONED).
Proof. exact (gn_well_posed VC SV EV Hok HE HF). Qed.

(** C24 for well-posed problems: no assumption on the outcome of the step *)
Theorem C24_well_posed_linear : forall l1 l2 h1 g1 (p p' : pstate) jss J,
  finalized_history VC l1 l2 h1 (p_heap p) g1 (p_graph p) -> unfinalized VC ([], empty_graph) l1 ->
  let vs := get_all_variables (p_graph p) in let fs := get_all_factors (p_graph p) in
  Forall (factor_wf VC (p_heap p) vs) fs -> some_active VC (p_heap p) fs -> Forall buf_indep fs -> shape_contract VC (p_heap p) fs ->
  Forall2 (fun f js => f_jac f (p_heap p) [] = (js, Ok tt) /\ blocks_ok VC (p_heap p) (f_rsize f) (f_vars f) js) fs jss ->
  Forall2 (affine_at VC (p_heap p) vs) fs jss -> each_nonconst VC (p_heap p) vs (additive VC) ->
  jacobian_at VC (p_heap p) vs fs J -> ~ ill_posed 0 J ->
  st_method (p_set p) = GaussNewton -> st_max_iter (p_set p) = 1 -> st_rate (p_set p) = 1%R ->
  optimize VC SV EV p = (p', Ok tt) -> p_caught p' = false ->
  exists r, stacked (p_heap p') fs r /\ ss_chi2 (p_cur p') = sqnorm r /\ reassigned VC (p_heap p) (p_heap p') vs /\
    forall h' r', reassigned VC (p_heap p) h' vs -> stacked h' fs r' -> (sqnorm r <= sqnorm r')%R.
Proof.
  intros l1 l2 h1 g1 p p' jss J A B vs fs C D E F G H I K L M N O Q T.
  apply (gn_solves_linear VC SV EV Hok HE l1 l2 h1 g1 p p' jss (factorising_exact SV HF) A B C D E G H I M N O Q T).
  exact (gn_well_posed VC SV EV Hok HE HF l1 l2 h1 g1 p p' J A B C D E F M N K L Q T).
Qed.

(** C23: as long as the squared columns of the Jacobians met on the way are at most 999999999999 b, the damping parameter stays
    between every m and B with the inequalities below; B can be max_lambda *)
Theorem C23_damping_bounded : forall (I : V -> Prop) l1 l2 h1 g1 (p p' : pstate) (b B m : R),
  undoable VC I -> (forall a v, nth_error (p_heap p) a = Some v -> I v) ->
  finalized_history VC l1 l2 h1 (p_heap p) g1 (p_graph p) -> unfinalized VC ([], empty_graph) l1 ->
  let vs := get_all_variables (p_graph p) in let fs := get_all_factors (p_graph p) in let st := p_set p in
  Forall (factor_wf VC (p_heap p) vs) fs -> some_active VC (p_heap p) fs -> Forall buf_indep fs -> shape_contract VC (p_heap p) fs ->
  st_method st = LevenbergMarquardt -> 1 <= st_max_iter st -> optimize VC SV EV p = (p', Ok tt) -> p_caught p' = false ->
  (1 <= st_up st)%R -> (0 <= st_down st <= 1)%R -> (1 / 100000000000000 <= b)%R ->
  (forall j h l J c, moves (lm_move VC vs fs (st_rate st) (st_up st) (st_down st) (st_max_lambda st)) j (p_heap p, st_lambda0 st) (h, l) ->
     jacobian_at VC h vs fs J -> c < mcols J -> (column_sq J c <= 999999999999 * b)%R) ->
  (st_lambda0 st <= B /\ st_max_lambda st <= B /\ b * st_up st <= B /\ 1 / 1000000000000 <= B)%R ->
  (0 <= m <= st_lambda0 st /\ m <= st_max_lambda st /\ m <= 1 / 1000000000000)%R ->
  (m <= ss_lambda (p_cur p') <= B)%R.
Proof.
  intros I l1 l2 h1 g1 p p' b B m A C D E vs fs st F G H K L M N O U W X Y (B1 & B2 & B3 & B4) ((M0 & M1) & M2 & M3).
  destruct (lm_path VC SV EV Hok HE I l1 l2 h1 g1 p p' A C HF D E F G H K L M N O) as (k & _ & Mv).
  apply (damping_bounds VC vs fs _ _ _ _ _ _ _ _ _ b B m Mv U W X); auto. intros j h l J c _. apply Y.
Qed.

(** C67: [p] is a state after optimize() in which covariances have not been prepared since setup() *)
Theorem C67_covariance_available : forall (p : pstate) J H,
  p_hvalid p = false -> p_complete p = true -> omap sp_dense (sparse_jacobian (p_graph p)) = Ok J -> 0 < mcols J -> is_gram J H ->
  exists p1, prepare SV p = (p1, Ok tt) /\
    ((exists x, unobservable J x) /\ (forall a v, nth_error (p_heap p) a = Some v -> snd (estimate_covariance VC SV (Some a) p1) = Ok None) \/
     (forall x, ~ unobservable J x) /\ exists W, left_inverse W H /\
       forall a v pl, nth_error (p_heap p) a = Some v -> vconst VC v = false -> 0 < vsize VC v ->
         variable_placement (p_graph p) (vid VC v) = Some pl -> 0 < vp_dim pl -> vp_index pl + vp_dim pl <= mcols J ->
         (exists P, snd (estimate_covariance VC SV (Some a) p1) = Ok (Some P) /\ mrows P = vp_dim pl /\ mcols P = vp_dim pl /\
            (forall i j, i < vp_dim pl -> j < vp_dim pl -> mat_at P i j = mat_at W (vp_index pl + i) (vp_index pl + j)) /\
            symmetric_mat P /\ definite_mat P /\ (forall i, i < vp_dim pl -> (mat_at P i i <= 1000000000000)%R)) \/
         snd (estimate_covariance VC SV (Some a) p1) = Ok None /\
           exists i, i < vp_dim pl /\ (1000000000000 < mat_at W (vp_index pl + i) (vp_index pl + i))%R).
Proof. exact (covariance_available VC SV HF). Qed.
End Verdicts.

(** ** Concrete cases *)
(** C64, C65: two free variables whose difference is measured twice; all hypotheses hold and the run ends with FAILED *)
Lemma free_graph :
  let s0 := run (lib RN) ([], empty_graph) (map (fun o => (env0, o)) fops) in
  finalized_history (lib RN) (map (fun o => (env0, o)) fops) [] (fst s0) (p_heap fstart) (fst (finalize_structure (lib RN) (fst s0) (snd s0))) (p_graph fstart) /\
  unfinalized (lib RN) ([], empty_graph) (map (fun o => (env0, o)) fops) /\ Forall (factor_wf (lib RN) (p_heap fstart) [0; 1; 2]) (get_all_factors (p_graph fstart)) /\
  some_active (lib RN) (p_heap fstart) (get_all_factors (p_graph fstart)) /\ careful ([], empty_graph) (map (fun o => (env0, o)) fops).
Proof.
  cbn zeta. set (f1 := generic_between (lib RN) 10 0 1 2 1 1%R). set (f2 := generic_between (lib RN) 11 0 1 2 1 1%R).
  set (hh := [LVar (N:=RN) 1 false (KGeneric [1%R]); LVar 2 false (KGeneric [4%R]); LVar 3 true (KGeneric [2%R])]).
  assert (Fs : get_all_factors (p_graph fstart) = [f1; f2]) by reflexivity. assert (Hp : p_heap fstart = hh) by reflexivity.
  assert (W : forall id, factor_wf (lib RN) hh [0; 1; 2] (generic_between (lib RN) id 0 1 2 1 1%R)).
  { intros id. split; [cbn; lia|]. split; [|cbn; repeat constructor; cbn; intuition discriminate].
    intros q [<-|[<-|[<-|[]]]]; (eexists _, _; split; [reflexivity|]; split; [reflexivity|]); (split; [intros _; split; [cbn; tauto|cbn; lia]|]);
      intros b [<-|[<-|[<-|[]]]]; cbn; intros; congruence. }
  split; [apply start_finalized; rc; reflexivity|]. split; [repeat (split; [discriminate|]); exact I|]. rewrite Fs, Hp.
  split; [constructor; [apply W|constructor; [apply W|constructor]]|].
  split; [exists f1, 0, (LVar (N:=RN) 1 false (KGeneric [1%R])); cbn; auto|].
  assert (U : forall id, exists lf, generic_between (lib RN) id 0 1 2 1 1%R = build lf /\ well_used hh lf).
  { intros id. exists (LGenericBetween id 0 1 2 1 1%R). split; [reflexivity|]. cbn [well_used]. unfold var_at, of_size. split; [|split]; eexists; (split; [reflexivity|split; reflexivity]). }
  split; [reflexivity|]. split; [reflexivity|]. split; [reflexivity|]. split; [exact I|]. split; [exact I|]. split; [exact I|].
  split; [apply U|]. split; [apply U|exact I].
Qed.
Definition free_jac : mat RN := let w := ndiv (n:=RN) nunit 1%R in Mat 2 2 (fun _ j => if j =? 0 then nneg w else w).
Lemma free_jacobian : jacobian_at (lib RN) (p_heap fstart) [0; 1; 2] (get_all_factors (p_graph fstart)) free_jac.
Proof.
  set (w := ndiv (n:=RN) nunit 1%R). set (js := [diagm (N:=RN) 1 (nneg w); diagm 1 w; mempty]).
  exists [js; js]. split; [constructor; [reflexivity|constructor; [reflexivity|constructor]]|].
  split; [reflexivity|]. split; [reflexivity|]. intros k f js' m a r c Hk Hj Hm Hr Hc.
  destruct k as [|[|k]]; [| |destruct k; discriminate]; injection Hk as <-; injection Hj as <-; cbn in Hr; assert (r = 0) by lia; subst r;
    (destruct m as [|[|[|m]]]; [| | |destruct m; discriminate]; injection Hm as <-; cbn in Hc; try lia; assert (c = 0) by lia; subst c; reflexivity).
Qed.
Lemma free_unobservable : unobservable free_jac [1%R; 1%R].
Proof. split; [reflexivity|]. split; [exists 0; split; [cbn; lia|cbn; lra]|]. intros k Hk. cbn. lra. Qed.
Example C65_case : exists p', optimize (lib RN) LS EV0 fstart = (p', Ok tt) /\ p_caught p' = false /\
  ss_status (p_cur p') = FAILED /\ p_heap p' = p_heap fstart /\ ss_iter (p_cur p') = 0.
Proof.
  destruct freal as (p' & E & Hc). exists p'. split; [exact E|]. split; [exact Hc|].
  destruct free_graph as (A & B & C & D & F). destruct (C58_library_graphs _ _ _ _ _ _ A F I) as (G1 & G2).
  exact (C65_unobservable_fails (lib RN) LS EV0 lib_ok EV0_ok LS_factorising _ _ _ _ fstart p' _ _ A B C D G1 G2 eq_refl (le_n 1) free_jacobian free_unobservable E Hc).
Qed.
Example C64_case : exists p' J, optimize (lib RN) LS EV0 fstart = (p', Ok tt) /\ ss_status (p_cur p') = FAILED /\
  jacobian_at (lib RN) (p_heap p') [0; 1; 2] (get_all_factors (p_graph fstart)) J /\ exists x, unobservable J x.
Proof.
  destruct freal as (p' & E & Hc). destruct free_graph as (A & B & C & D & F). destruct (C58_library_graphs _ _ _ _ _ _ A F I) as (G1 & G2).
  destruct (C65_unobservable_fails (lib RN) LS EV0 lib_ok EV0_ok LS_factorising _ _ _ _ fstart p' _ _ A B C D G1 G2 eq_refl (le_n 1) free_jacobian free_unobservable E Hc) as (Hs & _).
  destruct (C64_failure_codes (lib RN) LS EV0 lib_ok EV0_ok LS_factorising _ _ _ _ fstart p' A B C D G1 G2 eq_refl E Hc (or_introl Hs)) as (J & HJ & HV).
  exists p', J. split; [exact E|]. split; [exact Hs|]. split; [exact HJ|]. rewrite Hs in HV. exact HV.
Qed.

(** C23, C24 and C65 on the variable at 7 with priors 3 and 5: J = (1, 1)^T at every value *)
Definition at_value (x : R) : @heap (lvar RN) := [LVar 1 false (KGeneric [x])].
Definition prior_jac : mat RN := let w := ndiv (n:=RN) nunit 1%R in Mat 2 1 (fun _ _ => w).
Notation priors := [generic_prior (lib RN) 10 0 [3%R] 1%R; generic_prior (lib RN) 11 0 [5%R] 1%R].
Lemma prior_jacobian x : jacobian_at (lib RN) (at_value x) [0] priors prior_jac.
Proof.
  set (w := ndiv (n:=RN) nunit 1%R). set (js := [diagm (N:=RN) 1 w]). exists [js; js]. split; [constructor; [reflexivity|constructor; [reflexivity|constructor]]|].
  split; [reflexivity|]. split; [reflexivity|]. intros k f js' m a r c Hk Hj Hm Hr Hc.
  destruct k as [|[|k]]; [| |destruct k; discriminate]; injection Hk as <-; injection Hj as <-; cbn in Hr; assert (r = 0) by lia; subst r;
    (destruct m as [|m]; [|destruct m; discriminate]; injection Hm as <-; cbn in Hc; assert (c = 0) by lia; subst c; reflexivity).
Qed.
Lemma prior_columns c : c < 1 -> column_sq prior_jac c = 2%R.
Proof. intros Hc. cbn. rewrite q1. lra. Qed.
Lemma prior_well_posed : ~ ill_posed 0 prior_jac.
Proof.
  intros (x & i & L & Hi & X1 & X2). cbn in Hi. assert (i = 0) by lia. subst i. rewrite damped_zero in X2. unfold image_sq in X2. cbn in X2. rewrite X1, q1 in X2.
  destruct X2 as [X2|(c & Hc & X2)]; [lra|]. lra.
Qed.
Lemma prior_reached j x l s up : moves (lm_move (lib RN) [0] priors 1%R up (1/2)%R 4%R) j (at_value x, l) s -> exists y, fst s = at_value y.
Proof.
  intros M. remember (at_value x, l) as s0 eqn:E0. induction M as [s|k s s1 s2 M IH X]; [subst; exists x; reflexivity|]. destruct (IH E0) as (y & Hy).
  inversion X as [? ? J Hj Ho|h h' ? r r' A1 A2 A3 A4|h h' ? r r' A1 A2 A3 A4]; subst; cbn [fst] in Hy |- *; subst; [exists y; reflexivity| |exists y; reflexivity].
  destruct A1 as (r1 & J & dx & _ & _ & (Ld & _) & (U1 & U2 & _)). destruct (U2 0 0 _ eq_refl eq_refl eq_refl) as (v' & V1 & V2).
  destruct dx as [|d dx]; cbn in V1; [discriminate|]. injection V1 as <-. exists (y + d * 1)%R. destruct h' as [|v0 [|? ?]]; try discriminate U1. injection V2 as ->. reflexivity.
Qed.
Lemma unique_columns h vs fs J J' c : jacobian_at (V:=lvar RN) (lib RN) h vs fs J -> jacobian_at (lib RN) h vs fs J' -> c < mcols J -> column_sq J c = column_sq J' c.
Proof. intros A B Hc. destruct (jacobian_unique _ _ _ _ _ _ A B) as (U1 & U2 & U3). apply column_same; auto. Qed.
(** C23 applied: with b = 1 the damping parameter stays below max_lambda = 4 *)
Example C23_bounded_case : exists p', optimize (lib RN) LS EV0 (lstart LevenbergMarquardt) = (p', Ok tt) /\ p_caught p' = false /\
  (1 / 1000000000000 <= ss_lambda (p_cur p') <= 4)%R.
Proof.
  destruct llm_real as (p' & E & Hc & _). exists p'. split; [exact E|]. split; [exact Hc|]. destruct (same_start LevenbergMarquardt) as (Sh & Sg & _).
  destruct (small_graph LevenbergMarquardt) as (A & B & C & D & F). destruct (C58_library_graphs _ _ _ _ _ _ A F I) as (G1 & G2).
  cbn zeta in A, C, D. rewrite <- Sh, <- Sg in A, C, D, G2. rewrite <- Sg in G1.
  assert (X : forall a v, nth_error (p_heap (lstart LevenbergMarquardt)) a = Some v -> exact_kind (l_kind v)).
  { intros a v Hv. destruct a as [|a]; [inversion Hv; subst; exact I|destruct a; discriminate]. }
  apply (C23_damping_bounded (lib RN) LS EV0 lib_ok EV0_ok LS_factorising (fun v => exact_kind (l_kind v)) _ _ _ _ (lstart LevenbergMarquardt) p' 1 4 (1 / 1000000000000)
    lib_exact X A B C D G1 G2 eq_refl (le_n 1) E Hc); cbn [p_set st_up st_down st_lambda0 st_max_lambda]; [cbn; lra|cbn; lra|lra| |cbn; lra|cbn; lra].
  intros j h l J c M HJ Hcc.
  change (moves (lm_move (lib RN) [0] priors 1%R 2%R (1/2)%R 4%R) j (at_value 7, 1%R) (h, l)) in M.
  change (jacobian_at (lib RN) h [0] priors J) in HJ. destruct (prior_reached _ _ _ _ _ M) as (y & Hy). cbn in Hy. subst h.
  pose proof (prior_jacobian y) as HP. rewrite (unique_columns _ _ _ _ _ _ HJ HP Hcc). destruct (jacobian_unique _ _ _ _ _ _ HJ HP) as (_ & U & _). rewrite U in Hcc.
  rewrite prior_columns by exact Hcc. lra.
Qed.
(** C65: well-posed, one step *)
Example C65_well_posed_case : exists p', optimize (lib RN) LS EV0 (lstart GaussNewton) = (p', Ok tt) /\ p_caught p' = false /\
  ~ (ss_status (p_cur p') = FAILED \/ ss_status (p_cur p') = SINGULAR_HESSIAN \/ ss_status (p_cur p') = ILL_CONDITIONED).
Proof.
  destruct lgn_real as (p' & E & Hc & _). exists p'. split; [exact E|]. split; [exact Hc|]. destruct (same_start GaussNewton) as (Sh & Sg & _).
  destruct (small_graph GaussNewton) as (A & B & C & D & F). destruct (C58_library_graphs _ _ _ _ _ _ A F I) as (G1 & G2).
  cbn zeta in A, C, D. rewrite <- Sh, <- Sg in A, C, D, G2. rewrite <- Sg in G1.
  exact (C65_well_posed_steps (lib RN) LS EV0 lib_ok EV0_ok LS_factorising _ _ _ _ (lstart GaussNewton) p' _ A B C D G1 G2 eq_refl eq_refl (prior_jacobian 7) prior_well_posed E Hc).
Qed.
(** C24 without a condition on the outcome *)
Example C24_well_posed_case : exists p' r, optimize (lib RN) LS EV0 (lstart GaussNewton) = (p', Ok tt) /\ p_heap p' = at_value 4 /\
  stacked (p_heap p') priors r /\
  forall h' r', reassigned (lib RN) (at_value 7) h' [0] -> stacked h' priors r' -> (sqnorm (N:=RN) r <= sqnorm (N:=RN) r')%R.
Proof.
  destruct lgn_real as (p' & E & Hc & _ & _ & _ & _ & Hh). exists p'. destruct (same_start GaussNewton) as (Sh & Sg & _).
  destruct (small_graph GaussNewton) as (A & B & C & D & F). destruct (C58_library_graphs _ _ _ _ _ _ A F I) as (G1 & G2).
  cbn zeta in A, C, D. rewrite <- Sh, <- Sg in A, C, D, G2. rewrite <- Sg in G1. set (v := LVar (N:=RN) 1 false (KGeneric [7%R])).
  destruct (C24_well_posed_linear (lib RN) LS EV0 lib_ok EV0_ok LS_factorising _ _ _ _ (lstart GaussNewton) p'
    [gprior_blocks (lib RN) v 1 (1/1)%R; gprior_blocks (lib RN) v 1 (1/1)%R] prior_jac A B C D G1 G2) as (r & H1 & _ & _ & H2); auto.
  - assert (K : forall id x, let f := generic_prior (lib RN) id 0 [x] 1%R in f_jac f [v] [] = (gprior_blocks (lib RN) v 1 (1/1)%R, Ok tt) /\
      blocks_ok (lib RN) [v] (f_rsize f) (f_vars f) (gprior_blocks (lib RN) v 1 (1/1)%R)).
    { intros id x. cbn zeta. split; [|apply (gprior_blocks_ok (lib RN) 0 1 (1/1)%R [v] v); reflexivity].
      cbn. unfold gprior_jac, gprior_blocks, hget. cbn. repeat f_equal. unfold nunit. cbn. rewrite q1. reflexivity. }
    constructor; [apply K|constructor; [apply K|constructor]].
  - assert (K : forall id x, affine_at (lib RN) [v] [0] (generic_prior (lib RN) id 0 [x] 1%R) (gprior_blocks (lib RN) v 1 (1 / 1)%R)).
    { intros id x. apply (gprior_affine (lib RN) id 0 [x] 1%R [v] [0] v); cbn; auto. }
    constructor; [apply K|constructor; [apply K|constructor]].
  - intros a v0 [<-|[]] Hv _. inversion Hv; subst v0. split; [reflexivity|]. intros [|x [|]] Hx; try discriminate.
    eexists. split; [reflexivity|]. split; [reflexivity|]. intros [|c] Hcc; [reflexivity|cbn in Hcc; lia].
  - apply prior_jacobian.
  - apply prior_well_posed.
  - exists r. auto.
Qed.
(** C67 after the run of [C24_well_posed_case]: J = (1, 1)^T, so the covariance of the variable is 1/2 *)
Example C67_case : exists p p1 P, optimize (lib RN) LS EV0 (lstart GaussNewton) = (p, Ok tt) /\ prepare LS p = (p1, Ok tt) /\
  snd (estimate_covariance (lib RN) LS (Some 0) p1) = Ok (Some P) /\ mat_at P 0 0 = (1/2)%R.
Proof.
  destruct lgn_real as (p & E & _ & Hk & Hv & (M & HM & R1 & R2 & E0 & E1') & Hp & Hh).
  assert (HG : is_gram (sp_dense M) (Mat (N:=RN) 1 1 (fun _ _ => 2%R))).
  { split; [symmetry; exact R2|]. split; [symmetry; exact R2|]. intros i j Hi Hj. rewrite R2 in Hi, Hj. assert (i = 0) by lia. assert (j = 0) by lia. subst.
    rewrite R1. cbn [seq map mat_at]. unfold vsum. cbn [fold_left]. rewrite E0, E1'. cbn. unfold Q2R. simpl. lra. }
  destruct (C67_covariance_available (lib RN) LS LS_factorising p (sp_dense M) (Mat (N:=RN) 1 1 (fun _ _ => 2%R)) Hv Hk) as (p1 & Q1 & [(X & _)|(_ & W & HW & X)]); [rewrite HM; reflexivity|rewrite R2; lia|exact HG| |].
  - exfalso. destruct X as (x & L & (i & Hi & Hx) & Z). rewrite R2 in Hi. assert (i = 0) by lia. subst i. specialize (Z 0). rewrite R1, R2 in Z. specialize (Z (Nat.lt_0_succ 1)).
    cbn [rsum] in Z. rewrite E0 in Z. lra.
  - assert (W0 : mat_at W 0 0 = (1/2)%R).
    { destruct HW as (Wr & Wc & HW). cbn in Wr, Wc. rewrite Wr, Wc in HW. specialize (HW 0 0 (Nat.lt_0_succ 0) (Nat.lt_0_succ 0)). cbn in HW. rewrite ?q0, ?q1 in HW. lra. }
    destruct (X 0 _ (VPlacement 0 0 1) ltac:(rewrite Hh; reflexivity) eq_refl (Nat.lt_0_succ 0) Hp (Nat.lt_0_succ 0)) as [(P & P1 & _ & _ & P2 & _)|(_ & i & Hi & Hb)]; [rewrite R2; cbn; lia| |].
    + exists p, p1, P. split; [exact E|]. split; [exact Q1|]. split; [exact P1|]. rewrite (P2 0 0) by (cbn; lia). exact W0.
    + exfalso. cbn in Hi. assert (i = 0) by lia. subst i. change (1000000000000 < mat_at W 0 0)%R in Hb. rewrite W0 in Hb. lra.
Qed.
Example C66_case : LS = ldlt_solver (N:=RN) (fun H => seq 0 (mrows H)) /\ factorising_solver LS.
Proof. split; [reflexivity|]. exact (proj1 (C66_ldlt_exact _ (fun H => Permutation_refl _))). Qed.

Print Assumptions C66_ldlt_exact.
Print Assumptions C64_failure_codes.
Print Assumptions C65_unobservable_fails.
Print Assumptions C65_well_posed_steps.
Print Assumptions C24_well_posed_linear.
Print Assumptions C23_damping_bounded.
Print Assumptions C67_covariance_available.
