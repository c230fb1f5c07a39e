(** Properties C13 and C17-C26, C55 of SparseOptimizer.  Unless a theorem says otherwise it holds for every scalar type,
    every class of variables that keeps id, size and constant flag ([vclass_ok]), arbitrary factor classes and an arbitrary
    linear solver.  A state [p] comprises the optimiser, the graph it points to and the variable objects;
    [finalized_history VC l1 l2 h1 (p_heap p) g1 (p_graph p)] says that the graph has been finalized and has since only seen
    value updates and computations (optimize() keeps this, [optimize_history]). *)
From Coq Require Import List Arith ZArith QArith Bool Reals Lra Lia.
From Verif Require Import Base Sparse Graph SpecGraph GraphBasic GraphFin Optimizer SpecOpt OptLemmas OptWork OptLM OptRun Real SpecSolver
  OptMore OptLambda OptCov OptExact OptLinear OptFacts Geom Vars VarsLemmas FactorsLin FactorsLinFacts Float OptToy OptInst OptCases OptReal.
Import ListNotations.
Local Open Scope nat_scope.

Section Props.
Context {N : num} {V : Type} (VC : vclass N V) {S : Type} (SV : solver N S) (EV : nat -> env (N:=N) (V:=V)).
Notation pstate := (pstate (N:=N) (V:=V) (S:=S)).
Hypothesis Hok : vclass_ok VC.
Hypothesis HE : forall n, env_ok (EV n).

(** C13, Gauss-Newton: any run, also one that throws *)
Theorem C13_gauss_newton_keeps_constants : forall (p p' : pstate) r,
  st_method (p_set p) = GaussNewton -> optimize VC SV EV p = (p', r) -> const_kept VC (p_heap p) (p_heap p').
Proof. intros p p' r Hm. apply (optimize_const VC SV EV Hok HE). rewrite Hm. discriminate. Qed.

(** C13, Levenberg-Marquardt, for constant variables that set_value_from_vector(value()) restores.  Missing: other
    variables, see [C13_rotation_refuted]. *)
Theorem C13_levenberg_marquardt_partial : forall (p p' : pstate) r,
  (forall a v, nth_error (p_heap p) a = Some v -> vconst VC v = true -> vset VC v (vval VC v) = Ok v) ->
  optimize VC SV EV p = (p', r) -> const_kept VC (p_heap p) (p_heap p').
Proof. intros p p' r H. apply (optimize_const VC SV EV Hok HE). intros _. exact H. Qed.

(** C17 *)
Theorem C17_bounded_work : forall (p p' : pstate) r, p_hasgraph p = true -> optimize VC SV EV p = (p', r) ->
  p_nfact p' <= p_nfact p + st_max_iter (p_set p) * match st_method (p_set p) with GaussNewton => 1 | LevenbergMarquardt => 5 end /\
  ss_iter (p_cur p') <= st_max_iter (p_set p).
Proof. exact (optimize_bounded VC SV EV). Qed.

(** C18 *)
Theorem C18_final_status : forall (p p' : pstate), optimize VC SV EV p = (p', Ok tt) ->
  let s := ss_status (p_cur p') in let valid := ss_valid (p_cur p') in
  s <> RUNNING /\ (s = SUCCESS -> valid = true) /\
  (s = FAILED \/ s = SINGULAR_HESSIAN \/ s = ILL_CONDITIONED -> valid = false) /\
  (valid = false -> s = FAILED \/ s = SINGULAR_HESSIAN \/ s = ILL_CONDITIONED \/ s = DIVERGED).
Proof. exact (status_facts VC SV EV). Qed.

(** C19 for a whole run of Levenberg-Marquardt.  [I] is an invariant of the class under which values can be restored;
    [C20_library_classes] gives it for the library.  Missing: variables that are not restored exactly, see
    [C19_rotation_refuted]. *)
Theorem C19_lm_never_worse_partial : forall (I : V -> Prop) l1 l2 h1 g1 (p p' : pstate),
  undoable VC I -> cost_order (N:=N) -> finalized_history VC l1 l2 h1 (p_heap p) g1 (p_graph p) ->
  (forall a v, nth_error (p_heap p) a = Some v -> I v) ->
  st_method (p_set p) = LevenbergMarquardt -> optimize VC SV EV p = (p', Ok tt) -> p_caught p' = false ->
  exists r0 r1, stacked (p_heap p) (get_all_factors (p_graph p)) r0 /\ stacked (p_heap p') (get_all_factors (p_graph p)) r1 /\
    ss_chi2 (p_init p') = sqnorm r0 /\ ss_chi2 (p_cur p') = sqnorm r1 /\
    (p_heap p' = p_heap p /\ r1 = r0 \/ nltb (sqnorm r1) (sqnorm r0) = true).
Proof. exact (lm_not_worse VC SV EV Hok HE). Qed.
(** one step: rejected and undone, or accepted with a strictly smaller cost *)
Theorem C20_rejected_step_undone : forall (I : V -> Prop) l1 l2 h1 g1 (p p' : pstate),
  undoable VC I -> cost_order (N:=N) -> finalized_history VC l1 l2 h1 (p_heap p) g1 (p_graph p) ->
  (forall a v, nth_error (p_heap p) a = Some v -> I v) ->
  lm_step VC SV EV p = (p', Ok tt) ->
  exists r1 r2, stacked (p_heap p) (get_all_factors (p_graph p)) r1 /\ stacked (p_heap p') (get_all_factors (p_graph p)) r2 /\
    (p_heap p' = p_heap p /\ ss_status (p_cur p') <> RUNNING \/
     nltb (sqnorm r2) (sqnorm r1) = true /\ ss_status (p_cur p') = ss_status (p_cur p)).
Proof. exact (lm_step_undone VC SV EV Hok HE). Qed.

(** C21 *)
Theorem C21_stats_gauss_newton : forall l1 l2 h1 g1 (p p' : pstate),
  finalized_history VC l1 l2 h1 (p_heap p) g1 (p_graph p) -> st_method (p_set p) = GaussNewton ->
  optimize VC SV EV p = (p', Ok tt) -> p_caught p' = false ->
  exists r0 r1, stacked (p_heap p) (get_all_factors (p_graph p)) r0 /\ stacked (p_heap p') (get_all_factors (p_graph p)) r1 /\
    ss_chi2 (p_init p') = sqnorm r0 /\ ss_resnorm (p_init p') = vnorm r0 /\
    ss_chi2 (p_cur p') = sqnorm r1 /\ ss_resnorm (p_cur p') = vnorm r1.
Proof. exact (stats_gn VC SV EV Hok HE). Qed.
(** missing: variables that are not restored exactly, see [C21_rotation_refuted] *)
Theorem C21_stats_levenberg_marquardt_partial : forall (I : V -> Prop) l1 l2 h1 g1 (p p' : pstate),
  undoable VC I -> cost_order (N:=N) -> finalized_history VC l1 l2 h1 (p_heap p) g1 (p_graph p) ->
  (forall a v, nth_error (p_heap p) a = Some v -> I v) ->
  st_method (p_set p) = LevenbergMarquardt -> optimize VC SV EV p = (p', Ok tt) -> p_caught p' = false ->
  exists r0 r1, stacked (p_heap p) (get_all_factors (p_graph p)) r0 /\ stacked (p_heap p') (get_all_factors (p_graph p)) r1 /\
    ss_chi2 (p_init p') = sqnorm r0 /\ ss_resnorm (p_init p') = vnorm r0 /\
    ss_chi2 (p_cur p') = sqnorm r1 /\ ss_resnorm (p_cur p') = vnorm r1.
Proof. exact (stats_lm VC SV EV Hok HE). Qed.

(** C22: the run with its iteration limit lowered to the iterations completed ends in the same state *)
Theorem C22_failed_step_changes_nothing : forall l1 l2 h1 g1 (p p' : pstate),
  finalized_history VC l1 l2 h1 (p_heap p) g1 (p_graph p) -> st_method (p_set p) = GaussNewton ->
  optimize VC SV EV p = (p', Ok tt) -> p_caught p' = false ->
  ss_status (p_cur p') = FAILED \/ ss_status (p_cur p') = SINGULAR_HESSIAN \/ ss_status (p_cur p') = ILL_CONDITIONED ->
  ss_iter (p_cur p') < st_max_iter (p_set p) /\
  exists p2, optimize VC SV EV (with_max_iter (ss_iter (p_cur p')) p) = (p2, Ok tt) /\
    p_heap p2 = p_heap p' /\ ss_status (p_cur p2) = SUCCESS /\ ss_iter (p_cur p2) = ss_iter (p_cur p') /\
    ss_chi2 (p_cur p2) = ss_chi2 (p_cur p') /\ ss_resnorm (p_cur p2) = ss_resnorm (p_cur p').
Proof. exact (gn_failed_run VC SV EV Hok HE). Qed.

(** C25.  Missing: "with finite entries", see [C25_finite_refuted]. *)
Theorem C25_covariance_guarded_partial : forall (s : S) st l a (p : pstate) P, cov_order N ->
  orun VC SV EV (ostart s st) l = p -> snd (estimate_covariance VC SV (Some a) p) = Ok (Some P) ->
  (exists v pl, nth_error (p_heap p) a = Some v /\ vconst VC v = false /\ 0 < vsize VC v /\
     variable_placement (p_graph p) (vid VC v) = Some pl /\ mrows P = vp_dim pl /\ mcols P = vp_dim pl) /\
  (exists la lb lc, l = la ++ OOptimize :: lb ++ OPrepare :: lc /\
     (forall b st', ~ In (OSetup b st') lb) /\ (forall b st', ~ In (OSetup b st') lc) /\
     snd (optimize VC SV EV (orun VC SV EV (ostart s st) la)) = Ok tt) /\
  (forall i, i < mrows P -> nltb cov_limit (mat_at P i i) = false) /\
  (forall l1 l2 h1 g1 v, finalized_history VC l1 l2 h1 (p_heap p) g1 (p_graph p) -> In a (get_all_variables (p_graph p)) ->
     nth_error (p_heap p) a = Some v -> mrows P = vsize VC v /\ mcols P = vsize VC v).
Proof. exact (covariance_guarded VC SV EV HE Hok). Qed.

(** C55, Levenberg-Marquardt *)
Theorem C55_lm_success_improves_partial : forall (I : V -> Prop) l1 l2 h1 g1 (p p' : pstate),
  undoable VC I -> cost_order (N:=N) -> finalized_history VC l1 l2 h1 (p_heap p) g1 (p_graph p) ->
  (forall a v, nth_error (p_heap p) a = Some v -> I v) ->
  st_method (p_set p) = LevenbergMarquardt -> 1 <= st_max_iter (p_set p) -> optimize VC SV EV p = (p', Ok tt) ->
  ss_status (p_cur p') = SUCCESS ->
  exists r0 r1, stacked (p_heap p) (get_all_factors (p_graph p)) r0 /\ stacked (p_heap p') (get_all_factors (p_graph p)) r1 /\
    nltb (sqnorm r1) (sqnorm r0) = true /\ ss_chi2 (p_cur p') = sqnorm r1.
Proof. exact (lm_success_improves VC SV EV Hok HE). Qed.
End Props.

(** C20: the library's GenericVariable, LandmarkVariable and PoseVariable restore exactly in any arithmetic; in exact
    arithmetic all classes but RotationVariable do (see [C13_rotation_refuted] for that one) *)
Theorem C20_library_classes :
  (forall N, undoable (lib N) (fun v => exact_kind (l_kind v))) /\ undoable (lib RN) (fun v => real_kind (l_kind v)).
Proof. split; [intros N; exact lib_exact|exact lib_real]. Qed.

(** ** Concrete cases over IEEE doubles: [case_start] has an optimised variable at 7 with optimum 23/6 and two constants *)
Example C13_case : exists p', optimize (lib B0) (solver1 B0) EV0 (case_start GaussNewton) = (p', Ok tt) /\
  st_method (p_set (case_start GaussNewton)) = GaussNewton /\ p_heap p' <> p_heap (case_start GaussNewton).
Proof.
  exists (fst (case_end GaussNewton)). split; [apply case_pair|]. split; [reflexivity|]. intros E.
  assert (X : x_of (fst (case_end GaussNewton)) 0 = x_of (case_start GaussNewton) 0) by (unfold x_of; rewrite E; reflexivity).
  vm_compute in X. discriminate X.
Qed.
Example C13_lm_case : exists p', optimize (lib B0) (solver1 B0) EV0 (case_start LevenbergMarquardt) = (p', Ok tt) /\
  (forall a v, nth_error (p_heap (case_start LevenbergMarquardt)) a = Some v -> vconst (lib B0) v = true ->
     vset (lib B0) v (vval (lib B0) v) = Ok v) /\
  exists v, nth_error (p_heap (case_start LevenbergMarquardt)) 1 = Some v /\ vconst (lib B0) v = true.
Proof.
  exists (fst (case_end LevenbergMarquardt)). split; [apply case_pair|]. split.
  - intros a v Ha _. apply (un_self _ _ (lib_exact (N:=B0))). eapply case_exact; eauto.
  - eexists. split; reflexivity.
Qed.
Example C17_C18_case : forall m, p_hasgraph (case_start m) = true /\
  optimize (lib B0) (solver1 B0) EV0 (case_start m) = (fst (case_end m), Ok tt) /\
  ss_status (p_cur (fst (case_end m))) = SUCCESS /\ ss_iter (p_cur (fst (case_end m))) = 2 /\ p_nfact (fst (case_end m)) = 2.
Proof. intros m. destruct (case_facts m) as (A & B & C & D & E & F & G). split; auto. split; [apply case_pair|]. auto. Qed.
Example C19_C21_case : let p := case_start LevenbergMarquardt in exists l1 h1 g1 p',
  undoable (lib B0) (fun v => exact_kind (l_kind v)) /\ cost_order (N:=B0) /\
  finalized_history (lib B0) l1 [] h1 (p_heap p) g1 (p_graph p) /\
  (forall a v, nth_error (p_heap p) a = Some v -> exact_kind (l_kind v)) /\ st_method (p_set p) = LevenbergMarquardt /\
  optimize (lib B0) (solver1 B0) EV0 p = (p', Ok tt) /\ p_caught p' = false /\ ss_status (p_cur p') = SUCCESS.
Proof.
  intros p. eexists. eexists. eexists. exists (fst (case_end LevenbergMarquardt)).
  destruct (case_facts LevenbergMarquardt) as (A & B & C & D & E & F & G).
  split; [apply lib_exact|]. split; [apply double_cost_order|]. split; [apply (case_finalized LevenbergMarquardt)|].
  split; [apply (case_exact LevenbergMarquardt)|]. split; [exact E|]. split; [apply case_pair|]. auto.
Qed.
(** five rejected attempts *)
Example C20_case : exists l1 h1 g1 p',
  undoable (lib B0) (fun v => exact_kind (l_kind v)) /\ cost_order (N:=B0) /\
  finalized_history (lib B0) l1 [] h1 (p_heap neg_start) g1 (p_graph neg_start) /\
  (forall a v, nth_error (p_heap neg_start) a = Some v -> exact_kind (l_kind v)) /\
  lm_step (lib B0) (solver_neg B0) EV0 neg_start = (p', Ok tt) /\ ss_status (p_cur p') = FAILED /\ p_nfact p' = 5 /\ p_nbad p' = 0.
Proof.
  eexists. eexists. eexists. exists (fst neg_end).
  split; [apply lib_exact|]. split; [apply double_cost_order|]. split; [apply neg_finalized|].
  split; [apply neg_exact|]. split; [apply neg_pair|]. apply neg_facts.
Qed.
Example C21_case : let p := case_start GaussNewton in exists l1 h1 g1 p',
  finalized_history (lib B0) l1 [] h1 (p_heap p) g1 (p_graph p) /\ st_method (p_set p) = GaussNewton /\
  optimize (lib B0) (solver1 B0) EV0 p = (p', Ok tt) /\ p_caught p' = false /\ ss_iter (p_cur p') = 2.
Proof.
  intros p. eexists. eexists. eexists. exists (fst (case_end GaussNewton)).
  destruct (case_facts GaussNewton) as (A & B & C & D & E & F & G). split; [apply (case_finalized GaussNewton)|].
  split; [exact E|]. split; [apply case_pair|]. auto.
Qed.
(** one iteration completes, the second factorisation fails *)
Example C22_case : exists l1 h1 g1 p',
  finalized_history (lib B0) l1 [] h1 (p_heap once_start) g1 (p_graph once_start) /\ st_method (p_set once_start) = GaussNewton /\
  optimize (lib B0) solver_once EV0 once_start = (p', Ok tt) /\ p_caught p' = false /\ ss_status (p_cur p') = FAILED /\ ss_iter (p_cur p') = 1.
Proof.
  eexists. eexists. eexists. exists (fst once_end). destruct once_facts as (A & B & C & D). split; [apply once_finalized|].
  split; [reflexivity|]. split; [apply once_pair|]. auto.
Qed.
Example C25_case : cov_order B0 /\ exists P, snd cov_est = Ok (Some P) /\ mrows P = 1 /\ sf (mat_at P 0 0) = sf (bq (1#6)).
Proof.
  split; [apply double_cov_order|]. pose proof cov_facts as H.
  destruct (snd cov_est) as [[P|]|e|u]; try contradiction. exists P. split; [reflexivity|exact H].
Qed.

(** ** What fails *)
(** C13 and C20 for a RotationVariable: one rejected step replaces the matrix of a constant rotation *)
Theorem C13_rotation_refuted :
  ~ (forall L (S : Type) (SV : solver (BN L) S) l st s, let p := start (lib (BN L)) SV env0 s st l in
       forall p', optimize (lib (BN L)) SV EV0 p = (p', Ok tt) -> const_kept (lib (BN L)) (p_heap p) (p_heap p')).
Proof.
  intros H. apply rot_not_kept. apply (H Lq _ (solver1 Bq) rot_ops (defaults LevenbergMarquardt 10) (nzero, true)).
  destruct rot_facts as (E & _). revert E. unfold rot_end, rot_start. destruct (optimize _ _ _ _) as [p o]. cbn. intros ->. reflexivity.
Qed.
(** C19 and C21 for the same reason: a factor that reads the matrix of the rotation *)
Theorem C19_rotation_refuted :
  ~ (forall L (S : Type) (SV : solver (BN L) S) l st s, let p := start (lib (BN L)) SV env0 s st l in
       forall p' r1, optimize (lib (BN L)) SV EV0 p = (p', Ok tt) -> p_caught p' = false -> st_method st = LevenbergMarquardt ->
         stacked (p_heap p') (get_all_factors (p_graph p)) r1 -> nltb (n:=BN L) (ss_chi2 (p_init p')) (sqnorm r1) = false).
Proof.
  intros H. destruct ent_facts as (A & A2 & _ & B & _). destruct ent_stacked_ex as (r & Hr). rewrite (ent_stacked r Hr) in B.
  specialize (H Lq _ (solver1 Bq) ent_ops (defaults LevenbergMarquardt 10) (nzero, true)). cbn zeta in H.
  specialize (H (fst ent_end) r). unfold omap in B. apply Ok_inj in B.
  enough (E : optimize (lib Bq) (solver1 Bq) EV0 ent_start = (fst ent_end, Ok tt)).
  { pose proof (H E A2 eq_refl Hr) as K. unfold Bq in *. rewrite K in B. discriminate B. }
  revert A. unfold ent_end. destruct (optimize _ _ _ _) as [p o]. cbn. intros ->. reflexivity.
Qed.
Theorem C21_rotation_refuted :
  ~ (forall L (S : Type) (SV : solver (BN L) S) l st s, let p := start (lib (BN L)) SV env0 s st l in
       forall p' r1, optimize (lib (BN L)) SV EV0 p = (p', Ok tt) -> p_caught p' = false -> st_method st = LevenbergMarquardt ->
         stacked (p_heap p') (get_all_factors (p_graph p)) r1 -> nltb (n:=BN L) (ss_chi2 (p_cur p')) (sqnorm r1) = false).
Proof.
  intros H. destruct ent_facts as (A & A2 & _ & _ & B). destruct ent_stacked_ex as (r & Hr). rewrite (ent_stacked r Hr) in B.
  specialize (H Lq _ (solver1 Bq) ent_ops (defaults LevenbergMarquardt 10) (nzero, true)). cbn zeta in H.
  specialize (H (fst ent_end) r). unfold omap in B. apply Ok_inj in B.
  enough (E : optimize (lib Bq) (solver1 Bq) EV0 ent_start = (fst ent_end, Ok tt)).
  { pose proof (H E A2 eq_refl Hr) as K. unfold Bq in *. rewrite K in B. discriminate B. }
  revert A. unfold ent_end. destruct (optimize _ _ _ _) as [p o]. cbn. intros ->. reflexivity.
Qed.
Theorem C23_upper_bound_refuted :
  ~ (forall (S : Type) (SV : solver B0 S) l st s, let p := start (lib B0) SV env0 s st l in
       forall p', st_method st = LevenbergMarquardt -> optimize (lib B0) SV EV0 p = (p', Ok tt) ->
         nltb (n:=B0) (nmax (N:=B0) (st_lambda0 st) (st_max_lambda st)) (ss_lambda (p_cur p')) = false).
Proof.
  intros H. destruct lam_facts as (A & _ & _ & B).
  specialize (H _ (solver_bad B0) case_ops lam_set tt (fst lam_end) eq_refl).
  rewrite H in B; [discriminate B|]. revert A. unfold lam_end, lam_start. destruct (optimize _ _ _ _) as [p o]. cbn. intros ->. reflexivity.
Qed.
Theorem C25_finite_refuted :
  ~ (forall (S : Type) (SV : solver B0 S) l st s hist a P, let p := orun (lib B0) SV EV0 (start (lib B0) SV env0 s st l) hist in
       snd (estimate_covariance (lib B0) SV (Some a) p) = Ok (Some P) ->
       forall i j, i < mrows P -> j < mcols P -> nfinite (n:=B0) (mat_at P i j) = true).
Proof.
  intros H. destruct big_facts as (P & A & B & C & D).
  specialize (H _ solver_big big_ops (defaults GaussNewton 1) tt [OOptimize; OPrepare] 0 P). cbn zeta in H.
  rewrite (H A 0 1) in D; [discriminate D|lia|lia].
Qed.
(** C26: the block is not that of the Jacobian at the final estimate (x = 1, J = 2, so 1/4) *)
Theorem C26_stale_jacobian_refuted :
  snd (optimize (lib B0) (solver1 B0) EV0 sq_start) = Ok tt /\ x_of sq_mid 0 = [sf (bz 1)] /\
  omap (option_map (fun P => sf (mat_at P 0 0))) (snd sq_est) = Ok (Some (sf (bq (1#16)))) /\
  omap (map (fun J => sf (mat_at J 0 0))) (sq_jac (p_heap sq_mid)) = Ok [sf (bz 2)].
Proof. exact sq_facts. Qed.
(** and after a second optimize() call it is the inverse of a damped matrix *)
Theorem C26_second_run_refuted :
  omap (option_map (fun P => sf (mat_at P 0 0))) (snd (lin_est [OOptimize; OPrepare])) = Ok (Some (sf (bz 1))) /\
  omap (option_map (fun P => sf (mat_at P 0 0))) (snd (lin_est [OOptimize; OPrepare; OOptimize; OPrepare])) = Ok (Some (sf (bq (1#2)))).
Proof. exact lin_facts. Qed.
Theorem C55_nan_refuted :
  ~ (forall (S : Type) (SV : solver B0 S) l st s, let p := start (lib B0) SV env0 s st l in
       forall p', optimize (lib B0) SV EV0 p = (p', Ok tt) -> ss_status (p_cur p') = SUCCESS -> ss_valid (p_cur p') = true ->
         sf (ss_resnorm (p_cur p')) <> SpecFloat.S754_nan).
Proof.
  intros H. destruct nan_facts as (A & B & C & D). specialize (H _ (solver1 B0) nan_ops (defaults GaussNewton 1) (nzero, true)).
  cbn zeta in H. refine (H (fst nan_end) _ B C D).
  revert A. unfold nan_end, nan_start. destruct (optimize _ _ _ _) as [p o]. cbn. intros ->. reflexivity.
Qed.
Theorem C55_short_step_refuted :
  ~ (forall (S : Type) (SV : solver B0 S) l st s, let p := start (lib B0) SV env0 s st l in
       forall p', optimize (lib B0) SV EV0 p = (p', Ok tt) -> ss_status (p_cur p') = SUCCESS -> ss_valid (p_cur p') = true ->
         nltb (n:=B0) (ss_resnorm (p_init p')) (ss_resnorm (p_cur p')) = false).
Proof.
  intros H. destruct worse_facts as (A & B & C & D).
  specialize (H _ (solver1 B0) worse_ops worse_set (nzero, true)). cbn zeta in H.
  enough (E : optimize (lib B0) (solver1 B0) EV0 (start (lib B0) (solver1 B0) env0 (nzero, true) worse_set worse_ops) = (fst worse_end, Ok tt)).
  { rewrite (H _ E B C) in D. discriminate D. }
  revert A. unfold worse_end, worse_start. destruct (optimize _ _ _ _) as [p o]. cbn. intros ->. reflexivity.
Qed.

(** ** Exact arithmetic *)
Section RealProps.
Context {V : Type} (VC : vclass RN V) {S : Type} (SV : solver RN S) (EV : nat -> env (N:=RN) (V:=V)).
Notation pstate := (pstate (N:=RN) (V:=V) (S:=S)).
Local Open Scope R_scope.

(** C23, upper bound.  [p_nbad] counts attempts whose factorisation, conditioning check or solve failed; missing: the bound
    when there are such attempts, see [C23_upper_bound_refuted].  Compared with the claim there is also the floor 1e-12,
    which an accepted step may raise the parameter to. *)
Theorem C23_damping_upper_partial : forall (p p' : pstate),
  (0 <= st_lambda0 (p_set p) /\ 0 <= st_max_lambda (p_set p) /\ 0 <= st_up (p_set p) /\ 0 <= st_down (p_set p) <= 1)%R ->
  st_method (p_set p) = LevenbergMarquardt -> (1 <= st_max_iter (p_set p))%nat ->
  optimize VC SV EV p = (p', Ok tt) -> p_caught p' = false -> p_nbad p' = p_nbad p ->
  0 <= ss_lambda (p_cur p') <= Rmax (Rmax (st_lambda0 (p_set p)) (st_max_lambda (p_set p))) (1 / 1000000000000).
Proof. exact (lambda_upper VC SV EV). Qed.
(** with failed attempts: at most a factor lambda_up_factor for each *)
Theorem C23_damping_growth_partial : forall (p p' : pstate),
  (0 <= st_lambda0 (p_set p) /\ 0 <= st_max_lambda (p_set p) /\ 0 <= st_up (p_set p) /\ 0 <= st_down (p_set p) <= 1)%R ->
  st_method (p_set p) = LevenbergMarquardt -> (1 <= st_max_iter (p_set p))%nat ->
  optimize VC SV EV p = (p', Ok tt) -> p_caught p' = false ->
  0 <= ss_lambda (p_cur p') <=
    Rmax (Rmax (st_lambda0 (p_set p)) (st_max_lambda (p_set p))) (1 / 1000000000000) * Rmax 1 (st_up (p_set p)) ^ (p_nbad p' - p_nbad p).
Proof. exact (lambda_growth VC SV EV). Qed.
(** C23, lower bound: a step after which the optimiser is still running was accepted *)
Theorem C23_damping_floor : forall (p p' : pstate), lm_step VC SV EV p = (p', Ok tt) ->
  ss_status (p_cur p) = RUNNING -> ss_status (p_cur p') = RUNNING -> 1 / 1000000000000 <= ss_lambda (p_cur p').
Proof. exact (lambda_floor VC SV EV). Qed.

Hypothesis Hok : vclass_ok VC.
Hypothesis HE : forall n, env_ok (EV n).

(** C24 *)
Theorem C24_one_step_solves_linear : forall l1 l2 h1 g1 (p p' : pstate) jss,
  exact_solver SV ->
  finalized_history VC l1 l2 h1 (p_heap p) g1 (p_graph p) -> unfinalized VC ([], empty_graph) l1 ->
  let vs := get_all_variables (p_graph p) in let fs := get_all_factors (p_graph p) in
  Forall (factor_wf VC (p_heap p) vs) fs -> some_active VC (p_heap p) fs -> Forall buf_indep fs ->
  Forall2 (fun f js => f_jac f (p_heap p) [] = (js, Ok tt) /\ blocks_ok VC (p_heap p) (f_rsize f) (f_vars f) js) fs jss ->
  Forall2 (affine_at VC (p_heap p) vs) fs jss -> each_nonconst VC (p_heap p) vs (additive VC) ->
  st_method (p_set p) = GaussNewton -> st_max_iter (p_set p) = 1%nat -> st_rate (p_set p) = 1 ->
  optimize VC SV EV p = (p', Ok tt) -> p_caught p' = false ->
  ~ (ss_status (p_cur p') = FAILED \/ ss_status (p_cur p') = SINGULAR_HESSIAN \/ ss_status (p_cur p') = ILL_CONDITIONED) ->
  exists r, stacked (p_heap p') fs r /\ ss_chi2 (p_cur p') = sqnorm r /\ reassigned VC (p_heap p) (p_heap p') vs /\
    forall h' r', reassigned VC (p_heap p) h' vs -> stacked h' fs r' -> sqnorm r <= sqnorm r'.
Proof. exact (gn_solves_linear VC SV EV Hok HE). Qed.

(** C26, relative to the sparse Jacobian the graph holds when covariances are prepared.  Missing: that this is the
    Jacobian at the final estimate, and later optimize() calls; see [C26_stale_jacobian_refuted]. *)
Theorem C26_covariance_block_partial : forall (p p1 : pstate) a J P W H,
  exact_solver SV -> p_hvalid p = false -> p_complete p = true ->
  omap sp_dense (sparse_jacobian (p_graph p)) = Ok J -> prepare SV p = (p1, Ok tt) ->
  snd (estimate_covariance VC SV (Some a) p1) = Ok (Some P) ->
  is_gram J H -> left_inverse W H ->
  exists v pl, nth_error (p_heap p) a = Some v /\ variable_placement (p_graph p) (vid VC v) = Some pl /\
    mrows P = vp_dim pl /\ mcols P = vp_dim pl /\
    (forall i j, (i < vp_dim pl)%nat -> (j < vp_dim pl)%nat -> mat_at P i j = mat_at W (vp_index pl + i) (vp_index pl + j)) /\
    (forall i j, (i < vp_dim pl)%nat -> (j < vp_dim pl)%nat -> mat_at P i j = mat_at P j i).
Proof. intros p p1 a J P W H A B C D E F. exact (covariance_block VC SV p p1 a J P W A B C D E F H). Qed.
End RealProps.

(** ** Concrete cases over the reals: a variable at 7 with priors 3 and 5 *)
Example C23_case : let p := rstart LevenbergMarquardt in
  (0 <= st_lambda0 (p_set p) /\ 0 <= st_max_lambda (p_set p) /\ 0 <= st_up (p_set p) /\ 0 <= st_down (p_set p) <= 1)%R /\
  st_method (p_set p) = LevenbergMarquardt /\ 1 <= st_max_iter (p_set p) /\
  exists p', optimize (lib RN) (solver1 RN) EV0 p = (p', Ok tt) /\ p_caught p' = false /\ p_nbad p' = p_nbad p /\ ss_lambda (p_cur p') = (1/2)%R.
Proof.
  cbn zeta. split; [cbn; lra|]. split; [reflexivity|]. split; [cbn; lia|]. exact lm_real.
Qed.
Example C23_floor_case : let p := rbegun LevenbergMarquardt in exists p', lm_step (lib RN) (solver1 RN) EV0 p = (p', Ok tt) /\
  ss_status (p_cur p) = RUNNING /\ ss_status (p_cur p') = RUNNING.
Proof. cbn zeta. destruct lm_step_real as (p2 & A & B & _). exists p2. split; [exact A|]. split; [reflexivity|exact B]. Qed.
(** C24 applied: the run ends at 4 and no other value has a smaller cost *)
Example C24_case : exists p' r, optimize (lib RN) (solver1 RN) EV0 (rstart GaussNewton) = (p', Ok tt) /\
  p_heap p' = [LVar 1 false (KGeneric [4%R])] /\ stacked (p_heap p') (get_all_factors (p_graph (rstart GaussNewton))) r /\
  forall h' r', reassigned (lib RN) (p_heap (rstart GaussNewton)) h' [0] ->
    stacked h' (get_all_factors (p_graph (rstart GaussNewton))) r' -> (sqnorm (N:=RN) r <= sqnorm (N:=RN) r')%R.
Proof.
  destruct gn_real as (p' & E & Hc & Hs & _ & _ & _ & _ & Hh). exists p'.
  set (f1 := generic_prior (lib RN) 10 0 [3%R] 1%R). set (f2 := generic_prior (lib RN) 11 0 [5%R] 1%R).
  set (v := LVar (N:=RN) 1 false (KGeneric [7%R])).
  assert (Fs : get_all_factors (p_graph (rstart GaussNewton)) = [f1; f2]) by reflexivity.
  assert (Vs : get_all_variables (p_graph (rstart GaussNewton)) = [0]) by reflexivity.
  assert (Hp : p_heap (rstart GaussNewton) = [v]) by reflexivity.
  assert (W : forall id x, factor_wf (lib RN) [v] [0] (generic_prior (lib RN) id 0 [x] 1%R)).
  { intros id x. split; [cbn; lia|]. split; [|cbn; constructor; [intros []|constructor]].
    intros q [<-|[]]. exists 0, v. split; auto. split; auto. split; [intros _; split; [left; reflexivity|cbn; lia]|]. intros b [<-|[]] _. reflexivity. }
  assert (A : forall id x, affine_at (lib RN) [v] [0] (generic_prior (lib RN) id 0 [x] 1%R) (gprior_blocks (lib RN) v 1 (1 / 1)%R)).
  { intros id x. apply (gprior_affine (lib RN) id 0 [x] 1%R [v] [0] v); cbn; auto. }
  destruct (C24_one_step_solves_linear (lib RN) (solver1 RN) EV0 lib_ok EV0_ok rl [] _ _ (rstart GaussNewton) p'
    [gprior_blocks (lib RN) v 1 (1/1)%R; gprior_blocks (lib RN) v 1 (1/1)%R] solver1_exact (rfinalized GaussNewton)) as (r & H1 & _ & _ & H2); auto.
  - repeat (split; [discriminate|]). exact I.
  - rewrite Fs, Vs, Hp. constructor; [apply W|constructor; [apply W|constructor]].
  - rewrite Fs, Hp. exists f1, 0, v. cbn. auto.
  - assert (B : forall id x, buf_indep (generic_prior (lib RN) id 0 [x] 1%R)).
    { intros id x h b _. cbn. split; [reflexivity|]. intros _. unfold gprior_jac. destruct (hget h 0); cbn; [|constructor..].
      destruct (l_const _); repeat constructor. }
    rewrite Fs. constructor; [apply B|constructor; [apply B|constructor]].
  - assert (B : forall id x, let f := generic_prior (lib RN) id 0 [x] 1%R in f_jac f [v] [] = (gprior_blocks (lib RN) v 1 (1/1)%R, Ok tt) /\
      blocks_ok (lib RN) [v] (f_rsize f) (f_vars f) (gprior_blocks (lib RN) v 1 (1/1)%R)).
    { intros id x. cbn zeta. split; [|apply (gprior_blocks_ok (lib RN) 0 1 (1/1)%R [v] v); reflexivity].
      cbn. unfold gprior_jac, gprior_blocks, hget. cbn. repeat f_equal. unfold nunit. cbn. rewrite q1. reflexivity. }
    rewrite Fs, Hp. constructor; [apply B|constructor; [apply B|constructor]].
  - rewrite Fs, Vs, Hp. constructor; [apply A|constructor; [apply A|constructor]].
  - rewrite Vs, Hp. intros a v0 [<-|[]] Hv _. inversion Hv; subst v0. split; [reflexivity|]. intros [|x [|]] Hx; try discriminate.
    eexists. split; [reflexivity|]. split; [reflexivity|]. intros [|c] Hcc; [reflexivity|cbn in Hcc; lia].
  - intros [K|[K|K]]; destruct Hs as [Hs|Hs]; rewrite Hs in K; discriminate.
  - exists r. rewrite Vs in H2. auto.
Qed.
(** C26: all hypotheses met after the run of [C24_case]; J^T J = 2 *)
Example C26_case : exists p p1 J P, optimize (lib RN) (solver1 RN) EV0 (rstart GaussNewton) = (p, Ok tt) /\
  exact_solver (solver1 RN) /\ p_hvalid p = false /\ p_complete p = true /\
  omap sp_dense (sparse_jacobian (p_graph p)) = Ok J /\ prepare (solver1 RN) p = (p1, Ok tt) /\
  snd (estimate_covariance (lib RN) (solver1 RN) (Some 0) p1) = Ok (Some P) /\ mat_at P 0 0 = (1/2)%R /\
  is_gram J (Mat 1 1 (fun _ _ => 2%R)) /\ left_inverse (N:=RN) (Mat 1 1 (fun _ _ => (1/2)%R)) (Mat 1 1 (fun _ _ => 2%R)).
Proof.
  destruct gn_real as (p & E & _ & _ & Hk & Hv & (M & HM & R1 & R2 & E0 & E1') & Hp & Hh).
  destruct (cov_real p M Hv Hk HM R1 R2 E0 E1' Hp Hh) as (p1 & P & A & B & _ & _ & C).
  exists p, p1, (sp_dense M), P. split; [exact E|]. split; [apply solver1_exact|]. split; [exact Hv|]. split; [exact Hk|].
  split; [rewrite HM; reflexivity|]. split; [exact A|]. split; [exact B|]. split; [exact C|]. split.
  - split; [symmetry; exact R2|]. split; [symmetry; exact R2|]. intros i j Hi Hj. rewrite R2 in Hi, Hj. assert (i = 0) by lia. assert (j = 0) by lia. subst.
    rewrite R1. cbn [seq map mat_at]. unfold vsum. cbn [fold_left]. rewrite E0, E1'. cbn. unfold Q2R. simpl. lra.
  - split; [reflexivity|]. split; [reflexivity|]. intros i j Hi Hj. cbn in Hi, Hj. assert (i = 0) by lia. assert (j = 0) by lia. subst.
    cbn. unfold Q2R. simpl. lra.
Qed.

Print Assumptions C13_gauss_newton_keeps_constants.
Print Assumptions C13_levenberg_marquardt_partial.
Print Assumptions C17_bounded_work.
Print Assumptions C18_final_status.
Print Assumptions C19_lm_never_worse_partial.
Print Assumptions C20_rejected_step_undone.
Print Assumptions C21_stats_gauss_newton.
Print Assumptions C21_stats_levenberg_marquardt_partial.
Print Assumptions C22_failed_step_changes_nothing.
Print Assumptions C25_covariance_guarded_partial.
Print Assumptions C55_lm_success_improves_partial.
Print Assumptions C20_library_classes.
Print Assumptions C13_rotation_refuted.
Print Assumptions C19_rotation_refuted.
Print Assumptions C21_rotation_refuted.
Print Assumptions C23_upper_bound_refuted.
Print Assumptions C25_finite_refuted.
Print Assumptions C26_stale_jacobian_refuted.
Print Assumptions C26_second_run_refuted.
Print Assumptions C55_nan_refuted.
Print Assumptions C55_short_step_refuted.
Print Assumptions C23_damping_upper_partial.
Print Assumptions C23_damping_growth_partial.
Print Assumptions C23_damping_floor.
Print Assumptions C24_one_step_solves_linear.
Print Assumptions C26_covariance_block_partial.
