(** C77-C79: covariances after optimize().  Statements use SpecGraph, SpecOpt, SpecShape, SpecSolver, SpecSteps, SpecCov, SpecFree, SpecGauge
    and SpecSimilar; [limit k p] is the state [p] with max_num_iterations set to [k]. *)
From Coq Require Import List Arith ZArith QArith Bool Reals Lra Lia Permutation.
From Verif Require Import Base Sparse Graph SpecGraph SpecOpt Geom Vars VarsLemmas FactorsLin FactorsGeo FactorLib SpecShape FactorSafe Optimizer OptLemmas OptWork OptRun OptMore OptEnds OptLast Real RSum SpecBlocks SpecSolver
  SpecSteps OptSteps SpecCov SpecFree SpecGauge GaugeRun SpecSimilar OptVerdict CovRun OptReal Ldlt LdltSolver LdltCase Float OptToy OptCases GaugeCase SimilarCase PropsSteps PropsVerdict PropsGauge PropsSimilar.
Import ListNotations.
Local Open Scope nat_scope.
Set Bullet Behavior "Strict Subproofs".

(** C77, for every scalar type, variable class, factor class and linear solver: the sparse Jacobian that the graph holds after a run, and from
    which covariances are computed, is what compute_sparse_jacobian_matrix() gives after a run with one iteration less *)
Theorem C77_jacobian_of_last_iteration : forall {N : num} {V : Type} (VC : vclass N V) {S : Type} (SV : solver N S) (EV : nat -> env (N:=N) (V:=V)),
  (forall n, env_ok (EV n)) -> forall p p' : pstate (N:=N) (V:=V) (S:=S),
  optimize VC SV EV p = (p', Ok tt) -> p_caught p' = false -> 1 <= st_max_iter (p_set p) ->
  exists j q Mx, j < st_max_iter (p_set p) /\
    optimize VC SV EV (limit j p) = (q, Ok tt) /\ p_caught q = false /\ ss_status (p_cur q) = SUCCESS /\ ss_iter (p_cur q) = j /\
    (ss_iter (p_cur p') = Datatypes.S j \/ ss_iter (p_cur p') = j /\ failure (ss_status (p_cur p')) /\ p_heap p' = p_heap q) /\
    compute_sparse VC (p_heap q) (p_graph q) = (p_graph p', Ok Mx) /\ sparse_jacobian (p_graph p') = Ok Mx.
Proof. intros N V VC S SV EV HE. exact (last_jacobian VC SV EV HE). Qed.

Section Any.
Context {V : Type} (VC : vclass RN V) {S : Type} (SV : solver RN S) (EV : nat -> env (N:=RN) (V:=V)).
Notation pstate := (pstate (N:=RN) (V:=V) (S:=S)).
Hypothesis Hok : vclass_ok VC.
Hypothesis HE : forall n, env_ok (EV n).
Hypothesis HF : factorising_solver SV.

(** C77 in exact arithmetic: what is reported *)
Theorem C77_covariances_before_last_step : forall (I : V -> Prop) l1 l2 h1 g1 (p p' : pstate),
  finalized_history VC l1 l2 h1 (p_heap p) g1 (p_graph p) -> unfinalized VC ([], empty_graph) l1 ->
  let vs := get_all_variables (p_graph p) in let fs := get_all_factors (p_graph p) in
  Forall (factor_wf VC (p_heap p) vs) fs -> some_active VC (p_heap p) fs -> Forall buf_indep fs -> shape_contract VC (p_heap p) fs ->
  st_method (p_set p) = GaussNewton \/ undoable VC I /\ (forall a v, nth_error (p_heap p) a = Some v -> I v) ->
  1 <= st_max_iter (p_set p) -> p_hvalid p = false -> optimize VC SV EV p = (p', Ok tt) -> p_caught p' = false ->
  exists j q J p1, j < st_max_iter (p_set p) /\
    optimize VC SV EV (limit j p) = (q, Ok tt) /\ p_caught q = false /\ ss_status (p_cur q) = SUCCESS /\ ss_iter (p_cur q) = j /\
    (ss_iter (p_cur p') = Datatypes.S j \/ ss_iter (p_cur p') = j /\ failure (ss_status (p_cur p')) /\ p_heap p' = p_heap q) /\
    jacobian_at VC (p_heap q) vs fs J /\ prepare SV p' = (p1, Ok tt) /\
    reports VC (p_heap p') vs J (fun a => snd (estimate_covariance VC SV (Some a) p1)) /\ revalued VC (p_heap p) (p_heap q) /\ revalued VC (p_heap p) (p_heap p').
Proof. exact (last_covariances VC SV EV Hok HE HF). Qed.

(** C78: factors whose Jacobians do not depend on the values *)
Theorem C78_constant_jacobians : forall (I : V -> Prop) l1 l2 h1 g1 (p p' : pstate),
  finalized_history VC l1 l2 h1 (p_heap p) g1 (p_graph p) -> unfinalized VC ([], empty_graph) l1 ->
  let vs := get_all_variables (p_graph p) in let fs := get_all_factors (p_graph p) in
  Forall (factor_wf VC (p_heap p) vs) fs -> some_active VC (p_heap p) fs -> Forall buf_indep fs -> shape_contract VC (p_heap p) fs ->
  (forall f h, In f fs -> revalued VC (p_heap p) h -> f_jac f h [] = f_jac f (p_heap p) []) ->
  st_method (p_set p) = GaussNewton \/ undoable VC I /\ (forall a v, nth_error (p_heap p) a = Some v -> I v) ->
  1 <= st_max_iter (p_set p) -> p_hvalid p = false -> optimize VC SV EV p = (p', Ok tt) -> p_caught p' = false ->
  exists J p1, jacobian_at VC (p_heap p') vs fs J /\ prepare SV p' = (p1, Ok tt) /\
    reports VC (p_heap p') vs J (fun a => snd (estimate_covariance VC SV (Some a) p1)).
Proof. exact (fixed_covariances VC SV EV Hok HE HF). Qed.
End Any.

Section Library.
Context {S : Type} (SV : solver RN S) (EV : nat -> env (N:=RN) (V:=lvar RN)).
Notation pstate := (pstate (N:=RN) (V:=lvar RN) (S:=S)).
Hypothesis HE : forall n, env_ok (EV n).
Hypothesis HF : factorising_solver SV.

(** C78 for the classes of the library that have such Jacobians *)
Theorem C78_final_covariances : forall l1 l2 h1 g1 (p p' : pstate),
  finalized_history (lib RN) l1 l2 h1 (p_heap p) g1 (p_graph p) -> unfinalized (lib RN) ([], empty_graph) l1 ->
  careful ([], empty_graph) l1 -> careful (h1, g1) l2 ->
  let vs := get_all_variables (p_graph p) in let fs := get_all_factors (p_graph p) in
  Forall (factor_wf (lib RN) (p_heap p) vs) fs -> some_active (lib RN) (p_heap p) fs -> Forall (fun f => exists lf, f = build lf /\ value_free lf) fs ->
  st_method (p_set p) = GaussNewton \/ (forall a v, nth_error (p_heap p) a = Some v -> real_kind (l_kind v)) ->
  1 <= st_max_iter (p_set p) -> p_hvalid p = false -> optimize (lib RN) SV EV p = (p', Ok tt) -> p_caught p' = false ->
  exists J p1, jacobian_at (lib RN) (p_heap p') vs fs J /\ prepare SV p' = (p1, Ok tt) /\
    reports (lib RN) (p_heap p') vs J (fun a => snd (estimate_covariance (lib RN) SV (Some a) p1)).
Proof. exact (free_covariances SV EV HE HF). Qed.

(** C79: graphs that float *)
Theorem C79_floating_no_covariances : forall l1 l2 h1 g1 (p p' : pstate) tr,
  finalized_history (lib RN) l1 l2 h1 (p_heap p) g1 (p_graph p) -> unfinalized (lib RN) ([], empty_graph) l1 ->
  careful ([], empty_graph) l1 -> careful (h1, g1) l2 ->
  let vs := get_all_variables (p_graph p) in let fs := get_all_factors (p_graph p) in
  Forall (factor_wf (lib RN) (p_heap p) vs) fs -> some_active (lib RN) (p_heap p) fs ->
  Forall (untouched (p_heap p) tr) fs -> something_moves (p_heap p) tr vs ->
  st_method (p_set p) = GaussNewton \/ planes_stay (p_heap p) tr /\ (forall a v, nth_error (p_heap p) a = Some v -> real_kind (l_kind v)) ->
  1 <= st_max_iter (p_set p) -> p_hvalid p = false -> optimize (lib RN) SV EV p = (p', Ok tt) -> p_caught p' = false ->
  exists p1, prepare SV p' = (p1, Ok tt) /\ forall a v, nth_error (p_heap p') a = Some v -> snd (estimate_covariance (lib RN) SV (Some a) p1) = Ok None.
Proof. exact (floating_covariances SV EV HE HF). Qed.
(** and, with Gauss-Newton, all other motions that no measurement notices *)
Theorem C79_unseen_motion_no_covariances : forall l1 l2 h1 g1 (p p' : pstate) u,
  finalized_history (lib RN) l1 l2 h1 (p_heap p) g1 (p_graph p) -> unfinalized (lib RN) ([], empty_graph) l1 ->
  careful ([], empty_graph) l1 -> careful (h1, g1) l2 ->
  let vs := get_all_variables (p_graph p) in let fs := get_all_factors (p_graph p) in
  Forall (factor_wf (lib RN) (p_heap p) vs) fs -> some_active (lib RN) (p_heap p) fs ->
  Forall (overlooked (p_heap p) u) fs -> in_motion (p_heap p) u vs -> st_method (p_set p) = GaussNewton ->
  1 <= st_max_iter (p_set p) -> p_hvalid p = false -> optimize (lib RN) SV EV p = (p', Ok tt) -> p_caught p' = false ->
  exists p1, prepare SV p' = (p1, Ok tt) /\ forall a v, nth_error (p_heap p') a = Some v -> snd (estimate_covariance (lib RN) SV (Some a) p1) = Ok None.
Proof. exact (unseen_covariances SV EV HE HF). Qed.
End Library.

(** ** Concrete cases *)
(** C77, doubles, a factor with residual x^2: one step leads from 2 to 1; the Jacobian held is 4, that of the value 2 *)
Example C77_case : let p' := fst (optimize (lib B0) (solver1 B0) EV0 sq_start) in exists q Mx,
  optimize (lib B0) (solver1 B0) EV0 (limit 0 sq_start) = (q, Ok tt) /\ x_of q 0 = [sf (bz 2)] /\ x_of p' 0 = [sf (bz 1)] /\
  compute_sparse (lib B0) (p_heap q) (p_graph q) = (p_graph p', Ok Mx) /\ sparse_jacobian (p_graph p') = Ok Mx /\ sf (mat_at (sp_dense Mx) 0 0) = sf (bz 4).
Proof.
  cbn zeta. assert (E : optimize (lib B0) (solver1 B0) EV0 sq_start = (fst (optimize (lib B0) (solver1 B0) EV0 sq_start), Ok tt)).
  { destruct sq_facts as (A & _). revert A. destruct (optimize (lib B0) (solver1 B0) EV0 sq_start) as [a b]. cbn. intros ->. reflexivity. }
  destruct (C77_jacobian_of_last_iteration (lib B0) (solver1 B0) EV0 EV0_ok sq_start _ E) as (j & q & Mx & J1 & J2 & _ & _ & _ & _ & J3 & J4); [vm_compute; reflexivity|vm_compute; lia|].
  change (st_max_iter (p_set sq_start)) with 1 in J1. assert (j = 0) by lia. subst j. exists q, Mx. split; [exact J2|].
  assert (q = fst (optimize (lib B0) (solver1 B0) EV0 (limit 0 sq_start))) as Hq by (rewrite J2; reflexivity).
  split; [rewrite Hq; vm_compute; reflexivity|]. split; [vm_compute; reflexivity|]. split; [exact J3|]. split; [exact J4|].
  assert (X : omap (fun M => sf (mat_at (sp_dense M) 0 0)) (sparse_jacobian (p_graph (fst (optimize (lib B0) (solver1 B0) EV0 sq_start)))) = Ok (sf (bz 4))) by (vm_compute; reflexivity).
  rewrite J4 in X. cbn in X. injection X as X. exact X.
Qed.
(** C77, C78: a variable with two priors, weight 1 each; the variance is 1/2 *)
Example C78_case : exists p' p1 P, optimize (lib RN) LS EV0 (lstart GaussNewton) = (p', Ok tt) /\ prepare LS p' = (p1, Ok tt) /\
  snd (estimate_covariance (lib RN) LS (Some 0) p1) = Ok (Some P) /\ mat_at P 0 0 = (1/2)%R.
Proof.
  destruct lgn_real as (p' & E & Hc & _ & _ & _ & _ & Hh). exists p'. destruct (same_start GaussNewton) as (Sh & Sg & _).
  destruct (small_graph GaussNewton) as (A & B & C & D & F). cbn zeta in A, C, D. rewrite <- Sh, <- Sg in A, C, D.
  destruct (C78_final_covariances LS EV0 EV0_ok LS_factorising _ _ _ _ (lstart GaussNewton) p' A B F I C D) as (J & p1 & HJ & Hp & Hr); auto.
  - change (get_all_factors (p_graph (lstart GaussNewton))) with priors. constructor; [exists (LGenericPrior (N:=RN) 10 0 [3%R] 1%R); split; [reflexivity|exact I]|].
    constructor; [exists (LGenericPrior (N:=RN) 11 0 [5%R] 1%R); split; [reflexivity|exact I]|constructor].
  - change (jacobian_at (lib RN) (p_heap p') [0] priors J) in HJ. change (get_all_variables (p_graph (lstart GaussNewton))) with [0] in Hr. rewrite Hh in HJ, Hr.
    destruct (jacobian_unique _ _ _ _ _ _ HJ (prior_jacobian 4)) as (U1 & U2 & U3). cbn [mrows mcols prior_jac] in U1, U2.
    assert (Z : forall k, k < 2 -> mat_at J k 0 = 1%R).
    { intros k Hk. rewrite U3; [|rewrite U1; exact Hk|rewrite U2; lia]. cbn. rewrite q1. lra. }
    exists p1. destruct Hr as [((x & L & (i & Hi & Hx) & W) & _)|(_ & H & W & HG & HW & Hr)].
    + exfalso. rewrite U2 in Hi. assert (i = 0) by lia. subst i. specialize (W 0). rewrite U1, U2 in W. specialize (W ltac:(lia)). cbn [rsum] in W. rewrite (Z 0) in W by lia. lra.
    + assert (W0 : mat_at W 0 0 = (1/2)%R).
      { destruct HG as (G1 & G2 & G3). rewrite U2 in G1, G2. destruct HW as (W1 & W2 & W3). rewrite G1 in W1. rewrite G2 in W2. specialize (W3 0 0). rewrite W1, W2, G2 in W3. specialize (W3 ltac:(lia) ltac:(lia)).
        specialize (G3 0 0). rewrite U1, U2 in G3. specialize (G3 ltac:(lia) ltac:(lia)). cbn in G3, W3. rewrite G3, (Z 0), (Z 1), ?q0, ?q1 in W3 by lia. lra. }
      destruct (Hr 0 0 _ eq_refl eq_refl eq_refl (Nat.lt_0_succ 0)) as [(P & P1 & (_ & _ & P2) & _)|(_ & i & Hi & Hb)].
      * exists P. split; [exact E|]. split; [exact Hp|]. split; [exact P1|]. rewrite (P2 0 0) by (cbn; lia). exact W0.
      * exfalso. cbn in Hi. assert (i = 0) by lia. subst i. change (1000000000000 < mat_at W 0 0)%R in Hb. rewrite W0 in Hb. lra.
Qed.
(** C79: the loop of three planar poses of C71 and C72, both methods *)
Example C79_case (p1 p2 p3 m1 m2 m3 : v3 RN) (s : R) (loc : bool) m :
  exists p' q, optimize (lib RN) GS EV0 (gstart p1 p2 p3 m1 m2 m3 s loc in_turn m) = (p', Ok tt) /\ prepare GS p' = (q, Ok tt) /\
    forall a v, nth_error (p_heap p') a = Some v -> snd (estimate_covariance (lib RN) GS (Some a) q) = Ok None.
Proof.
  destruct (g_runs p1 p2 p3 m1 m2 m3 s loc in_turn (fun H => seq_length _ _) m) as (p' & E & Hc). exists p'.
  destruct (C79_floating_no_covariances GS EV0 EV0_ok GS_factorising _ _ _ _ (gstart p1 p2 p3 m1 m2 m3 s loc in_turn m) p' (along 0) (g_history p1 p2 p3 m1 m2 m3 s loc in_turn m)
    (g_unfinalized p1 p2 p3 m1 m2 m3 s loc) (g_careful p1 p2 p3 m1 m2 m3 s loc) I) as (q & X & Y); [..|exact E|exact Hc|].
  - exact (g_wf p1 p2 p3 m1 m2 m3 s loc).
  - exact (g_active p1 p2 p3 m1 m2 m3 s loc).
  - exact (g_untouched p1 p2 p3 m1 m2 m3 s loc 0).
  - rewrite g_heap, g_variables. exists 0, 0. split; [left; reflexivity|]. split; [cbn; lia|]. cbn. lra.
  - right. rewrite g_heap. split.
    + intros a v n e Hv Hk. do 6 (destruct a as [|a]; [injection Hv as <-; discriminate|]). destruct a; discriminate.
    + intros a v Hv. do 6 (destruct a as [|a]; [injection Hv as <-; cbn; try apply wrap_idem; exact I|]). destruct a; discriminate.
  - rewrite g_set. cbn. lia.
  - reflexivity.
  - exists q. auto.
Qed.
(** the map made from directions of C76 *)
Example C79_unseen_case (cam : bool) (a b l m ra rb o1 o2 o3 o4 : v3 RN) (s tol : R) : m <> (if cam then a else l) ->
  exists p' q, optimize (lib RN) GS EV0 (zstart cam a b l m ra rb o1 o2 o3 o4 s tol in_turn GaussNewton) = (p', Ok tt) /\ prepare GS p' = (q, Ok tt) /\
    forall x v, nth_error (p_heap p') x = Some v -> snd (estimate_covariance (lib RN) GS (Some x) q) = Ok None.
Proof.
  intros Ne. destruct (z_runs cam a b l m ra rb o1 o2 o3 o4 s tol in_turn (fun H => seq_length _ _) GaussNewton) as (p' & E & Hc). exists p'.
  destruct (C79_unseen_motion_no_covariances GS EV0 EV0_ok GS_factorising _ _ _ _ (zstart cam a b l m ra rb o1 o2 o3 o4 s tol in_turn GaussNewton) p' (zu cam a b l m ra rb (v3zero (N:=RN)))
    (z_history cam a b l m ra rb o1 o2 o3 o4 s tol in_turn GaussNewton) (z_unfinalized cam a b l m ra rb o1 o2 o3 o4 s tol) (z_careful cam a b l m ra rb o1 o2 o3 o4 s tol) I) as (q & X & Y); [..|exact E|exact Hc|].
  - rewrite z_heap, z_factors, z_variables. exact (z_wf cam a b l m ra rb o1 o2 o3 o4 s tol).
  - rewrite z_heap, z_factors. exact (z_active cam a b l m ra rb o1 o2 o3 o4 s tol).
  - rewrite z_heap, z_factors. apply z_overlooked.
  - rewrite z_heap, z_variables. apply z_motion. exact Ne.
  - exact (f_equal st_method (z_set cam a b l m ra rb o1 o2 o3 o4 s tol in_turn GaussNewton)).
  - rewrite z_set. cbn. lia.
  - destruct cam; reflexivity.
  - exists q. auto.
Qed.
Print Assumptions C77_jacobian_of_last_iteration.
Print Assumptions C77_covariances_before_last_step.
Print Assumptions C78_constant_jacobians.
Print Assumptions C78_final_covariances.
Print Assumptions C79_floating_no_covariances.
Print Assumptions C79_unseen_motion_no_covariances.
