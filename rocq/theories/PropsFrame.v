(** C84, C85: the planar frame in which a problem is written down does not matter to Gauss-Newton, and covariances are turned with it (exact arithmetic). *)
From Coq Require Import List Arith ZArith QArith Bool Reals Lra Lia.
From Verif Require Import Base Sparse Graph SpecGraph SpecOpt Geom Vars VarsLemmas FactorsLin FactorsGeo FactorLib SpecShape Optimizer Real RSum SpecSolver SpecSteps OptStepsLib SpecTwin SpecMarginal OptWork MarginalRun SpecFrame FrameRun.
From Verif Require Import OptToy Ldlt LdltSolver OptReal LdltCase OptDefined Gram OrderCase PartCase FrameCase.
Import ListNotations.
Local Open Scope nat_scope.
Set Bullet Behavior "Strict Subproofs".

Theorem C84_other_frame : forall (phi tx ty : R) (ro : addr -> role) {S S' : Type} (SV : solver RN S) (SV' : solver RN S') (EV EV' : nat -> env (N:=RN) (V:=lvar RN)),
  (forall n, env_ok (EV n)) -> (forall n, env_ok (EV' n)) ->
  forall l1 l1' l2 l2' h1 h1' g1 g1' (p p' : pstate (N:=RN) (V:=lvar RN) (S:=S)) (q q' : pstate (N:=RN) (V:=lvar RN) (S:=S')), exact_solver SV -> factorising_solver SV' ->
  finalized_history (lib RN) l1 l2 h1 (p_heap p) g1 (p_graph p) -> unfinalized (lib RN) ([], empty_graph) l1 -> careful ([], empty_graph) l1 -> careful (h1, g1) l2 ->
  finalized_history (lib RN) l1' l2' h1' (p_heap q) g1' (p_graph q) -> unfinalized (lib RN) ([], empty_graph) l1' -> careful ([], empty_graph) l1' -> careful (h1', g1') l2' ->
  let vs := get_all_variables (p_graph p) in let fs := get_all_factors (p_graph p) in let fs' := get_all_factors (p_graph q) in
  heaps (reframed_var phi tx ty ro) (p_heap p) (p_heap q) -> get_all_variables (p_graph q) = vs -> Forall2 (same_in_frame phi tx ty ro) fs fs' ->
  Forall (factor_wf (lib RN) (p_heap p) vs) fs -> some_active (lib RN) (p_heap p) fs ->
  st_method (p_set p) = GaussNewton -> st_method (p_set q) = GaussNewton -> st_rate (p_set p) = st_rate (p_set q) ->
  optimize (lib RN) SV EV p = (p', Ok tt) -> optimize (lib RN) SV' EV' q = (q', Ok tt) -> p_caught p' = false -> p_caught q' = false ->
  ss_iter (p_cur p') = ss_iter (p_cur q') ->
  heaps (reframed_var phi tx ty ro) (p_heap p') (p_heap q') /\
  forall r r', stacked (p_heap p') fs r -> stacked (p_heap q') fs' r' -> sqnorm (N:=RN) r = sqnorm (N:=RN) r'.
Proof. exact @other_frame. Qed.

Theorem C85_covariances_in_other_frame : forall (phi tx ty : R) (ro : addr -> role) {S S' : Type} (SV : solver RN S) (SV' : solver RN S') (EV EV' : nat -> env (N:=RN) (V:=lvar RN)),
  (forall n, env_ok (EV n)) -> (forall n, env_ok (EV' n)) ->
  forall l1 l1' l2 l2' h1 h1' g1 g1' (p p' : pstate (N:=RN) (V:=lvar RN) (S:=S)) (q q' : pstate (N:=RN) (V:=lvar RN) (S:=S')), factorising_solver SV -> factorising_solver SV' ->
  finalized_history (lib RN) l1 l2 h1 (p_heap p) g1 (p_graph p) -> unfinalized (lib RN) ([], empty_graph) l1 -> careful ([], empty_graph) l1 -> careful (h1, g1) l2 ->
  finalized_history (lib RN) l1' l2' h1' (p_heap q) g1' (p_graph q) -> unfinalized (lib RN) ([], empty_graph) l1' -> careful ([], empty_graph) l1' -> careful (h1', g1') l2' ->
  let vs := get_all_variables (p_graph p) in let fs := get_all_factors (p_graph p) in let fs' := get_all_factors (p_graph q) in
  heaps (reframed_var phi tx ty ro) (p_heap p) (p_heap q) -> get_all_variables (p_graph q) = vs -> Forall2 (same_in_frame phi tx ty ro) fs fs' ->
  Forall (factor_wf (lib RN) (p_heap p) vs) fs -> some_active (lib RN) (p_heap p) fs ->
  st_method (p_set p) = GaussNewton -> st_method (p_set q) = GaussNewton -> st_rate (p_set p) = st_rate (p_set q) ->
  1 <= st_max_iter (p_set p) -> 1 <= st_max_iter (p_set q) -> p_hvalid p = false -> p_hvalid q = false ->
  optimize (lib RN) SV EV p = (p', Ok tt) -> optimize (lib RN) SV' EV' q = (q', Ok tt) -> ~ failure (ss_status (p_cur p')) -> ~ failure (ss_status (p_cur q')) ->
  ss_iter (p_cur p') = ss_iter (p_cur q') ->
  exists p1 q1, prepare SV p' = (p1, Ok tt) /\ prepare SV' q' = (q1, Ok tt) /\
    forall b, In b vs -> 0 < width (lib RN) (p_heap p) b -> exists P Q, let n := width (lib RN) (p_heap p) b in
      mrows P = n /\ mcols P = n /\ mrows Q = n /\ mcols Q = n /\
      (forall i j, i < n -> j < n -> mat_at Q i j = rsum n (fun c => rsum n (fun c' => turning_of phi ro b i c * mat_at P c c' * turning_of phi ro b j c')%R)) /\
      answer n P (snd (estimate_covariance (lib RN) SV (Some b) p1)) /\ answer n Q (snd (estimate_covariance (lib RN) SV' (Some b) q1)).
Proof. exact @frame_covariances. Qed.

(** the poses (7, 1, 0) and (1, 1, 0), the first measured as (3, 2, 1), the difference as (1, 1, 1/2), before and after a quarter turn with displacement (10, 20) *)
Example C84_case : exists p' q', optimize (lib RN) RS EV0 (before RS) = (p', Ok tt) /\ optimize (lib RN) LS EV0 (after LS) = (q', Ok tt) /\
  ss_iter (p_cur p') = 1 /\ ss_iter (p_cur q') = 1 /\ heaps (reframed_var (PI/2) 10 20 fro) (p_heap p') (p_heap q').
Proof.
  destruct (fstart_run 7 1 0 1 1 0 1 1 (1/2) (V3 (N:=RN) 3 2 1)%R RS RS_factorising backwards_sized) as (p' & E & Hc & Nf). destruct (fstart_run 9 27 (PI/2) 9 21 (PI/2) (-1) 1 (1/2) (V3 (N:=RN) 8 23 (1 + PI/2))%R LS LS_factorising natural_sized) as (q' & E' & Hc' & Nf').
  pose proof (one_iteration RS EV0 EV0_ok _ p' E Hc Nf eq_refl) as Hi. pose proof (one_iteration LS EV0 EV0_ok _ q' E' Hc' Nf' eq_refl) as Hi'.
  destruct (fstart_hist 7 1 0 1 1 0 1 1 (1/2) (V3 (N:=RN) 3 2 1)%R RS) as (A & B & C & D & F). destruct (fstart_hist 9 27 (PI/2) 9 21 (PI/2) (-1) 1 (1/2) (V3 (N:=RN) 8 23 (1 + PI/2))%R LS) as (A' & B' & C' & _).
  exists p', q'. split; [exact E|]. split; [exact E'|]. split; [exact Hi|]. split; [exact Hi'|].
  exact (proj1 (C84_other_frame (PI/2) 10 20 fro RS LS EV0 EV0 EV0_ok EV0_ok _ _ _ _ _ _ _ _ (before RS) p' (after LS) q' (factorising_exact RS RS_factorising) LS_factorising A B C I A' B' C' I f_heaps eq_refl f_measured D F eq_refl eq_refl
    (eq_trans (y := st_rate (lset GaussNewton 1)) eq_refl eq_refl) E E' Hc Hc' (eq_trans Hi (eq_sym Hi')))).
Qed.
(** covariance of the second pose in the two frames *)
Example C85_case : exists p' q' p1 q1 P Q, optimize (lib RN) RS EV0 (before RS) = (p', Ok tt) /\ optimize (lib RN) LS EV0 (after LS) = (q', Ok tt) /\
  prepare RS p' = (p1, Ok tt) /\ prepare LS q' = (q1, Ok tt) /\
  answer 3 P (snd (estimate_covariance (lib RN) RS (Some 1) p1)) /\ answer 3 Q (snd (estimate_covariance (lib RN) LS (Some 1) q1)) /\
  (mat_at Q 0 0 = mat_at P 1 1)%R /\ (mat_at Q 0 2 = - mat_at P 1 2)%R /\ (mat_at Q 1 2 = mat_at P 0 2)%R.
Proof.
  destruct (fstart_run 7 1 0 1 1 0 1 1 (1/2) (V3 (N:=RN) 3 2 1)%R RS RS_factorising backwards_sized) as (p' & E & Hc & Nf). destruct (fstart_run 9 27 (PI/2) 9 21 (PI/2) (-1) 1 (1/2) (V3 (N:=RN) 8 23 (1 + PI/2))%R LS LS_factorising natural_sized) as (q' & E' & Hc' & Nf').
  pose proof (one_iteration RS EV0 EV0_ok _ p' E Hc Nf eq_refl) as Hi. pose proof (one_iteration LS EV0 EV0_ok _ q' E' Hc' Nf' eq_refl) as Hi'.
  destruct (fstart_hist 7 1 0 1 1 0 1 1 (1/2) (V3 (N:=RN) 3 2 1)%R RS) as (A & B & C & D & F). destruct (fstart_hist 9 27 (PI/2) 9 21 (PI/2) (-1) 1 (1/2) (V3 (N:=RN) 8 23 (1 + PI/2))%R LS) as (A' & B' & C' & _).
  destruct (C85_covariances_in_other_frame (PI/2) 10 20 fro RS LS EV0 EV0 EV0_ok EV0_ok _ _ _ _ _ _ _ _ (before RS) p' (after LS) q' RS_factorising LS_factorising A B C I A' B' C' I f_heaps eq_refl f_measured D F eq_refl eq_refl
    (eq_trans (y := st_rate (lset GaussNewton 1)) eq_refl eq_refl) (le_n 1) (le_n 1) eq_refl eq_refl E E' Nf Nf' (eq_trans Hi (eq_sym Hi'))) as (p1 & q1 & X1 & X2 & X3).
  destruct (X3 1) as (P & Q & X).
  { change (get_all_variables (p_graph (before RS))) with [0; 1; 2]. right. left. reflexivity. }
  { change (p_heap (before RS)) with (fheap 7 1 0 1 1 0 1 1 (1/2)). exact (Nat.lt_0_succ 2). }
  change (width (lib RN) (p_heap (before RS)) 1) with 3 in X. destruct X as (_ & _ & _ & _ & Y & Z1 & Z2). exists p', q', p1, q1, P, Q. split; [exact E|]. split; [exact E'|]. split; [exact X1|]. split; [exact X2|]. split; [exact Z1|]. split; [exact Z2|].
  pose proof (Y 0 0 ltac:(lia) ltac:(lia)) as Y0. pose proof (Y 0 2 ltac:(lia) ltac:(lia)) as Y1. pose proof (Y 1 2 ltac:(lia) ltac:(lia)) as Y2. cbn in Y0, Y1, Y2. rewrite ?cos_PI2, ?sin_PI2 in Y0, Y1, Y2.
  split; [|split]; (etransitivity; [eassumption|]); match goal with |- ?a = ?b => change (@eq R a b) end; ring.
Qed.
(** a planar pose sees a landmark by range and bearing, moves with a velocity and has a prior; turned by phi *)
Example C84_geometry : forall phi tx ty : R, exists (p' l' v' x' : list R) (pr' : v3 RN), let ro := fun a => if (a =? 2)%nat then Difference else Place in
  heaps (reframed_var phi tx ty ro)
    [LVar (N:=RN) 1 false (KPose2 [1; 2; 3]%R); LVar 2 false (KGeneric [4; 5]%R); LVar 3 false (KGeneric [6; 7]%R); LVar 4 false (KLandmark [8; 9; 5]%R)]
    [LVar (N:=RN) 1 false (KPose2 p'); LVar 2 false (KGeneric l'); LVar 3 false (KGeneric v'); LVar 4 false (KLandmark x')] /\
  Forall2 (same_in_frame phi tx ty ro)
    [build (LPose2Prior 10 0 (V3 (N:=RN) 1 1 1)%R 2%R 1%R); build (LRangeBearing2 (N:=RN) 11 0 3 5%R 1%R 1%R 1%R); build (LBearing2 (N:=RN) 12 0 1 1%R 2%R); build (LLinearVelocity (N:=RN) 13 1 3 2 2 1%R 3%R 0)]
    [build (LPose2Prior 10 0 pr' 2%R 1%R); build (LRangeBearing2 (N:=RN) 11 0 3 5%R 1%R 1%R 1%R); build (LBearing2 (N:=RN) 12 0 1 1%R 2%R); build (LLinearVelocity (N:=RN) 13 1 3 2 2 1%R 3%R 0)].
Proof.
  intros phi tx ty. exists [cos phi * 1 - sin phi * 2 + tx; sin phi * 1 + cos phi * 2 + ty; 3 + phi]%R, [cos phi * 4 - sin phi * 5 + tx; sin phi * 4 + cos phi * 5 + ty]%R, [cos phi * 6 - sin phi * 7 + 0; sin phi * 6 + cos phi * 7 + 0]%R,
    [cos phi * 8 - sin phi * 9 + tx; sin phi * 8 + cos phi * 9 + ty; 5]%R, (V3 (N:=RN) (cos phi * 1 - sin phi * 1 + tx) (sin phi * 1 + cos phi * 1 + ty) (1 + phi))%R. cbn zeta. split.
  - intros a. destruct a as [|[|[|[|a]]]]; cbn [nth_error]; [| | | |destruct a; exact I]; (split; [reflexivity|]); (split; [reflexivity|]); cbn [Nat.eqb l_kind].
    + do 6 eexists. split; [reflexivity|]. split; [reflexivity|]. split; [|split; reflexivity]. do 3 eexists. split; reflexivity.
    + do 3 eexists. split; reflexivity.
    + do 3 eexists. split; reflexivity.
    + do 3 eexists. split; reflexivity.
  - repeat apply Forall2_cons; [..|apply Forall2_nil]; (eexists _, _; split; [reflexivity|]; split; [reflexivity|]; right).
    + split; [reflexivity|]. split; [reflexivity|]. split; [|split; reflexivity]. do 3 eexists. split; reflexivity.
    + repeat split.
    + repeat split.
    + split; [reflexivity|]. split; [reflexivity|]. split; [reflexivity|]. split; [reflexivity|]. left. split; reflexivity.
Qed.

(** C84 fails for differences of planar poses measured in the frame of the first pose: from (0, 0, 0) the pose (1, 0, 0) is (1, 0, 0) away;
    after a quarter turn the same measurement does not fit *)
Theorem C84_local_difference_refuted : exists (h h' : @heap (lvar RN)) r r', let ro := fun a => if (a =? 2)%nat then Still else Place in
  let f := build (LPose2Between (N:=RN) 10 0 1 2 1%R 1%R true) in
  heaps (reframed_var (PI/2) 0 0 ro) h h' /\ f_res_ref f h = Ok r /\ f_res_ref f h' = Ok r' /\ sqnorm (N:=RN) r = 0%R /\ sqnorm (N:=RN) r' <> 0%R.
Proof.
  exists [LVar (N:=RN) 1 false (KPose2 [0; 0; 0]%R); LVar 2 false (KPose2 [1; 0; 0]%R); LVar 3 true (KGeneric [1; 0; 0]%R)], [LVar (N:=RN) 1 false (KPose2 [0; 0; PI/2]%R); LVar 2 false (KPose2 [0; 1; PI/2]%R); LVar 3 true (KGeneric [1; 0; 0]%R)].
  exact local_difference.
Qed.

Print Assumptions C84_other_frame.
Print Assumptions C85_covariances_in_other_frame.
Print Assumptions C84_local_difference_refuted.
