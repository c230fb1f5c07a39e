(** C87, C88: the spatial frame in which a problem is written down does not matter to Gauss-Newton, and covariances are turned with it (exact arithmetic). *)
From Coq Require Import List Arith ZArith QArith Bool Reals Lra Lia.
From Verif Require Import Base Sparse Graph SpecGraph SpecOpt Geom Vars VarsLemmas FactorsLin FactorsGeo FactorLib SpecShape Optimizer Real RSum SpecSolver SpecSteps OptStepsLib SpecTwin SpecMarginal OptWork MarginalRun SpecGeom SpecSpace SpaceRun.
From Verif Require Import OptToy Ldlt LdltSolver OptReal LdltCase OptDefined Gram OrderCase PartCase SpaceCase.
Import ListNotations.
Local Open Scope nat_scope.
Set Bullet Behavior "Strict Subproofs".

Theorem C87_other_space : forall (Q : m3 RN) (t : v3 RN) (ro : addr -> role3), rotation Q ->
  forall {S S' : Type} (SV : solver RN S) (SV' : solver RN S') (EV EV' : nat -> env (N:=RN) (V:=lvar RN)),
  (forall n, env_ok (EV n)) -> (forall n, env_ok (EV' n)) ->
  forall l1 l1' l2 l2' h1 h1' g1 g1' (p p' : pstate (N:=RN) (V:=lvar RN) (S:=S)) (q q' : pstate (N:=RN) (V:=lvar RN) (S:=S')), exact_solver SV -> factorising_solver SV' ->
  finalized_history (lib RN) l1 l2 h1 (p_heap p) g1 (p_graph p) -> unfinalized (lib RN) ([], empty_graph) l1 -> careful ([], empty_graph) l1 -> careful (h1, g1) l2 ->
  finalized_history (lib RN) l1' l2' h1' (p_heap q) g1' (p_graph q) -> unfinalized (lib RN) ([], empty_graph) l1' -> careful ([], empty_graph) l1' -> careful (h1', g1') l2' ->
  let vs := get_all_variables (p_graph p) in let fs := get_all_factors (p_graph p) in let fs' := get_all_factors (p_graph q) in
  heaps (reframed3_var Q t ro) (p_heap p) (p_heap q) -> get_all_variables (p_graph q) = vs -> Forall2 (same_in_space Q t ro) fs fs' ->
  Forall (factor_wf (lib RN) (p_heap p) vs) fs -> some_active (lib RN) (p_heap p) fs ->
  st_method (p_set p) = GaussNewton -> st_method (p_set q) = GaussNewton -> st_rate (p_set p) = st_rate (p_set q) ->
  optimize (lib RN) SV EV p = (p', Ok tt) -> optimize (lib RN) SV' EV' q = (q', Ok tt) -> p_caught p' = false -> p_caught q' = false ->
  ss_iter (p_cur p') = ss_iter (p_cur q') ->
  usual_steps (lib RN) exact_turn vs fs (st_rate (p_set p)) (ss_iter (p_cur p')) (p_heap p) -> usual_steps (lib RN) exact_turn vs fs' (st_rate (p_set p)) (ss_iter (p_cur p')) (p_heap q) ->
  heaps (reframed3_var Q t ro) (p_heap p') (p_heap q') /\
  forall r r', stacked (p_heap p') fs r -> stacked (p_heap q') fs' r' -> sqnorm (N:=RN) r = sqnorm (N:=RN) r'.
Proof. exact @other_space. Qed.

Theorem C88_covariances_in_other_space : forall (Q : m3 RN) (t : v3 RN) (ro : addr -> role3), rotation Q ->
  forall {S S' : Type} (SV : solver RN S) (SV' : solver RN S') (EV EV' : nat -> env (N:=RN) (V:=lvar RN)),
  (forall n, env_ok (EV n)) -> (forall n, env_ok (EV' n)) ->
  forall l1 l1' l2 l2' h1 h1' g1 g1' (p p' : pstate (N:=RN) (V:=lvar RN) (S:=S)) (q q' : pstate (N:=RN) (V:=lvar RN) (S:=S')), factorising_solver SV -> factorising_solver SV' ->
  finalized_history (lib RN) l1 l2 h1 (p_heap p) g1 (p_graph p) -> unfinalized (lib RN) ([], empty_graph) l1 -> careful ([], empty_graph) l1 -> careful (h1, g1) l2 ->
  finalized_history (lib RN) l1' l2' h1' (p_heap q) g1' (p_graph q) -> unfinalized (lib RN) ([], empty_graph) l1' -> careful ([], empty_graph) l1' -> careful (h1', g1') l2' ->
  let vs := get_all_variables (p_graph p) in let fs := get_all_factors (p_graph p) in let fs' := get_all_factors (p_graph q) in
  heaps (reframed3_var Q t ro) (p_heap p) (p_heap q) -> get_all_variables (p_graph q) = vs -> Forall2 (same_in_space Q t ro) fs fs' ->
  Forall (factor_wf (lib RN) (p_heap p) vs) fs -> some_active (lib RN) (p_heap p) fs ->
  st_method (p_set p) = GaussNewton -> st_method (p_set q) = GaussNewton -> st_rate (p_set p) = st_rate (p_set q) ->
  1 <= st_max_iter (p_set p) -> 1 <= st_max_iter (p_set q) -> p_hvalid p = false -> p_hvalid q = false ->
  optimize (lib RN) SV EV p = (p', Ok tt) -> optimize (lib RN) SV' EV' q = (q', Ok tt) -> ~ failure (ss_status (p_cur p')) -> ~ failure (ss_status (p_cur q')) ->
  ss_iter (p_cur p') = ss_iter (p_cur q') ->
  usual_steps (lib RN) exact_turn vs fs (st_rate (p_set p)) (pred (ss_iter (p_cur p'))) (p_heap p) -> usual_steps (lib RN) exact_turn vs fs' (st_rate (p_set p)) (pred (ss_iter (p_cur p'))) (p_heap q) ->
  exists p1 q1, prepare SV p' = (p1, Ok tt) /\ prepare SV' q' = (q1, Ok tt) /\
    forall b, In b vs -> 0 < width (lib RN) (p_heap p) b -> exists P P', let n := width (lib RN) (p_heap p) b in
      mrows P = n /\ mcols P = n /\ mrows P' = n /\ mcols P' = n /\
      (forall i j, i < n -> j < n -> mat_at P' i j = rsum n (fun c => rsum n (fun c' => turning3_of Q ro b i c * mat_at P c c' * turning3_of Q ro b j c')%R)) /\
      answer n P (snd (estimate_covariance (lib RN) SV (Some b) p1)) /\ answer n P' (snd (estimate_covariance (lib RN) SV' (Some b) q1)).
Proof. exact @space_covariances. Qed.

(** a camera at (7, 1, 4), measured against two constant poses; its position is measured as (3, 2, 1); before and after a quarter turn about the
    first axis with displacement (10, 20, 30) *)
Example C87_case : exists p' q', optimize (lib RN) RS EV0 (before3 RS) = (p', Ok tt) /\ optimize (lib RN) LS EV0 (after3 LS) = (q', Ok tt) /\
  ss_iter (p_cur p') = 1 /\ ss_iter (p_cur q') = 1 /\ heaps (reframed3_var quarter shift3 sro) (p_heap p') (p_heap q').
Proof.
  destruct (before3_run RS RS_factorising backwards_sized) as (p' & E & Hc & Nf). destruct (after3_run LS LS_factorising natural_sized) as (q' & E' & Hc' & Nf').
  pose proof (one_iteration RS EV0 EV0_ok _ p' E Hc Nf eq_refl) as Hi. pose proof (one_iteration LS EV0 EV0_ok _ q' E' Hc' Nf' eq_refl) as Hi'.
  destruct (sstart_hist (v_ 7 1 4) (v_ 9 1 4) (v_ 7 1 5) A1 (log_so3 A1) (v_ 3 2 1) (v_ 1 6 3) (v_ 1 4 4) RS) as (A & B & C & D & F). destruct (sstart_hist (v_ 17 16 31) (v_ 19 16 31) (v_ 17 15 31) A2 (log_so3 A2) (v_ 13 19 32) (v_ 1 6 3) (v_ 1 4 4) LS) as (A' & B' & C' & _).
  exists p', q'. split; [exact E|]. split; [exact E'|]. split; [exact Hi|]. split; [exact Hi'|].
  assert (U : usual_steps (lib RN) exact_turn [0; 1; 2; 3; 4] [sf1 (v_ 3 2 1); sf2; sf3] (st_rate (p_set (before3 RS))) (ss_iter (p_cur p')) heap3) by (rewrite Hi; apply before3_usual).
  assert (U' : usual_steps (lib RN) exact_turn [0; 1; 2; 3; 4] [sf1 (v_ 13 19 32); sf2; sf3] (st_rate (p_set (before3 RS))) (ss_iter (p_cur p')) heap3') by (rewrite Hi; apply after3_usual).
  exact (proj1 (C87_other_space quarter shift3 sro quarter_rotation RS LS EV0 EV0 EV0_ok EV0_ok _ _ _ _ _ _ _ _ (before3 RS) p' (after3 LS) q' (factorising_exact RS RS_factorising) LS_factorising A B C I A' B' C' I s_heaps eq_refl s_measured D F eq_refl eq_refl
    (eq_trans (y := st_rate (lset GaussNewton 1)) eq_refl eq_refl) E E' Hc Hc' (eq_trans Hi (eq_sym Hi')) U U')).
Qed.
(** covariance of the camera in the two frames *)
Example C88_case : exists p' q' p1 q1 P Q, optimize (lib RN) RS EV0 (before3 RS) = (p', Ok tt) /\ optimize (lib RN) LS EV0 (after3 LS) = (q', Ok tt) /\
  prepare RS p' = (p1, Ok tt) /\ prepare LS q' = (q1, Ok tt) /\
  answer 6 P (snd (estimate_covariance (lib RN) RS (Some 0) p1)) /\ answer 6 Q (snd (estimate_covariance (lib RN) LS (Some 0) q1)) /\
  (mat_at Q 1 1 = mat_at P 2 2)%R /\ (mat_at Q 0 1 = - mat_at P 0 2)%R /\ (mat_at Q 2 5 = mat_at P 1 5)%R /\ (mat_at Q 3 4 = mat_at P 3 4)%R.
Proof.
  destruct (before3_run RS RS_factorising backwards_sized) as (p' & E & Hc & Nf). destruct (after3_run LS LS_factorising natural_sized) as (q' & E' & Hc' & Nf').
  pose proof (one_iteration RS EV0 EV0_ok _ p' E Hc Nf eq_refl) as Hi. pose proof (one_iteration LS EV0 EV0_ok _ q' E' Hc' Nf' eq_refl) as Hi'.
  destruct (sstart_hist (v_ 7 1 4) (v_ 9 1 4) (v_ 7 1 5) A1 (log_so3 A1) (v_ 3 2 1) (v_ 1 6 3) (v_ 1 4 4) RS) as (A & B & C & D & F). destruct (sstart_hist (v_ 17 16 31) (v_ 19 16 31) (v_ 17 15 31) A2 (log_so3 A2) (v_ 13 19 32) (v_ 1 6 3) (v_ 1 4 4) LS) as (A' & B' & C' & _).
  assert (U : forall fs h, usual_steps (lib RN) exact_turn [0; 1; 2; 3; 4] fs (st_rate (p_set (before3 RS))) (pred (ss_iter (p_cur p'))) h) by (intros fs h j h0 Hj; rewrite Hi in Hj; inversion Hj).
  destruct (C88_covariances_in_other_space quarter shift3 sro quarter_rotation RS LS EV0 EV0 EV0_ok EV0_ok _ _ _ _ _ _ _ _ (before3 RS) p' (after3 LS) q' RS_factorising LS_factorising A B C I A' B' C' I s_heaps eq_refl s_measured D F eq_refl eq_refl
    (eq_trans (y := st_rate (lset GaussNewton 1)) eq_refl eq_refl) (le_n 1) (le_n 1) eq_refl eq_refl E E' Nf Nf' (eq_trans Hi (eq_sym Hi')) (U _ _) (U _ _)) as (p1 & q1 & X1 & X2 & X3).
  destruct (X3 0) as (P & Q & X).
  { change (get_all_variables (p_graph (before3 RS))) with [0; 1; 2; 3; 4]. left. reflexivity. }
  { change (p_heap (before3 RS)) with heap3. exact (Nat.lt_0_succ 5). }
  change (width (lib RN) (p_heap (before3 RS)) 0) with 6 in X. destruct X as (_ & _ & _ & _ & Y & Z1 & Z2). exists p', q', p1, q1, P, Q. split; [exact E|]. split; [exact E'|]. split; [exact X1|]. split; [exact X2|]. split; [exact Z1|]. split; [exact Z2|].
  pose proof (Y 1 1 ltac:(lia) ltac:(lia)) as Y0. pose proof (Y 0 1 ltac:(lia) ltac:(lia)) as Y1. pose proof (Y 2 5 ltac:(lia) ltac:(lia)) as Y2. pose proof (Y 3 4 ltac:(lia) ltac:(lia)) as Y3. clear Y. cbn -[Rmult Rplus Ropp mat_at IZR] in Y0, Y1, Y2, Y3.
  split; [|split; [|split]]; (etransitivity; [eassumption|]); match goal with |- ?a = ?b => change (@eq R a b) end; ring.
Qed.
(** a camera that observes a landmark and a point given by its inverse range, with a prior on its orientation and a measured orientation
    relative to another camera *)
Example C87_geometry : let ro := fun a => if (a =? 3)%nat then Sight else if (a =? 4)%nat then Still else Place in
  heaps (reframed3_var quarter shift3 ro)
    [LVar (N:=RN) 1 false (KPose ([1; 2; 3]%R ++ v3list (log_so3 A1)) A1); LVar 2 false (KPose ([4; 5; 6]%R ++ v3list (log_so3 A1)) A1); LVar 3 false (KLandmark [7; 8; 9]%R); LVar 4 false (KInv (v_ 1 2 3) (v_ 0 1 0) (1/10)%R 10%R [1]%R); LVar 5 true (KRot [0; 0; 0]%R m3id)]
    [LVar (N:=RN) 1 false (KPose ([11; 17; 32]%R ++ v3list (log_so3 A2)) A2); LVar 2 false (KPose ([14; 14; 35]%R ++ v3list (log_so3 A2)) A2); LVar 3 false (KLandmark [17; 11; 38]%R); LVar 4 false (KInv (v_ 11 17 32) (v_ 0 0 1) (1/10)%R 10%R [1]%R); LVar 5 true (KRot [0; 0; 0]%R m3id)] /\
  Forall2 (same_in_space quarter shift3 ro)
    [build (LBearing (N:=RN) 10 0 2 (v_ 0 0 1) 1%R); build (LProjection (N:=RN) 11 0 2 (v_ 0 0 1) 1%R 1%R); build (LInverseRange (N:=RN) 12 1 3 (v_ 0 0 1) 1%R); build (LOrientationPrior (N:=RN) 13 0 A1 1%R); build (LOrientationBetween (N:=RN) 14 0 1 4 1%R)]
    [build (LBearing (N:=RN) 10 0 2 (v_ 0 0 1) 1%R); build (LProjection (N:=RN) 11 0 2 (v_ 0 0 1) 1%R 1%R); build (LInverseRange (N:=RN) 12 1 3 (v_ 0 0 1) 1%R); build (LOrientationPrior (N:=RN) 13 0 A2 1%R); build (LOrientationBetween (N:=RN) 14 0 1 4 1%R)].
Proof.
  cbn zeta. split.
  - intros a. destruct a as [|[|[|[|[|a]]]]]; cbn [nth_error]; [| | | | |destruct a; exact I]; (split; [reflexivity|]); (split; [reflexivity|]); cbn [Nat.eqb l_kind].
    + split; [reflexivity|]. split; [reflexivity|]. split; [|exact A_to]. intros i Hi; destruct i as [|[|[|i]]]; try lia; unfold sum3; cbn -[Rmult Rplus Ropp Rminus IZR]; ring.
    + split; [reflexivity|]. split; [reflexivity|]. split; [|exact A_to]. intros i Hi; destruct i as [|[|[|i]]]; try lia; unfold sum3; cbn -[Rmult Rplus Ropp Rminus IZR]; ring.
    + split; [reflexivity|]. split; [reflexivity|]. intros i Hi; destruct i as [|[|[|i]]]; try lia; unfold sum3; cbn -[Rmult Rplus Ropp Rminus IZR]; ring.
    + split; [intros i Hi; destruct i as [|[|[|i]]]; try lia; unfold sum3; cbn -[Rmult Rplus Ropp Rminus IZR]; ring|]. split; [intros i Hi; destruct i as [|[|[|i]]]; try lia; unfold sum3; cbn -[Rmult Rplus Ropp Rminus IZR]; ring|].
      split; [reflexivity|]. split; [reflexivity|]. apply Forall_cons; [lra|]. apply Forall_cons; [lra|]. apply Forall_cons; [lra|apply Forall_nil].
    + reflexivity.
  - repeat apply Forall2_cons; [..|apply Forall2_nil]; (eexists _, _; split; [reflexivity|]; split; [reflexivity|]; right).
    + repeat split.
    + repeat split.
    + repeat split.
    + split; [reflexivity|]. split; [reflexivity|]. split; [exact A_to|]. split; [exact A1_far|exact A2_far].
    + repeat split.
Qed.

(** C87 fails for priors on the orientation within 1e-5 of the identity (their logarithm is approximate): a camera turned by a millionth
    fits its prior after a quarter turn of the frame, but not before *)
Theorem C87_small_rotations_refuted : exists (Q A A' : m3 RN) (h h' : @heap (lvar RN)) r r', rotation Q /\ attitude_to Q A A' /\
  heaps (reframed3_var Q v3zero (fun _ => Place)) h h' /\
  f_res_ref (build (LOrientationPrior (N:=RN) 10 0 A 1%R)) h = Ok r /\ f_res_ref (build (LOrientationPrior (N:=RN) 10 0 A' 1%R)) h' = Ok r' /\
  (0 < sqnorm (N:=RN) r)%R /\ sqnorm (N:=RN) r' = 0%R.
Proof.
  destruct small_prior as (H & r & r' & E). exists quarter, tiny, tiny'. eexists _, _, r, r'. split; [exact quarter_rotation|]. split; [exact tiny_to|]. split; [|exact E].
  intros a. specialize (H a). destruct a as [|[|a]]; exact H.
Qed.

Print Assumptions C87_other_space.
Print Assumptions C88_covariances_in_other_space.
Print Assumptions C87_small_rotations_refuted.
