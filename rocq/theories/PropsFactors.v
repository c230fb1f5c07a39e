(** Properties C35-C46 and C59 of the factor classes, in real arithmetic.  Definitions used in the statements are in SpecFactor
    ([exact_jacobian], [zero_when], [refuses], [sees_...]) and SpecGeom ([rotation], [rotation_by], [image], [product]). *)
From Coq Require Import List Arith ZArith QArith Reals Lra Lia.
From Coquelicot Require Import Coquelicot.
From Verif Require Import Base Sparse Graph Geom Vars VarOps VarsLemmas VarsRun FactorsLin FactorsLinFacts FactorsGeo SpecGeom SpecVars SpecFactor Real RSum Trig GeomR GeomExp GeomLog GeomNear GeomJac GeomFacts FactorCalc FactorRead FactorJac FactorJac2 FactorAngle FactorJac3 FactorLinJac FactorOri FactorStep FactorMotion FactorZero FactorCases FactorFacts.
Import ListNotations.
Local Open Scope R_scope.

(** C35, for variables whose increments add to the elements concerned. A constant variable: see C48. *)
Theorem C35_generic_prior_exact : forall id a prior (sigma : R) (h : @heap (lvar RN)) x, 0 < sigma -> sees_additive h a (length prior) x -> length x = length prior ->
  (exists v, nth_error h a = Some v /\ l_const v = false) -> exists J, exact_jacobian (generic_prior (lib RN) id a prior sigma) h J.
Proof. exact c35_generic_prior_exact. Qed.
Print Assumptions C35_generic_prior_exact.
Example C35_generic_prior_case : exists J, exact_jacobian (generic_prior (lib RN) 0 4%nat [1; 2; 4] 2) scene J.
Proof. apply (C35_generic_prior_exact 0%Z 4%nat [1; 2; 4] 2 scene [1; 2; 3]); [lra|exact s_add|reflexivity|]. eexists. split; reflexivity. Qed.
Theorem C35_generic_between_exact : forall id a b d n (sigma : R) (h : @heap (lvar RN)) xa xb xd, 0 < sigma -> sees_additive h a n xa -> sees_additive h b n xb -> sees_additive h d n xd ->
  length xa = n -> length xb = n -> length xd = n -> exists J, exact_jacobian (generic_between (lib RN) id a b d n sigma) h J.
Proof. exact c35_generic_between_exact. Qed.
Print Assumptions C35_generic_between_exact.
Example C35_generic_between_case : exists J, exact_jacobian (generic_between (lib RN) 0 4%nat 2%nat 11%nat 3 2) scene J.
Proof. apply (C35_generic_between_exact 0%Z 4%nat 2%nat 11%nat 3%nat 2 scene [1; 2; 3] [5; 0; 0] [2; 0; 0]); try reflexivity; try lra; [exact s_add|exact s_add2|]. split; [lia|]. eexists. repeat split; cbn; lia. Qed.
Theorem C35_linear_velocity_exact : forall id a b c n (dt sigma : R) i0 (h : @heap (lvar RN)) xa xb xc, 0 < sigma -> sees_additive h a (i0 + n) xa -> sees_additive h b (i0 + n) xb ->
  sees_additive h c n xc -> length xc = n -> exists J, exact_jacobian (linear_velocity (N:=RN) id a b c n dt sigma i0) h J.
Proof. exact c35_linear_velocity_exact. Qed.
Print Assumptions C35_linear_velocity_exact.
Example C35_linear_velocity_case : exists J, exact_jacobian (linear_velocity (N:=RN) 0 0%nat 4%nat 10%nat 1 (1 / 2) 3 2) scene J.
Proof. apply (C35_linear_velocity_exact 0%Z 0%nat 4%nat 10%nat 1%nat (1 / 2) 3 2%nat scene [0; 0; 0; 1; 0; 0] [1; 2; 3] [2]); [lra|exact s_add_pose|exact s_add| |reflexivity]. split; [lia|]. eexists. repeat split; cbn; lia. Qed.
(** the generic prior accepts a PlaneVariable (size 4), whose increments do not add to value(): no blocks are exact *)
Theorem C35_plane_value_refuted : (forall D : addr -> list R, length (D 0%nat) = 4%nat -> steps_regularly plane_heap D) /\ forall J, ~ exact_along_increments plane_gprior plane_heap J.
Proof. exact c35_plane_value_refuted. Qed.
Print Assumptions C35_plane_value_refuted.
(** C36 *)
Theorem C36_position_prior_exact : forall id a prior (sigma : R) (h : @heap (lvar RN)) p C, 0 < sigma -> sees_pose h a p C -> exists J, exact_jacobian (pose_position_prior (N:=RN) id a prior sigma) h J.
Proof. exact c36_position_prior_exact. Qed.
Print Assumptions C36_position_prior_exact.
Example C36_position_prior_case : exists J, exact_jacobian (pose_position_prior (N:=RN) 0 0%nat (ex 2) 3) scene J.
Proof. apply (C36_position_prior_exact 0%Z 0%nat (ex 2) 3 scene v3zero quarter); [lra|exact s_pose0]. Qed.
Theorem C36_position_between_exact : forall id a b m (sigma : R) local (h : @heap (lvar RN)) p1 C1 p2 C2 x, 0 < sigma -> sees_pose h a p1 C1 -> sees_pose h b p2 C2 -> sees_vector h m [vx x; vy x; vz x] ->
  exists J, exact_jacobian (pose_position_between (N:=RN) id a b m sigma local) h J.
Proof. exact c36_position_between_exact. Qed.
Print Assumptions C36_position_between_exact.
Example C36_position_between_case : exists J, exact_jacobian (pose_position_between (N:=RN) 0 0%nat 1%nat 4%nat 3 true) scene J.
Proof. apply (C36_position_between_exact 0%Z 0%nat 1%nat 4%nat 3 true scene v3zero quarter (ex 3) m3id (V3 (N:=RN) 1 2 3)); [lra|exact s_pose0|exact s_pose1|exact s_vec]. Qed.
(** C37: exact wherever the landmark is at least 1e-9 from the camera centre; closer, compute_jacobians throws *)
Theorem C37_bearing_exact : forall id a l obs (sigma : R) (h : @heap (lvar RN)) p C x, 0 < sigma -> sees_pose h a p C -> sees_landmark h l x -> rotation C ->
  (1 / 1000000000 <= len (v3sub x p) -> exists J, exact_jacobian (bearing_observation (N:=RN) id a l obs sigma) h J) /\
  (len (v3sub x p) < 1 / 1000000000 -> refuses (bearing_observation (N:=RN) id a l obs sigma) h).
Proof. exact c37_bearing_exact. Qed.
Print Assumptions C37_bearing_exact.
Example C37_bearing_case : exists J, exact_jacobian (bearing_observation (N:=RN) 0 0%nat 2%nat (ex 1) 3) scene J.
Proof. destruct (C37_bearing_exact 0%Z 0%nat 2%nat (ex 1) 3 scene v3zero quarter (ex 5)) as (A & _); [lra|exact s_pose0|exact s_land|exact quarter_rotation|]. apply A. rewrite len_ex; lra. Qed.
(** landmark 1e-10 from the camera, seen exactly where measured: the residual is fine, there is no Jacobian *)
Theorem C37_near_refuted : zero_when near_bearing near_heap True /\ forall J, ~ exact_jacobian near_bearing near_heap J.
Proof. exact c37_near_refuted. Qed.
Print Assumptions C37_near_refuted.
(** C38, with the same distance limit; the inverse range limits of the variable are at least 1e-9 by default *)
Theorem C38_inverse_range_exact : forall id a l obs (sigma : R) (h : @heap (lvar RN)) p C o b rho x, 0 < sigma -> sees_pose h a p C -> sees_inv h l o b rho -> rotation C -> 1 / 1000000000 < Rabs rho ->
  inverse_range_point o b rho x ->
  (1 / 1000000000 <= len (v3sub x p) -> exists J, exact_jacobian (inverse_range_bearing (N:=RN) id a l obs sigma) h J) /\
  (len (v3sub x p) < 1 / 1000000000 -> refuses (inverse_range_bearing (N:=RN) id a l obs sigma) h).
Proof. exact c38_inverse_range_exact. Qed.
Print Assumptions C38_inverse_range_exact.
Example C38_inverse_range_case : exists J, exact_jacobian (inverse_range_bearing (N:=RN) 0 0%nat 5%nat (ex 1) 3) scene J.
Proof. destruct (C38_inverse_range_exact 0%Z 0%nat 5%nat (ex 1) 3 scene v3zero quarter v3zero (ex 1) (/ 2) (ex 2)) as (A & _); [lra|exact s_pose0|exact s_inv|exact quarter_rotation|rewrite Rabs_pos_eq; lra|exact s_inv_point|]. apply A. rewrite len_ex; lra. Qed.
(** C39 *)
Theorem C39_tangent_basis : forall k t1 t2 : v3 RN, dot k k = 1 -> tangent_basis k = (t1, t2) -> dot t1 t1 = 1 /\ dot t2 t2 = 1 /\ dot t1 t2 = 0 /\ dot t1 k = 0 /\ dot t2 k = 0.
Proof. exact c39_tangent_basis. Qed.
Print Assumptions C39_tangent_basis.
Theorem C39_zero : forall id a l obs (sigma tol : R) (h : @heap (lvar RN)) p C x, 0 < sigma -> 0 <= tol < 1 -> sees_pose h a p C -> sees_landmark h l x -> rotation C -> x <> p -> obs <> v3zero (N:=RN) ->
  zero_when (bearing_projection (N:=RN) id a l obs sigma tol) h (seen_along C (v3sub x p) obs).
Proof. exact c39_zero. Qed.
Print Assumptions C39_zero.
(** c is the cosine of the angle between the measured and the predicted bearing; the residual jumps where it equals the tolerance along_tolerance_epsilon *)
Theorem C39_front_exact : forall id a l obs (sigma tol : R) (h : @heap (lvar RN)) p C x q c, 0 < sigma -> sees_pose h a p C -> sees_landmark h l x -> rotation C -> x <> p -> obs <> v3zero (N:=RN) ->
  image C (v3sub x p) q -> dot obs q = len obs * len q * c -> tol <> c -> exists J, exact_jacobian (bearing_projection (N:=RN) id a l obs sigma tol) h J.
Proof. exact c39_front_exact. Qed.
Print Assumptions C39_front_exact.
Example C39_case : dot (V3 (N:=RN) (3/5) (4/5) 0) (V3 (N:=RN) (3/5) (4/5) 0) = 1 /\ exists J, exact_jacobian (bearing_projection (N:=RN) 0 0%nat 2%nat (ex 1) 3 (1 / 2)) scene J.
Proof. split; [unfold dot; cbn; field|]. apply (C39_front_exact 0%Z 0%nat 2%nat (ex 1) 3 (1 / 2) scene v3zero quarter (ex 5) (ex 5) 1); [lra|exact s_pose0|exact s_land|exact quarter_rotation|apply ex_nonzero; lra|apply ex_nonzero; lra|exact quarter_keeps| |lra]. rewrite !ex_len by lra. unfold dot, ex; cbn; ring. Qed.
(** C40: exact unless the landmark is exactly opposite to the measured direction; closer than 1e-9, compute_jacobians throws *)
Theorem C40_bearing_exact : forall id p l (obs sigma : R) (h : @heap (lvar RN)) x y t lx ly, 0 < sigma -> sees_pose2 h p x y t -> sees_generic h l [lx; ly] ->
  (1 / 1000000000 <= sqrt ((lx - x) * (lx - x) + (ly - y) * (ly - y)) -> ~ points_at x y t lx ly (obs + PI) ->
    exists J, exact_jacobian (bearing_observation_2d (N:=RN) id p l obs sigma) h J) /\
  (sqrt ((lx - x) * (lx - x) + (ly - y) * (ly - y)) < 1 / 1000000000 -> refuses (bearing_observation_2d (N:=RN) id p l obs sigma) h).
Proof. exact c40_bearing_exact. Qed.
Print Assumptions C40_bearing_exact.
Theorem C40_range_bearing_exact : forall id p l (robs obs rsigma bsigma : R) (h : @heap (lvar RN)) x y t lx ly, 0 < rsigma -> 0 < bsigma -> sees_pose2 h p x y t -> sees_generic h l [lx; ly] ->
  (1 / 1000000000 <= sqrt ((lx - x) * (lx - x) + (ly - y) * (ly - y)) -> ~ points_at x y t lx ly (obs + PI) ->
    exists J, exact_jacobian (range_bearing_2d (N:=RN) id p l robs obs rsigma bsigma) h J) /\
  (sqrt ((lx - x) * (lx - x) + (ly - y) * (ly - y)) < 1 / 1000000000 -> refuses (range_bearing_2d (N:=RN) id p l robs obs rsigma bsigma) h).
Proof. exact c40_range_bearing_exact. Qed.
Print Assumptions C40_range_bearing_exact.
Example C40_case : (exists J, exact_jacobian (bearing_observation_2d (N:=RN) 0 7%nat 9%nat 0 3) scene J) /\ exists J, exact_jacobian (range_bearing_2d (N:=RN) 0 7%nat 9%nat 5 0 3 2) scene J.
Proof. assert (D : sqrt ((3 - 0) * (3 - 0) + (4 - 0) * (4 - 0)) = 5) by (replace ((3 - 0) * (3 - 0) + (4 - 0) * (4 - 0)) with (5 * 5) by ring; apply sqrt_square; lra).
  assert (O : ~ points_at 0 0 0 3 4 (0 + PI)).
  { intros (r & A & B & _). replace (0 + (0 + PI)) with PI in B by ring. rewrite cos_PI in B. lra. }
  split.
  - apply (proj1 (C40_bearing_exact 0%Z 7%nat 9%nat 0 3 scene 0 0 0 3 4 ltac:(lra) s_pose2a s_gen2)); [rewrite D; lra|exact O].
  - apply (proj1 (C40_range_bearing_exact 0%Z 7%nat 9%nat 5 0 3 2 scene 0 0 0 3 4 ltac:(lra) ltac:(lra) s_pose2a s_gen2)); [rewrite D; lra|exact O]. Qed.
(** C41 *)
Theorem C41_prior_exact : forall id p prior (psigma asigma : R) (h : @heap (lvar RN)) x y t, 0 < psigma -> 0 < asigma -> sees_pose2 h p x y t -> ~ opposite t (vz prior) ->
  exists J, exact_jacobian (pose2_prior (N:=RN) id p prior psigma asigma) h J.
Proof. exact c41_prior_exact. Qed.
Print Assumptions C41_prior_exact.
Theorem C41_between_exact : forall id a b m (psigma asigma : R) local (h : @heap (lvar RN)) x1 y1 t1 x2 y2 t2 mx my mt, 0 < psigma -> 0 < asigma -> sees_pose2 h a x1 y1 t1 -> sees_pose2 h b x2 y2 t2 ->
  sees_vector h m [mx; my; mt] \/ sees_pose2 h m mx my mt -> ~ opposite (t2 - t1) mt -> exists J, exact_jacobian (pose2_between (N:=RN) id a b m psigma asigma local) h J.
Proof. exact c41_between_exact. Qed.
Print Assumptions C41_between_exact.
(** world frame *)
Theorem C41_between_zero : forall id a b m (psigma asigma : R) (h : @heap (lvar RN)) x1 y1 t1 x2 y2 t2 mx my mt, 0 < psigma -> 0 < asigma -> sees_pose2 h a x1 y1 t1 -> sees_pose2 h b x2 y2 t2 ->
  sees_vector h m [mx; my; mt] \/ sees_pose2 h m mx my mt -> zero_when (pose2_between (N:=RN) id a b m psigma asigma false) h (x2 - x1 = mx /\ y2 - y1 = my /\ congruent (t2 - t1) mt).
Proof. exact c41_between_zero. Qed.
Print Assumptions C41_between_zero.
(** local frame: the second pose is one unit ahead of the first (heading pi/2) and that is what is measured, yet the residual is not zero *)
Theorem C41_local_frame_refuted : in_frame 0 0 (PI / 2) 0 1 1 0 /\
  ~ zero_when (pose2_between (N:=RN) 0 0%nat 1%nat 2%nat 1 1 true) local_heap (in_frame 0 0 (PI / 2) 0 1 1 0 /\ congruent (PI / 2 - PI / 2) 0).
Proof. exact c41_local_frame_refuted. Qed.
Print Assumptions C41_local_frame_refuted.
(** what the local frame really is: the frame with the opposite heading *)
Theorem C41_local_frame_meaning : forall id a b m (psigma asigma : R) (h : @heap (lvar RN)) x1 y1 t1 x2 y2 t2 mx my mt, 0 < psigma -> 0 < asigma -> sees_pose2 h a x1 y1 t1 -> sees_pose2 h b x2 y2 t2 ->
  sees_vector h m [mx; my; mt] \/ sees_pose2 h m mx my mt -> zero_when (pose2_between (N:=RN) id a b m psigma asigma true) h (in_frame x1 y1 (- t1) x2 y2 mx my /\ congruent (t2 - t1) mt).
Proof. exact c41_local_frame_meaning. Qed.
Print Assumptions C41_local_frame_meaning.
Example C41_case : (exists J, exact_jacobian (pose2_prior (N:=RN) 0 8%nat (V3 (N:=RN) 0 0 0) 1 2) scene J) /\ exists J, exact_jacobian (pose2_between (N:=RN) 0 7%nat 8%nat 8%nat 1 2 true) scene J.
Proof. assert (O : forall a, 0 <= a < 1 + 1 -> ~ opposite a 0) by (intros a A; apply small_not_opposite; lra). split.
  - apply (C41_prior_exact 0%Z 8%nat (V3 (N:=RN) 0 0 0) 1 2 scene 1 2 1); [lra|lra|exact s_pose2b|]. apply O. lra.
  - apply (C41_between_exact 0%Z 7%nat 8%nat 8%nat 1 2 true scene 0 0 0 1 2 1 1 2 1); [lra|lra|exact s_pose2a|exact s_pose2b|right; exact s_pose2b|]. apply small_not_opposite. lra. Qed.
(** C42 *)
Theorem C42_unscaled_exact : forall id q m (sigma : R) (h : @heap (lvar RN)) p n e, 0 < sigma -> sees_vector h q [vx p; vy p; vz p] -> sees_plane h m n e -> exists J, exact_jacobian (plane_factor (N:=RN) id q m sigma None) h J.
Proof. exact c42_unscaled_exact. Qed.
Print Assumptions C42_unscaled_exact.
Theorem C42_unscaled_zero : forall id q m (sigma : R) (h : @heap (lvar RN)) p n e, 0 < sigma -> sees_vector h q [vx p; vy p; vz p] -> sees_plane h m n e -> zero_when (plane_factor (N:=RN) id q m sigma None) h (dot n p + e = 0).
Proof. exact c42_unscaled_zero. Qed.
Print Assumptions C42_unscaled_zero.
(** range scaling. Missing: points within 1e-12 of p0, where the scale is not differentiable *)
Theorem C42_scaled_exact_partial : forall id q m (sigma r0 : R) p0 (h : @heap (lvar RN)) p n e, 0 < sigma -> sees_vector h q [vx p; vy p; vz p] -> sees_plane h m n e ->
  1 / 1000000000000 < len (v3sub p p0) -> 1 + len (v3sub p p0) / r0 <> 0 -> exists J, exact_jacobian (plane_factor (N:=RN) id q m sigma (Some (r0, p0))) h J.
Proof. exact c42_scaled_exact_partial. Qed.
Print Assumptions C42_scaled_exact_partial.
(** the same point on the same plane: zero residual without range scaling, not with it *)
Theorem C42_scaled_refuted : sees_vector scaled_heap 0%nat [5; 0; 0] /\ sees_plane scaled_heap 1%nat (ex 1) (-5) /\
  zero_when (plane_factor (N:=RN) 0 0%nat 1%nat 1 None) scaled_heap (dot (ex 1) (ex 5) + -5 = 0) /\
  ~ zero_when (plane_factor (N:=RN) 0 0%nat 1%nat 1 (Some (1, v3zero))) scaled_heap (dot (ex 1) (ex 5) + -5 = 0).
Proof. exact c42_scaled_refuted. Qed.
Print Assumptions C42_scaled_refuted.
(** with range scaling the offset enters with the other sign *)
Theorem C42_scaled_meaning : forall id q m (sigma r0 : R) p0 (h : @heap (lvar RN)) p n e, 0 < sigma -> sees_vector h q [vx p; vy p; vz p] -> sees_plane h m n e -> 1 + len (v3sub p p0) / r0 <> 0 ->
  zero_when (plane_factor (N:=RN) id q m sigma (Some (r0, p0))) h (dot n p = e).
Proof. exact c42_scaled_meaning. Qed.
Print Assumptions C42_scaled_meaning.
Example C42_case : (exists J, exact_jacobian (plane_factor (N:=RN) 0 2%nat 6%nat 3 None) scene J) /\ exists J, exact_jacobian (plane_factor (N:=RN) 0 2%nat 6%nat 3 (Some (2, v3zero))) scene J.
Proof. split.
  - apply (C42_unscaled_exact 0%Z 2%nat 6%nat 3 scene (ex 5) (ex 1) (-5)); [lra|exact s_vec2|exact s_plane].
  - apply (C42_scaled_exact_partial 0%Z 2%nat 6%nat 3 2 v3zero scene (ex 5) (ex 1) (-5)); [lra|exact s_vec2|exact s_plane| |]; rewrite len_ex; lra. Qed.
(** C43 *)
Theorem C43_exact : forall id m np (dp nsigma dsigma : R) (h : @heap (lvar RN)) n e, 0 < nsigma -> 0 < dsigma -> sees_plane h m n e -> length2 n = 1 -> exists J, exact_jacobian (plane_prior (N:=RN) id m np dp nsigma dsigma) h J.
Proof. exact c43_exact. Qed.
Print Assumptions C43_exact.
(** zero exactly when the normals are parallel and the offsets equal. Missing: the direction of the normal, see the refutation *)
Theorem C43_zero_partial : forall id m np (dp nsigma dsigma : R) (h : @heap (lvar RN)) n e, 0 < nsigma -> 0 < dsigma -> sees_plane h m n e -> length2 n = 1 -> np <> v3zero (N:=RN) ->
  zero_when (plane_prior (N:=RN) id m np dp nsigma dsigma) h ((exists r, r <> 0 /\ multiple r n np) /\ e = dp).
Proof. exact c43_zero_partial. Qed.
Print Assumptions C43_zero_partial.
(** plane x + 1 = 0, prior -x + 1 = 0: a different plane, zero residual *)
Theorem C43_flipped_refuted : ~ zero_when (plane_prior (N:=RN) 0 0%nat (ex (-1)) 1 1 1) flipped_heap (v3normalized (ex (-1)) = ex 1 /\ 1 = 1) /\
  zero_when (plane_prior (N:=RN) 0 0%nat (ex (-1)) 1 1 1) flipped_heap True.
Proof. exact c43_flipped_refuted. Qed.
Print Assumptions C43_flipped_refuted.
Example C43_case : exists J, exact_jacobian (plane_prior (N:=RN) 0 6%nat (V3 (N:=RN) 0 2 1) 3 1 2) scene J.
Proof. apply (C43_exact 0%Z 6%nat (V3 (N:=RN) 0 2 1) 3 1 2 scene (ex 1) (-5)); [lra|lra|exact s_plane|]. unfold ex; gx; cbv [RN car]; ring. Qed.
(** C44, E the rotation error, t its rotation vector. Missing: 0 < |t| <= 1e-5 (refuted below) and 3.14 <= |t| < pi *)
Theorem C44_rotation_prior_partial : forall id a prior (sigma : R) (h : @heap (lvar RN)) C E t, 0 < sigma -> sees_rot h a C -> rotation C -> rotation prior -> product E prior C -> rotation_by t E -> t = v3zero \/ / 100000 < len t < 314 / 100 ->
  exists J, exact_jacobian (rotation_prior (N:=RN) id a prior sigma) h J.
Proof. exact c44_rotation_prior_partial. Qed.
Print Assumptions C44_rotation_prior_partial.
Theorem C44_orientation_prior_partial : forall id a prior (sigma : R) (h : @heap (lvar RN)) p C E t, 0 < sigma -> sees_pose h a p C -> rotation C -> rotation prior -> prior = m3id \/ / 100000 <= acos ((m3trace prior - 1) / 2) ->
  product E prior C -> rotation_by t E -> t = v3zero \/ / 100000 < len t < 314 / 100 -> exists J, exact_jacobian (pose_orientation_prior (N:=RN) id a prior sigma) h J.
Proof. exact c44_orientation_prior_partial. Qed.
Print Assumptions C44_orientation_prior_partial.
Theorem C44_orientation_between_partial : forall id a b c (sigma : R) (h : @heap (lvar RN)) p1 R1 p2 R2 C D E t, 0 < sigma -> sees_pose h a p1 R1 -> sees_pose h b p2 R2 -> sees_rot h c C -> rotation R1 -> rotation R2 -> rotation C ->
  product D R1 R2 -> product D C E -> rotation_by t E -> t = v3zero \/ / 100000 < len t < 314 / 100 -> exists J, exact_jacobian (pose_orientation_between (N:=RN) id a b c sigma) h J.
Proof. exact c44_orientation_between_partial. Qed.
Print Assumptions C44_orientation_between_partial.
(** a rotation prior met up to an angle of 1e-6 *)
Theorem C44_small_angle_refuted : sees_rot slight_heap 0%nat (aa_matrix (/ 1000000) (ex 1)) /\ forall J, ~ exact_jacobian slight slight_heap J.
Proof. exact c44_small_angle_refuted. Qed.
Print Assumptions C44_small_angle_refuted.
Example C44_case : (exists J, exact_jacobian (rotation_prior (N:=RN) 0 3%nat m3id 2) scene J) /\ (exists J, exact_jacobian (pose_orientation_prior (N:=RN) 0 0%nat m3id 2) scene J) /\
  exists J, exact_jacobian (pose_orientation_between (N:=RN) 0 1%nat 0%nat 12%nat 2) scene J.
Proof. assert (L : / 100000 < len (ex 1) < 314 / 100) by (rewrite ex_len; lra). assert (PI1 : product quarter m3id quarter) by (apply product_mul; rewrite mul_id_r; reflexivity). repeat split.
  - apply (C44_rotation_prior_partial 0%Z 3%nat m3id 2 scene quarter quarter (ex 1)); [lra|exact s_rot|exact quarter_rotation|exact rot_id|exact PI1|exact quarter_by|right; exact L].
  - apply (C44_orientation_prior_partial 0%Z 0%nat m3id 2 scene v3zero quarter quarter (ex 1)); [lra|exact s_pose0|exact quarter_rotation|exact rot_id|left; reflexivity|exact PI1|exact quarter_by|right; exact L].
  - apply (C44_orientation_between_partial 0%Z 1%nat 0%nat 12%nat 2 scene (ex 3) m3id v3zero quarter m3id quarter quarter (ex 1));
      [lra|exact s_pose1|exact s_pose0|exact s_rot12|exact rot_id|exact quarter_rotation|exact rot_id|exact PI1|exact PI1|exact quarter_by|right; exact L]. Qed.
(** C45. Missing: output vectors whose size is neither 0 nor 5 *)
Theorem C45_exact_partial : forall id r o s la lb (sigma : R) (h : @heap (lvar RN)) C org (k : R) xa xb, 0 < sigma ->
  sees_rot h r C -> sees_generic h o [vx org; vy org; vz org] -> sees_generic h s [k] -> sees_landmark h la xa -> sees_landmark h lb xb ->
  let f := coordinate_transform (N:=RN) id r o s la lb sigma in exists J,
  (forall J0, length J0 = 0%nat \/ length J0 = 5%nat -> f_jac f h J0 = (J, Ok tt)) /\ shaped h (f_rsize f) (f_vars f) J /\
  forall H D, hmoves H h D -> exists r : R -> list R,
    (forall t, f_res f (H t) = Ok (r t) /\ length (r t) = f_rsize f) /\
    forall i, (i < f_rsize f)%nat -> is_derive (fun t => nth i (r t) 0) 0 (response h D (f_vars f) J i).
Proof. exact c45_exact_partial. Qed.
Print Assumptions C45_exact_partial.
(** with any other size the vector is indexed out of bounds *)
Theorem C45_output_vector_refuted : forall id r o s la lb (sigma : R) (h : @heap (lvar RN)) C org (k : R) xa xb, 0 < sigma ->
  sees_rot h r C -> sees_generic h o [vx org; vy org; vz org] -> sees_generic h s [k] -> sees_landmark h la xa -> sees_landmark h lb xb ->
  forall J0, length J0 <> 0%nat -> length J0 <> 5%nat -> snd (f_jac (coordinate_transform (N:=RN) id r o s la lb sigma) h J0) = UB UBIndex.
Proof. exact c45_output_vector_refuted. Qed.
Print Assumptions C45_output_vector_refuted.
(** the residual vanishes exactly when x_A = scale * dcm_AB x_B - origin *)
Theorem C45_zero : forall id r o s la lb (sigma : R) (h : @heap (lvar RN)) C org (k : R) xa xb, 0 < sigma ->
  sees_rot h r C -> sees_generic h o [vx org; vy org; vz org] -> sees_generic h s [k] -> sees_landmark h la xa -> sees_landmark h lb xb ->
  zero_when (coordinate_transform (N:=RN) id r o s la lb sigma) h (forall y, image C xb y -> xa = v3sub (v3scale k y) org).
Proof. exact c45_zero. Qed.
Print Assumptions C45_zero.
(** the documented meaning of the origin variable, 'origin of frame B in frame A', would be x_A = scale * dcm_AB x_B + origin *)
Theorem C45_origin_refuted : ~ zero_when (coordinate_transform (N:=RN) 0 0%nat 1%nat 2%nat 3%nat 4%nat 1) transform_heap (forall y, image m3id v3zero y -> ex 1 = v3add (v3scale 1 y) (ex 1)).
Proof. exact c45_origin_refuted. Qed.
Print Assumptions C45_origin_refuted.
Example C45_case : sees_rot scene 3%nat quarter /\ sees_generic scene 4%nat [1; 2; 3] /\ sees_generic scene 10%nat [2] /\ sees_landmark scene 2%nat (ex 5) /\ sees_landmark scene 11%nat (ex 2).
Proof. repeat split; [exact s_rot|exact s_gen|exact s_gen1|exact s_land|exact s_land11]. Qed.
(** C46; the bearing projection, 2D between, plane, plane prior and coordinate transform factors are in C39, C41, C42, C43 and C45 *)
Theorem C46_generic_prior : forall id a prior (sigma : R) (h : @heap (lvar RN)) x, 0 < sigma -> has_value h a x -> length x = length prior -> zero_when (generic_prior (lib RN) id a prior sigma) h (x = prior).
Proof. exact c46_generic_prior. Qed.
Print Assumptions C46_generic_prior.
Theorem C46_generic_between : forall id a b d n (sigma : R) (h : @heap (lvar RN)) xa xb xd, 0 < sigma -> has_value h a xa -> has_value h b xb -> has_value h d xd -> length xa = n -> length xb = n -> length xd = n ->
  zero_when (generic_between (lib RN) id a b d n sigma) h (forall i, (i < n)%nat -> nth i xb 0 - nth i xa 0 = nth i xd 0).
Proof. exact c46_generic_between. Qed.
Print Assumptions C46_generic_between.
Theorem C46_linear_velocity : forall id a b c n (dt sigma : R) i0 (h : @heap (lvar RN)) xa xb xc, 0 < sigma -> has_value h a xa -> has_value h b xb -> has_value h c xc ->
  (i0 + n <= length xa)%nat -> (i0 + n <= length xb)%nat -> length xc = n ->
  zero_when (linear_velocity (N:=RN) id a b c n dt sigma i0) h (forall i, (i < n)%nat -> nth (i0 + i) xb 0 - nth (i0 + i) xa 0 = nth i xc 0 * dt).
Proof. exact c46_linear_velocity. Qed.
Print Assumptions C46_linear_velocity.
Theorem C46_position_prior : forall id a prior (sigma : R) (h : @heap (lvar RN)) p C, 0 < sigma -> sees_pose h a p C -> zero_when (pose_position_prior (N:=RN) id a prior sigma) h (p = prior).
Proof. exact c46_position_prior. Qed.
Print Assumptions C46_position_prior.
Theorem C46_position_between : forall id a b m (sigma : R) local (h : @heap (lvar RN)) p1 C1 p2 C2 x, 0 < sigma -> sees_pose h a p1 C1 -> sees_pose h b p2 C2 -> sees_vector h m [vx x; vy x; vz x] ->
  zero_when (pose_position_between (N:=RN) id a b m sigma local) h (if local then image C1 (v3sub p2 p1) x else v3sub p2 p1 = x).
Proof. exact c46_position_between. Qed.
Print Assumptions C46_position_between.
Theorem C46_rotation_prior : forall id a prior (sigma : R) (h : @heap (lvar RN)) C, 0 < sigma -> sees_rot h a C -> rotation C -> rotation prior -> zero_when (rotation_prior (N:=RN) id a prior sigma) h (C = prior).
Proof. exact c46_rotation_prior. Qed.
Print Assumptions C46_rotation_prior.
(** Missing: priors closer than 1e-5 to the identity, refuted below *)
Theorem C46_orientation_prior_partial : forall id a prior (sigma : R) (h : @heap (lvar RN)) p C, 0 < sigma -> sees_pose h a p C -> rotation C -> rotation prior -> prior = m3id \/ / 100000 <= acos ((m3trace prior - 1) / 2) ->
  zero_when (pose_orientation_prior (N:=RN) id a prior sigma) h (C = prior).
Proof. exact c46_orientation_prior_partial. Qed.
Print Assumptions C46_orientation_prior_partial.
Theorem C46_tiny_prior_refuted : sees_pose tiny_heap 0%nat v3zero tiny /\ rotation tiny /\ ~ zero_when (pose_orientation_prior (N:=RN) 0 0%nat tiny 1) tiny_heap (tiny = tiny).
Proof. exact c46_tiny_prior_refuted. Qed.
Print Assumptions C46_tiny_prior_refuted.
(** the calibration rotation maps the second orientation to the first *)
Theorem C46_orientation_between : forall id a b c (sigma : R) (h : @heap (lvar RN)) p1 C1 p2 C2 C, 0 < sigma -> sees_pose h a p1 C1 -> sees_pose h b p2 C2 -> sees_rot h c C -> rotation C1 -> rotation C2 -> rotation C ->
  zero_when (pose_orientation_between (N:=RN) id a b c sigma) h (product C C2 C1).
Proof. exact c46_orientation_between. Qed.
Print Assumptions C46_orientation_between.
Theorem C46_bearing : forall id a l obs (sigma : R) (h : @heap (lvar RN)) p C x, 0 < sigma -> sees_pose h a p C -> sees_landmark h l x -> rotation C -> x <> p -> obs <> v3zero (N:=RN) ->
  zero_when (bearing_observation (N:=RN) id a l obs sigma) h (seen_along C (v3sub x p) obs).
Proof. exact c46_bearing. Qed.
Print Assumptions C46_bearing.
Theorem C46_inverse_range_bearing : forall id a l obs (sigma : R) (h : @heap (lvar RN)) p C o b rho x, 0 < sigma -> sees_pose h a p C -> sees_inv h l o b rho -> 1 / 1000000000 <= Rabs rho -> inverse_range_point o b rho x -> rotation C -> x <> p -> obs <> v3zero (N:=RN) ->
  zero_when (inverse_range_bearing (N:=RN) id a l obs sigma) h (seen_along C (v3sub x p) obs).
Proof. exact c46_inverse_range_bearing. Qed.
Print Assumptions C46_inverse_range_bearing.
Theorem C46_bearing_2d : forall id p l (obs sigma : R) (h : @heap (lvar RN)) x y t lx ly, 0 < sigma -> sees_pose2 h p x y t -> sees_generic h l [lx; ly] -> lx <> x \/ ly <> y ->
  zero_when (bearing_observation_2d (N:=RN) id p l obs sigma) h (points_at x y t lx ly obs).
Proof. exact c46_bearing_2d. Qed.
Print Assumptions C46_bearing_2d.
Theorem C46_range_bearing_2d : forall id p l (robs obs rs bs : R) (h : @heap (lvar RN)) x y t lx ly, 0 < rs -> 0 < bs -> sees_pose2 h p x y t -> sees_generic h l [lx; ly] -> lx <> x \/ ly <> y ->
  zero_when (range_bearing_2d (N:=RN) id p l robs obs rs bs) h (sqrt ((lx - x) * (lx - x) + (ly - y) * (ly - y)) = robs /\ points_at x y t lx ly obs).
Proof. exact c46_range_bearing_2d. Qed.
Print Assumptions C46_range_bearing_2d.
Theorem C46_pose_2d_prior : forall id p (px py pt ps rs : R) (h : @heap (lvar RN)) x y t, 0 < ps -> 0 < rs -> sees_pose2 h p x y t ->
  zero_when (pose2_prior (N:=RN) id p (V3 (N:=RN) px py pt) ps rs) h (x = px /\ y = py /\ congruent t pt).
Proof. exact c46_pose_2d_prior. Qed.
Print Assumptions C46_pose_2d_prior.
Example C46_case : zero_when (bearing_observation (N:=RN) 0 0%nat 2%nat (ex 1) 3) scene True /\ zero_when (pose_position_prior (N:=RN) 0 0%nat (ex 2) 3) scene False /\ has_value scene 6%nat [1; 0; 0; -5].
Proof. assert (Z : forall f h (P Q : Prop), (P <-> Q) -> zero_when f h P -> zero_when f h Q) by (intros f h P Q E (r & A & B & C); exists r; rewrite <- E; auto). split; [|split].
  - apply (Z _ _ (seen_along quarter (v3sub (ex 5) v3zero) (ex 1))); [|apply C46_bearing; [lra|exact s_pose0|exact s_land|exact quarter_rotation|apply ex_nonzero; lra|apply ex_nonzero; lra]].
    split; [intros _; exact I|]. intros _. exists 5. split; [lra|]. replace (V3 (N:=RN) _ _ _) with (ex 5) by (unfold ex; cbn; f_equal; ring). exact quarter_keeps.
  - apply (Z _ _ (v3zero (N:=RN) = ex 2)); [|apply (C46_position_prior 0%Z 0%nat (ex 2) 3 scene v3zero quarter); [lra|exact s_pose0]]. split; [|contradiction]. intros E. symmetry in E. revert E. apply ex_nonzero. lra.
  - eexists. split; reflexivity. Qed.
(** C59: the Jacobians of C35-C45 are the derivatives along apply_increment where the variables are regular *)
Theorem C59_along_increments : forall f (h : @heap (lvar RN)) J, exact_jacobian f h J -> exact_along_increments f h J.
Proof. exact c59_along_increments. Qed.
Print Assumptions C59_along_increments.
(** neither kind of curve is an empty notion *)
Theorem C59_increments_exist : forall (h : @heap (lvar RN)) D, steps_regularly h D -> exists H, nudges H h D.
Proof. exact c59_increments_exist. Qed.
Print Assumptions C59_increments_exist.
Theorem C59_motions_exist : forall (h : @heap (lvar RN)) D, (forall a v, nth_error h a = Some v -> well_formed (l_kind v) /\ length (D a) = ksize (l_kind v)) -> exists H, hmoves H h D.
Proof. exact c59_motions_exist. Qed.
Print Assumptions C59_motions_exist.
(** a pose at the identity: apply_increment ignores rotations shorter than 1e-10, so the residual's derivative along it is zero *)
Theorem C59_identity_pose_refuted : exists J, exact_jacobian upright pose_heap J /\ nudges turned_heap pose_heap turn_x /\
  exists r : R -> list R, (forall s, f_res upright (turned_heap s) = Ok (r s)) /\ ~ is_derive (fun s => nth 0 (r s) 0) 0 (response pose_heap turn_x (f_vars upright) J 0).
Proof. exact c59_identity_pose_refuted. Qed.
Print Assumptions C59_identity_pose_refuted.
Example C59_case : steps_regularly scene (fun a => match nth_error scene a with Some v => repeat 1 (ksize (l_kind v)) | None => [] end).
Proof. intros a v Ha Hc. rewrite Ha. split; [|apply repeat_length].
  pose proof pi_bounds as PB.
  destruct a as [|[|[|[|[|[|[|[|[|[|[|[|[|a]]]]]]]]]]]]]; [injection Ha as <-; try discriminate Hc; cbn [l_kind regular]..|destruct a; discriminate Ha]; try exact I; try reflexivity.
  1: (split; [reflexivity|]; exists (ex 1); split; [exact quarter_by|rewrite ex_len; lra]).
  1: (exists (/ 2); split; [reflexivity|lra]).
  1: (unfold ex; gx; cbv [RN car]; ring).
  1: (exists 0, 0, 0; split; [reflexivity|lra]).
  exists 1, 2, 1; split; [reflexivity|lra]. Qed.
