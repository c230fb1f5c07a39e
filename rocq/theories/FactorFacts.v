(** Proofs for PropsFactors. *)
From Coq Require Import List Arith ZArith QArith Reals Lra Lia.
From Coquelicot Require Import Coquelicot.
From Verif Require Import Base Sparse Graph Geom Vars VarOps VarsLemmas VarsRun FactorsLin FactorsLinFacts FactorsGeo SpecGeom SpecVars SpecFactor Real RSum Trig GeomR GeomExp GeomLog GeomNear GeomJac GeomFacts FactorCalc FactorRead FactorJac FactorJac2 FactorAngle FactorJac3 FactorLinJac FactorOri FactorStep FactorMotion FactorZero FactorCases.
Import ListNotations.
Local Open Scope R_scope.

(** a heap with a variable of every kind, for the examples *)
Definition quarter : m3 RN := aa_matrix 1 (ex 1).
Definition scene : @heap (lvar RN) :=
  [LVar 0 false (KPose [0; 0; 0; 1; 0; 0] quarter);                     (* 0 *)
   LVar 1 true (KPose [3; 0; 0; 0; 0; 0] m3id);                         (* 1: constant *)
   LVar 2 false (KLandmark [5; 0; 0]);                                  (* 2 *)
   LVar 3 false (KRot [1; 0; 0] quarter);                               (* 3 *)
   LVar 4 false (KGeneric [1; 2; 3]);                                   (* 4 *)
   LVar 5 false (KInv v3zero (ex 1) (/ 1000000) 1000 [/ 2]);            (* 5 *)
   LVar 6 false (KPlane (ex 1) (-5));                                   (* 6 *)
   LVar 7 false (KPose2 [0; 0; 0]);                                     (* 7 *)
   LVar 8 false (KPose2 [1; 2; 1]);                                     (* 8 *)
   LVar 9 false (KGeneric [3; 4]);                                      (* 9 *)
   LVar 10 false (KGeneric [2]);                                        (* 10 *)
   LVar 11 false (KLandmark [2; 0; 0]);                                 (* 11 *)
   LVar 12 true (KRot [0; 0; 0] m3id)].                                 (* 12: constant *)
Ltac here := repeat eexists; reflexivity.
Lemma s_pose0 : sees_pose scene 0%nat v3zero quarter.
Proof. exists 0%Z, false, (ex 1). unfold ex, v3zero; cbn; rewrite q0; reflexivity. Qed.
Lemma s_pose1 : sees_pose scene 1%nat (ex 3) m3id.
Proof. exists 1%Z, true, v3zero. unfold ex, v3zero; cbn; rewrite q0; reflexivity. Qed.
Lemma s_land : sees_landmark scene 2%nat (ex 5).
Proof. exists 2%Z, false. reflexivity. Qed.
Lemma s_land11 : sees_landmark scene 11%nat (ex 2).
Proof. exists 11%Z, false. reflexivity. Qed.
Lemma s_rot : sees_rot scene 3%nat quarter.
Proof. exists 3%Z, false, [1; 0; 0]. reflexivity. Qed.
Lemma s_rot12 : sees_rot scene 12%nat m3id.
Proof. exists 12%Z, true, [0; 0; 0]. reflexivity. Qed.
Lemma s_gen : sees_generic scene 4%nat [1; 2; 3].
Proof. exists 4%Z, false. reflexivity. Qed.
Lemma s_vec : sees_vector scene 4%nat [1; 2; 3].
Proof. exists 4%Z, false. left. reflexivity. Qed.
Lemma s_vec2 : sees_vector scene 2%nat [5; 0; 0].
Proof. exists 2%Z, false. right. split; reflexivity. Qed.
Lemma s_inv : sees_inv scene 5%nat v3zero (ex 1) (/ 2).
Proof. exists 5%Z, false, (/ 1000000), 1000. reflexivity. Qed.
Lemma s_plane : sees_plane scene 6%nat (ex 1) (-5).
Proof. exists 6%Z, false. reflexivity. Qed.
Lemma s_pose2a : sees_pose2 scene 7%nat 0 0 0.
Proof. exists 7%Z, false. reflexivity. Qed.
Lemma s_pose2b : sees_pose2 scene 8%nat 1 2 1.
Proof. exists 8%Z, false. reflexivity. Qed.
Lemma s_gen2 : sees_generic scene 9%nat [3; 4].
Proof. exists 9%Z, false. reflexivity. Qed.
Lemma s_gen1 : sees_generic scene 10%nat [2].
Proof. exists 10%Z, false. reflexivity. Qed.
Lemma s_add : sees_additive scene 4%nat 3 [1; 2; 3].
Proof. split; [lia|]. eexists. repeat split; cbn; lia. Qed.
Lemma s_add2 : sees_additive scene 2%nat 3 [5; 0; 0].
Proof. split; [lia|]. eexists. repeat split; cbn; lia. Qed.
Lemma s_add_pose : sees_additive scene 0%nat 3 [0; 0; 0; 1; 0; 0].
Proof. split; [lia|]. eexists. repeat split; cbn; lia. Qed.
Lemma quarter_by : rotation_by (ex 1) quarter.
Proof. pose proof (aa_by 1 (ex 1) ltac:(unfold ex; gx; cbv [RN car]; ring)) as X. rewrite <- ex_scale in X. exact X. Qed.
Lemma quarter_rotation : rotation quarter.
Proof. apply aa_rotation. unfold ex; gx; cbv [RN car]; ring. Qed.
Lemma s_inv_point : inverse_range_point v3zero (ex 1) (/ 2) (ex 2).
Proof. unfold inverse_range_point, ex, v3zero. cbn. rewrite q0. repeat split; field. Qed.

Lemma c35_generic_prior_exact : forall id a prior (sigma : R) (h : @heap (lvar RN)) x, 0 < sigma -> sees_additive h a (length prior) x -> length x = length prior ->
  (exists v, nth_error h a = Some v /\ l_const v = false) -> exists J, exact_jacobian (generic_prior (lib RN) id a prior sigma) h J.
Proof. intros id a prior sigma h x _ S L V. eexists. exact (gprior_exact id a prior sigma h x S L V). Qed.
Lemma c35_generic_between_exact : forall id a b d n (sigma : R) (h : @heap (lvar RN)) xa xb xd, 0 < sigma -> sees_additive h a n xa -> sees_additive h b n xb -> sees_additive h d n xd ->
  length xa = n -> length xb = n -> length xd = n -> exists J, exact_jacobian (generic_between (lib RN) id a b d n sigma) h J.
Proof. intros id a b d n sigma h xa xb xd _ Sa Sb Sd La Lb Ld. eexists. exact (gbetween_exact id a b d n sigma h xa xb xd Sa Sb Sd La Lb Ld). Qed.
Lemma c35_linear_velocity_exact : forall id a b c n (dt sigma : R) i0 (h : @heap (lvar RN)) xa xb xc, 0 < sigma -> sees_additive h a (i0 + n) xa -> sees_additive h b (i0 + n) xb ->
  sees_additive h c n xc -> length xc = n -> exists J, exact_jacobian (linear_velocity (N:=RN) id a b c n dt sigma i0) h J.
Proof. intros id a b c n dt sigma i0 h xa xb xc _ Sa Sb Sc Lc. eexists. exact (linvel_exact id a b c n dt sigma i0 h xa xb xc Sa Sb Sc Lc). Qed.
Lemma c35_plane_value_refuted : (forall D : addr -> list R, length (D 0%nat) = 4%nat -> steps_regularly plane_heap D) /\ forall J, ~ exact_along_increments plane_gprior plane_heap J.
Proof. split; [exact plane_heap_regular|exact gprior_plane_wrong]. Qed.
Lemma c36_position_prior_exact : forall id a prior (sigma : R) (h : @heap (lvar RN)) p C, 0 < sigma -> sees_pose h a p C -> exists J, exact_jacobian (pose_position_prior (N:=RN) id a prior sigma) h J.
Proof. intros id a prior sigma h p C _ S. eexists. exact (pospri_exact id a prior sigma h p C S). Qed.
Lemma c36_position_between_exact : forall id a b m (sigma : R) local (h : @heap (lvar RN)) p1 C1 p2 C2 x, 0 < sigma -> sees_pose h a p1 C1 -> sees_pose h b p2 C2 -> sees_vector h m [vx x; vy x; vz x] ->
  exists J, exact_jacobian (pose_position_between (N:=RN) id a b m sigma local) h J.
Proof. intros id a b m sigma loc h p1 C1 p2 C2 x _ Sa Sb Sm. eexists. exact (posbet_exact id a b m sigma loc h p1 C1 p2 C2 x Sa Sb Sm). Qed.
Lemma too_near (q : v3 RN) : len q < 1 / 1000000000 -> nltb (n:=RN) (v3norm q) min_dist = true.
Proof. intros F. apply Rltb_true. change ((v3norm q : R) < (min_dist (N:=RN) : R)). rewrite min_dist_R. exact F. Qed.
Lemma rot_length (C : m3 RN) v : rotation C -> len (m3v C v) = len v.
Proof. intros H. unfold len. rewrite (rot_len _ _ H). reflexivity. Qed.
Lemma bearing_refuses id a l obs (sigma : R) h p C x : sees_pose h a p C -> sees_landmark h l x -> len (m3v C (v3sub x p)) < 1 / 1000000000 ->
  refuses (bearing_observation (N:=RN) id a l obs sigma) h.
Proof.
  intros Sa Sl F J0. eexists. unfold bearing_observation. cbv zeta. cbn [f_jac]. unfold bearing_jac. rewrite (pose_at_sees _ _ _ _ Sa), (landmark_at_sees _ _ _ Sl).
  cbn [obind withj fst snd]. rewrite (too_near _ F). reflexivity.
Qed.
Lemma inv_point_is (o b : v3 RN) (rho : R) x : rho <> 0 -> inverse_range_point o b rho x -> x = inv_point o b rho.
Proof.
  intros H (A & B & C). unfold inv_point. dv o; dv b; dv x. gx. cbn in A, B, C. rewrite <- A, <- B, <- C. change (car RN) with R. f_equal; cbv [RN car] in *; field; exact H.
Qed.
Lemma far_nonzero (rho : R) : 1 / 1000000000 <= Rabs rho -> rho <> 0.
Proof. intros F E. rewrite E, Rabs_R0 in F. lra. Qed.
Lemma invbear_refuses id a l obs (sigma : R) h p C o b rho : sees_pose h a p C -> sees_inv h l o b rho -> 1 / 1000000000 <= Rabs rho ->
  len (m3v C (v3sub (inv_point o b rho) p)) < 1 / 1000000000 -> refuses (inverse_range_bearing (N:=RN) id a l obs sigma) h.
Proof.
  intros Sa Sl F0 F J0. eexists. unfold inverse_range_bearing. cbv zeta. cbn [f_jac]. unfold invbear_jac. rewrite (pose_at_sees _ _ _ _ Sa).
  assert (EV : inv_at h l = Ok (inv_point o b rho, rho, b)).
  { destruct Sl as (id' & c & lo & hi & Hl). unfold inv_at, hget. rewrite Hl. cbn [obind l_kind]. rewrite inv_pos_far by exact F0. reflexivity. }
  rewrite EV. cbn [obind withj fst snd]. rewrite (too_near _ F). reflexivity.
Qed.
Lemma bear2_refuses id p l (obs sigma : R) h x y t lx ly : sees_pose2 h p x y t -> sees_generic h l [lx; ly] ->
  (lx - x) * (lx - x) + (ly - y) * (ly - y) < 1 / 1000000000 * (1 / 1000000000) -> refuses (bearing_observation_2d (N:=RN) id p l obs sigma) h.
Proof.
  intros Sp Sl F J0. rewrite <- (loc_norm x y t) in F. eexists. unfold bearing_observation_2d. cbv zeta. cbn [f_jac]. unfold bear2_jac.
  rewrite (local2_value _ _ _ _ _ _ _ _ (pose2_at_sees _ _ _ _ _ Sp) (value2_at_sees _ _ _ _ Sl)). cbn [obind v2x v2y fst snd].
  replace (nltb (n:=RN) _ _) with true; [reflexivity|]. symmetry. apply Rltb_true. unfold nmul at 3; cbn [RN]. rewrite min_dist_R. exact F.
Qed.
Lemma range2_refuses id p l (robs obs rs bs : R) h x y t lx ly : sees_pose2 h p x y t -> sees_generic h l [lx; ly] ->
  sqrt ((lx - x) * (lx - x) + (ly - y) * (ly - y)) < 1 / 1000000000 -> refuses (range_bearing_2d (N:=RN) id p l robs obs rs bs) h.
Proof.
  intros Sp Sl F J0. rewrite <- (loc_norm x y t) in F. eexists. unfold range_bearing_2d. cbv zeta. cbn [f_jac]. unfold range2_jac.
  rewrite (local2_value _ _ _ _ _ _ _ _ (pose2_at_sees _ _ _ _ _ Sp) (value2_at_sees _ _ _ _ Sl)). cbn [obind v2x v2y fst snd].
  replace (nltb (n:=RN) _ _) with true; [reflexivity|]. symmetry. apply Rltb_true. rewrite min_dist_R. exact F.
Qed.
Lemma far_sqrt (u : R) : 0 <= u -> 1 / 1000000000 <= sqrt u -> 1 / 1000000000 * (1 / 1000000000) <= u.
Proof. intros U F. rewrite <- (sqrt_sqrt u U) at 1. apply Rmult_le_compat; lra. Qed.
Lemma near_sqrt (u : R) : 0 <= u -> sqrt u < 1 / 1000000000 -> u < 1 / 1000000000 * (1 / 1000000000).
Proof. intros U F. pose proof (sqrt_pos u). rewrite <- (sqrt_sqrt u U) at 1. apply Rmult_le_0_lt_compat; lra. Qed.
Lemma sq2 (a b : R) : 0 <= a * a + b * b.
Proof. pose proof (Rle_0_sqr a). pose proof (Rle_0_sqr b). unfold Rsqr in *. lra. Qed.
Lemma len_ex (t : R) : 0 <= t -> len (v3sub (ex t) v3zero) = t.
Proof. intros H. replace (v3sub (ex t) v3zero) with (ex t) by (unfold ex; gx; f_equal; cbv [RN car] in *; ring). rewrite ex_len; lra. Qed.

Lemma c37_bearing_exact : forall id a l obs (sigma : R) (h : @heap (lvar RN)) p C x, 0 < sigma -> sees_pose h a p C -> sees_landmark h l x -> rotation C ->
  (1 / 1000000000 <= len (v3sub x p) -> exists J, exact_jacobian (bearing_observation (N:=RN) id a l obs sigma) h J) /\
  (len (v3sub x p) < 1 / 1000000000 -> refuses (bearing_observation (N:=RN) id a l obs sigma) h).
Proof. intros id a l obs sigma h p C x _ Sa Sl RC. rewrite <- (rot_length C (v3sub x p) RC). split; intros F.
  - eexists. exact (bearing_exact id a l obs sigma h p C x Sa Sl F).
  - exact (bearing_refuses id a l obs sigma h p C x Sa Sl F). Qed.
Lemma c37_near_refuted : zero_when near_bearing near_heap True /\ forall J, ~ exact_jacobian near_bearing near_heap J.
Proof. exact near_bearing_wrong. Qed.
Lemma c38_inverse_range_exact : forall id a l obs (sigma : R) (h : @heap (lvar RN)) p C o b rho x, 0 < sigma -> sees_pose h a p C -> sees_inv h l o b rho -> rotation C -> 1 / 1000000000 < Rabs rho ->
  inverse_range_point o b rho x ->
  (1 / 1000000000 <= len (v3sub x p) -> exists J, exact_jacobian (inverse_range_bearing (N:=RN) id a l obs sigma) h J) /\
  (len (v3sub x p) < 1 / 1000000000 -> refuses (inverse_range_bearing (N:=RN) id a l obs sigma) h).
Proof. intros id a l obs sigma h p C o b rho x _ Sa Sl RC F0 X. rewrite (inv_point_is o b rho x (far_nonzero _ (Rlt_le _ _ F0)) X). rewrite <- (rot_length C (v3sub (inv_point o b rho) p) RC). split; intros F.
  - eexists. exact (invbear_exact id a l obs sigma h p C o b rho Sa Sl F0 F).
  - exact (invbear_refuses id a l obs sigma h p C o b rho Sa Sl (Rlt_le _ _ F0) F). Qed.
Lemma ex_nonzero (t : R) : t <> 0 -> ex t <> v3zero.
Proof. intros H E. unfold ex, v3zero in E. change (nzero (N:=RN)) with (Q2R 0%Q) in E. rewrite q0 in E. injection E as E. contradiction. Qed.
Lemma quarter_keeps : image quarter (v3sub (ex 5) v3zero) (ex 5).
Proof.
  replace (v3sub (ex 5) v3zero) with (ex 5) by (unfold ex; gx; f_equal; cbv [RN car] in *; ring).
  apply image_mul. unfold quarter, aa_matrix, ex. gx. f_equal; cbv [RN car] in *; ring.
Qed.
Lemma turn_right (A B C : m3 RN) : rotation B -> C = m3mul A B -> A = m3mul C (m3t B).
Proof. intros H ->. rewrite m3mul_assoc, (rot_mul_t B H). symmetry. apply mul_id_r. Qed.
Lemma small_not_opposite (a b : R) : -3 < a - b < 3 -> ~ opposite a b.
Proof.
  intros H (k & E). pose proof pi_bounds as PB. rewrite E in H. destruct (Z_le_gt_dec k (-1)) as [K|K].
  1: (apply IZR_le in K; nra).
  assert (K2 : (0 <= k)%Z) by lia. apply IZR_le in K2. nra.
Qed.
Lemma norm_dot (o q : v3 RN) : 0 < len o -> dot o q / len o = dot (v3normalized o) q.
Proof. intros H. symmetry. apply dot_normalized. exact H. Qed.
Lemma div_dot (o q : v3 RN) (k : R) : k <> 0 -> dot o q / k = dot o (v3div q k).
Proof. intros H. dv o; dv q. unfold dot. gx. field. exact H. Qed.
Lemma len_pos (o : v3 RN) : o <> v3zero -> 0 < len o.
Proof.
  intros H. pose proof (rot_len_pos m3id o v3zero rot_id H) as X. rewrite m3v_id in X.
  replace (v3sub o v3zero) with o in X; [exact X|]. dv o. gx. f_equal; cbv [RN car] in *; ring.
Qed.

Lemma c39_tangent_basis : forall k t1 t2 : v3 RN, dot k k = 1 -> tangent_basis k = (t1, t2) -> dot t1 t1 = 1 /\ dot t2 t2 = 1 /\ dot t1 t2 = 0 /\ dot t1 k = 0 /\ dot t2 k = 0.
Proof. exact tangent_ok. Qed.
Lemma c39_zero : forall id a l obs (sigma tol : R) (h : @heap (lvar RN)) p C x, 0 < sigma -> 0 <= tol < 1 -> sees_pose h a p C -> sees_landmark h l x -> rotation C -> x <> p -> obs <> v3zero (N:=RN) ->
  zero_when (bearing_projection (N:=RN) id a l obs sigma tol) h (seen_along C (v3sub x p) obs).
Proof. exact proj_zero. Qed.
Lemma c39_front_exact : forall id a l obs (sigma tol : R) (h : @heap (lvar RN)) p C x q c, 0 < sigma -> sees_pose h a p C -> sees_landmark h l x -> rotation C -> x <> p -> obs <> v3zero (N:=RN) ->
  image C (v3sub x p) q -> dot obs q = len obs * len q * c -> tol <> c -> exists J, exact_jacobian (bearing_projection (N:=RN) id a l obs sigma tol) h J.
Proof. intros id a l obs sigma tol h p C x q c _ Sa Sl RC X O Q E Tc. apply image_mul in Q. pose proof (rot_len_pos C x p RC X) as F. rewrite <- Q in F.
  assert (FO : 0 < len obs) by (apply len_pos; exact O).
  assert (EC : dot (v3normalized obs) (v3div q (len q)) = c).
  { transitivity (dot obs q / len q / len obs); [rewrite <- (norm_dot obs (v3div q (len q)) FO), <- div_dot by lra; reflexivity|]. rewrite E. field. lra. }
  destruct (Rtotal_order tol c) as [L|[L|L]]; [|contradiction|].
  1: (eexists; apply (proj_exact id a l obs sigma tol h p C x Sa Sl); cbv zeta; rewrite <- Q; [exact F|change (v3dot (N:=RN)) with dot; rewrite EC; exact L]).
  eexists; apply (proj_behind_exact id a l obs sigma tol h p C x Sa Sl); cbv zeta; rewrite <- Q; [exact F|change (v3dot (N:=RN)) with dot; rewrite EC; exact L]. Qed.
Lemma c40_bearing_exact : forall id p l (obs sigma : R) (h : @heap (lvar RN)) x y t lx ly, 0 < sigma -> sees_pose2 h p x y t -> sees_generic h l [lx; ly] ->
  (1 / 1000000000 <= sqrt ((lx - x) * (lx - x) + (ly - y) * (ly - y)) -> ~ points_at x y t lx ly (obs + PI) ->
    exists J, exact_jacobian (bearing_observation_2d (N:=RN) id p l obs sigma) h J) /\
  (sqrt ((lx - x) * (lx - x) + (ly - y) * (ly - y)) < 1 / 1000000000 -> refuses (bearing_observation_2d (N:=RN) id p l obs sigma) h).
Proof. intros id p l obs sigma h x y t lx ly _ Sp Sl. split.
  - intros F O. pose proof (far_sqrt _ (sq2 _ _) F) as F2. eexists. apply (bear2_exact id p l obs sigma h x y t lx ly Sp Sl F2). apply not_behind; [lra|exact O].
  - intros F. exact (bear2_refuses id p l obs sigma h x y t lx ly Sp Sl (near_sqrt _ (sq2 _ _) F)). Qed.
Lemma c40_range_bearing_exact : forall id p l (robs obs rsigma bsigma : R) (h : @heap (lvar RN)) x y t lx ly, 0 < rsigma -> 0 < bsigma -> sees_pose2 h p x y t -> sees_generic h l [lx; ly] ->
  (1 / 1000000000 <= sqrt ((lx - x) * (lx - x) + (ly - y) * (ly - y)) -> ~ points_at x y t lx ly (obs + PI) ->
    exists J, exact_jacobian (range_bearing_2d (N:=RN) id p l robs obs rsigma bsigma) h J) /\
  (sqrt ((lx - x) * (lx - x) + (ly - y) * (ly - y)) < 1 / 1000000000 -> refuses (range_bearing_2d (N:=RN) id p l robs obs rsigma bsigma) h).
Proof. intros id p l robs obs rs bs h x y t lx ly _ _ Sp Sl. split.
  - intros F O. pose proof (far_sqrt _ (sq2 _ _) F) as F2. eexists. apply (range2_exact id p l robs obs rs bs h x y t lx ly Sp Sl F). apply not_behind; [lra|exact O].
  - intros F. exact (range2_refuses id p l robs obs rs bs h x y t lx ly Sp Sl F). Qed.
Lemma c41_prior_exact : forall id p prior (psigma asigma : R) (h : @heap (lvar RN)) x y t, 0 < psigma -> 0 < asigma -> sees_pose2 h p x y t -> ~ opposite t (vz prior) ->
  exists J, exact_jacobian (pose2_prior (N:=RN) id p prior psigma asigma) h J.
Proof. intros id p prior ps rs h x y t _ _ Sp O. eexists. apply (pri2_exact id p prior ps rs h x y t Sp). apply not_opposite. exact O. Qed.
Lemma c41_between_exact : forall id a b m (psigma asigma : R) local (h : @heap (lvar RN)) x1 y1 t1 x2 y2 t2 mx my mt, 0 < psigma -> 0 < asigma -> sees_pose2 h a x1 y1 t1 -> sees_pose2 h b x2 y2 t2 ->
  sees_vector h m [mx; my; mt] \/ sees_pose2 h m mx my mt -> ~ opposite (t2 - t1) mt -> exists J, exact_jacobian (pose2_between (N:=RN) id a b m psigma asigma local) h J.
Proof. intros id a b m ps rs loc h x1 y1 t1 x2 y2 t2 mx my mt _ _ Sa Sb Sm O. eexists. apply (bet2_exact id a b m ps rs loc h x1 y1 t1 x2 y2 t2 mx my mt Sa Sb Sm). apply not_opposite. exact O. Qed.
Lemma c41_between_zero : forall id a b m (psigma asigma : R) (h : @heap (lvar RN)) x1 y1 t1 x2 y2 t2 mx my mt, 0 < psigma -> 0 < asigma -> sees_pose2 h a x1 y1 t1 -> sees_pose2 h b x2 y2 t2 ->
  sees_vector h m [mx; my; mt] \/ sees_pose2 h m mx my mt -> zero_when (pose2_between (N:=RN) id a b m psigma asigma false) h (x2 - x1 = mx /\ y2 - y1 = my /\ congruent (t2 - t1) mt).
Proof. exact bet2_zero. Qed.
Lemma c41_local_frame_refuted : in_frame 0 0 (PI / 2) 0 1 1 0 /\
  ~ zero_when (pose2_between (N:=RN) 0 0%nat 1%nat 2%nat 1 1 true) local_heap (in_frame 0 0 (PI / 2) 0 1 1 0 /\ congruent (PI / 2 - PI / 2) 0).
Proof. exact local_frame_wrong. Qed.
Lemma c41_local_frame_meaning : forall id a b m (psigma asigma : R) (h : @heap (lvar RN)) x1 y1 t1 x2 y2 t2 mx my mt, 0 < psigma -> 0 < asigma -> sees_pose2 h a x1 y1 t1 -> sees_pose2 h b x2 y2 t2 ->
  sees_vector h m [mx; my; mt] \/ sees_pose2 h m mx my mt -> zero_when (pose2_between (N:=RN) id a b m psigma asigma true) h (in_frame x1 y1 (- t1) x2 y2 mx my /\ congruent (t2 - t1) mt).
Proof. exact bet2_local_zero. Qed.
Lemma c42_unscaled_exact : forall id q m (sigma : R) (h : @heap (lvar RN)) p n e, 0 < sigma -> sees_vector h q [vx p; vy p; vz p] -> sees_plane h m n e -> exists J, exact_jacobian (plane_factor (N:=RN) id q m sigma None) h J.
Proof. intros id q m sigma h p n e _ Sq Sm. eexists. exact (plane_exact id q m sigma h p n e Sq Sm). Qed.
Lemma c42_unscaled_zero : forall id q m (sigma : R) (h : @heap (lvar RN)) p n e, 0 < sigma -> sees_vector h q [vx p; vy p; vz p] -> sees_plane h m n e -> zero_when (plane_factor (N:=RN) id q m sigma None) h (dot n p + e = 0).
Proof. exact plane_zero. Qed.
Lemma c42_scaled_exact_partial : forall id q m (sigma r0 : R) p0 (h : @heap (lvar RN)) p n e, 0 < sigma -> sees_vector h q [vx p; vy p; vz p] -> sees_plane h m n e ->
  1 / 1000000000000 < len (v3sub p p0) -> 1 + len (v3sub p p0) / r0 <> 0 -> exists J, exact_jacobian (plane_factor (N:=RN) id q m sigma (Some (r0, p0))) h J.
Proof. intros id q m sigma r0 p0 h p n e _ Sq Sm F G. eexists. exact (plane_scaled_exact id q m sigma r0 p0 h p n e Sq Sm F G). Qed.
Lemma c42_scaled_refuted : sees_vector scaled_heap 0%nat [5; 0; 0] /\ sees_plane scaled_heap 1%nat (ex 1) (-5) /\
  zero_when (plane_factor (N:=RN) 0 0%nat 1%nat 1 None) scaled_heap (dot (ex 1) (ex 5) + -5 = 0) /\
  ~ zero_when (plane_factor (N:=RN) 0 0%nat 1%nat 1 (Some (1, v3zero))) scaled_heap (dot (ex 1) (ex 5) + -5 = 0).
Proof. exact scaled_plane_wrong. Qed.
Lemma c42_scaled_meaning : forall id q m (sigma r0 : R) p0 (h : @heap (lvar RN)) p n e, 0 < sigma -> sees_vector h q [vx p; vy p; vz p] -> sees_plane h m n e -> 1 + len (v3sub p p0) / r0 <> 0 ->
  zero_when (plane_factor (N:=RN) id q m sigma (Some (r0, p0))) h (dot n p = e).
Proof. exact plane_scaled_zero. Qed.
Lemma c43_exact : forall id m np (dp nsigma dsigma : R) (h : @heap (lvar RN)) n e, 0 < nsigma -> 0 < dsigma -> sees_plane h m n e -> length2 n = 1 -> exists J, exact_jacobian (plane_prior (N:=RN) id m np dp nsigma dsigma) h J.
Proof. intros id m np dp ns ds h n e _ _ Sm U. eexists. apply (planepri_exact id m np dp ns ds h n e Sm). unfold len. rewrite U. apply sqrt_1. Qed.
Lemma c43_zero_partial : forall id m np (dp nsigma dsigma : R) (h : @heap (lvar RN)) n e, 0 < nsigma -> 0 < dsigma -> sees_plane h m n e -> length2 n = 1 -> np <> v3zero (N:=RN) ->
  zero_when (plane_prior (N:=RN) id m np dp nsigma dsigma) h ((exists r, r <> 0 /\ multiple r n np) /\ e = dp).
Proof. exact planepri_zero. Qed.
Lemma c43_flipped_refuted : ~ zero_when (plane_prior (N:=RN) 0 0%nat (ex (-1)) 1 1 1) flipped_heap (v3normalized (ex (-1)) = ex 1 /\ 1 = 1) /\
  zero_when (plane_prior (N:=RN) 0 0%nat (ex (-1)) 1 1 1) flipped_heap True.
Proof. exact flipped_plane_wrong. Qed.
Lemma c44_rotation_prior_partial : forall id a prior (sigma : R) (h : @heap (lvar RN)) C E t, 0 < sigma -> sees_rot h a C -> rotation C -> rotation prior -> product E prior C -> rotation_by t E -> t = v3zero \/ / 100000 < len t < 314 / 100 ->
  exists J, exact_jacobian (rotation_prior (N:=RN) id a prior sigma) h J.
Proof. intros id a prior sigma h C E t _ S RC RP HE HT HL. apply product_mul in HE. rewrite (turn_right _ _ _ RP HE) in HT. destruct (rotpri_exact id a prior sigma h C t S HT HL) as (M & _ & X). eexists. exact X. Qed.
Lemma c44_orientation_prior_partial : forall id a prior (sigma : R) (h : @heap (lvar RN)) p C E t, 0 < sigma -> sees_pose h a p C -> rotation C -> rotation prior -> prior = m3id \/ / 100000 <= acos ((m3trace prior - 1) / 2) ->
  product E prior C -> rotation_by t E -> t = v3zero \/ / 100000 < len t < 314 / 100 -> exists J, exact_jacobian (pose_orientation_prior (N:=RN) id a prior sigma) h J.
Proof. intros id a prior sigma h p C E t _ S RC RP HP HE HT HL. apply product_mul in HE. rewrite (turn_right _ _ _ RP HE) in HT. rewrite <- (exp_of_log prior RP HP) in HT.
  destruct (oripri_exact id a prior sigma h p C t S HT HL) as (M & _ & X). eexists. exact X. Qed.
Lemma c44_orientation_between_partial : forall id a b c (sigma : R) (h : @heap (lvar RN)) p1 R1 p2 R2 C D E t, 0 < sigma -> sees_pose h a p1 R1 -> sees_pose h b p2 R2 -> sees_rot h c C -> rotation R1 -> rotation R2 -> rotation C ->
  product D R1 R2 -> product D C E -> rotation_by t E -> t = v3zero \/ / 100000 < len t < 314 / 100 -> exists J, exact_jacobian (pose_orientation_between (N:=RN) id a b c sigma) h J.
Proof. intros id a b c sigma h p1 R1 p2 R2 C D E t _ Sa Sb Sc O1 O2 OC HD HE HT HL. apply product_mul in HD. apply product_mul in HE. rewrite HE, (turn_right _ _ _ O1 HD) in HT.
  destruct (oribet_exact id a b c sigma h p1 R1 p2 R2 C t Sa Sb Sc O1 O2 OC HT HL) as (M & _ & X). eexists. exact X. Qed.
Lemma c44_small_angle_refuted : sees_rot slight_heap 0%nat (aa_matrix (/ 1000000) (ex 1)) /\ forall J, ~ exact_jacobian slight slight_heap J.
Proof. split; [exists 0%Z, false, (v3list (ex (sin (/ 1000000)))); reflexivity|exact slight_wrong]. Qed.
Lemma c45_exact_partial : forall id r o s la lb (sigma : R) (h : @heap (lvar RN)) C org (k : R) xa xb, 0 < sigma ->
  sees_rot h r C -> sees_generic h o [vx org; vy org; vz org] -> sees_generic h s [k] -> sees_landmark h la xa -> sees_landmark h lb xb ->
  let f := coordinate_transform (N:=RN) id r o s la lb sigma in exists J,
  (forall J0, length J0 = 0%nat \/ length J0 = 5%nat -> f_jac f h J0 = (J, Ok tt)) /\ shaped h (f_rsize f) (f_vars f) J /\
  forall H D, hmoves H h D -> exists r : R -> list R,
    (forall t, f_res f (H t) = Ok (r t) /\ length (r t) = f_rsize f) /\
    forall i, (i < f_rsize f)%nat -> is_derive (fun t => nth i (r t) 0) 0 (response h D (f_vars f) J i).
Proof. intros id r o s la lb sigma h C org k xa xb _ Sr So Ss Sa Sb. destruct (ctrans_exact_part id r o s la lb sigma h C org k xa xb Sr So Ss Sa Sb) as (A & B & _ & D).
  eexists. split; [exact A|]. split; [exact B|exact D]. Qed.
Lemma c45_output_vector_refuted : forall id r o s la lb (sigma : R) (h : @heap (lvar RN)) C org (k : R) xa xb, 0 < sigma ->
  sees_rot h r C -> sees_generic h o [vx org; vy org; vz org] -> sees_generic h s [k] -> sees_landmark h la xa -> sees_landmark h lb xb ->
  forall J0, length J0 <> 0%nat -> length J0 <> 5%nat -> snd (f_jac (coordinate_transform (N:=RN) id r o s la lb sigma) h J0) = UB UBIndex.
Proof. intros id r o s la lb sigma h C org k xa xb _ Sr So Ss Sa Sb. destruct (ctrans_exact_part id r o s la lb sigma h C org k xa xb Sr So Ss Sa Sb) as (_ & _ & X & _). exact X. Qed.
Lemma c45_zero : forall id r o s la lb (sigma : R) (h : @heap (lvar RN)) C org (k : R) xa xb, 0 < sigma ->
  sees_rot h r C -> sees_generic h o [vx org; vy org; vz org] -> sees_generic h s [k] -> sees_landmark h la xa -> sees_landmark h lb xb ->
  zero_when (coordinate_transform (N:=RN) id r o s la lb sigma) h (forall y, image C xb y -> xa = v3sub (v3scale k y) org).
Proof. exact ctrans_zero. Qed.
Lemma c45_origin_refuted : ~ zero_when (coordinate_transform (N:=RN) 0 0%nat 1%nat 2%nat 3%nat 4%nat 1) transform_heap (forall y, image m3id v3zero y -> ex 1 = v3add (v3scale 1 y) (ex 1)).
Proof. exact transform_origin_wrong. Qed.
Lemma c46_generic_prior : forall id a prior (sigma : R) (h : @heap (lvar RN)) x, 0 < sigma -> has_value h a x -> length x = length prior -> zero_when (generic_prior (lib RN) id a prior sigma) h (x = prior).
Proof. exact gprior_zero. Qed.
Lemma c46_generic_between : forall id a b d n (sigma : R) (h : @heap (lvar RN)) xa xb xd, 0 < sigma -> has_value h a xa -> has_value h b xb -> has_value h d xd -> length xa = n -> length xb = n -> length xd = n ->
  zero_when (generic_between (lib RN) id a b d n sigma) h (forall i, (i < n)%nat -> nth i xb 0 - nth i xa 0 = nth i xd 0).
Proof. exact gbetween_zero. Qed.
Lemma c46_linear_velocity : forall id a b c n (dt sigma : R) i0 (h : @heap (lvar RN)) xa xb xc, 0 < sigma -> has_value h a xa -> has_value h b xb -> has_value h c xc ->
  (i0 + n <= length xa)%nat -> (i0 + n <= length xb)%nat -> length xc = n ->
  zero_when (linear_velocity (N:=RN) id a b c n dt sigma i0) h (forall i, (i < n)%nat -> nth (i0 + i) xb 0 - nth (i0 + i) xa 0 = nth i xc 0 * dt).
Proof. exact linvel_zero. Qed.
Lemma c46_position_prior : forall id a prior (sigma : R) (h : @heap (lvar RN)) p C, 0 < sigma -> sees_pose h a p C -> zero_when (pose_position_prior (N:=RN) id a prior sigma) h (p = prior).
Proof. exact pospri_zero. Qed.
Lemma c46_position_between : forall id a b m (sigma : R) local (h : @heap (lvar RN)) p1 C1 p2 C2 x, 0 < sigma -> sees_pose h a p1 C1 -> sees_pose h b p2 C2 -> sees_vector h m [vx x; vy x; vz x] ->
  zero_when (pose_position_between (N:=RN) id a b m sigma local) h (if local then image C1 (v3sub p2 p1) x else v3sub p2 p1 = x).
Proof. exact posbet_zero. Qed.
Lemma c46_rotation_prior : forall id a prior (sigma : R) (h : @heap (lvar RN)) C, 0 < sigma -> sees_rot h a C -> rotation C -> rotation prior -> zero_when (rotation_prior (N:=RN) id a prior sigma) h (C = prior).
Proof. exact rotpri_zero. Qed.
Lemma c46_orientation_prior_partial : forall id a prior (sigma : R) (h : @heap (lvar RN)) p C, 0 < sigma -> sees_pose h a p C -> rotation C -> rotation prior -> prior = m3id \/ / 100000 <= acos ((m3trace prior - 1) / 2) ->
  zero_when (pose_orientation_prior (N:=RN) id a prior sigma) h (C = prior).
Proof. exact oripri_zero. Qed.
Lemma c46_tiny_prior_refuted : sees_pose tiny_heap 0%nat v3zero tiny /\ rotation tiny /\ ~ zero_when (pose_orientation_prior (N:=RN) 0 0%nat tiny 1) tiny_heap (tiny = tiny).
Proof. exact tiny_prior_wrong. Qed.
Lemma c46_orientation_between : forall id a b c (sigma : R) (h : @heap (lvar RN)) p1 C1 p2 C2 C, 0 < sigma -> sees_pose h a p1 C1 -> sees_pose h b p2 C2 -> sees_rot h c C -> rotation C1 -> rotation C2 -> rotation C ->
  zero_when (pose_orientation_between (N:=RN) id a b c sigma) h (product C C2 C1).
Proof. exact oribet_zero. Qed.
Lemma c46_bearing : forall id a l obs (sigma : R) (h : @heap (lvar RN)) p C x, 0 < sigma -> sees_pose h a p C -> sees_landmark h l x -> rotation C -> x <> p -> obs <> v3zero (N:=RN) ->
  zero_when (bearing_observation (N:=RN) id a l obs sigma) h (seen_along C (v3sub x p) obs).
Proof. exact bearing_zero. Qed.
Lemma c46_inverse_range_bearing : forall id a l obs (sigma : R) (h : @heap (lvar RN)) p C o b rho x, 0 < sigma -> sees_pose h a p C -> sees_inv h l o b rho -> 1 / 1000000000 <= Rabs rho -> inverse_range_point o b rho x -> rotation C -> x <> p -> obs <> v3zero (N:=RN) ->
  zero_when (inverse_range_bearing (N:=RN) id a l obs sigma) h (seen_along C (v3sub x p) obs).
Proof. intros id a l obs sigma h p C o b rho x P Sa Sl F X RC N O. rewrite (inv_point_is _ _ _ _ (far_nonzero _ F) X) in *. exact (invbear_zero id a l obs sigma h p C o b rho P Sa Sl F RC N O). Qed.
Lemma c46_bearing_2d : forall id p l (obs sigma : R) (h : @heap (lvar RN)) x y t lx ly, 0 < sigma -> sees_pose2 h p x y t -> sees_generic h l [lx; ly] -> lx <> x \/ ly <> y ->
  zero_when (bearing_observation_2d (N:=RN) id p l obs sigma) h (points_at x y t lx ly obs).
Proof. exact bear2_zero. Qed.
Lemma c46_range_bearing_2d : forall id p l (robs obs rs bs : R) (h : @heap (lvar RN)) x y t lx ly, 0 < rs -> 0 < bs -> sees_pose2 h p x y t -> sees_generic h l [lx; ly] -> lx <> x \/ ly <> y ->
  zero_when (range_bearing_2d (N:=RN) id p l robs obs rs bs) h (sqrt ((lx - x) * (lx - x) + (ly - y) * (ly - y)) = robs /\ points_at x y t lx ly obs).
Proof. exact range2_zero. Qed.
Lemma c46_pose_2d_prior : forall id p (px py pt ps rs : R) (h : @heap (lvar RN)) x y t, 0 < ps -> 0 < rs -> sees_pose2 h p x y t ->
  zero_when (pose2_prior (N:=RN) id p (V3 (N:=RN) px py pt) ps rs) h (x = px /\ y = py /\ congruent t pt).
Proof. exact pri2_zero. Qed.
Lemma c59_along_increments : forall f (h : @heap (lvar RN)) J, exact_jacobian f h J -> exact_along_increments f h J.
Proof. exact exact_increments. Qed.
Lemma c59_increments_exist : forall (h : @heap (lvar RN)) D, steps_regularly h D -> exists H, nudges H h D.
Proof. intros h D S. eexists. exact (nudges_exist h D S). Qed.
Lemma c59_motions_exist : forall (h : @heap (lvar RN)) D, (forall a v, nth_error h a = Some v -> well_formed (l_kind v) /\ length (D a) = ksize (l_kind v)) -> exists H, hmoves H h D.
Proof. exact motions_exist. Qed.
Lemma c59_identity_pose_refuted : exists J, exact_jacobian upright pose_heap J /\ nudges turned_heap pose_heap turn_x /\
  exists r : R -> list R, (forall s, f_res upright (turned_heap s) = Ok (r s)) /\ ~ is_derive (fun s => nth 0 (r s) 0) 0 (response pose_heap turn_x (f_vars upright) J 0).
Proof. exact pose_identity_wrong. Qed.
