(** Properties C31, C32 and C34 of the SO(3) functions, in real arithmetic.  [rotation_by w R] (SpecGeom): R is the end point of the
    motion that starts at the identity and turns with constant angular velocity w for one unit of time. *)
From Coq Require Import List Arith ZArith QArith Bool Reals Lra Lia.
From Coquelicot Require Import Coquelicot.
From Verif Require Import Base Geom SpecGeom Real GeomR GeomExp GeomLog GeomJac GeomLeft GeomTiny GeomNear GeomFacts.
Import ListNotations.
Local Open Scope R_scope.

(** C31, first part, for w = 0 and |w| >= 1e-10.  Missing: shorter vectors, see [C31_small_vector_refuted] and
    [C31_exp_almost_orthonormal]. *)
Theorem C31_exp_rotation_partial : forall w : v3 RN, / 10000000000 <= len w \/ w = v3zero ->
  rotation (exp_so3 w) /\ rotation_by w (exp_so3 w) /\ forall R, rotation_by w R -> R = exp_so3 w.
Proof. intros w H. split; [exact (exp_rotation w H)|]. split; [exact (exp_by w H)|]. intros R HR. exact (rotation_by_unique w R _ HR (exp_by w H)). Qed.
(** C31, for every w: w is fixed, Exp(-w) is the transpose, the columns are orthonormal within 1e-20 *)
Theorem C31_exp_fixes : forall w : v3 RN, image (exp_so3 w) w w.
Proof. intros w. apply image_mul. symmetry. exact (exp_fixes w). Qed.
Theorem C31_exp_neg_transpose : forall (w : v3 RN) i j, (i < 3)%nat -> (j < 3)%nat -> ent (exp_so3 (v3neg w)) i j = ent (exp_so3 w) j i.
Proof. intros w i j Hi Hj. rewrite exp_neg. destruct i as [|[|[|i]]]; [| | |lia]; destruct j as [|[|[|j]]]; try lia; reflexivity. Qed.
Theorem C31_exp_almost_orthonormal : forall (w : v3 RN) i j, (i < 3)%nat -> (j < 3)%nat ->
  Rabs (sum3 (fun k => ent (exp_so3 w) k i * ent (exp_so3 w) k j) - delta i j) <= / 100000000000000000000.
Proof. exact exp_almost. Qed.
(** C31: the inverse, where Exp is a rotation *)
Theorem C31_exp_inverse_partial : forall w : v3 RN, / 10000000000 <= len w \/ w = v3zero -> product (exp_so3 (v3neg w)) (exp_so3 w) m3id.
Proof. intros w H. apply product_mul. rewrite exp_neg. symmetry. apply rot_t_mul. exact (exp_rotation w H). Qed.
Theorem C31_small_vector_refuted : ~ rotation (exp_so3 (ex (/ 100000000000))).
Proof. exact exp_not_rotation. Qed.
Example C31_case : / 10000000000 <= len (V3 (N:=RN) 3 4 0).
Proof. unfold len. gx. replace (3 * 3 + 4 * 4 + 0 * 0) with (5 * 5) by ring. rewrite sqrt_square; lra. Qed.

(** C32.  Missing: exactness between the small-angle thresholds, see the refutations; there the error is bounded by
    [C32_log_of_exp_near] and [C32_exp_of_log_near]. *)
Theorem C32_log_of_exp_partial : forall w : v3 RN, len w < / 10000000000 \/ / 100000 <= len w < PI -> log_so3 (exp_so3 w) = w.
Proof. exact log_of_exp. Qed.
Theorem C32_exp_of_log_partial : forall R : m3 RN, rotation R -> R = m3id \/ / 100000 <= acos ((m3trace R - 1) / 2) -> exp_so3 (log_so3 R) = R.
Proof. exact exp_of_log. Qed.
Theorem C32_log_at_most_pi : forall R : m3 RN, rotation R -> len (log_so3 R) <= PI.
Proof. exact log_bound. Qed.
Theorem C32_log_of_exp_near : forall w : v3 RN, len w < PI -> exists w', log_so3 (exp_so3 w) = w' /\ len (v3sub w' w) <= / 6000000000000000.
Proof. exact log_of_exp_near. Qed.
Theorem C32_exp_of_log_near : forall R : m3 RN, rotation R -> within (/ 1000000000000000) R (exp_so3 (log_so3 R)).
Proof. intros R H i j Hi Hj. exact (exp_log_near R i j H Hi Hj). Qed.
Theorem C32_log_of_exp_refuted : len (ex (/ 1000000)) < PI /\ log_so3 (exp_so3 (ex (/ 1000000))) <> ex (/ 1000000).
Proof. exact log_exp_wrong. Qed.
Theorem C32_exp_of_log_refuted : let r := aa_matrix (/ 1000000) (ex 1) in rotation r /\ exp_so3 (log_so3 r) <> r.
Proof. exact exp_log_wrong. Qed.
(** half turn about the axis (3/5, 4/5, 0) *)
Example C32_case : let r := aa_matrix PI (V3 (N:=RN) (3/5) (4/5) 0) in rotation r /\ / 100000 <= acos ((m3trace r - 1) / 2).
Proof.
  assert (U : length2 (V3 (N:=RN) (3/5) (4/5) 0) = 1) by (gx; lra). pose proof pi_bounds. cbv zeta. split; [apply aa_rotation; exact U|].
  rewrite (aa_trace _ _ U). replace ((1 + 2 * cos PI - 1) / 2) with (cos PI) by field. rewrite acos_cos; lra.
Qed.

(** C34: for every direction v the curve Exp(w + s v) starts to turn with an angular velocity d for which M d = v; that is, M is the
    inverse of the Jacobian v |-> d.  All w with 1e-8 <= |w| < 2 pi, except where the function itself refuses. *)
Theorem C34_inverse_jacobian : forall w v : v3 RN,
  / 100000000 <= len w -> cos (/ 2 * len w) <> 0 -> / 1000000000000 <= Rabs (tan (/ 2 * len w)) ->
  exists M d, inv_right_jacobian w = Ok M /\ turning (fun s : R => exp_so3 (v3add w (v3scale s v))) (exp_so3 w) d /\ image M d v.
Proof. intros w v H1 H2 H3. destruct (inverse_jacobian w v H1 H2 H3) as (M & d & A & B & C). exists M, d. rewrite image_mul. auto. Qed.
(** C34 in the window of the series, 1e-10 < |w| < 1e-8: M d = v up to 1e-16 of the size of d *)
Theorem C34_inverse_jacobian_near : forall w v : v3 RN, / 10000000000 < len w < / 100000000 -> exists M d, inv_right_jacobian w = Ok M /\
  turning (fun s : R => exp_so3 (v3add w (v3scale s v))) (exp_so3 w) d /\
  forall i, (i < 3)%nat -> Rabs (sum3 (fun k => ent M i k * coord d k) - coord v i) <= / 10000000000000000 * len d.
Proof. exact tiny_inverse. Qed.
Example C34_near_case : / 10000000000 < len (ex (/ 1000000000)) < / 100000000.
Proof. rewrite ex_len; lra. Qed.
(** the velocity is unique *)
Theorem C34_velocity_unique : forall (C : R -> m3 RN) a d e, rotation a -> turning C a d -> turning C a e -> d = e.
Proof. exact turning_unique. Qed.
(** C34: Log(Exp(s d) Exp(w)) = w + s M d + o(s), for 1e-5 < |w| < 3.14.  Missing: smaller and larger angles, see the refutations. *)
Theorem C34_log_step_partial : forall w d : v3 RN, / 100000 < len w < 314 / 100 -> exists M, inv_right_jacobian w = Ok M /\ log_so3 (exp_so3 w) = w /\
  forall i, (i < 3)%nat -> is_derive (fun s : R => coord (log_so3 (m3mul (exp_so3 (v3scale s d)) (exp_so3 w))) i) 0 (sum3 (fun k => ent M i k * coord d k)).
Proof. exact log_step. Qed.
(** C34: along every curve of rotations, up to pi *)
Theorem C34_log_derivative_partial : forall (C : R -> m3 RN) (t : R) (a d : v3 RN),
  length2 a = 1 -> / 100000 < t < PI -> turning C (aa_matrix t a) d -> (forall s, rotation (C s)) ->
  exists M : m3 RN, (inv_right_jacobian (v3scale t a) = Ok M) /\
  (forall i, (i < 3)%nat -> is_derive (fun s => coord (log_so3 (C s)) i) 0 (sum3 (fun k => ent M i k * coord d k))).
Proof. exact log_derive. Qed.
(** C34 at w = 0 *)
Theorem C34_log_step_zero : forall d : v3 RN, exists M, inv_right_jacobian (N:=RN) v3zero = Ok M /\
  forall i, (i < 3)%nat -> is_derive (fun s : R => coord (log_so3 (exp_so3 (v3scale s d))) i) 0 (sum3 (fun k => ent M i k * coord d k)).
Proof. exact log_step_zero. Qed.
Theorem C34_small_angle_refuted : let C := fun s : R => aa_matrix (/ 1000000 + s) (ex 1) in
  turning C (exp_so3 (ex (/ 1000000))) (ex 1) /\ (forall s, rotation (C s)) /\
  exists M, inv_right_jacobian (ex (/ 1000000)) = Ok M /\ ~ is_derive (fun s : R => coord (log_so3 (C s)) 0) 0 (sum3 (fun k => ent M 0 k * coord (ex 1) k)).
Proof. exact jac_small_wrong. Qed.
Theorem C34_beyond_pi_refuted : log_so3 (exp_so3 (ex (3 * PI / 2))) <> ex (3 * PI / 2).
Proof. exact log_exp_wraps. Qed.
Example C34_case : let w := ex (PI / 2) in / 100000000 <= len w /\ cos (/ 2 * len w) <> 0 /\ / 1000000000000 <= Rabs (tan (/ 2 * len w)) /\ / 100000 < len w < 314 / 100 /\
  turning (fun s : R => m3mul (exp_so3 (v3scale s (ex 1))) (aa_matrix 1 (ex 1))) (aa_matrix 1 (ex 1)) (ex 1).
Proof.
  pose proof pi_bounds. cbv zeta. rewrite ex_len by lra. replace (/ 2 * (PI / 2)) with (PI / 4) by field. split; [lra|]. split.
  - rewrite cos_PI4. assert (0 < sqrt 2) by (apply sqrt_lt_R0; lra). apply Rgt_not_eq. apply Rdiv_lt_0_compat; lra.
  - rewrite tan_PI4, Rabs_R1. split; [lra|]. split; [lra|]. apply exp_curve.
Qed.

Print Assumptions C31_exp_rotation_partial.
Print Assumptions C31_exp_fixes.
Print Assumptions C31_exp_neg_transpose.
Print Assumptions C31_exp_almost_orthonormal.
Print Assumptions C31_exp_inverse_partial.
Print Assumptions C31_small_vector_refuted.
Print Assumptions C32_log_of_exp_partial.
Print Assumptions C32_exp_of_log_partial.
Print Assumptions C32_log_at_most_pi.
Print Assumptions C32_log_of_exp_near.
Print Assumptions C32_exp_of_log_near.
Print Assumptions C32_log_of_exp_refuted.
Print Assumptions C32_exp_of_log_refuted.
Print Assumptions C34_inverse_jacobian.
Print Assumptions C34_inverse_jacobian_near.
Print Assumptions C34_velocity_unique.
Print Assumptions C34_log_step_partial.
Print Assumptions C34_log_derivative_partial.
Print Assumptions C34_log_step_zero.
Print Assumptions C34_small_angle_refuted.
Print Assumptions C34_beyond_pi_refuted.
