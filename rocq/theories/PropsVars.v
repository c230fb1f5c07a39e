(** Properties C27-C30 and C33 of the variable classes.  [vcalls v l] is the object after the calls [l], of which some may
    throw; [asked2], [asked_distance], ... (SpecVars) say what the caller asked for.  Real arithmetic unless stated otherwise. *)
From Coq Require Import List Arith ZArith QArith Bool Reals Lra Lia.
From Coquelicot Require Import Coquelicot.
From Flocq.IEEE754 Require Import BinarySingleNaN.
From Verif Require Import Base Sparse Graph Geom Vars VarOps SpecVars SpecGeom Real Float Trig VarsLemmas GeomR GeomExp GeomLog GeomNear VarsRun VarsInc InvFloat GeomFacts.
Import ListNotations.
Local Open Scope R_scope.

(** C27: for every sequence of calls (none is undefined) the heading is in (-pi, pi] and is the requested angle modulo 2 pi;
    the position is the requested one *)
Theorem C27_pose2d_wrapped : forall id (p : v3 RN) l, exists v x y t th,
  vcalls (mk_pose2 id p) l = Ok v /\ vval (lib RN) v = [x; y; t] /\ fold_left asked2 l (vx p, vy p, vz p) = (x, y, th) /\
  - PI < t <= PI /\ exists k : Z, t = th + 2 * IZR k * PI.
Proof. exact pose2_wrapped. Qed.
(** heading 0 turned by 3 pi, and a rejected call *)
Example C27_case : exists v, vcalls (mk_pose2 0 (V3 (N:=RN) 1 2 0)) [OInc [0; 0; 3 * PI]; OInc [1]; OPos2 (V2 (N:=RN) 5 6)] = Ok v /\ vval (lib RN) v = [5; 6; PI].
Proof.
  destruct (C27_pose2d_wrapped 0 (V3 (N:=RN) 1 2 0) [OInc [0; 0; 3 * PI]; OInc [1]; OPos2 (V2 (N:=RN) 5 6)]) as (v & x & y & t & th & E & Ev & Ea & B & k & Ek).
  exists v. split; [exact E|]. cbn in Ea. injection Ea as <- <- <-. rewrite Ev. pose proof PI_RGT_0.
  assert (K : (k = -1)%Z). { assert (-2 < IZR k < 0) by (split; apply Rmult_lt_reg_r with (2 * PI); lra). destruct H0 as [H1 H2]. apply lt_IZR in H1. apply lt_IZR in H2. lia. }
  subst k. do 3 f_equal. rewrite Ek. match goal with |- @eq _ ?a ?b => change (@eq R a b) end. simpl IZR. lra.
Qed.

(** C28: the inverse range stays within the limits, and pos_W() is the point at that range *)
Theorem C28_inverse_range_clipped : forall id (o b : v3 RN) range l v, vcalls (mk_inverse_range id o b range) l = Ok v ->
  exists r t, vval (lib RN) v = r :: t /\ / 1000000 <= r <= 1000 /\ inv_pos v = Some (v3add o (v3scale (1 / r) (v3normalized b))).
Proof. exact inverse_range_clipped. Qed.
(** C28: a call sets the nearest admissible value *)
Theorem C28_inverse_range_nearest : forall id (o b : v3 RN) range l v r t, vcalls (mk_inverse_range id o b range) l = Ok v -> vval (lib RN) v = r :: t ->
  (forall q u, exists v', vcall v (OSet (q :: u)) = Ok v' /\ exists r', vval (lib RN) v' = r' :: u /\ nearest (/ 1000000) 1000 q r') /\
  (forall d, t = [] -> exists v', vcall v (OInc [d]) = Ok v' /\ exists r', vval (lib RN) v' = [r'] /\ nearest (/ 1000000) 1000 (r + d) r').
Proof. exact inverse_range_step. Qed.
(** C28 over IEEE doubles, for arguments that are not NaN (infinities included) *)
Theorem C28_inverse_range_doubles : forall L id (o b : v3 (BN L)) (range : b64) (l : list (vop (BN L))) v, not_nan range -> List.Forall call_numbers l ->
  vcalls (mk_inverse_range (N:=BN L) id o b range) l = Ok v ->
  exists (r : b64) (t : list b64), vval (lib (BN L)) v = r :: t /\ between_limits r /\ exists p, inv_pos v = Some p.
Proof. exact inverse_range_doubles. Qed.
(** C28, for NaN arguments: the stored value is NaN and pos_W() is not a point *)
Theorem C28_nan_refuted : forall L (o b : v3 (BN L)),
  exists v, vcalls (mk_inverse_range (N:=BN L) 0 o b (b_of_Q 1)) [OInc (N:=BN L) [bnan]] = Ok v /\ vval (lib (BN L)) v = [bnan : b64] /\ inv_pos v = None.
Proof.
  intros L o b. eexists. split; [exact eq_refl|]. split; [vm_cast_no_check (eq_refl [bnan])|].
  match goal with |- inv_pos ?v = None => unfold inv_pos; assert (E : nth 0 (kval (l_kind v)) (nzero (N:=BN L)) = bnan) by (vm_cast_no_check (eq_refl bnan)) end.
  exact eq_refl.
Qed.
Example C28_case : exists v, vcalls (mk_inverse_range 0 (V3 (N:=RN) 0 0 0) (V3 (N:=RN) 0 0 2) 10) [OInc [- 5]; OInc [1; 2]; OInc [2]] = Ok v /\ vval (lib RN) v = [2 + / 1000000].
Proof.
  eexists. split; [reflexivity|]. cbn [vval lib l_kind kval].
  assert (A : clip (N:=RN) (Q2R (1#1000000)) (Q2R 1000) (1 / 10) = 1 / 10) by (unfold clip; rewrite r_nmin, r_nmax, lit_lo, lit_hi, Rmax_left, Rmin_left; [reflexivity|lra..]).
  assert (B : clip (N:=RN) (Q2R (1#1000000)) (Q2R 1000) (1 / 10 + -5) = / 1000000) by (unfold clip; rewrite r_nmin, r_nmax, lit_lo, lit_hi, Rmax_right, Rmin_left; [reflexivity|lra..]).
  assert (C : clip (N:=RN) (Q2R (1#1000000)) (Q2R 1000) (/ 1000000 + 2) = 2 + / 1000000) by (unfold clip; rewrite r_nmin, r_nmax, lit_lo, lit_hi, Rmax_left, Rmin_left; [apply Rplus_comm|lra..]).
  change ([clip (N:=RN) (Q2R (1#1000000)) (Q2R 1000) (clip (N:=RN) (Q2R (1#1000000)) (Q2R 1000) (clip (N:=RN) (Q2R (1#1000000)) (Q2R 1000) (Q2R 1 / 10) + -5) + 2)] = [2 + / 1000000]).
  rewrite q1, A, B, C. reflexivity.
Qed.

(** C29, for calls that do not ask for the zero normal.  Missing: that case, see [C29_zero_normal_refuted]. *)
Theorem C29_plane_unit_normal_partial : forall id (n : v3 RN) d l,
  length2 n <> 0 -> (forall n0, direction (vx n) (vy n) (vz n) n0 -> never_zero n0 l) ->
  exists v n', vcalls (mk_plane id n d) l = Ok v /\ unit_vector v = Some n' /\ distance_from_origin v = Some (fold_left asked_distance l d) /\
    vval (lib RN) v = [vx n'; vy n'; vz n'; fold_left asked_distance l d] /\ length2 n' = 1.
Proof. exact plane_unit. Qed.
(** C29, for every call sequence *)
Theorem C29_plane_unit_or_zero : forall id (n : v3 RN) d l,
  exists v n', vcalls (mk_plane id n d) l = Ok v /\ unit_vector v = Some n' /\ distance_from_origin v = Some (fold_left asked_distance l d) /\
    vval (lib RN) v = [vx n'; vy n'; vz n'; fold_left asked_distance l d] /\ (length2 n' = 1 \/ n' = v3zero).
Proof. exact plane_unit_or_zero. Qed.
(** C29: the normal after a call points along the requested vector *)
Theorem C29_plane_direction : forall (v : lvar RN) n d op x y z, unit_vector v = Some n -> distance_from_origin v = Some d ->
  asked_normal n op = Some (x, y, z) -> x * x + y * y + z * z <> 0 ->
  exists v' n', vcall v op = Ok v' /\ unit_vector v' = Some n' /\ distance_from_origin v' = Some (asked_distance d op) /\ direction x y z n'.
Proof. exact plane_step_api. Qed.
(** C29: an increment can cancel the normal *)
Theorem C29_zero_normal_refuted : exists v, vcalls (mk_plane 0 (V3 (N:=RN) 0 0 2) 5) [OInc [0; 0; -1; 0]] = Ok v /\
  exists n', unit_vector v = Some n' /\ length2 n' = 0.
Proof.
  assert (E : v3normalized (V3 (N:=RN) 0 0 2) = V3 (N:=RN) 0 0 1).
  { unfold v3normalized. rewrite pos_true; [|gx; lra]. assert (S : sqrt (0 * 0 + 0 * 0 + 2 * 2) = 2) by (replace (0 * 0 + 0 * 0 + 2 * 2) with (2 * 2) by ring; apply sqrt_square; lra).
    gx. rewrite S. f_equal; match goal with |- @eq _ ?a ?b => change (@eq R a b) end; field. }
  unfold mk_plane. rewrite E. eexists. split; [reflexivity|]. eexists. split; [reflexivity|]. rewrite normalized_zero; unfold seg3; gx; cbn [nth Nat.add]; try ring; match goal with |- @eq _ ?a ?b => change (@eq R a b) end; ring.
Qed.
Example C29_case : exists v n', vcalls (mk_plane 0 (V3 (N:=RN) 0 0 2) 5) [OInc [0; 1; 0; 1]; OSet [1]; OSet [3; 4; 0; 7]] = Ok v /\ unit_vector v = Some n' /\ vx n' = 3 / 5.
Proof.
  eexists. exists (v3normalized (V3 (N:=RN) 3 4 0)). split; [reflexivity|]. split; [reflexivity|]. unfold v3normalized. rewrite pos_true; [|gx; lra].
  gx. assert (S : sqrt (3 * 3 + 4 * 4 + 0 * 0) = 5) by (replace (3 * 3 + 4 * 4 + 0 * 0) with (5 * 5) by ring; apply sqrt_square; lra). rewrite S. reflexivity.
Qed.

(** C30: dcm_CW() is always a rotation; it is the rotation by rot_CW() if that vector is 0 or at least 1e-8 long.  Missing: shorter
    vectors, see [C30_small_vector_refuted]. *)
Theorem C30_pose_rotation_partial : forall id (t r : v3 RN) l v, vcalls (mk_pose id t r) l = Ok v ->
  exists r' R, rot_CW v = Some r' /\ dcm_CW v = Some R /\ rotation R /\ (/ 100000000 <= len r' \/ r' = v3zero -> rotation_by r' R).
Proof. exact pose_dcm. Qed.
(** C30: a pose made from a rotation matrix holds that matrix, up to 2e-8 *)
Theorem C30_pose_from_matrix : forall id (t : v3 RN) R, rotation R -> exists R', dcm_CW (mk_pose_dcm id t R) = Some R' /\ within (2 * / 100000000) R R' /\
  (R = m3id \/ / 100000000 <= acos ((m3trace R - 1) / 2) -> R' = R).
Proof. exact pose_from_dcm. Qed.
Theorem C30_small_vector_refuted : dcm_CW (mk_pose 0 v3zero (ex (/ 1000000000))) = Some m3id /\ ~ rotation_by (ex (/ 1000000000)) m3id.
Proof. exact pose_dcm_wrong. Qed.
Example C30_case : exists v, vcalls (mk_pose 0 v3zero (ex 1)) [OInc [1; 2]; OInc [0; 0; 0; 1; 0; 0]; OPosePos (ex 7)] = Ok v /\ pos_W v = Some (ex 7).
Proof. eexists. split; reflexivity. Qed.

(** C33: an increment adds the position part and replaces the matrix R by a matrix within 3e-8 of Exp(d) R; if the new rotation is
    the identity or turns by at least 1e-5, it is exactly Exp(d) R.  Missing: exactness for smaller rotations
    ([C33_small_rotation_refuted]) and increments 0 < |d| < 1e-10. *)
Theorem C33_pose_increment_partial : forall id (t r : v3 RN) l v p R dp dr, vcalls (mk_pose id t r) l = Ok v -> pos_W v = Some p -> dcm_CW v = Some R ->
  exists v' R', vcall v (OInc (v3list dp ++ v3list dr)) = Ok v' /\ pos_W v' = Some (v3add p dp) /\ dcm_CW v' = Some R' /\ rotation R' /\
  (/ 10000000000 <= len dr \/ dr = v3zero -> forall Rn, product (exp_so3 dr) R Rn ->
     within (3 * / 100000000) Rn R' /\ (Rn = m3id \/ / 100000 <= acos ((m3trace Rn - 1) / 2) -> R' = Rn)).
Proof. exact pose_increment. Qed.
(** C33: rotation variables compose exactly, for every increment *)
Theorem C33_rotation_increment : forall id (R0 : m3 RN) l v R d, vcalls (mk_rotation id R0) l = Ok v -> dcm_AB v = Some R ->
  exists v' R', vcall v (OInc (v3list d)) = Ok v' /\ dcm_AB v' = Some R' /\ product (exp_so3 d) R R' /\ vval (lib RN) v' = v3list (log_so3 R').
Proof. exact rot_increment. Qed.
Theorem C33_small_rotation_refuted : exists v', vcall (mk_pose (N:=RN) 0 v3zero v3zero) (OInc (v3list v3zero ++ v3list (ex (/ 1000000000)))) = Ok v' /\
  dcm_CW (mk_pose (N:=RN) 0 v3zero v3zero) = Some m3id /\ dcm_CW v' = Some m3id /\ ~ product (exp_so3 (ex (/ 1000000000))) m3id m3id.
Proof. exact increment_wrong. Qed.
(** a quarter turn about x: all hypotheses met, including the exact case *)
Example C33_case : exists v R Rn, vcalls (mk_pose 0 v3zero (v3zero (N:=RN))) [] = Ok v /\ pos_W v = Some v3zero /\ dcm_CW v = Some R /\
  / 10000000000 <= len (ex (PI / 2)) /\ product (exp_so3 (ex (PI / 2))) R Rn /\ / 100000 <= acos ((m3trace Rn - 1) / 2).
Proof.
  pose proof pi_bounds. eexists. eexists. eexists. split; [reflexivity|]. split; [reflexivity|]. split; [reflexivity|].
  split; [rewrite ex_len; lra|]. split; [apply product_mul; reflexivity|].
  rewrite (dcm_small v3zero) by (rewrite len0; lra). rewrite m3mul_id_r. rewrite exp_large by (rewrite ex_len; lra). rewrite ex_len, (ex_scale (PI / 2)), div_scale by lra.
  rewrite (aa_trace _ _ ex_unit). replace ((1 + 2 * cos (PI / 2) - 1) / 2) with (cos (PI / 2)) by field. rewrite acos_cos; lra.
Qed.

Print Assumptions C27_pose2d_wrapped.
Print Assumptions C28_inverse_range_clipped.
Print Assumptions C28_inverse_range_nearest.
Print Assumptions C28_inverse_range_doubles.
Print Assumptions C28_nan_refuted.
Print Assumptions C29_plane_unit_normal_partial.
Print Assumptions C29_plane_unit_or_zero.
Print Assumptions C29_plane_direction.
Print Assumptions C29_zero_normal_refuted.
Print Assumptions C30_pose_rotation_partial.
Print Assumptions C30_pose_from_matrix.
Print Assumptions C30_small_vector_refuted.
Print Assumptions C33_pose_increment_partial.
Print Assumptions C33_rotation_increment.
Print Assumptions C33_small_rotation_refuted.
