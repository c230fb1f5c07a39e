(** Where the residuals vanish. *)
From Coq Require Import List Arith ZArith QArith Bool Reals Lra Lia Psatz.
From Coquelicot Require Import Coquelicot.
From Verif Require Import Base Sparse Graph Geom Vars VarOps VarsLemmas VarsRun FactorsLin FactorsLinFacts FactorsGeo SpecGeom SpecVars SpecFactor Real RSum Trig GeomR GeomExp GeomLog GeomNear GeomJac GeomFacts FactorCalc FactorRead FactorJac FactorJac2 FactorAngle FactorJac3 FactorLinJac FactorOri FactorStep FactorMotion.
Import ListNotations.
Local Open Scope R_scope.

Lemma weight_pos (s : R) : 0 < s -> 0 < 1 / s.
Proof. intros H. apply Rdiv_lt_0_compat; lra. Qed.
Lemma zero3 f h (v : v3 RN) P : f_rsize f = 3%nat -> f_res f h = Ok (v3list v) -> (v = v3zero <-> P) -> zero_when f h P.
Proof.
  intros E R H. exists (v3list v). rewrite E. split; [exact R|]. split; [reflexivity|]. rewrite <- H. destruct v as [a b c]. unfold v3list, v3zero. change (nzero (N:=RN)) with (Q2R 0). rewrite q0. split.
  1: { intros Z. pose proof (Z 0%nat ltac:(lia)) as Z0. pose proof (Z 1%nat ltac:(lia)) as Z1. pose proof (Z 2%nat ltac:(lia)) as Z2. cbn in *. subst. reflexivity. }
  intros Z i Hi. injection Z as -> -> ->. destruct i as [|[|[|i]]]; [| | |lia]; reflexivity.
Qed.
Lemma zero1 f h (x : R) P : f_rsize f = 1%nat -> f_res f h = Ok [x] -> (x = 0 <-> P) -> zero_when f h P.
Proof.
  intros E R H. exists [x]. rewrite E. split; [exact R|]. split; [reflexivity|]. rewrite <- H. split; [intros Z; exact (Z 0%nat ltac:(lia))|].
  intros Z i Hi. destruct i; [exact Z|lia].
Qed.
Lemma zero2 f h (x y : R) P : f_rsize f = 2%nat -> f_res f h = Ok [x; y] -> (x = 0 /\ y = 0 <-> P) -> zero_when f h P.
Proof.
  intros E R H. exists [x; y]. rewrite E. split; [exact R|]. split; [reflexivity|]. rewrite <- H.
  split; [intros Z; split; [exact (Z 0%nat ltac:(lia))|exact (Z 1%nat ltac:(lia))]|].
  intros [Z1 Z2] i Hi. destruct i as [|[|i]]; [exact Z1|exact Z2|lia].
Qed.
Lemma zero3l f h (x y z : R) P : f_rsize f = 3%nat -> f_res f h = Ok [x; y; z] -> (x = 0 /\ y = 0 /\ z = 0 <-> P) -> zero_when f h P.
Proof.
  intros E R H. exists [x; y; z]. rewrite E. split; [exact R|]. split; [reflexivity|]. rewrite <- H.
  split; [intros Z; split; [exact (Z 0%nat ltac:(lia))|split; [exact (Z 1%nat ltac:(lia))|exact (Z 2%nat ltac:(lia))]]|].
  intros (Z1 & Z2 & Z3) i Hi. destruct i as [|[|[|i]]]; [exact Z1|exact Z2|exact Z3|lia].
Qed.
Lemma scaled_zero (w : R) (v : v3 RN) : 0 < w -> v3scale w v = v3zero <-> v = v3zero.
Proof.
  intros W. dv v. split.
  1: { gx. intros E. injection E as E1 E2 E3. f_equal; (apply (Rmult_eq_reg_l w); [lra|lra]). }
  intros E. rewrite E. gx. f_equal; ring.
Qed.
Lemma sub_zero (a b : v3 RN) : v3sub a b = v3zero <-> a = b.
Proof.
  dv a; dv b. split.
  1: { gx. intros E. injection E as E1 E2 E3. f_equal; lra. }
  intros E. rewrite E. gx. f_equal; ring.
Qed.
Lemma diff_zero (w : R) (a b : v3 RN) : 0 < w -> v3scale w (v3sub a b) = v3zero <-> a = b.
Proof. intros W. rewrite scaled_zero by exact W. apply sub_zero. Qed.

(** ** Linear factors *)
Lemma wz (w x : R) : 0 < w -> w * x = 0 <-> x = 0.
Proof. intros W. split; [intros E; apply (Rmult_eq_reg_l w); lra|intros ->; ring]. Qed.
Lemma wz1 (w x : R) : 0 < w -> w * x = 0 -> x = 0.
Proof. intros W. apply wz, W. Qed.
Lemma wsub0 (w u v : R) : u = v -> w * (u - v) = 0.
Proof. intros ->. ring. Qed.
Lemma value_has (h : rheap) a x : has_value h a x -> value_at h a = Ok x.
Proof. intros (v & Ha & Ex). unfold value_at, hget. rewrite Ha. cbn [obind]. cbn [vval lib] in Ex. rewrite Ex. reflexivity. Qed.
Lemma list_zero (r x y : list R) (w : R) n : 0 < w -> length x = n -> length y = n -> (forall i, (i < n)%nat -> nth i r 0 = w * (nth i x 0 - nth i y 0)) ->
  (forall i, (i < n)%nat -> nth i r 0 = 0) <-> x = y.
Proof.
  intros W Lx Ly E. split.
  1: { intros Z. apply (nth_ext _ _ 0 0); [rewrite Lx, Ly; reflexivity|]. intros i Hi. rewrite Lx in Hi. specialize (Z i Hi). rewrite E in Z by exact Hi. apply wz1 in Z; [lra|exact W]. }
  intros -> i Hi. rewrite E by exact Hi. ring.
Qed.
Lemma gprior_zero id a prior (sigma : R) (h : rheap) x : 0 < sigma -> has_value h a x -> length x = length prior ->
  zero_when (generic_prior (lib RN) id a prior sigma) h (x = prior).
Proof.
  intros S V L. apply value_has in V. exists (vscale (N:=RN) (1 / sigma) (vsub (N:=RN) x prior)). cbn [f_res f_rsize generic_prior]. rewrite unit_over.
  pose proof (weight_pos _ S) as W. split; [apply gprior_value_at; assumption|]. change (car RN) with R in *.
  split; [rewrite vscale_length, vsub_length; change (car RN) with R in *; rewrite L; apply Nat.min_id|].
  apply (list_zero _ x prior (1 / sigma)); auto. intros i Hi. rewrite nth_vscale, nth_vsub; [reflexivity|exact L|change (car RN) with R in *; lia].
Qed.
Lemma gbetween_zero id a b d n (sigma : R) (h : rheap) xa xb xd : 0 < sigma -> has_value h a xa -> has_value h b xb -> has_value h d xd ->
  length xa = n -> length xb = n -> length xd = n ->
  zero_when (generic_between (lib RN) id a b d n sigma) h (forall i, (i < n)%nat -> nth i xb 0 - nth i xa 0 = nth i xd 0).
Proof.
  intros S Va Vb Vd La Lb Ld. apply value_has in Va, Vb, Vd. exists (vscale (N:=RN) (1 / sigma) (vsub (N:=RN) (vsub (N:=RN) xb xa) xd)). cbn [f_res f_rsize generic_between]. rewrite unit_over.
  pose proof (weight_pos _ S) as W. split; [apply (gbetween_value_at a b d (1 / sigma) h xa xb xd n); assumption|]. change (car RN) with R in *.
  assert (L2 : length (vsub (N:=RN) xb xa) = n) by (rewrite vsub_length; change (car RN) with R in *; rewrite La, Lb; apply Nat.min_id).
  split; [rewrite vscale_length, vsub_length; change (car RN) with R in *; rewrite L2, Ld; apply Nat.min_id|].
  assert (E : forall i, (i < n)%nat -> nth i (vscale (N:=RN) (1 / sigma) (vsub (N:=RN) (vsub (N:=RN) xb xa) xd)) 0 = 1 / sigma * (nth i xb 0 - nth i xa 0 - nth i xd 0)).
  { intros i Hi. rewrite nth_vscale, !nth_vsub; try reflexivity; change (car RN) with R in *; lia. }
  split; intros Z i Hi; specialize (Z i Hi).
  1: { rewrite E in Z by exact Hi. apply wz1 in Z; [lra|exact W]. }
  rewrite E by exact Hi. apply wsub0. exact Z.
Qed.
Lemma linvel_zero id a b c n (dt sigma : R) i0 (h : rheap) xa xb xc : 0 < sigma -> has_value h a xa -> has_value h b xb -> has_value h c xc ->
  (i0 + n <= length xa)%nat -> (i0 + n <= length xb)%nat -> length xc = n ->
  zero_when (linear_velocity (N:=RN) id a b c n dt sigma i0) h (forall i, (i < n)%nat -> nth (i0 + i) xb 0 - nth (i0 + i) xa 0 = nth i xc 0 * dt).
Proof.
  intros S Va Vb Vc La Lb Lc. apply value_has in Va, Vb, Vc. pose proof (weight_pos _ S) as W.
  destruct (linvel_value a b c n i0 dt (1 / sigma) h xa xb xc Va Vb Vc La Lb Lc) as (r & Er & Lr & E).
  exists r. cbn [f_res f_rsize linear_velocity]. rewrite unit_over. split; [exact Er|]. split; [exact Lr|].
  split; intros Z i Hi; specialize (Z i Hi); [rewrite E in Z by exact Hi; apply wz1 in Z; [cbv [RN car] in *; lra|exact W]|rewrite E by exact Hi; apply wsub0; exact Z].
Qed.

(** ** Positions *)
Lemma pospri_zero id a prior (sigma : R) h p C : 0 < sigma -> sees_pose h a p C -> zero_when (pose_position_prior (N:=RN) id a prior sigma) h (p = prior).
Proof.
  intros S P. pose proof (weight_pos _ S) as W. eapply zero3; [reflexivity| |apply (diff_zero (1 / sigma)); exact W].
  unfold pose_position_prior. cbv zeta. rewrite unit_over. cbn [f_res]. unfold pospri_res. rewrite (pose_at_sees _ _ _ _ P). reflexivity.
Qed.
Lemma to_v3_3 (x : v3 RN) : to_v3 [vx x; vy x; vz x] = Ok x.
Proof. destruct x. reflexivity. Qed.
Lemma value_vector (h : rheap) a x : sees_vector h a x -> value_at h a = Ok x.
Proof. intros (id & c & [Ha|(L & Ha)]); unfold value_at, hget; rewrite Ha; reflexivity. Qed.
Lemma posbet_zero id a b m (sigma : R) loc h p1 C1 p2 C2 x : 0 < sigma -> sees_pose h a p1 C1 -> sees_pose h b p2 C2 -> sees_vector h m [vx x; vy x; vz x] ->
  zero_when (pose_position_between (N:=RN) id a b m sigma loc) h (if loc then image C1 (v3sub p2 p1) x else v3sub p2 p1 = x).
Proof.
  intros S Pa Pb Pm. pose proof (weight_pos _ S) as W.
  assert (V : value3_at h m = Ok x) by (unfold value3_at; rewrite (value_vector _ _ _ Pm); apply to_v3_3).
  unfold pose_position_between. cbv zeta. rewrite unit_over. destruct loc.
  1: { eapply zero3; [reflexivity|cbn [f_res]; unfold posbet_res; rewrite (pose_at_sees _ _ _ _ Pa), (pose_at_sees _ _ _ _ Pb), V; reflexivity|].
    rewrite (diff_zero (1 / sigma)) by exact W. rewrite image_mul. split; intros X; symmetry; exact X. }
  eapply zero3; [reflexivity|cbn [f_res]; unfold posbet_res; rewrite (pose_at_sees _ _ _ _ Pa), (pose_at_sees _ _ _ _ Pb), V; reflexivity|].
  apply (diff_zero (1 / sigma)); exact W.
Qed.
Lemma ctrans_zero id r o s la lb (sigma : R) h C org (k : R) xa xb : 0 < sigma ->
  sees_rot h r C -> sees_generic h o [vx org; vy org; vz org] -> sees_generic h s [k] -> sees_landmark h la xa -> sees_landmark h lb xb ->
  zero_when (coordinate_transform (N:=RN) id r o s la lb sigma) h (forall y, image C xb y -> xa = v3sub (v3scale k y) org).
Proof.
  intros S Sr So Ss Sa Sb. pose proof (weight_pos _ S) as W. unfold coordinate_transform. cbv zeta. rewrite unit_over.
  eapply zero3; [reflexivity|cbn [f_res]; unfold ctrans_res, ctrans_ref; rewrite (rot_at_sees _ _ _ Sr), (generic_at_sees _ _ _ So), (generic_at_sees _ _ _ Ss), (landmark_at_sees _ _ _ Sa), (landmark_at_sees _ _ _ Sb); cbn [obind]; rewrite to_v3_3; reflexivity|].
  rewrite (diff_zero (1 / sigma)) by exact W. assert (E : m3v (m3scale k C) xb = v3scale k (m3v C xb)) by (symmetry; apply v3scale_mv).
  rewrite E. split; [intros Z y Hy; apply image_mul in Hy; subst; reflexivity|intros Z; apply Z; apply image_mul; reflexivity].
Qed.

(** ** Orientations *)
Lemma scale_zero_unit (k : R) (a : v3 RN) : length2 a = 1 -> v3scale k a = v3zero -> k = 0.
Proof.
  intros U L. destruct a as [a1 a2 a3]. unfold v3scale, v3zero in L. cbn in L. injection L as L1 L2 L3. rewrite q0 in L1, L2, L3.
  unfold length2 in U. cbn in U. cbv [RN car] in *. assert (K2 : k * k = 0).
  { transitivity (k * k * (a1 * a1 + a2 * a2 + a3 * a3)); [rewrite U; ring|]. transitivity ((k * a1) * (k * a1) + (k * a2) * (k * a2) + (k * a3) * (k * a3)); [ring|]. rewrite L1, L2, L3. ring. }
  destruct (Rmult_integral _ _ K2); assumption.
Qed.
Lemma log_zero (E : m3 RN) : rotation E -> log_so3 E = v3zero <-> E = m3id.
Proof.
  intros HE. split.
  1: { intros Z. destruct (log_ok E HE) as (t & a & U & B & Et & L). rewrite Z in L.
    assert (K : (if Rlt_dec t (/ 100000) then sin t else t) = 0) by exact (scale_zero_unit _ a U (eq_sym L)).
    assert (T : t = 0). { destruct (Rlt_dec t (/ 100000)); [|exact K]. destruct (Req_dec t 0) as [|N]; [assumption|]. exfalso. pose proof pi_bounds. assert (0 < sin t) by (apply sin_gt_0; lra). lra. }
    rewrite Et, T. apply aa_0. exact U. }
  intros ->. rewrite <- exp_zero. apply log_of_exp. left. rewrite len0. lra.
Qed.
Lemma turn_id (A B : m3 RN) : rotation B -> m3mul A (m3t B) = m3id <-> A = B.
Proof.
  intros HB. split.
  1: { intros E. rewrite <- (m3mul_id_r A), <- (rot_t_mul B HB), <- m3mul_assoc, E. apply m3mul_id_l. }
  intros ->. apply rot_mul_t. exact HB.
Qed.
Lemma rotpri_zero id a prior (sigma : R) h C : 0 < sigma -> sees_rot h a C -> rotation C -> rotation prior ->
  zero_when (rotation_prior (N:=RN) id a prior sigma) h (C = prior).
Proof.
  intros S V HC HP. pose proof (weight_pos _ S) as W. unfold rotation_prior. cbv zeta. rewrite unit_over.
  eapply zero3; [reflexivity|cbn [f_res]; unfold rotpri_res; rewrite (rot_at_sees _ _ _ V); reflexivity|].
  rewrite scaled_zero by exact W. rewrite log_zero by (apply rot_mul; [exact HC|apply rot_t; exact HP]). apply turn_id. exact HP.
Qed.
Lemma oripri_zero id a prior (sigma : R) h p C : 0 < sigma -> sees_pose h a p C -> rotation C -> rotation prior ->
  prior = m3id \/ / 100000 <= acos ((m3trace prior - 1) / 2) -> zero_when (pose_orientation_prior (N:=RN) id a prior sigma) h (C = prior).
Proof.
  intros S V HC HP A. pose proof (weight_pos _ S) as W. unfold pose_orientation_prior. cbv zeta. rewrite unit_over.
  eapply zero3; [reflexivity|cbn [f_res]; unfold oripri_res; rewrite (pose_at_sees _ _ _ _ V); reflexivity|].
  rewrite scaled_zero by exact W. unfold oripri_err. rewrite (exp_of_log _ HP A). cbn [snd].
  rewrite log_zero by (apply rot_mul; [exact HC|apply rot_t; exact HP]). apply turn_id. exact HP.
Qed.
Lemma oribet_zero id a b c (sigma : R) h p1 C1 p2 C2 C : 0 < sigma -> sees_pose h a p1 C1 -> sees_pose h b p2 C2 -> sees_rot h c C -> rotation C1 -> rotation C2 -> rotation C ->
  zero_when (pose_orientation_between (N:=RN) id a b c sigma) h (product C C2 C1).
Proof.
  intros S Va Vb Vc H1 H2 HC. pose proof (weight_pos _ S) as W. unfold pose_orientation_between. cbv zeta. rewrite unit_over.
  eapply zero3; [reflexivity|cbn [f_res]; unfold oribet_res; rewrite (pose_at_sees _ _ _ _ Va), (pose_at_sees _ _ _ _ Vb), (rot_at_sees _ _ _ Vc); reflexivity|].
  rewrite scaled_zero by exact W. cbn [snd]. unfold oribet_err.
  rewrite log_zero by (repeat apply rot_mul; auto using rot_t). rewrite product_mul. split.
  1: { intros E. assert (E2 : m3mul C (m3mul C2 (m3t C1)) = m3id).
    { assert (Hr : rotation (m3mul C2 (m3t C1))) by (apply rot_mul; auto using rot_t). rewrite <- (rot_t_mul _ Hr). f_equal.
      rewrite <- (m3mul_id_l C), <- (rot_t_mul _ Hr), m3mul_assoc, E. apply m3mul_id_r. }
    rewrite <- m3mul_assoc in E2. symmetry. exact (proj1 (turn_id (m3mul C C2) C1 H1) E2). }
  intros E. rewrite E. rewrite m3t_mul, <- m3mul_assoc, (rot_mul_t _ H2), m3mul_id_l. apply rot_t_mul. exact HC.
Qed.

(** ** Bearings *)
Lemma len_scale_pos (r : R) (v : v3 RN) : 0 <= r -> len (v3scale r v) = r * len v.
Proof.
  intros Hr. unfold len. assert (E : length2 (v3scale r v) = (r * r) * length2 v) by (dv v; unfold length2; gx; ring).
  rewrite E, sqrt_mult_alt by nra. rewrite sqrt_square by exact Hr. reflexivity.
Qed.
Lemma v3div_scale (v : v3 RN) (k : R) : v3div v k = v3scale (/ k) v.
Proof. dv v. gx. f_equal; unfold Rdiv; ring. Qed.
Lemma normal_same (q o : v3 RN) : 0 < len q -> 0 < len o -> v3normalized q = v3normalized o <-> exists r, 0 < r /\ q = v3scale r o.
Proof.
  intros Lq Lo. rewrite !normalized_div by assumption. rewrite !v3div_scale. split.
  1: { intros E. exists (len q * / len o). split; [apply Rmult_lt_0_compat; [exact Lq|apply Rinv_0_lt_compat; exact Lo]|].
    transitivity (v3scale (len q) (v3scale (/ len q) q)); [|rewrite E].
    1: { revert Lq. generalize (len q). intros k Hk. dv q. gx. f_equal; cbv [RN car] in *; field; lra. }
    generalize (len q). revert Lo. generalize (len o). intros l Hl k. dv o. gx. f_equal; cbv [RN car] in *; ring. }
  intros (r & Hr & ->). rewrite len_scale_pos by lra. revert Lo. generalize (len o). intros l Hl. dv o. gx. f_equal; cbv [RN car] in *; field; lra.
Qed.
Lemma seen_iff (C : m3 RN) d o : seen_along C d o <-> exists r, 0 < r /\ m3v C d = v3scale r o.
Proof.
  unfold seen_along. split; intros (r & Hr & E); exists r; (split; [exact Hr|]).
  1: { apply image_mul in E. rewrite <- E. destruct o. reflexivity. }
  apply image_mul. rewrite E. destruct o. reflexivity.
Qed.
Lemma rot_len_pos (C : m3 RN) x p : rotation C -> x <> p -> 0 < len (m3v C (v3sub x p)).
Proof.
  intros HC N. unfold len. rewrite (rot_len C _ HC). apply len_pos. intros E. apply N. apply sub_zero. exact E.
Qed.
Lemma bearing_zero id a l obs (sigma : R) h p C x : 0 < sigma -> sees_pose h a p C -> sees_landmark h l x -> rotation C -> x <> p -> obs <> v3zero (N:=RN) ->
  zero_when (bearing_observation (N:=RN) id a l obs sigma) h (seen_along C (v3sub x p) obs).
Proof.
  intros S Va Vl HC N No. pose proof (weight_pos _ S) as W. unfold bearing_observation. cbv zeta. rewrite unit_over.
  eapply zero3; [reflexivity|cbn [f_res]; unfold bearing_res; rewrite (landmark_at_sees _ _ _ Vl), (pose_at_sees _ _ _ _ Va); reflexivity|].
  rewrite diff_zero by exact W. cbn [fst snd]. rewrite seen_iff. apply normal_same; [apply rot_len_pos; assumption|apply len_pos; exact No].
Qed.
Lemma invbear_zero id a l obs (sigma : R) h p C o b rho : 0 < sigma -> sees_pose h a p C -> sees_inv h l o b rho -> 1 / 1000000000 <= Rabs rho -> rotation C ->
  inv_point o b rho <> p -> obs <> v3zero (N:=RN) -> zero_when (inverse_range_bearing (N:=RN) id a l obs sigma) h (seen_along C (v3sub (inv_point o b rho) p) obs).
Proof.
  intros S Va Vl Hr HC N No. pose proof (weight_pos _ S) as W. unfold inverse_range_bearing. cbv zeta. rewrite unit_over.
  assert (E : exists dir, inv_at h l = Ok (inv_point o b rho, rho, dir)).
  { destruct Vl as (i & c & lo & hi & Hl). unfold inv_at, hget. rewrite Hl. cbn [obind l_kind]. rewrite (inv_pos_far _ _ _ _ _ _ _ Hr). eexists. reflexivity. }
  destruct E as [dir E].
  eapply zero3; [reflexivity|cbn [f_res]; unfold invbear_res; rewrite (pose_at_sees _ _ _ _ Va), E; reflexivity|].
  rewrite diff_zero by exact W. cbn [fst snd]. rewrite seen_iff. apply normal_same; [apply rot_len_pos; assumption|apply len_pos; exact No].
Qed.

(** ** The tangent basis *)
Definition rows3 (a b c : v3 RN) : m3 RN := M3 (N:=RN) (vx a) (vy a) (vz a) (vx b) (vy b) (vz b) (vx c) (vy c) (vz c).
Lemma cross_unit (x y z u v w : R) : x * x + y * y + z * z = 1 -> u * u + v * v + w * w = 1 -> u * x + v * y + w * z = 0 ->
  (y * w - z * v) * (y * w - z * v) + (z * u - x * w) * (z * u - x * w) + (x * v - y * u) * (x * v - y * u) = 1.
Proof.
  intros A B C. transitivity ((x * x + y * y + z * z) * (u * u + v * v + w * w) - (u * x + v * y + w * z) * (u * x + v * y + w * z)); [ring|].
  rewrite A, B, C. ring.
Qed.
Lemma frame_rotation (k t : v3 RN) : dot k k = 1 -> dot t t = 1 -> dot t k = 0 -> rotation (rows3 k t (v3cross k t)).
Proof.
  intros Hk Ht H. rewrite <- (m3t_t (rows3 k t (v3cross k t))). apply rot_t. apply rotation_alg. rewrite m3t_t. unfold dot in *. destruct k as [x y z], t as [u v w]. cbn in Hk, Ht, H.
  pose proof (cross_unit x y z u v w Hk Ht H) as X. split.
  1: { gx. apply m3_eq. intros i j Hi Hj. destruct i as [|[|[|i]]]; [| | |lia]; (destruct j as [|[|[|j]]]; [| | |lia]); cbn; cbv [RN car] in *; first [ring|exact X|exact Hk|exact Ht|lra]. }
  rewrite mdet_t. unfold rows3. gx. unfold mdet. cbn. cbv [RN car] in *. transitivity ((y * w - z * v) * (y * w - z * v) + (z * u - x * w) * (z * u - x * w) + (x * v - y * u) * (x * v - y * u)); [|exact X]. unfold det. cbn. ring.
Qed.
(** the seed of the basis is the coordinate axis on which [k] is smallest *)
Lemma seed_small (k : v3 RN) : dot k k = 1 -> exists u : v3 RN, dot u u = 1 /\ dot k u * dot k u <= 1 / 3 /\
  tangent_basis k = (v3normalized (v3sub u (v3scale (dot k u) k)), v3cross k (v3normalized (v3sub u (v3scale (dot k u) k)))).
Proof.
  intros U. unfold tangent_basis. cbv zeta. destruct k as [x y z]. unfold dot in *. cbn in U |- *. rewrite q0, q1.
  assert (A : forall a b : R, Rabs a <= Rabs b -> a * a <= b * b) by (intros a b H; apply Rsqr_le_abs_1 in H; exact H).
  destruct (Rleb (Rabs x) (Rabs y)) eqn:E1; [destruct (Rleb (Rabs x) (Rabs z)) eqn:E2|]; cbn [andb].
  1: { apply Rleb_true in E1, E2. apply A in E1, E2. exists (V3 (N:=RN) 1 0 0). cbn. split; [ring|]. split; [cbv [RN car] in *; lra|]. reflexivity. }
  1: { apply Rleb_true in E1. apply A in E1. assert (E3 : Rabs z <= Rabs x). { destruct (Rle_dec (Rabs z) (Rabs x)); [assumption|]. exfalso. rewrite (proj2 (Rleb_true _ _)) in E2; [discriminate|lra]. }
    apply A in E3. destruct (Rleb (Rabs y) (Rabs z)) eqn:E4.
    1: { apply Rleb_true in E4. apply A in E4. exists (V3 (N:=RN) 0 1 0). cbn. split; [ring|]. split; [cbv [RN car] in *; lra|]. reflexivity. }
    exists (V3 (N:=RN) 0 0 1). cbn. split; [ring|]. split; [cbv [RN car] in *; lra|]. reflexivity. }
  assert (E3 : Rabs y <= Rabs x). { destruct (Rle_dec (Rabs y) (Rabs x)); [assumption|]. exfalso. rewrite (proj2 (Rleb_true _ _)) in E1; [discriminate|lra]. }
  apply A in E3. destruct (Rleb (Rabs y) (Rabs z)) eqn:E4.
  1: { apply Rleb_true in E4. apply A in E4. exists (V3 (N:=RN) 0 1 0). cbn. split; [ring|]. split; [cbv [RN car] in *; lra|]. reflexivity. }
  assert (E5 : Rabs z <= Rabs y). { destruct (Rle_dec (Rabs z) (Rabs y)); [assumption|]. exfalso. rewrite (proj2 (Rleb_true _ _)) in E4; [discriminate|lra]. }
  apply A in E5. exists (V3 (N:=RN) 0 0 1). cbn. split; [ring|]. split; [cbv [RN car] in *; lra|]. reflexivity.
Qed.
Lemma dot_len (v : v3 RN) : dot v v = length2 v.
Proof. dv v. unfold dot, length2. cbn. ring. Qed.
Lemma unit_normalized (v : v3 RN) : 0 < len v -> dot (v3normalized v) (v3normalized v) = 1.
Proof.
  intros L. rewrite (normalized_div v L). assert (E : dot (v3div v (len v)) (v3div v (len v)) = dot v v / (len v * len v)).
  { revert L. generalize (len v). intros k Hk. dv v. unfold dot. gx. cbv [RN car] in *. field. lra. }
  rewrite E, dot_len, <- len_sq. field. lra.
Qed.
Lemma dot_normalized (v k : v3 RN) : 0 < len v -> dot (v3normalized v) k = dot v k / len v.
Proof.
  intros L. rewrite (normalized_div v L). revert L. generalize (len v). intros l Hl. dv v; dv k. unfold dot. gx. cbv [RN car] in *. field. lra.
Qed.
Lemma tangent_ok (k t1 t2 : v3 RN) : dot k k = 1 -> tangent_basis k = (t1, t2) ->
  dot t1 t1 = 1 /\ dot t2 t2 = 1 /\ dot t1 t2 = 0 /\ dot t1 k = 0 /\ dot t2 k = 0.
Proof.
  intros U E. destruct (seed_small k U) as (u & Hu & Hku & Et). rewrite Et in E. set (t := v3normalized (v3sub u (v3scale (dot k u) k))) in *. injection E as <- <-.
  assert (L2 : dot (v3sub u (v3scale (dot k u) k)) (v3sub u (v3scale (dot k u) k)) = 1 - dot k u * dot k u).
  { transitivity (dot u u - 2 * (dot k u * dot k u) + dot k u * dot k u * dot k k); [|rewrite Hu, U; ring]. dv u; dv k. unfold dot. gx. cbv [RN car] in *. ring. }
  assert (L : 0 < len (v3sub u (v3scale (dot k u) k))) by (unfold len; apply sqrt_lt_R0; rewrite <- dot_len, L2; lra).
  assert (T1 : dot t t = 1) by (apply unit_normalized; exact L).
  assert (Tk : dot t k = 0).
  { unfold t. rewrite dot_normalized by exact L. assert (Z : dot (v3sub u (v3scale (dot k u) k)) k = 0).
    { transitivity (dot k u - dot k u * dot k k); [|rewrite U; ring]. dv u; dv k. unfold dot. gx. cbv [RN car] in *. ring. }
    rewrite Z. unfold Rdiv. ring. }
  clearbody t. clear - U T1 Tk. destruct k as [x y z], t as [a b c]. unfold dot in *. cbn in *. cbv [RN car] in *.
  split; [exact T1|]. split; [exact (cross_unit x y z a b c U T1 Tk)|]. split; [ring|]. split; [exact Tk|ring].
Qed.
Lemma mv_scale (A : m3 RN) (k : R) v : m3v A (v3scale k v) = v3scale k (m3v A v).
Proof. dm A; dv v. gring. Qed.
(** a unit vector on the positive side without tangential part is [k] *)
Lemma along_k (k t1 t2 b : v3 RN) : dot k k = 1 -> dot b b = 1 -> tangent_basis k = (t1, t2) -> 0 < dot k b -> dot t1 b = 0 -> dot t2 b = 0 -> b = k.
Proof.
  intros U B E P Z1 Z2. destruct (tangent_ok k t1 t2 U E) as (T1 & T2 & T12 & T1k & T2k).
  assert (F : rotation (rows3 k t1 (v3cross k t1))) by (apply frame_rotation; assumption).
  assert (E2 : t2 = v3cross k t1). { unfold tangent_basis in E. cbv zeta in E. injection E as <- <-. reflexivity. }
  rewrite <- E2 in F. clear E E2.
  assert (Eb : m3v (rows3 k t1 t2) b = v3scale (dot k b) (m3v (rows3 k t1 t2) k)).
  { dv k; dv t1; dv t2; dv b. unfold dot in *. cbn in *. unfold rows3, m3v, v3scale. cbn. cbv [RN car] in *. f_equal; [rewrite U; ring| |]; rewrite ?Z1, ?Z2, ?T1k, ?T2k; ring. }
  assert (Ec : b = v3scale (dot k b) k).
  { transitivity (m3v (m3t (rows3 k t1 t2)) (m3v (rows3 k t1 t2) b)); [rewrite <- m3v_mul, (rot_t_mul _ F), m3v_id; reflexivity|].
    rewrite Eb, mv_scale, <- m3v_mul, (rot_t_mul _ F), m3v_id. reflexivity. }
  assert (K : dot k b = 1).
  { assert (S : dot k b * dot k b = 1). { rewrite Ec in B. transitivity (dot k b * dot k b * dot k k); [rewrite U; ring|]. rewrite <- B. generalize (dot k b). intros q. dv k. unfold dot. gx. cbv [RN car] in *. ring. }
    nra. }
  rewrite Ec, K. dv k. gring.
Qed.
Lemma proj_zero id a l obs (sigma tol : R) h p C x : 0 < sigma -> 0 <= tol < 1 -> sees_pose h a p C -> sees_landmark h l x -> rotation C -> x <> p -> obs <> v3zero (N:=RN) ->
  zero_when (bearing_projection (N:=RN) id a l obs sigma tol) h (seen_along C (v3sub x p) obs).
Proof.
  intros S T Va Vl HC N No. pose proof (weight_pos _ S) as W. pose proof (rot_len_pos C x p HC N) as Lq. pose proof (len_pos obs No) as Lo.
  unfold bearing_projection. cbv zeta. rewrite unit_over. set (w := 1 / sigma) in *. set (k := v3normalized obs). set (q := v3normalized (m3v C (v3sub x p))).
  assert (Uk : dot k k = 1) by (apply unit_normalized; exact Lo). assert (Uq : dot q q = 1) by (apply unit_normalized; exact Lq).
  destruct (tangent_basis k) as [t1 t2] eqn:ET.
  assert (SA : seen_along C (v3sub x p) obs <-> q = k) by (rewrite seen_iff; symmetry; apply normal_same; assumption).
  destruct (Rle_dec (dot k q) tol) as [D|D].
  1: { eapply (zero2 _ _ (w * 1) (w * 1)); [reflexivity| |].
    1: { cbn [f_res]. unfold proj_res. rewrite (landmark_at_sees _ _ _ Vl), (pose_at_sees _ _ _ _ Va). cbn [obind fst snd]. cbv zeta. fold q.
      change (nleb (n:=RN) (v3dot k q) tol) with (Rleb (dot k q) tol). rewrite (proj2 (Rleb_true _ _) D). unfold v2list, v2scale. cbn. rewrite q1. reflexivity. }
    rewrite SA. split; [intros [E _]; lra|]. intros E. rewrite E in D. lra. }
  eapply (zero2 _ _ (w * dot t1 q) (w * dot t2 q)); [reflexivity| |].
  1: { cbn [f_res]. unfold proj_res. rewrite (landmark_at_sees _ _ _ Vl), (pose_at_sees _ _ _ _ Va). cbn [obind fst snd]. cbv zeta. fold q.
    change (nleb (n:=RN) (v3dot k q) tol) with (Rleb (dot k q) tol). destruct (Rleb (dot k q) tol) eqn:E; [apply Rleb_true in E; contradiction|]. reflexivity. }
  rewrite SA. destruct (tangent_ok _ _ _ Uk ET) as (_ & _ & _ & K1 & K2). split.
  1: { intros [E1 E2]. apply wz1 in E1; [|exact W]. apply wz1 in E2; [|exact W]. apply (along_k k t1 t2 q); auto. lra. }
  intros E. split; (apply wz; [exact W|]); [change (dot t1 q = 0)|change (dot t2 q = 0)]; rewrite E; assumption.
Qed.

(** ** Plane geometry *)
Lemma off2 (x y lx ly : R) : lx <> x \/ ly <> y -> 0 < (lx - x) * (lx - x) + (ly - y) * (ly - y).
Proof.
  pose proof (Rle_0_sqr (lx - x)) as A. pose proof (Rle_0_sqr (ly - y)) as B. unfold Rsqr in A, B.
  intros [N|N].
  1: { assert (P : 0 < Rsqr (lx - x)) by (apply Rsqr_pos_lt; intros E; apply N; lra). unfold Rsqr in P. lra. }
  assert (P : 0 < Rsqr (ly - y)) by (apply Rsqr_pos_lt; intros E; apply N; lra). unfold Rsqr in P. lra.
Qed.
Lemma and_both (A B C D : Prop) : (A <-> B) -> (C <-> D) -> (A /\ C <-> B /\ D).
Proof. intros [? ?] [? ?]. split; intros [? ?]; split; auto. Qed.
Lemma bear2_zero id p l (obs sigma : R) h x y t lx ly : 0 < sigma -> sees_pose2 h p x y t -> sees_generic h l [lx; ly] -> lx <> x \/ ly <> y ->
  zero_when (bearing_observation_2d (N:=RN) id p l obs sigma) h (points_at x y t lx ly obs).
Proof.
  intros S Vp Vl N. pose proof (weight_pos _ S) as W. assert (P : 0 < (lx - x) * (lx - x) + (ly - y) * (ly - y)) by (apply off2; exact N).
  unfold bearing_observation_2d. cbv zeta. rewrite unit_over.
  eapply zero1; [reflexivity|cbn [f_res]; unfold bear2_res; rewrite (local2_value h p l x y t lx ly (pose2_at_sees _ _ _ _ _ Vp) (value2_at_sees _ _ _ _ Vl)); reflexivity|].
  etransitivity; [apply wz; exact W|]. apply seen_zero. exact P.
Qed.
Lemma range2_zero id p l (robs obs rs bs : R) h x y t lx ly : 0 < rs -> 0 < bs -> sees_pose2 h p x y t -> sees_generic h l [lx; ly] -> lx <> x \/ ly <> y ->
  zero_when (range_bearing_2d (N:=RN) id p l robs obs rs bs) h (sqrt ((lx - x) * (lx - x) + (ly - y) * (ly - y)) = robs /\ points_at x y t lx ly obs).
Proof.
  intros S1 S2 Vp Vl N. pose proof (weight_pos _ S1) as W1. pose proof (weight_pos _ S2) as W2. assert (P : 0 < (lx - x) * (lx - x) + (ly - y) * (ly - y)) by (apply off2; exact N).
  unfold range_bearing_2d. cbv zeta. rewrite !unit_over.
  eapply zero2; [reflexivity|cbn [f_res]; unfold range2_res; rewrite (local2_value h p l x y t lx ly (pose2_at_sees _ _ _ _ _ Vp) (value2_at_sees _ _ _ _ Vl)); reflexivity|].
  apply and_both.
  1: { etransitivity; [apply wz; exact W1|]. cbn [fst snd v2x v2y]. match goal with |- context [nsqrt ?e] => change (nsqrt e) with (sqrt e) end. rewrite <- (loc_norm x y t lx ly).
    split; intros E; [apply Rminus_diag_uniq; exact E|apply Rminus_diag_eq; exact E]. }
  etransitivity; [apply wz; exact W2|]. apply seen_zero. exact P.
Qed.
Lemma wsub_zero (w a b : R) : 0 < w -> w * (a - b) = 0 <-> a = b.
Proof. intros W. rewrite wz by exact W. split; intros; lra. Qed.
Lemma wrap_cong (w a b : R) : 0 < w -> w * wrap_angle (N:=RN) (a - b) = 0 <-> congruent a b.
Proof. intros W. rewrite wz by exact W. apply wrap_zero. Qed.
Lemma pri2_zero id p (px py pt ps rs : R) h x y t : 0 < ps -> 0 < rs -> sees_pose2 h p x y t ->
  zero_when (pose2_prior (N:=RN) id p (V3 (N:=RN) px py pt) ps rs) h (x = px /\ y = py /\ congruent t pt).
Proof.
  intros S1 S2 V. pose proof (weight_pos _ S1) as W1. pose proof (weight_pos _ S2) as W2. unfold pose2_prior. cbv zeta. rewrite !unit_over.
  eapply zero3l; [reflexivity|cbn [f_res]; unfold pri2_res; rewrite (pose2_at_sees _ _ _ _ _ V); reflexivity|].
  apply and_both; [exact (wsub_zero _ _ _ W1)|]. apply and_both; [exact (wsub_zero _ _ _ W1)|]. exact (wrap_cong _ _ _ W2).
Qed.
Lemma value_planar (h : rheap) m mx my mt : sees_planar h m mx my mt -> value2_at h m = Ok (V2 (N:=RN) mx my) /\ value_at h m = Ok [mx; my; mt].
Proof.
  intros [(i & c & [V|[_ V]])|(i & c & V)]; unfold value2_at, value_at, hget; rewrite V; split; reflexivity.
Qed.
Lemma bet2_zero id a b m (ps rs : R) h x1 y1 t1 x2 y2 t2 mx my mt : 0 < ps -> 0 < rs -> sees_pose2 h a x1 y1 t1 -> sees_pose2 h b x2 y2 t2 -> sees_planar h m mx my mt ->
  zero_when (pose2_between (N:=RN) id a b m ps rs false) h (x2 - x1 = mx /\ y2 - y1 = my /\ congruent (t2 - t1) mt).
Proof.
  intros S1 S2 Va Vb Vm. pose proof (weight_pos _ S1) as W1. pose proof (weight_pos _ S2) as W2. destruct (value_planar _ _ _ _ _ Vm) as [M2 M3].
  unfold pose2_between. cbv zeta. rewrite !unit_over.
  eapply zero3l; [reflexivity|cbn [f_res]; unfold bet2_res; rewrite (pose2_at_sees _ _ _ _ _ Va), (pose2_at_sees _ _ _ _ _ Vb), M2, M3; reflexivity|].
  apply and_both; [exact (wsub_zero _ _ _ W1)|]. apply and_both; [exact (wsub_zero _ _ _ W1)|]. exact (wrap_cong _ _ _ W2).
Qed.
(** with local_frame the position condition is in_frame for the heading -t1 *)
Lemma bet2_local_zero id a b m (ps rs : R) h x1 y1 t1 x2 y2 t2 mx my mt : 0 < ps -> 0 < rs -> sees_pose2 h a x1 y1 t1 -> sees_pose2 h b x2 y2 t2 -> sees_planar h m mx my mt ->
  zero_when (pose2_between (N:=RN) id a b m ps rs true) h (in_frame x1 y1 (- t1) x2 y2 mx my /\ congruent (t2 - t1) mt).
Proof.
  intros S1 S2 Va Vb Vm. pose proof (weight_pos _ S1) as W1. pose proof (weight_pos _ S2) as W2. destruct (value_planar _ _ _ _ _ Vm) as [M2 M3].
  unfold pose2_between. cbv zeta. rewrite !unit_over.
  eapply zero3l; [reflexivity|cbn [f_res]; unfold bet2_res; rewrite (pose2_at_sees _ _ _ _ _ Va), (pose2_at_sees _ _ _ _ _ Vb), M2, M3; reflexivity|].
  rewrite <- and_assoc. apply and_both; [|exact (wrap_cong _ _ _ W2)].
  transitivity (cos t1 * (x2 - x1) + - sin t1 * (y2 - y1) = mx /\ sin t1 * (x2 - x1) + cos t1 * (y2 - y1) = my).
  1: { apply and_both; exact (wsub_zero _ _ _ W1). }
  unfold in_frame. rewrite cos_neg, sin_neg. pose proof (sin2_cos2 t1) as SC. unfold Rsqr in SC. cbv [RN car] in *. set (c := cos t1) in *. set (s := sin t1) in *. split; intros [E1 E2]; rewrite <- ?E1, <- ?E2.
  1: { split; nsz. }
  rewrite E1, E2. split; nsz.
Qed.

(** ** Planes *)
Lemma plane_zero id q m (sigma : R) h p n e : 0 < sigma -> sees_vector h q [vx p; vy p; vz p] -> sees_plane h m n e ->
  zero_when (plane_factor (N:=RN) id q m sigma None) h (dot n p + e = 0).
Proof.
  intros S Vq Vm. pose proof (weight_pos _ S) as W. unfold plane_factor. cbv zeta. rewrite unit_over.
  eapply zero1; [reflexivity|cbn [f_res]; unfold plane_res; rewrite (value3_at_sees _ _ _ Vq), (plane_at_sees _ _ _ _ Vm); reflexivity|].
  etransitivity; [apply wz; exact W|]. reflexivity.
Qed.
Lemma plane_scaled_zero id q m (sigma r0 : R) p0 h p n e : 0 < sigma -> sees_vector h q [vx p; vy p; vz p] -> sees_plane h m n e -> 1 + len (v3sub p p0) / r0 <> 0 ->
  zero_when (plane_factor (N:=RN) id q m sigma (Some (r0, p0))) h (dot n p = e).
Proof.
  intros S Vq Vm NZ. pose proof (weight_pos _ S) as W. unfold plane_factor. cbv zeta. rewrite unit_over.
  eapply (zero1 _ _ (1 / sigma * ((dot n p - e) / (1 + len (v3sub p p0) / r0)))); [reflexivity|cbn [f_res]; unfold plane_res; rewrite (value3_at_sees _ _ _ Vq), (plane_at_sees _ _ _ _ Vm); cbn [obind]; rewrite norm_len; cbn; rewrite q1; reflexivity|].
  rewrite wz by exact W. split.
  1: { intros E. apply Rminus_diag_uniq. apply (Rmult_eq_reg_r (/ (1 + len (v3sub p p0) / r0))); [etransitivity; [exact E|ring]|apply Rinv_neq_0_compat; exact NZ]. }
  intros E. rewrite E. unfold Rdiv. rewrite Rminus_eq_0. ring.
Qed.
Lemma planepri_zero id m np (dp nsigma dsigma : R) h n e : 0 < nsigma -> 0 < dsigma -> sees_plane h m n e -> length2 n = 1 -> np <> v3zero (N:=RN) ->
  zero_when (plane_prior (N:=RN) id m np dp nsigma dsigma) h ((exists r, r <> 0 /\ multiple r n np) /\ e = dp).
Proof.
  intros S1 S2 V U Np. pose proof (weight_pos _ S1) as W1. pose proof (weight_pos _ S2) as W2. pose proof (len_pos np Np) as L.
  unfold plane_prior. cbv zeta. rewrite !unit_over. set (w1 := 1 / nsigma) in *. set (w2 := 1 / dsigma) in *. set (k := v3normalized np).
  exists (v3list (v3scale w1 (v3sub (v3scale (dot n k) n) k)) ++ [w2 * (e - dp)]).
  assert (EX : m3v (m3scale w1 (m3sub m3id (m3outer n n))) (v3sub n k) = v3scale w1 (v3sub (v3scale (dot n k) n) k)).
  { rewrite <- v3scale_mv. f_equal. transitivity (v3add (v3sub (v3scale (dot n k) n) k) (v3scale (1 - dot n n) n)).
    1: { generalize k. intros k'. dv n; dv k'. unfold dot. gx. f_equal; cbv [RN car] in *; ring. }
    rewrite dot_len, U. generalize (dot n k) k. intros q k'. dv n; dv k'. gx. f_equal; cbv [RN car] in *; ring. }
  split; [cbn [f_res]; unfold planepri_res; rewrite (plane_at_sees _ _ _ _ V); cbn [obind]; rewrite EX; reflexivity|]. split; [reflexivity|].
  transitivity (v3scale w1 (v3sub (v3scale (dot n k) n) k) = v3zero /\ w2 * (e - dp) = 0).
  1: { set (z := v3scale w1 (v3sub (v3scale (dot n k) n) k)). destruct z as [a b c]. cbn [f_rsize]. split.
    1: { intros Z. pose proof (Z 0%nat ltac:(lia)) as Z0. pose proof (Z 1%nat ltac:(lia)) as Z1. pose proof (Z 2%nat ltac:(lia)) as Z2. pose proof (Z 3%nat ltac:(lia)) as Z3. cbn in Z0, Z1, Z2, Z3. split; [|exact Z3].
      unfold v3zero. change (nzero (N:=RN)) with (Q2R 0). rewrite q0, Z0, Z1, Z2. reflexivity. }
    unfold v3zero. change (nzero (N:=RN)) with (Q2R 0). rewrite q0. intros [E Z3] i Hi. injection E as -> -> ->. destruct i as [|[|[|[|i]]]]; [| | | |lia]; try reflexivity. exact Z3. }
  apply and_both; [|exact (wsub_zero _ _ _ W2)]. rewrite diff_zero by exact W1.
  assert (Ek : np = v3scale (len np) k) by (unfold k; rewrite (normalized_div np L); revert L; generalize (len np); intros l Hl; dv np; gx; f_equal; cbv [RN car] in *; field; lra).
  split.
  1: { intros E. exists (len np * dot n k). assert (Em : np = v3scale (len np * dot n k) n).
    { rewrite Ek at 1. rewrite <- E at 1. generalize (len np) (dot n k). intros u v. dv n. gx. f_equal; cbv [RN car] in *; ring. }
    split; [|split; [exact (f_equal vx Em)|split; [exact (f_equal vy Em)|exact (f_equal vz Em)]]].
    intros Z. apply Np. rewrite Em, Z. dv n. gx. f_equal; cbv [RN car] in *; ring. }
  intros (r & Hr & M1 & M2 & M3). assert (Em : np = v3scale r n) by (destruct np, n; cbn in M1, M2, M3; subst; reflexivity).
  assert (Ed : k = v3scale (/ len np * r) n). { unfold k. rewrite (normalized_div np L), v3div_scale. rewrite Em at 2. generalize (/ len np). intros u. dv n. gx. f_equal; cbv [RN car] in *; ring. }
  rewrite Ed. assert (Q : dot n (v3scale (/ len np * r) n) = / len np * r).
  { transitivity ((/ len np * r) * dot n n); [|rewrite dot_len, U; ring]. generalize (/ len np * r). intros u. dv n. unfold dot. gx. cbv [RN car] in *. ring. }
  rewrite Q. reflexivity.
Qed.
