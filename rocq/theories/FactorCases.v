(** Concrete factors: where the claims about Jacobians and vanishing residuals fail, and a memory on which the theorems apply. *)
From Coq Require Import List Arith ZArith QArith Bool Reals Lra Lia Psatz.
From Coquelicot Require Import Coquelicot.
From Verif Require Import Base Sparse Graph Geom Vars VarOps VarsLemmas VarsRun FactorsLin FactorsLinFacts FactorsGeo SpecGeom SpecVars SpecFactor Real RSum Trig GeomR GeomExp GeomLog GeomNear GeomJac GeomFacts FactorCalc FactorRead FactorJac FactorJac2 FactorAngle FactorJac3 FactorLinJac FactorOri FactorStep FactorMotion FactorZero.
Import ListNotations.
Local Open Scope R_scope.

(** the derivative is unique *)
Lemma two_slopes (f : R -> R) x a b : is_derive f x a -> is_derive f x b -> a = b.
Proof. intros A B. rewrite <- (is_derive_unique _ _ _ A). exact (is_derive_unique _ _ _ B). Qed.

Lemma plane_value (h : rheap) a n e : plane_at h a = Ok (n, e) -> value_at h a = Ok (v3list n ++ [e]).
Proof.
  unfold plane_at, value_at. destruct (hget h a) as [v| |]; cbn [obind]; try discriminate. destruct (l_kind v); try discriminate. intros E. injection E as -> ->. destruct n. reflexivity.
Qed.

(** ** A generic prior on a plane: moving along the normal leaves the value where it is *)
Definition plane_heap : @heap (lvar RN) := [LVar 0 false (KPlane (ex 1) 0)].
Definition plane_gprior : factor (N:=RN) (V:=lvar RN) := generic_prior (lib RN) 0 0%nat [1; 0; 0; 0] 1.
Lemma plane_heap_regular : forall D : addr -> list R, length (D 0%nat) = 4%nat -> steps_regularly plane_heap D.
Proof. intros D HD a v Ha _. destruct a as [|a]; [|destruct a; discriminate]. injection Ha as <-. split; [exact ex_unit|exact HD]. Qed.
Lemma gprior_plane_wrong (J : list (mat RN)) : ~ exact_along_increments plane_gprior plane_heap J.
Proof.
  intros (HJ & _ & HX). set (D := fun _ : addr => [1; 0; 0; 0]).
  assert (SR : steps_regularly plane_heap D) by (apply plane_heap_regular; reflexivity).
  pose proof (nudges_exist _ _ SR) as NU. set (H := fun s : R => nudge D s 0%nat plane_heap) in *.
  destruct (HX H D SR NU) as (r & Er & Dr). specialize (Dr 0%nat ltac:(cbn; lia)).
  assert (EJ : J = [diagm 4 (1 / 1)]). { specialize (HJ []). cbn [f_jac plane_gprior generic_prior] in HJ. unfold gprior_jac in HJ. cbn in HJ. rewrite unit_over in HJ. injection HJ as <-. reflexivity. }
  subst J. 
  assert (V : response plane_heap D (f_vars plane_gprior) [diagm 4 (1 / 1)] 0 = 1).
  { cbn. rewrite ?q0. field. }
  rewrite V in Dr. pose proof (nudges_move _ _ _ SR NU) as HM.
  destruct (read_plane H plane_heap D 0%nat (ex 1) 0 HM) as (M & E & EP & MM & _); [exists 0%Z, false; reflexivity|].
  destruct MM as [_ MM]. specialize (MM 0%nat ltac:(lia)).
  assert (ER : forall s, nth 0 (r s) 0 = 1 * (coord (M s) 0 - 1)).
  { intros s. destruct (Er s) as [Es _]. cbn [f_res plane_gprior generic_prior] in Es. rewrite unit_over in Es.
    rewrite (gprior_value_at 0%nat [1; 0; 0; 0] (1 / 1) (H s) (v3list (M s) ++ [E s]) (plane_value _ _ _ _ (EP s)) eq_refl) in Es.
    injection Es as <-. destruct (M s). cbn. field. }
  assert (D0 : is_derive (fun s => nth 0 (r s) 0) 0 0).
  { apply (is_derive_ext (fun s : R => 1 * (coord (M s) 0 - 1))); [intros s; symmetry; apply ER|]. eapply d_eq; [apply d_scal, d_minus; [exact MM|apply d_const]|].
    unfold vel, across, dot, dir3. cbn. ring. }
  pose proof (two_slopes _ _ _ _ Dr D0). lra.
Qed.

(** ** A pose whose rotation is the identity does not turn under increments below 1e-8 *)
Definition pose_heap : @heap (lvar RN) := [mk_pose (N:=RN) 0 v3zero v3zero].
Definition turn_x (a : addr) : list R := [0; 0; 0; 1; 0; 0].
Definition turned_heap (s : R) : @heap (lvar RN) :=
  match vinc (lib RN) (mk_pose (N:=RN) 0 v3zero v3zero) (map (Rmult s) (turn_x 0%nat)) with Ok v => [v] | _ => [] end.
Definition upright : factor (N:=RN) (V:=lvar RN) := pose_orientation_prior (N:=RN) 0 0%nat m3id 1.
Lemma pose_heap_sees : sees_pose pose_heap 0%nat v3zero m3id.
Proof.
  exists 0%Z, false, v3zero. unfold pose_heap, mk_pose. cbn [nth_error]. do 3 f_equal. apply dcm_small. rewrite len0. lra.
Qed.
Lemma turn_x_seg s : seg3 (N:=RN) 3 (map (Rmult s) (turn_x 0%nat)) = ex s.
Proof. unfold seg3, turn_x, ex. cbn. rewrite Rmult_1_r, Rmult_0_r. reflexivity. Qed.
Lemma turned_value s : exists p r C, turned_heap s = [LVar 0 false (KPose (v3list p ++ v3list r) C)] /\ (Rabs s < / 10000000000 -> C = m3id).
Proof.
  set (r := log_so3 (m3mul (exp_so3 (ex s)) (dcm_of_rot (N:=RN) v3zero))).
  assert (E : turned_heap s = [LVar 0 false (KPose (v3list (v3add (seg3 0 (v3list v3zero ++ v3list v3zero)) (seg3 0 (map (Rmult s) (turn_x 0%nat)))) ++ v3list r) (dcm_of_rot r))]).
  { unfold r. rewrite <- turn_x_seg. reflexivity. }
  rewrite E. eexists _, _, _. split; [reflexivity|]. intros Hs. apply dcm_small. unfold r. rewrite (dcm_small v3zero) by (rewrite len0; lra).
  rewrite m3mul_id_r. assert (L : len (ex s) = Rabs s) by (rewrite ex_scale; apply (len_scale s _ ex_unit)). rewrite log_of_exp by (left; lra). rewrite L. lra.
Qed.
Lemma pose_identity_wrong : exists J, exact_jacobian upright pose_heap J /\ nudges turned_heap pose_heap turn_x /\
  exists r : R -> list R, (forall s, f_res upright (turned_heap s) = Ok (r s)) /\ ~ is_derive (fun s => nth 0 (r s) 0) 0 (response pose_heap turn_x (f_vars upright) J 0).
Proof.
  assert (HI : rotation_by v3zero (m3mul m3id (m3t (exp_so3 (log_so3 m3id))))).
  { rewrite exp_of_log; [|apply rot_id|left; reflexivity]. rewrite (rot_mul_t _ rot_id). apply zero_by. }
  destruct (oripri_exact 0 0%nat m3id 1 pose_heap v3zero m3id v3zero pose_heap_sees HI (or_introl eq_refl)) as (M & EM & EX).
  rewrite jac_zero in EM. injection EM as <-. eexists. split; [exact EX|]. split.
  1: { intros a v Ha s. destruct a as [|a]; [|destruct a; discriminate]. injection Ha as <-. cbn [l_const mk_pose]. unfold turned_heap. eexists. split; reflexivity. }
  exists (fun s => match f_res upright (turned_heap s) with Ok r => r | _ => [] end). split.
  1: { intros s. destruct (turned_value s) as (p & r & C & E & _). rewrite E. reflexivity. }
  intros D1. assert (D0 : is_derive (fun s => nth 0 (match f_res upright (turned_heap s) with Ok r => r | _ => [] end) 0) 0 0).
  { apply (is_derive_ext_loc (fun _ => 0)); [|apply d_const]. assert (P : 0 < / 10000000000) by lra. exists (mkposreal _ P). intros s Hs.
    change (Rabs (minus s 0) < / 10000000000) in Hs. unfold minus, plus, opp in Hs; cbn in Hs. rewrite Ropp_0, Rplus_0_r in Hs.
    destruct (turned_value s) as (p & r & C & E & EC). rewrite E, (EC Hs). 
    assert (S : sees_pose [LVar 0 false (KPose (v3list p ++ v3list r) m3id)] 0%nat p m3id) by (exists 0%Z, false, r; reflexivity).
    unfold upright, pose_orientation_prior. cbv zeta. cbn [f_res]. unfold oripri_res, oripri_err. rewrite (pose_at_sees _ _ _ _ S). cbn [obind snd].
    rewrite exp_of_log; [|apply rot_id|left; reflexivity]. rewrite (rot_mul_t _ rot_id). rewrite (proj2 (log_zero m3id rot_id) eq_refl).
    unfold v3zero, v3scale, v3list. cbn. rewrite q0. change (@eq R 0 (ndiv (n:=RN) nunit 1 * 0)). rewrite unit_over. field. }
  pose proof (two_slopes _ _ _ _ D1 D0) as X. revert X. cbn. rewrite ?q0, ?q1. intros X. lra.
Qed.

(** ** Residuals that vanish elsewhere *)
Lemma zero_when_same f h P Q : zero_when f h P -> zero_when f h Q -> P <-> Q.
Proof. intros (r & Er & _ & A) (r' & Er' & _ & B). rewrite Er in Er'. injection Er' as <-. rewrite <- A. exact B. Qed.
(** scaled plane factor: the point (5, 0, 0) lies on the plane x - 5 = 0 *)
Definition scaled_heap : @heap (lvar RN) := [LVar 0 false (KLandmark [5; 0; 0]); LVar 1 false (KPlane (ex 1) (-5))].
Lemma scaled_plane_wrong : sees_vector scaled_heap 0%nat [5; 0; 0] /\ sees_plane scaled_heap 1%nat (ex 1) (-5) /\
  zero_when (plane_factor (N:=RN) 0 0%nat 1%nat 1 None) scaled_heap (dot (ex 1) (ex 5) + -5 = 0) /\
  ~ zero_when (plane_factor (N:=RN) 0 0%nat 1%nat 1 (Some (1, v3zero))) scaled_heap (dot (ex 1) (ex 5) + -5 = 0).
Proof.
  assert (S1 : sees_vector scaled_heap 0%nat [vx (ex 5); vy (ex 5); vz (ex 5)]) by (exists 0%Z, false; right; split; reflexivity).
  assert (S2 : sees_plane scaled_heap 1%nat (ex 1) (-5)) by (exists 1%Z, false; reflexivity).
  split; [exact S1|]. split; [exact S2|]. split; [apply plane_zero; [lra|exact S1|exact S2]|]. intros Z.
  assert (L : len (v3sub (ex 5) v3zero) = 5).
  { assert (E : v3sub (ex 5) v3zero = ex 5) by (unfold ex; gx; f_equal; cbv [RN car] in *; ring). rewrite E. apply ex_len. lra. }
  assert (Z' : zero_when (plane_factor (N:=RN) 0 0%nat 1%nat 1 (Some (1, v3zero))) scaled_heap (dot (ex 1) (ex 5) = -5)).
  { apply plane_scaled_zero; [lra|exact S1|exact S2|]. rewrite L. lra. }
  pose proof (zero_when_same _ _ _ _ Z Z') as [A _]. unfold dot, ex in A. cbn in A. lra.
Qed.
(** plane prior: x + 1 = 0 against the prior -x + 1 = 0 *)
Definition flipped_heap : @heap (lvar RN) := [LVar 0 false (KPlane (ex 1) 1)].
Lemma flipped_plane_wrong : ~ zero_when (plane_prior (N:=RN) 0 0%nat (ex (-1)) 1 1 1) flipped_heap (v3normalized (ex (-1)) = ex 1 /\ 1 = 1) /\
  zero_when (plane_prior (N:=RN) 0 0%nat (ex (-1)) 1 1 1) flipped_heap True.
Proof.
  assert (S : sees_plane flipped_heap 0%nat (ex 1) 1) by (exists 0%Z, false; reflexivity).
  assert (NZ : ex (-1) <> v3zero) by (unfold ex, v3zero; change (nzero (N:=RN)) with (Q2R 0); rewrite q0; intros E; injection E as E; lra).
  assert (Z' : zero_when (plane_prior (N:=RN) 0 0%nat (ex (-1)) 1 1 1) flipped_heap ((exists r, r <> 0 /\ multiple r (ex 1) (ex (-1))) /\ 1 = 1)).
  { apply planepri_zero; [lra|lra|exact S|exact ex_unit|exact NZ]. }
  assert (T : (exists r, r <> 0 /\ multiple r (ex 1) (ex (-1))) /\ 1 = 1). { split; [|reflexivity]. exists (-1). split; [lra|]. unfold multiple, ex. cbn. repeat split; lra. }
  split.
  1: { intros Z. destruct (proj2 (zero_when_same _ _ _ _ Z Z') T) as [E _].
    assert (L : len (ex (-1)) = 1) by (rewrite ex_scale, (len_scale _ _ ex_unit); unfold Rabs; destruct (Rcase_abs (-1)); lra).
    rewrite normalized_div in E by lra. rewrite L in E. unfold ex in E. cbn in E. injection E as E. lra. }
  destruct Z' as (r & A & B & C). exists r. split; [exact A|]. split; [exact B|]. split; [intros _; exact I|]. intros _. apply C. exact T.
Qed.
(** 2D between factor, local frame: pose A at the origin with heading pi/2, pose B at (0, 1), which is (1, 0) in A's frame *)
Definition local_heap : @heap (lvar RN) := [LVar 0 false (KPose2 [0; 0; PI / 2]); LVar 1 false (KPose2 [0; 1; PI / 2]); LVar 2 false (KGeneric [1; 0; 0])].
Lemma local_frame_wrong : in_frame 0 0 (PI / 2) 0 1 1 0 /\
  ~ zero_when (pose2_between (N:=RN) 0 0%nat 1%nat 2%nat 1 1 true) local_heap (in_frame 0 0 (PI / 2) 0 1 1 0 /\ congruent (PI / 2 - PI / 2) 0).
Proof.
  assert (T : in_frame 0 0 (PI / 2) 0 1 1 0) by (unfold in_frame; rewrite cos_PI2, sin_PI2; split; ring).
  split; [exact T|]. intros Z.
  assert (Z' : zero_when (pose2_between (N:=RN) 0 0%nat 1%nat 2%nat 1 1 true) local_heap (in_frame 0 0 (- (PI / 2)) 0 1 1 0 /\ congruent (PI / 2 - PI / 2) 0)).
  { apply bet2_local_zero; [lra|lra| | |]; [exists 0%Z, false|exists 1%Z, false|left; exists 2%Z, false; left]; reflexivity. }
  assert (C : congruent (PI / 2 - PI / 2) 0) by (exists 0%Z; ring).
  destruct (proj1 (zero_when_same _ _ _ _ Z Z') (conj T C)) as [[_ A] _]. rewrite cos_neg, sin_neg, cos_PI2, sin_PI2 in A. lra.
Qed.
(** coordinate transform: "the origin of frame B in A" (1, 0, 0), identity rotation, scale 1; the point 0 of B is (1, 0, 0) in A *)
Definition transform_heap : @heap (lvar RN) := [LVar 0 false (KRot [0; 0; 0] m3id); LVar 1 false (KGeneric [1; 0; 0]); LVar 2 false (KGeneric [1]); LVar 3 false (KLandmark [1; 0; 0]); LVar 4 false (KLandmark [0; 0; 0])].
Lemma transform_origin_wrong : ~ zero_when (coordinate_transform (N:=RN) 0 0%nat 1%nat 2%nat 3%nat 4%nat 1) transform_heap
  (forall y, image m3id v3zero y -> ex 1 = v3add (v3scale 1 y) (ex 1)).
Proof.
  intros Z.
  assert (Z' : zero_when (coordinate_transform (N:=RN) 0 0%nat 1%nat 2%nat 3%nat 4%nat 1) transform_heap (forall y, image m3id v3zero y -> ex 1 = v3sub (v3scale 1 y) (ex 1))).
  { apply ctrans_zero; [lra|exists 0%Z, false, [0; 0; 0]|exists 1%Z, false|exists 2%Z, false|exists 3%Z, false|exists 4%Z, false]; try reflexivity.
    unfold transform_heap, v3zero. cbn. rewrite q0. reflexivity. }
  assert (T : forall y, image m3id v3zero y -> ex 1 = v3add (v3scale 1 y) (ex 1)).
  { intros y Hy. apply image_mul in Hy. rewrite m3v_id in Hy. subst y. unfold ex. gx. f_equal; cbv [RN car] in *; ring. }
  pose proof (proj1 (zero_when_same _ _ _ _ Z Z') T v3zero) as A. assert (I0 : image m3id v3zero v3zero) by (apply image_mul; rewrite m3v_id; reflexivity).
  specialize (A I0). unfold ex in A. gx in A. injection A as A _ _. lra.
Qed.
(** pose orientation prior: the pose stands exactly at a prior that turns by 1e-6 *)
Definition tiny : m3 RN := aa_matrix (/ 1000000) (ex 1).
Definition tiny_heap : @heap (lvar RN) := [LVar 0 false (KPose [0; 0; 0; / 1000000; 0; 0] tiny)].
Lemma tiny_prior_wrong : sees_pose tiny_heap 0%nat v3zero tiny /\ rotation tiny /\ ~ zero_when (pose_orientation_prior (N:=RN) 0 0%nat tiny 1) tiny_heap (tiny = tiny).
Proof.
  assert (S : sees_pose tiny_heap 0%nat v3zero tiny) by (exists 0%Z, false, (ex (/ 1000000)); unfold tiny_heap, v3zero, ex; cbn; rewrite q0; reflexivity).
  pose proof pi_bounds as PB. pose proof (aa_rotation (/ 1000000) _ ex_unit) as HT. split; [exact S|]. split; [exact HT|].
  intros (r & Er & _ & B). unfold pose_orientation_prior in Er. cbv zeta in Er. cbn [f_res] in Er. unfold oripri_res in Er. rewrite (pose_at_sees _ _ _ _ S) in Er. cbn [obind snd] in Er.
  unfold oripri_err in Er. set (q := exp_so3 (log_so3 tiny)) in *. 
  assert (Eq : q = aa_matrix (sin (/ 1000000)) (ex 1) /\ 0 < sin (/ 1000000) < / 1000000).
  { unfold q, tiny. rewrite (log_aa _ _ ex_unit) by lra. destruct (Rlt_dec _ _) as [_|N]; [|lra].
    destruct (small_sin (/ 1000000) ltac:(lra)) as (A1 & A2 & A3). pose proof (sin_lt_x (/ 1000000) ltac:(lra)) as A4.
    set (s := sin (/ 1000000)) in *. assert (L : len (v3scale s (ex 1)) = s) by (rewrite <- ex_scale; apply ex_len; lra).
    rewrite exp_large by (rewrite L; lra). rewrite L, div_scale by lra. split; [reflexivity|lra]. }
  destruct Eq as [Eq Bq]. assert (HQ : rotation q) by (rewrite Eq; apply aa_rotation, ex_unit).
  assert (Z : log_so3 (m3mul tiny (m3t q)) = v3zero).
  { apply (scaled_zero 1 (log_so3 (m3mul tiny (m3t q)))); [lra|]. pose proof (proj2 B eq_refl) as Z. injection Er as <-. rewrite unit_over in Z.
    pose proof (Z 0%nat ltac:(cbn; lia)) as Z0. pose proof (Z 1%nat ltac:(cbn; lia)) as Z1. pose proof (Z 2%nat ltac:(cbn; lia)) as Z2.
    revert Z0 Z1 Z2. generalize (log_so3 (m3mul tiny (m3t q))). intros v. dv v. unfold v3list, v3scale, v3zero. cbn. change (nzero (N:=RN)) with (Q2R 0). rewrite q0. intros. cbv [RN car] in *. f_equal; lra. }
  apply log_zero in Z; [|apply rot_mul; [exact HT|apply rot_t; exact HQ]]. apply (proj1 (turn_id _ _ HQ)) in Z.
  rewrite Eq in Z. unfold tiny in Z. apply (aa_inj _ _ _ _ ex_unit ex_unit) in Z; lra.
Qed.

(** ** Jacobians at small angles and distances *)
(** rotation prior at the identity, variable turned by 1e-6 about x: turning it further about x changes the residual at the rate cos(1e-6), the block says 1 *)
Definition slight_heap : @heap (lvar RN) := [LVar 0 false (KRot (v3list (ex (sin (/ 1000000)))) tiny)].
Definition slight : factor (N:=RN) (V:=lvar RN) := rotation_prior (N:=RN) 0 0%nat m3id 1.
Lemma m3t_id : m3t (m3id (N:=RN)) = m3id. Proof. reflexivity. Qed.
Lemma log_tiny t : 0 <= t < / 100000 -> log_so3 (aa_matrix t (ex 1)) = ex (sin t).
Proof.
  intros B. pose proof pi_bounds. rewrite (log_aa _ _ ex_unit) by lra. destruct (Rlt_dec _ _) as [_|N]; [|lra]. symmetry. apply ex_scale.
Qed.
Lemma slight_wrong (J : list (mat RN)) : ~ exact_jacobian slight slight_heap J.
Proof.
  intros (HJ & _ & HX). pose proof pi_bounds as PB. set (t := / 1000000) in *. assert (Ht : t = / 1000000) by reflexivity.
  destruct (small_sin t ltac:(lra)) as (A1 & A2 & A3).
  assert (EJ : J = [mat33 (m3scale (1 / 1) (jac_matrix (sin t) (ex 1)))]).
  { assert (EL : log_so3 (m3mul tiny (m3t m3id)) = v3scale (sin t) (ex 1)) by (rewrite m3t_id, m3mul_id_r, <- ex_scale; apply log_tiny; lra).
    assert (E : f_jac slight slight_heap [] = ([mat33 (m3scale (1 / 1) (jac_matrix (sin t) (ex 1)))], Ok tt)).
    { unfold slight, rotation_prior. cbv zeta. cbn [f_jac]. unfold rotpri_jac, rot_at. cbn [hget nth_error slight_heap withj l_const obind l_kind]. rewrite EL.
      rewrite (jac_value (sin t) (ex 1) ex_unit) by lra. rewrite unit_over. reflexivity. }
    rewrite (HJ []) in E. injection E as E. exact E. }
  subst J. set (H := fun s : R => [LVar 0 false (KRot (N:=RN) (v3list (ex (sin t))) (aa_matrix (t + s) (ex 1)))]). set (D := fun _ : addr => [1; 0; 0]).
  assert (HM : hmoves H slight_heap D).
  { intros a v Ha. destruct a as [|a]; [|destruct a; discriminate]. injection Ha as <-. exists (fun s => KRot (N:=RN) (v3list (ex (sin t))) (aa_matrix (t + s) (ex 1))). split; [reflexivity|].
    cbn [l_const l_kind kind_moves]. eexists _, _. split; [intros s; reflexivity|]. change (dir3 0 (D 0%nat)) with (ex 1). change tiny with (aa_matrix t (ex 1)). split; [rewrite Rplus_0_r; reflexivity|].
    intros i j Hi Hj. destruct i as [|[|[|i]]]; [| | |lia]; destruct j as [|[|[|j]]]; try lia.
    1-9: eapply is_derive_ext; [intros s; unfold ex; gx; reflexivity|]; auto_derive; auto; rewrite ?Rplus_0_r; unfold ex; gx; ring. }
  destruct (HX H D HM) as (r & Er & Dr). specialize (Dr 0%nat ltac:(cbn; lia)).
  assert (V : response slight_heap D (f_vars slight) [mat33 (m3scale (1 / 1) (jac_matrix (sin t) (ex 1)))] 0 = 1).
  { transitivity (coord (m3v (m3scale (1 / 1) (jac_matrix (sin t) (ex 1))) (ex 1)) 0); [|assert (NS : 0 < sin (sin t)) by (apply sin_gt_0; lra); unfold jac_matrix, ex; gx; field; lra].
    cbn [response f_vars slight rotation_prior]. rewrite Rplus_0_r. exact (term_mat33 slight_heap D 0%nat (m3scale (1 / 1) (jac_matrix (sin t) (ex 1))) 0 (there_rot slight_heap 0%nat tiny (ex_intro _ 0%Z (ex_intro _ false (ex_intro _ _ eq_refl)))) ltac:(lia)). }
  rewrite V in Dr. assert (D2 : is_derive (fun s : R => sin (t + s)) 0 (cos t)) by (auto_derive; auto; rewrite Rplus_0_r; ring).
  assert (L : locally 0 (fun s : R => sin (t + s) = nth 0 (r s) 0)).
  { exists (mkposreal t ltac:(lra)). intros s Hs. change (Rabs (minus s 0) < t) in Hs. unfold minus, plus, opp in Hs; cbn in Hs. rewrite Ropp_0, Rplus_0_r in Hs. apply Rabs_def2 in Hs.
    destruct (Er s) as [Es _]. unfold slight, rotation_prior in Es. cbv zeta in Es. cbn [f_res] in Es. unfold rotpri_res, rot_at, H in Es. cbn [hget nth_error obind l_kind] in Es.
    rewrite m3t_id, m3mul_id_r, log_tiny in Es by lra. rewrite unit_over in Es. injection Es as <-. cbn. field. }
  apply (is_derive_ext_loc _ _ _ _ L) in D2. pose proof (two_slopes _ _ _ _ Dr D2) as X.
  assert (B : cos t < 1). { rewrite <- cos_0. apply cos_decreasing_1; lra. }
  lra.
Qed.
(** a landmark 1e-10 in front of the camera: the residual is defined, the Jacobians throw *)
Definition near_heap : @heap (lvar RN) := [LVar 0 false (KPose [0; 0; 0; 0; 0; 0] m3id); LVar 1 false (KLandmark [/ 10000000000; 0; 0])].
Definition near_bearing : factor (N:=RN) (V:=lvar RN) := bearing_observation (N:=RN) 0 0%nat 1%nat (ex 1) 1.
Lemma near_bearing_wrong : zero_when near_bearing near_heap True /\ forall J, ~ exact_jacobian near_bearing near_heap J.
Proof.
  assert (S1 : sees_pose near_heap 0%nat v3zero m3id) by (exists 0%Z, false, v3zero; unfold near_heap, v3zero; cbn; rewrite q0; reflexivity).
  assert (S2 : sees_landmark near_heap 1%nat (ex (/ 10000000000))) by (exists 1%Z, false; reflexivity).
  assert (NZ : forall u, u <> 0 -> ex u <> v3zero) by (intros u Hu; unfold ex, v3zero; change (nzero (N:=RN)) with (Q2R 0); rewrite q0; intros E; injection E as E; contradiction).
  assert (EZ : v3sub (ex (/ 10000000000)) v3zero = ex (/ 10000000000)) by (unfold ex; gx; f_equal; cbv [RN car] in *; ring). split.
  1: { assert (Z : zero_when near_bearing near_heap (seen_along m3id (v3sub (ex (/ 10000000000)) v3zero) (ex 1))).
    { apply bearing_zero; [lra|exact S1|exact S2|exact rot_id|apply NZ; lra|apply NZ; lra]. }
    destruct Z as (r & A & B & C). exists r. split; [exact A|]. split; [exact B|]. split; [intros _; exact I|]. intros _. apply C. exists (/ 10000000000). split; [lra|].
    rewrite EZ. apply image_mul. rewrite m3v_id. unfold ex. cbn. f_equal; ring. }
  intros J (HJ & _). specialize (HJ []). unfold near_bearing, bearing_observation in HJ. cbv zeta in HJ. cbn [f_jac] in HJ. unfold bearing_jac in HJ.
  rewrite (pose_at_sees _ _ _ _ S1), (landmark_at_sees _ _ _ S2) in HJ. cbn [obind fst snd] in HJ. rewrite EZ, m3v_id in HJ.
  assert (X : nltb (n:=RN) (v3norm (ex (/ 10000000000))) min_dist = true). { rewrite norm_len, ex_len by lra. apply Rltb_true. change (/ 10000000000 < (min_dist (N:=RN) : R)). rewrite min_dist_R. lra. }
  rewrite X in HJ. discriminate.
Qed.
(** the coordinate transform writes past the end of an output vector that has neither 0 nor 5 elements *)
Lemma transform_vector_wrong : snd (f_jac (coordinate_transform (N:=RN) 0 0%nat 1%nat 2%nat 3%nat 4%nat 1) transform_heap [mempty]) = UB UBIndex.
Proof.
  refine (proj1 (proj2 (proj2 (ctrans_exact_part 0 0%nat 1%nat 2%nat 3%nat 4%nat 1 transform_heap m3id (ex 1) 1 (ex 1) v3zero _ _ _ _ _))) [mempty] _ _).
  1: { exists 0%Z, false, [0; 0; 0]. reflexivity. }
  1: { exists 1%Z, false. reflexivity. }
  1: { exists 2%Z, false. reflexivity. }
  1: { exists 3%Z, false. reflexivity. }
  1: { exists 4%Z, false. unfold transform_heap, v3zero. cbn. rewrite q0. reflexivity. }
  1: discriminate.
  discriminate.
Qed.
