(** The library's relative measurements do not respond to translations. *)
From Coq Require Import List Arith ZArith QArith Bool Reals Lra Lia.
From Verif Require Import Base Sparse Graph SpecGraph Geom Vars FactorsLin FactorsLinFacts FactorsGeo FactorLib SpecFactor SpecShape FactorShape Real RSum GeomR SpecGauge.
From Verif Require Import FactorRead.
Import ListNotations.
Local Open Scope nat_scope.
Set Bullet Behavior "Strict Subproofs".

Definition drift (h : rheap) (tr : addr -> nat -> R) (a : addr) : list R :=
  match nth_error h a with Some v => map (shift h tr a) (seq 0 (ksize (l_kind v))) | None => [] end.
Lemma drift_nth h tr a v c : nth_error h a = Some v -> c < ksize (l_kind v) -> nth c (drift h tr a) 0%R = shift h tr a c.
Proof.
  intros Hv Hc. unfold drift. rewrite Hv. rewrite (nth_indep _ 0%R (shift h tr a 0)) by (rewrite map_length, seq_length; exact Hc).
  rewrite (map_nth (shift h tr a)), seq_nth by exact Hc. reflexivity.
Qed.
Lemma speed_const h tr a v c : nth_error h a = Some v -> l_const v = true -> speed h tr a c = 0%R.
Proof. intros Hv C. unfold speed. rewrite Hv, C. reflexivity. Qed.
Lemma shift_const h tr a v c : nth_error h a = Some v -> l_const v = true -> shift h tr a c = 0%R.
Proof.
  intros Hv C. unfold shift. rewrite Hv. destruct (l_kind v); rewrite ?(speed_const _ _ _ _ _ Hv C); try reflexivity; repeat destruct (_ <? _); repeat destruct (_ =? _); try reflexivity; ring.
Qed.
Lemma term_drift h tr a v M i : nth_error h a = Some v ->
  term h (drift h tr) a (if l_const v then mempty else M) i = rsum (ksize (l_kind v)) (fun c => mat_at M i c * shift h tr a c)%R.
Proof.
  intros Hv. unfold term. rewrite Hv. cbn [vsize lib]. destruct (l_const v) eqn:C.
  - symmetry. apply rsum_zero. intros c _. rewrite (shift_const _ _ _ _ _ Hv C). ring.
  - apply rsum_ext. intros c Hc. rewrite (drift_nth _ _ _ _ _ Hv Hc). reflexivity.
Qed.
Lemma still_rsum h tr a n (M : mat RN) i : still h tr a -> rsum n (fun c => mat_at M i c * shift h tr a c)%R = 0%R.
Proof. intros H. apply rsum_zero. intros c _. rewrite H. ring. Qed.
Lemma shift_pose h tr a c : var_at h a is_pose -> 3 <= c -> shift h tr a c = 0%R.
Proof. intros (v & Hv & _ & K) Hc. unfold shift. rewrite Hv. destruct (l_kind v); try contradiction. destruct (Nat.ltb_spec c 3); [lia|reflexivity]. Qed.
Lemma shift_pose2 h tr a c : var_at h a is_pose2 -> 2 <= c -> shift h tr a c = 0%R.
Proof. intros (v & Hv & _ & K) Hc. unfold shift. rewrite Hv. destruct (l_kind v); try contradiction. destruct (Nat.ltb_spec c 2); [lia|reflexivity]. Qed.
Lemma shift_rot h tr a c : var_at h a is_rotation -> shift h tr a c = 0%R.
Proof. intros (v & Hv & _ & K). unfold shift. rewrite Hv. destruct (l_kind v); try contradiction. reflexivity. Qed.
Lemma shift_inv h tr a c : var_at h a is_inverse -> shift h tr a c = 0%R.
Proof. intros (v & Hv & _ & K). unfold shift. rewrite Hv. destruct (l_kind v); try contradiction. reflexivity. Qed.
Lemma shift_plane h tr a n e : var_at h a is_plane -> plane_at h a = Ok (n, e) ->
  shift h tr a 0 = 0%R /\ shift h tr a 1 = 0%R /\ shift h tr a 2 = 0%R /\ shift h tr a 3 = (- (vx n * speed h tr a 0 + vy n * speed h tr a 1 + vz n * speed h tr a 2))%R.
Proof.
  intros (v & Hv & _ & K) E. unfold plane_at, hget in E. rewrite Hv in E. unfold shift. rewrite Hv. cbn [obind] in E. destruct (l_kind v); try contradiction.
  injection E as -> ->. repeat split.
Qed.
Lemma diag_rsum n (w : R) (e : nat -> R) i : i < n -> rsum n (fun c => mat_at (diagm (N:=RN) n w) i c * e c)%R = (w * e i)%R.
Proof. intros Hi. exact (diag_sum n w e i Hi). Qed.

Ltac blks := repeat match goal with H : nth_error _ ?a = Some ?v |- context [blk _ ?a ?M] => rewrite (blk_at _ a v M H) | H : nth_error _ ?a = Some ?v, E : context [blk _ ?a ?M] |- _ => rewrite (blk_at _ a v M H) in E end.
(** the response as sums over elements *)
Ltac terms := cbn [response]; repeat match goal with H : nth_error ?h ?a = Some ?v |- context [term ?h (drift ?h ?tr) ?a (if l_const ?v then mempty else ?M) ?i] =>
  rewrite (term_drift h tr a v M i H) end.
Ltac entries := unfold m3diag; cbn [fst snd mat36 mat33 col3 m3rows diag2 rows_mat mat_at nth v3list m3row0 m3row1 m3row2 app m00 m01 m02 m10 m11 m12 m20 m21 m22 vx vy vz].
Ltac i3 i := destruct i as [|[|[|i]]]; [| | |lia].
Section Blind.
Variables (h : rheap) (tr : addr -> nat -> R).
Definition blind (f : factor (N:=RN) (V:=lvar RN)) : Prop := (forall js (i : nat), f_jac f h [] = (js, Ok tt) -> (i < f_rsize f)%nat -> response h (drift h tr) (f_vars f) js i = 0%R).

Lemma b_generic_prior id a prior s : well_used h (LGenericPrior id a prior s) -> still h tr a -> blind (build (LGenericPrior id a prior s)).
Proof.
  intros (v & Hv & _ & K) St js i. cbn [build]. unfold generic_prior. cbv zeta. cbn [f_jac f_rsize f_vars]. unfold gprior_jac, all_blocks. rewrite (get_at _ _ _ Hv).
  cbn [obind vconst lib]. intros E Hi. unfold of_size in K. injection E as <-. cbn [response]. destruct (l_const v) eqn:C.
  - cbn [response]. unfold term. rewrite Hv, C. ring.
  - cbn [response]. match goal with |- context [term _ _ _ ?M _] => pose proof (term_drift h tr a v M i Hv) as T end. rewrite C in T. rewrite T, (still_rsum _ _ _ _ _ _ St). ring.
Qed.
Lemma b_generic_between id a b d n s : well_used h (LGenericBetween id a b d n s) -> together h tr n a b -> still h tr d -> blind (build (LGenericBetween id a b d n s)).
Proof.
  intros ((va & Ha & _ & Ka) & (vb & Hb & _ & Kb) & (vd & Hd & _ & Kd)) To St js i. unfold of_size in *. cbn [build]. unfold generic_between. cbv zeta. cbn [f_jac f_rsize f_vars].
  unfold gbetween_jac, all_blocks, block_for. rewrite (get_at _ _ _ Ha), (get_at _ _ _ Hb), (get_at _ _ _ Hd). cbn [obind vconst lib]. intros E Hi. injection E as <-. terms.
  rewrite Ka, Kb, Kd, (still_rsum _ _ _ _ _ _ St), !diag_rsum by exact Hi. rewrite (To i Hi). change (@nneg RN) with Ropp. change (car RN) with R. ring.
Qed.
Lemma b_position_prior id p prior s : well_used h (LPositionPrior id p prior s) -> still h tr p -> blind (build (LPositionPrior id p prior s)).
Proof.
  intros W St js i. cbn [well_used] in W. destruct (pose_read _ _ W) as (v & P & Hv & K & Ep). cbn [build]. unfold pose_position_prior. cbv zeta. cbn [f_jac f_rsize f_vars]. unfold pospri_jac.
  rewrite (blk_at _ _ _ _ Hv). cbn. intros E Hi. injection E as <-. terms. rewrite (still_rsum _ _ _ _ _ _ St). ring.
Qed.
Lemma b_linear_velocity id a b c n dt s i0 : well_used h (LLinearVelocity id a b c n dt s i0) ->
  (forall i, (i < n)%nat -> shift h tr a (i0 + i) = shift h tr b (i0 + i)) -> still h tr c -> blind (build (LLinearVelocity id a b c n dt s i0)).
Proof.
  intros ((va & Ha & _ & Ka) & (vb & Hb & _ & Kb) & (vd & Hd & _ & Kd)) To St js i. unfold of_size in *. cbn beta in *. cbn [build]. unfold linear_velocity. cbv zeta. cbn [f_jac f_rsize f_vars].
  unfold linvel_jac. rewrite (get_at _ _ _ Ha), (get_at _ _ _ Hb), (get_at _ _ _ Hd). cbn [obind withj]. unfold diag_block. rewrite Kd, Nat.leb_refl.
  rewrite (proj2 (Nat.leb_le _ _) Ka), (proj2 (Nat.leb_le _ _) Kb). cbn [andb]. rewrite (blk_at _ _ _ _ Hd), !ifok. intros E Hi. cbn in E. injection E as <-. terms.
  rewrite (still_rsum _ _ _ _ _ _ St).
  assert (Q : forall m w x, i0 + n <= m -> rsum m (fun k => mat_at (Mat (N:=RN) n m (fun r j => if (j =? i0 + r) && (r <? n) then w else nzero)) i k * shift h tr x k)%R = (w * shift h tr x (i0 + i))%R).
  { intros m w x Hm. rewrite (rsum_single m (i0 + i)); [|lia|intros k _ Hk; cbn; destruct (Nat.eqb_spec k (i0 + i)); [lia|]; cbn; rewrite q0; ring].
    cbn [mat_at]. rewrite Nat.eqb_refl, (proj2 (Nat.ltb_lt i n) Hi). reflexivity. }
  rewrite (Q _ _ a Ka), (Q _ _ b Kb), (To i Hi). change (@nneg RN) with Ropp. change (car RN) with R. ring.
Qed.
Lemma b_orientation_prior id p prior s : well_used h (LOrientationPrior id p prior s) -> blind (build (LOrientationPrior id p prior s)).
Proof.
  intros W js i. cbn [well_used] in W. destruct (pose_read _ _ W) as (v & P & Hv & K & Ep). pose proof (fun c => shift_pose h tr p c W) as Sp. cbn [build]. unfold pose_orientation_prior. cbv zeta.
  cbn [f_jac f_rsize f_vars]. unfold oripri_jac. rewrite (get_at _ _ _ Hv). cbn [withj]. rewrite Ep. cbn [obind]. destruct (l_const v) eqn:C.
  - intros E Hi. injection E as <-. cbn [response]. unfold term. rewrite Hv, C. ring.
  - destruct (inv_right_jacobian _) as [M| |]; [|discriminate|discriminate]. intros E Hi. cbn in E. injection E as <-. cbn [response].
    match goal with |- context [term _ _ _ ?M _] => pose proof (term_drift h tr p v M i Hv) as T end. rewrite C in T. rewrite T, K, rsum6, (Sp 3), (Sp 4), (Sp 5) by lia. i3 i; entries; gx; unfold Rdiv; ring.
Qed.
Lemma b_rotation_prior id p prior s : well_used h (LRotationPrior id p prior s) -> blind (build (LRotationPrior id p prior s)).
Proof.
  intros W js i. cbn [well_used] in W. destruct (rot_read _ _ W) as (v & P & Hv & K & Ep). assert (St : still h tr p) by (intros c; apply shift_rot; exact W). cbn [build]. unfold rotation_prior. cbv zeta.
  cbn [f_jac f_rsize f_vars]. unfold rotpri_jac. rewrite (get_at _ _ _ Hv). cbn [withj]. rewrite Ep. cbn [obind]. destruct (l_const v) eqn:C.
  - intros E Hi. injection E as <-. cbn [response]. unfold term. rewrite Hv, C. ring.
  - destruct (inv_right_jacobian _) as [M| |]; [|discriminate|discriminate]. intros E Hi. cbn in E. injection E as <-. cbn [response].
    match goal with |- context [term _ _ _ ?M _] => pose proof (term_drift h tr p v M i Hv) as T end. rewrite C in T. rewrite T, (still_rsum _ _ _ _ _ _ St). ring.
Qed.
Lemma b_position_between id a b m s loc : well_used h (LPositionBetween id a b m s loc) -> together h tr 3 a b -> still h tr m -> blind (build (LPositionBetween id a b m s loc)).
Proof.
  intros (Wa & Wb & Wm) To St js i. destruct (pose_read _ _ Wa) as (va & A & Ha & Ka & Ea). destruct (pose_read _ _ Wb) as (vb & B & Hb & Kb & Eb). destruct (value3_read _ _ Wm) as (vm & x & Hm & Km & Em).
  pose proof (fun c => shift_pose h tr a c Wa) as Sa. pose proof (fun c => shift_pose h tr b c Wb) as Sb. pose proof (To 0 ltac:(lia)) as T0. pose proof (To 1 ltac:(lia)) as T1. pose proof (To 2 ltac:(lia)) as T2.
  cbn [build]. unfold pose_position_between. cbv zeta. cbn [f_jac f_rsize f_vars]. unfold posbet_jac. rewrite Ea, Eb. cbn [obind]. destruct loc; cbn [withj]; blks; intros E Hi; cbn in E; injection E as <-; terms;
  rewrite Ka, Kb, (still_rsum _ _ _ _ _ _ St), !rsum6, !(Sa 3), !(Sa 4), !(Sa 5), !(Sb 3), !(Sb 4), !(Sb 5), T0, T1, T2 by lia.
  - destruct A as [pa RA]. dm RA. cbn [snd]. i3 i; entries; gx; unfold Rdiv; ring.
  - i3 i; entries; gx; unfold Rdiv; ring.
Qed.
Lemma b_orientation_between id a b c s : well_used h (LOrientationBetween id a b c s) -> blind (build (LOrientationBetween id a b c s)).
Proof.
  intros (Wa & Wb & Wm) js i. destruct (pose_read _ _ Wa) as (va & A & Ha & Ka & Ea). destruct (pose_read _ _ Wb) as (vb & B & Hb & Kb & Eb). destruct (rot_read _ _ Wm) as (vm & x & Hm & Km & Em).
  pose proof (fun c => shift_pose h tr a c Wa) as Sa. pose proof (fun c => shift_pose h tr b c Wb) as Sb. assert (St : still h tr c) by (intros k; apply shift_rot; exact Wm).
  cbn [build]. unfold pose_orientation_between. cbv zeta. cbn [f_jac f_rsize f_vars]. unfold oribet_jac. rewrite Ea, Eb, Em. cbn [obind].
  destruct (inv_right_jacobian _) as [M| |]; cbn [obind withj]; [|discriminate|discriminate]. blks. intros E Hi. cbn in E. injection E as <-. terms.
  rewrite Ka, Kb, (still_rsum _ _ _ _ _ _ St), !rsum6, !(Sa 3), !(Sa 4), !(Sa 5), !(Sb 3), !(Sb 4), !(Sb 5) by lia. i3 i; entries; gx; unfold Rdiv; ring.
Qed.
Lemma b_bearing id p l obs s : well_used h (LBearing id p l obs s) -> together h tr 3 p l -> blind (build (LBearing id p l obs s)).
Proof.
  intros (Wa & Wb) To js i. destruct (pose_read _ _ Wa) as (va & A & Ha & Ka & Ea). destruct (landmark_read _ _ Wb) as (vb & B & Hb & Kb & Eb).
  pose proof (fun c => shift_pose h tr p c Wa) as Sa. pose proof (To 0 ltac:(lia)) as T0. pose proof (To 1 ltac:(lia)) as T1. pose proof (To 2 ltac:(lia)) as T2.
  cbn [build]. unfold bearing_observation. cbv zeta. cbn [f_jac f_rsize f_vars]. unfold bearing_jac. rewrite Ea, Eb. cbn [obind]. destruct (nltb _ _); cbn [withj]; [discriminate|]. blks.
  match goal with |- context [m3scale (_ / ?n)%num ?M] => generalize (m3scale (nunit / s / n)%num M) end. intros D E Hi. cbn in E. injection E as <-. terms.
  rewrite Ka, Kb, rsum6, rsum3, !(Sa 3), !(Sa 4), !(Sa 5), T0, T1, T2 by lia. destruct A as [pa RA]. dm RA. dm D. i3 i; entries; cbn [snd]; gx; unfold Rdiv; ring.
Qed.
Lemma b_inverse_range id p l obs s : well_used h (LInverseRange id p l obs s) -> still h tr p -> blind (build (LInverseRange id p l obs s)).
Proof.
  intros (Wa & Wb) St js i. destruct (pose_read _ _ Wa) as (va & A & Ha & Ka & Ea). destruct (inv_read _ _ Wb) as (vb & [[B rho] dir] & Hb & Kb & Eb).
  assert (Sl : still h tr l) by (intros k; apply shift_inv; exact Wb).
  cbn [build]. unfold inverse_range_bearing. cbv zeta. cbn [f_jac f_rsize f_vars]. unfold invbear_jac. rewrite Ea, Eb. cbn [obind]. destruct (nltb _ _); cbn [withj]; [discriminate|]. blks.
  destruct (nltb _ _); [discriminate|]. intros E Hi. cbn in E. injection E as <-. terms. rewrite !still_rsum by assumption. ring.
Qed.
Lemma b_projection id p l obs s tol : well_used h (LProjection id p l obs s tol) -> together h tr 3 p l -> blind (build (LProjection id p l obs s tol)).
Proof.
  intros (Wa & Wb) To js i. destruct (pose_read _ _ Wa) as (va & A & Ha & Ka & Ea). destruct (landmark_read _ _ Wb) as (vb & B & Hb & Kb & Eb).
  pose proof (fun c => shift_pose h tr p c Wa) as Sa. pose proof (To 0 ltac:(lia)) as T0. pose proof (To 1 ltac:(lia)) as T1. pose proof (To 2 ltac:(lia)) as T2.
  cbn [build]. unfold bearing_projection. cbv zeta. cbn [f_jac f_rsize f_vars]. unfold proj_jac. rewrite Ea, Eb. cbn [obind withj]. destruct (nleb _ _); blks.
  - intros E Hi. cbn in E. injection E as <-. terms. rewrite !rsum_zero; [ring|intros k _; cbn; rewrite q0; ring..].
  - generalize (tangent_basis (v3normalized obs)). intros [t1 t2].
    match goal with |- context [m3map ?f ?M] => generalize (m3map f M) end. intros D E Hi. cbn in E. injection E as <-. terms.
    rewrite Ka, Kb, rsum6, rsum3, !(Sa 3), !(Sa 4), !(Sa 5), T0, T1, T2 by lia. destruct A as [pa RA]. dm RA. dm D. dv t1. dv t2.
    destruct i as [|[|i]]; [| |lia]; entries; cbn [fst snd]; unfold row_m; gx; unfold Rdiv; ring.
Qed.
Lemma b_bearing2 id p l obs s : well_used h (LBearing2 id p l obs s) -> together h tr 2 p l -> blind (build (LBearing2 id p l obs s)).
Proof.
  intros (Wa & Wb) To js i. destruct (pose2_read _ _ Wa) as (va & A & Ha & Ka & Ea). destruct (value2_read _ _ 0 Wb) as (vb & B & Hb & Kb & Eb).
  pose proof (fun c => shift_pose2 h tr p c Wa) as Sa. pose proof (To 0 ltac:(lia)) as T0. pose proof (To 1 ltac:(lia)) as T1.
  cbn [build]. unfold bearing_observation_2d. cbv zeta. cbn [f_jac f_rsize f_vars]. unfold bear2_jac, local2. rewrite Ea, Eb. cbn [obind fst snd].
  match goal with |- context [v2x ?d] => generalize (v2x d) (v2y d) end. intros dx dy. destruct (nltb _ _); cbn [withj]; [discriminate|]. blks.
  intros E Hi. cbn in E. injection E as <-. terms. cbn [Nat.add] in Kb. rewrite Ka, Kb, rsum3, rsum2, !(Sa 2), T0, T1 by lia. destruct i as [|i]; [|lia]. entries. gx. unfold Rdiv. ring.
Qed.
Lemma b_range2 id p l robs obs rs bs : well_used h (LRangeBearing2 id p l robs obs rs bs) -> together h tr 2 p l -> blind (build (LRangeBearing2 id p l robs obs rs bs)).
Proof.
  intros (Wa & Wb) To js i. destruct (pose2_read _ _ Wa) as (va & A & Ha & Ka & Ea). destruct (value2_read _ _ 0 Wb) as (vb & B & Hb & Kb & Eb).
  pose proof (fun c => shift_pose2 h tr p c Wa) as Sa. pose proof (To 0 ltac:(lia)) as T0. pose proof (To 1 ltac:(lia)) as T1.
  cbn [build]. unfold range_bearing_2d. cbv zeta. cbn [f_jac f_rsize f_vars]. unfold range2_jac, local2. rewrite Ea, Eb. cbn [obind fst snd].
  match goal with |- context [v2x ?d] => generalize (v2x d) (v2y d) end. intros dx dy. destruct (nltb _ _); cbn [withj]; [discriminate|]. blks.
  intros E Hi. cbn in E. injection E as <-. terms. cbn [Nat.add] in Kb. rewrite Ka, Kb, rsum3, rsum2, !(Sa 2), T0, T1 by lia. destruct i as [|[|i]]; [| |lia]; entries; gx; unfold Rdiv; ring.
Qed.
Lemma b_pose2_prior id p prior s t : well_used h (LPose2Prior id p prior s t) -> still h tr p -> blind (build (LPose2Prior id p prior s t)).
Proof.
  intros W St js i. cbn [well_used] in W. destruct (pose2_read _ _ W) as (v & P & Hv & K & Ep). cbn [build]. unfold pose2_prior. cbv zeta. cbn [f_jac f_rsize f_vars]. unfold pri2_jac.
  rewrite (blk_at _ _ _ _ Hv). cbn. intros E Hi. injection E as <-. terms. rewrite (still_rsum _ _ _ _ _ _ St). ring.
Qed.
Lemma b_pose2_between id a b m s t loc : well_used h (LPose2Between id a b m s t loc) -> together h tr 2 a b -> still h tr m -> blind (build (LPose2Between id a b m s t loc)).
Proof.
  intros (Wa & Wb & Wm) To St js i. destruct (pose2_read _ _ Wa) as (va & A & Ha & Ka & Ea). destruct (pose2_read _ _ Wb) as (vb & B & Hb & Kb & Eb). destruct (value2_read _ _ 1 Wm) as (vm & x & Hm & Km & Em).
  pose proof (fun c => shift_pose2 h tr a c Wa) as Sa. pose proof (fun c => shift_pose2 h tr b c Wb) as Sb. pose proof (To 0 ltac:(lia)) as T0. pose proof (To 1 ltac:(lia)) as T1.
  cbn [build]. unfold pose2_between. cbv zeta. cbn [f_jac f_rsize f_vars]. unfold bet2_jac. rewrite Ea, Eb. cbn [obind]. destruct loc; cbn [withj]; blks; intros E Hi; cbn in E; injection E as <-; terms;
  rewrite Ka, Kb, (still_rsum _ _ _ _ _ _ St), !rsum3, !(Sa 2), !(Sb 2), T0, T1 by lia; i3 i; entries; gx; unfold Rdiv; ring.
Qed.
Lemma b_plane id q m s : well_used h (LPlane id q m s None) -> (forall c, (c < 3)%nat -> shift h tr q c = speed h tr m c) -> blind (build (LPlane id q m s None)).
Proof.
  intros (Wq & Wm) To js i. destruct (value3_read _ _ Wq) as (vq & x & Hq & Kq & Eq). destruct (plane_read _ _ Wm) as (vm & [n e] & Hm & Km & Em).
  destruct (shift_plane h tr m n e Wm Em) as (S0 & S1 & S2 & S3). pose proof (To 0 ltac:(lia)) as T0. pose proof (To 1 ltac:(lia)) as T1. pose proof (To 2 ltac:(lia)) as T2.
  cbn [build]. unfold plane_factor. cbv zeta. cbn [f_jac f_rsize f_vars]. unfold plane_jac. rewrite Eq, Em. cbn [obind withj]. blks. intros E Hi. cbn in E. injection E as <-. terms.
  rewrite Kq, Km, rsum3, rsum4, S0, S1, S2, S3, T0, T1, T2. destruct i as [|i]; [|lia]. entries. gx. unfold Rdiv. ring.
Qed.
Lemma b_plane_scaled id q m s r : well_used h (LPlane id q m s (Some r)) -> still h tr q -> still h tr m -> blind (build (LPlane id q m s (Some r))).
Proof.
  intros (Wq & Wm) Sq Sm js i. destruct (value3_read _ _ Wq) as (vq & x & Hq & Kq & Eq). destruct (plane_read _ _ Wm) as (vm & [n e] & Hm & Km & Em). destruct r as [r0 p0].
  cbn [build]. unfold plane_factor. cbv zeta. cbn [f_jac f_rsize f_vars]. unfold plane_jac. rewrite Eq, Em. cbn [obind withj]. blks. intros E Hi. cbn in E. injection E as <-. terms.
  rewrite !still_rsum by assumption. ring.
Qed.
Lemma b_plane_prior id m np dp s t : well_used h (LPlanePrior id m np dp s t) -> still h tr m -> blind (build (LPlanePrior id m np dp s t)).
Proof.
  intros W St js i. cbn [well_used] in W. destruct (plane_read _ _ W) as (v & P & Hv & K & Ep). cbn [build]. unfold plane_prior. cbv zeta. cbn [f_jac f_rsize f_vars]. unfold planepri_jac.
  rewrite (get_at _ _ _ Hv). cbn [withj]. rewrite Ep. cbn [obind]. destruct (l_const v) eqn:C.
  - intros E Hi. injection E as <-. cbn [response]. unfold term. rewrite Hv, C. ring.
  - intros E Hi. cbn in E. injection E as <-. cbn [response].
    match goal with |- context [term _ _ _ ?M _] => pose proof (term_drift h tr m v M i Hv) as T end. rewrite C in T. rewrite T, (still_rsum _ _ _ _ _ _ St). ring.
Qed.
Lemma b_transform id r o s la lb sg : well_used h (LTransform id r o s la lb sg) -> (forall c, (c < 3)%nat -> shift h tr la c = (- shift h tr o c)%R) -> still h tr s -> still h tr lb ->
  blind (build (LTransform id r o s la lb sg)).
Proof.
  intros (Wr & Wo & Ws & Wa & Wb) To Ss Sb js i. destruct (rot_read _ _ Wr) as (vr & Rm & Hr & Kr & Er). destruct (generic_read _ _ _ Wo) as (vo & xo & Ho & Ko & Eo & Lo).
  destruct (generic_read _ _ _ Ws) as (vs & xs & Hs & Ks & Es & Ls). destruct (landmark_read _ _ Wa) as (va & pa & Ha & Ka & Ea). destruct (landmark_read _ _ Wb) as (vb & pb & Hb & Kb & Eb).
  assert (Sr : still h tr r) by (intros k; apply shift_rot; exact Wr). pose proof (To 0 ltac:(lia)) as T0. pose proof (To 1 ltac:(lia)) as T1. pose proof (To 2 ltac:(lia)) as T2.
  cbn [build]. unfold coordinate_transform. cbv zeta. cbn [f_jac f_rsize f_vars]. unfold ctrans_jac. rewrite Er, Es. cbn [obind]. destruct xs as [|k [|]]; try discriminate. cbn [obind]. rewrite Eb. cbn [obind withj]. blks.
  intros E Hi. cbn in E. injection E as <-. terms. rewrite (still_rsum h tr r _ _ _ Sr), (still_rsum h tr s _ _ _ Ss), (still_rsum h tr lb _ _ _ Sb), Ko, Ka, !rsum3, T0, T1, T2. i3 i; entries; gx; unfold Rdiv; ring.
Qed.

Theorem lib_blind (f : lib_factor RN) : well_used h f -> indifferent h tr f -> blind (build f).
Proof.
  destruct f; cbn [indifferent]; intros W H.
  - exact (b_generic_prior _ _ _ _ W H).
  - exact (b_generic_between _ _ _ _ _ _ W (proj1 H) (proj2 H)).
  - exact (b_linear_velocity _ _ _ _ _ _ _ _ W (proj1 H) (proj2 H)).
  - exact (b_position_prior _ _ _ _ W H).
  - exact (b_orientation_prior _ _ _ _ W).
  - exact (b_rotation_prior _ _ _ _ W).
  - exact (b_position_between _ _ _ _ _ _ W (proj1 H) (proj2 H)).
  - exact (b_orientation_between _ _ _ _ _ W).
  - exact (b_bearing _ _ _ _ _ W H).
  - exact (b_inverse_range _ _ _ _ _ W H).
  - exact (b_projection _ _ _ _ _ _ W H).
  - exact (b_bearing2 _ _ _ _ _ W H).
  - exact (b_range2 _ _ _ _ _ _ _ W H).
  - exact (b_pose2_prior _ _ _ _ _ W H).
  - exact (b_pose2_between _ _ _ _ _ _ _ W (proj1 H) (proj2 H)).
  - destruct sc as [r|]; [exact (b_plane_scaled _ _ _ _ _ W (proj1 H) (proj2 H))|exact (b_plane _ _ _ _ W H)].
  - exact (b_plane_prior _ _ _ _ _ _ W H).
  - exact (b_transform _ _ _ _ _ _ _ W (proj1 H) (proj1 (proj2 H)) (proj2 (proj2 H))).
Qed.
End Blind.
