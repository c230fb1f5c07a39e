(** The library's relative measurements do not respond to similarities: the remaining factor classes. *)
From Coq Require Import List Arith ZArith QArith Bool Reals Lra Lia.
From Verif Require Import Base Sparse Graph SpecGraph Geom Vars FactorsLin FactorsLinFacts FactorsGeo FactorLib SpecGeom SpecFactor SpecShape FactorShape Real RSum GeomR FactorRead FactorJac FactorOri SpecSimilar SimilarFactors.
Import ListNotations.
Local Open Scope nat_scope.
Set Bullet Behavior "Strict Subproofs".

Section Rest.
Variables (h : rheap) (u : addr -> nat -> R).
Notation blind := (blind h u).

Lemma s_generic_prior id a prior s : well_used h (LGenericPrior id a prior s) -> halts h u a -> blind (build (LGenericPrior id a prior s)).
Proof.
  intros (v & Hv & _ & K) St js i. cbn [build]. unfold generic_prior. cbv zeta. cbn [f_jac f_rsize f_vars]. unfold gprior_jac, all_blocks. rewrite (get_at _ _ _ Hv).
  cbn [obind vconst lib]. intros E Hi. unfold of_size in K. injection E as <-. cbn [response]. destruct (l_const v) eqn:C.
  - cbn [response]. unfold term. rewrite Hv, C. ring.
  - cbn [response]. match goal with |- context [term _ _ _ ?M _] => pose proof (term_rate h u a v M i Hv) as T end. rewrite C in T. rewrite T, (halts_rsum _ _ _ _ _ _ St). ring.
Qed.
Lemma s_generic_between id a b d n s : well_used h (LGenericBetween id a b d n s) -> unseen h u (LGenericBetween id a b d n s) -> blind (build (LGenericBetween id a b d n s)).
Proof.
  intros ((va & Ha & _ & Ka) & (vb & Hb & _ & Kb) & (vd & Hd & _ & Kd)) To js i. cbn [unseen] in To. unfold of_size in *. cbn [build]. unfold generic_between. cbv zeta. cbn [f_jac f_rsize f_vars].
  unfold gbetween_jac, all_blocks, block_for. rewrite (get_at _ _ _ Ha), (get_at _ _ _ Hb), (get_at _ _ _ Hd). cbn [obind vconst lib]. intros E Hi. injection E as <-. terms.
  rewrite Ka, Kb, Kd, !diag_rsum by exact Hi. rewrite <- (To i Hi). change (@nneg RN) with Ropp. change (car RN) with R. ring.
Qed.
Lemma s_linear_velocity id a b c n dt s i0 : well_used h (LLinearVelocity id a b c n dt s i0) -> unseen h u (LLinearVelocity id a b c n dt s i0) -> blind (build (LLinearVelocity id a b c n dt s i0)).
Proof.
  intros ((va & Ha & _ & Ka) & (vb & Hb & _ & Kb) & (vd & Hd & _ & Kd)) To js i. cbn [unseen] in To. unfold of_size in *. cbn beta in *. cbn [build]. unfold linear_velocity. cbv zeta. cbn [f_jac f_rsize f_vars].
  unfold linvel_jac. rewrite (get_at _ _ _ Ha), (get_at _ _ _ Hb), (get_at _ _ _ Hd). cbn [obind withj]. unfold diag_block. rewrite Kd, Nat.leb_refl.
  rewrite (proj2 (Nat.leb_le _ _) Ka), (proj2 (Nat.leb_le _ _) Kb). cbn [andb]. rewrite (blk_at _ _ _ _ Hd), !ifok. intros E Hi. cbn in E. injection E as <-. terms.
  assert (Q : forall m w x, i0 + n <= m -> rsum m (fun k => mat_at (Mat (N:=RN) n m (fun r j => if (j =? i0 + r) && (r <? n) then w else nzero)) i k * rate h u x k)%R = (w * rate h u x (i0 + i))%R).
  { intros m w x Hm. rewrite (rsum_single m (i0 + i)); [|lia|intros k _ Hk; cbn; destruct (Nat.eqb_spec k (i0 + i)); [lia|]; cbn; rewrite q0; ring].
    cbn [mat_at]. rewrite Nat.eqb_refl, (proj2 (Nat.ltb_lt i n) Hi). reflexivity. }
  pose proof (To i Hi) as T. rewrite (Q _ _ a Ka), (Q _ _ b Kb), Kd.
  rewrite diag_rsum by exact Hi. change (@nneg RN) with Ropp. change (@nmul RN) with Rmult. change (car RN) with R.
  transitivity ((nunit / s)%num * ((rate h u b (i0 + i) - rate h u a (i0 + i)) - dt * rate h u c i))%R; [generalize (rate h u b (i0 + i)) (rate h u a (i0 + i)) (rate h u c i); intros; gx; unfold Rdiv; ring|rewrite T; change (car RN) with R; ring].
Qed.
Lemma s_position_prior id p prior s : well_used h (LPositionPrior id p prior s) -> unseen h u (LPositionPrior id p prior s) -> blind (build (LPositionPrior id p prior s)).
Proof.
  intros W St js i. cbn [well_used] in W. cbn [unseen] in St. destruct (pose_read _ _ W) as (v & P & Hv & K & Ep). cbn [build]. unfold pose_position_prior. cbv zeta. cbn [f_jac f_rsize f_vars]. unfold pospri_jac.
  rewrite (blk_at _ _ _ _ Hv). cbn. intros E Hi. injection E as <-. terms. rewrite K, rsum6, (St 0), (St 1), (St 2) by lia. i3 i; entries; gx; unfold Rdiv; ring.
Qed.
Lemma s_orientation_prior id p prior s : well_used h (LOrientationPrior id p prior s) -> unseen h u (LOrientationPrior id p prior s) -> blind (build (LOrientationPrior id p prior s)).
Proof.
  intros W Sp js i. cbn [well_used] in W. cbn [unseen] in Sp. destruct (pose_read _ _ W) as (v & P & Hv & K & Ep). pose proof (Sp 0 ltac:(lia)) as S3. pose proof (Sp 1 ltac:(lia)) as S4. pose proof (Sp 2 ltac:(lia)) as S5. cbn [Nat.add] in S3, S4, S5.
  cbn [build]. unfold pose_orientation_prior. cbv zeta.
  cbn [f_jac f_rsize f_vars]. unfold oripri_jac. rewrite (get_at _ _ _ Hv). cbn [withj]. rewrite Ep. cbn [obind]. destruct (l_const v) eqn:C.
  - intros E Hi. injection E as <-. cbn [response]. unfold term. rewrite Hv, C. ring.
  - destruct (inv_right_jacobian _) as [M| |]; [|discriminate|discriminate]. intros E Hi. cbn in E. injection E as <-. cbn [response].
    match goal with |- context [term _ _ _ ?M _] => pose proof (term_rate h u p v M i Hv) as T end. rewrite C in T. rewrite T, K, rsum6, S3, S4, S5. i3 i; entries; gx; unfold Rdiv; ring.
Qed.
Lemma s_rotation_prior id p prior s : well_used h (LRotationPrior id p prior s) -> halts h u p -> blind (build (LRotationPrior id p prior s)).
Proof.
  intros W St js i. cbn [well_used] in W. destruct (rot_read _ _ W) as (v & P & Hv & K & Ep). cbn [build]. unfold rotation_prior. cbv zeta.
  cbn [f_jac f_rsize f_vars]. unfold rotpri_jac. rewrite (get_at _ _ _ Hv). cbn [withj]. rewrite Ep. cbn [obind]. destruct (l_const v) eqn:C.
  - intros E Hi. injection E as <-. cbn [response]. unfold term. rewrite Hv, C. ring.
  - destruct (inv_right_jacobian _) as [M| |]; [|discriminate|discriminate]. intros E Hi. cbn in E. injection E as <-. cbn [response].
    match goal with |- context [term _ _ _ ?M _] => pose proof (term_rate h u p v M i Hv) as T end. rewrite C in T. rewrite T, (halts_rsum _ _ _ _ _ _ St). ring.
Qed.
Lemma s_position_between id a b m s loc : well_used h (LPositionBetween id a b m s loc) -> unseen h u (LPositionBetween id a b m s loc) -> blind (build (LPositionBetween id a b m s loc)).
Proof.
  intros (Wa & Wb & Wm) U js i. destruct (value3_read _ _ Wm) as (vm & x & Hm & Km & Em). destruct loc; cbn [unseen] in U.
  - destruct U as (S & G0 & (pa & A & Sa & HA & Ra & Ta) & (pb & B & Sb & HB & Rb & Tb) & Hs).
    destruct (pose_sees_size _ _ _ _ Sa) as (va & Ha & Ka & Ea). destruct (pose_sees_size _ _ _ _ Sb) as (vb & Hb & Kb & Eb).
    cbn [build]. unfold pose_position_between. cbv zeta. cbn [f_jac f_rsize f_vars]. unfold posbet_jac. rewrite Ea, Eb. cbn [obind]. cbn [withj]. blks. intros E Hi. cbn in E. injection E as <-. terms.
    rewrite Ka, Kb, (halts_rsum _ _ _ _ _ _ Hs), !rsum6.
    pose proof (seen_motion A S pb pa HA) as Fl. rewrite G0 in Fl. rewrite <- (rate3_swept h u b S pb Rb), <- (rate3_swept h u a S pa Ra), <- (turns_rate3 _ _ _ _ _ Ta) in Fl.
    clear -Fl Hi. unfold rate3 in Fl. cbn [Nat.add] in Fl. revert Fl. generalize (rate h u a 0) (rate h u a 1) (rate h u a 2) (rate h u a 3) (rate h u a 4) (rate h u a 5) (rate h u b 0) (rate h u b 1) (rate h u b 2) (rate h u b 3) (rate h u b 4) (rate h u b 5).
    intros p0 p1 p2 p3 p4 p5 l0 l1 l2 l3 l4 l5 Fl. dm A. destruct pa as [ax ay az]. destruct pb as [bx b_y bz]. gx in Fl. injection Fl as F0 F1 F2.
    match type of F0 with ?a = _ => match type of F1 with ?b = _ => match type of F2 with ?c = _ => i3 i; [transitivity (1 / s * a)%R|transitivity (1 / s * b)%R|transitivity (1 / s * c)%R] end end end;
    try (rewrite ?F0, ?F1, ?F2; change (car RN) with R; ring); entries; gx; unfold Rdiv; ring.
  - destruct (pose_read _ _ Wa) as (va & A & Ha & Ka & Ea). destruct (pose_read _ _ Wb) as (vb & B & Hb & Kb & Eb). pose proof (U 0 ltac:(lia)) as T0. pose proof (U 1 ltac:(lia)) as T1. pose proof (U 2 ltac:(lia)) as T2.
    cbn [build]. unfold pose_position_between. cbv zeta. cbn [f_jac f_rsize f_vars]. unfold posbet_jac. cbn [withj]. blks. intros E Hi. cbn in E. injection E as <-. terms.
    rewrite Ka, Kb, Km, !rsum6, diag_rsum by exact Hi. i3 i; rewrite <- ?T0, <- ?T1, <- ?T2; entries; gx; unfold Rdiv; ring.
Qed.
Lemma s_orientation_between id a b c s : well_used h (LOrientationBetween id a b c s) -> unseen h u (LOrientationBetween id a b c s) -> blind (build (LOrientationBetween id a b c s)).
Proof.
  intros (_ & _ & Wm) (w & pa & A & pb & B & Sa & Sb & HB & Ta & Tb & Hs) js i. destruct (rot_read _ _ Wm) as (vm & C & Hm & Km & Em).
  destruct (pose_sees_size _ _ _ _ Sa) as (va & Ha & Ka & Ea). destruct (pose_sees_size _ _ _ _ Sb) as (vb & Hb & Kb & Eb).
  cbn [build]. unfold pose_orientation_between. cbv zeta. cbn [f_jac f_rsize f_vars]. unfold oribet_jac. rewrite Ea, Eb, Em. cbn [obind].
  assert (Fl : m3v (m3t (oribet_err A B C)) (rate3 h u b 3) = m3v (m3t C) (rate3 h u a 3)).
  { rewrite (turns_rate3 _ _ _ _ _ Ta), (turns_rate3 _ _ _ _ _ Tb). unfold oribet_err.
    assert (I : m3mul (m3t B) B = m3id) by exact (rot_t_mul B HB).
    transitivity (v3neg (m3v (m3mul (m3mul (m3t C) A) (m3mul (m3t B) B)) w)); [clear; dm A; dm B; dm C; dv w; gx; f_equal; ring|]. rewrite I. clear. dm A; dm C; dv w. gx. f_equal; ring. }
  cbn [snd]. revert Fl. generalize (oribet_err A B C). intros D Fl.
  destruct (inv_right_jacobian _) as [M| |]; cbn [obind withj]; [|discriminate|discriminate]. blks. intros E Hi. cbn in E. injection E as <-. terms.
  rewrite Ka, Kb, (halts_rsum _ _ _ _ _ _ Hs), !rsum6. clear -Fl Hi. unfold rate3 in Fl. cbn [Nat.add] in Fl. revert Fl.
  generalize (rate h u a 0) (rate h u a 1) (rate h u a 2) (rate h u a 3) (rate h u a 4) (rate h u a 5) (rate h u b 0) (rate h u b 1) (rate h u b 2) (rate h u b 3) (rate h u b 4) (rate h u b 5).
  intros p0 p1 p2 p3 p4 p5 l0 l1 l2 l3 l4 l5 Fl. dm C. dm D. destruct M as [m00 m01 m02 m10 m11 m12 m20 m21 m22]. gx in Fl. injection Fl as F0 F1 F2.
  match type of F0 with ?a = ?a' => match type of F1 with ?b = ?b' => match type of F2 with ?c = ?c' =>
    i3 i; [transitivity (1 / s * (m00 * (a - a') + m10 * (b - b') + m20 * (c - c')))%R|transitivity (1 / s * (m01 * (a - a') + m11 * (b - b') + m21 * (c - c')))%R|transitivity (1 / s * (m02 * (a - a') + m12 * (b - b') + m22 * (c - c')))%R] end end end;
  try (rewrite ?F0, ?F1, ?F2; change (car RN) with R; ring); entries; gx; unfold Rdiv; ring.
Qed.
Lemma value2_sees a x y n : var_at h a (of_size (2 + n)) -> sees_vector h a (x :: y :: []) -> exists v, nth_error h a = Some v /\ ksize (l_kind v) = 2 /\ value2_at h a = Ok (V2 (N:=RN) x y).
Proof.
  intros _ S. pose proof (value_at_sees _ _ _ S) as E. destruct S as (id & c & [H|(L & H)]); [|discriminate L]. eexists. split; [exact H|]. split; [reflexivity|]. unfold value2_at. rewrite E. reflexivity.
Qed.
(** the frame of a planar pose is orthonormal *)
Lemma turn_back (t X Y : R) : let dx := (cos t * X + sin t * Y)%R in let dy := (- sin t * X + cos t * Y)%R in
  ((dy * cos t + dx * sin t)%R = Y /\ (dy * sin t - dx * cos t)%R = (- X)%R /\ (dx * cos t - dy * sin t)%R = X /\ (dx * sin t + dy * cos t)%R = Y /\ (dx * dx + dy * dy)%R = (X * X + Y * Y)%R)%type.
Proof.
  cbv zeta. assert (CS : (cos t * cos t + sin t * sin t = 1)%R) by (pose proof (sin2_cos2 t); unfold Rsqr in *; lra). revert CS. generalize (cos t) (sin t). intros c s CS.
  repeat split; [transitivity (Y * (c * c + s * s))%R|transitivity (- X * (c * c + s * s))%R|transitivity (X * (c * c + s * s))%R|transitivity (Y * (c * c + s * s))%R|transitivity ((X * X + Y * Y) * (c * c + s * s))%R]; try ring; rewrite CS; ring.
Qed.
Lemma local2_sees p l x y t a b va vb : pose2_at h p = Ok (V2 (N:=RN) x y, t : RN) -> value2_at h l = Ok (V2 (N:=RN) a b) -> nth_error h p = Some va -> nth_error h l = Some vb ->
  local2 h p l = Ok (V2 (N:=RN) (cos t * (a - x) + sin t * (b - y))%R (- sin t * (a - x) + cos t * (b - y))%R, t : RN).
Proof. intros E F _ _. unfold local2. rewrite E, F. cbn [obind]. unfold m2v, m2t, dcm2, v2sub. gx. cbn. do 2 f_equal. Qed.
Lemma s_bearing2 id p l obs s : well_used h (LBearing2 id p l obs s) -> unseen h u (LBearing2 id p l obs s) -> blind (build (LBearing2 id p l obs s)).
Proof.
  intros (Wa & Wb) (P & (x & y & t & Sp & R0 & R1 & R2) & (a & b & Sl & Q0 & Q1)) js i. pose proof (pose2_at_sees _ _ _ _ _ Sp) as Ea. destruct Sp as (idp & cp & Ha). remember (LVar idp cp _) as va eqn:Eva in Ha.
  assert (Ka : ksize (l_kind va) = 3) by (rewrite Eva; reflexivity). clear Eva. destruct (value2_sees l a b 0 Wb Sl) as (vb & Hb & Kb & Eb).
  cbn [build]. unfold bearing_observation_2d. cbv zeta. cbn [f_jac f_rsize f_vars]. unfold bear2_jac. rewrite (local2_sees _ _ _ _ _ _ _ _ _ Ea Eb Ha Hb). cbn [obind fst snd v2x v2y].
  destruct (turn_back t (a - x) (b - y)) as (I1 & I2 & _ & _ & I5). change (@ncos RN) with cos. change (@nsin RN) with sin. change (@nmul RN) with Rmult. change (@nadd RN) with Rplus. change (@nsub RN) with Rminus.
  change (car RN) with R in *. destruct (nltb _ _) eqn:Ef; cbn [withj]; [discriminate|]. rewrite I5 in Ef. apply Rltb_false in Ef. change (@nmul RN) with Rmult in Ef. rewrite min_dist_R in Ef. blks.
  intros E Hi. cbn in E. injection E as <-. terms. rewrite Ka, Kb, rsum3, rsum2, R0, R1, R2, Q0, Q1. destruct i as [|i]; [|lia]. entries. clear -Ef I1 I2 I5. destruct P as [w g tx ty]. cbn [turn2 grow2 go_x go_y]. gx. rewrite I1, I2, I5.
  assert (Hn : ((a - x) * (a - x) + (b - y) * (b - y))%R <> 0%R) by lra.
  match goal with |- ?e = _ => transitivity (1 / s * w * (((a - x) * (a - x) + (b - y) * (b - y)) / ((a - x) * (a - x) + (b - y) * (b - y)) - 1))%R end; [unfold Rdiv; ring|]. unfold Rdiv at 2; rewrite Rinv_r by exact Hn; ring.
Qed.
Lemma s_range2 id p l robs obs rs bs : well_used h (LRangeBearing2 id p l robs obs rs bs) -> unseen h u (LRangeBearing2 id p l robs obs rs bs) -> blind (build (LRangeBearing2 id p l robs obs rs bs)).
Proof.
  intros (Wa & Wb) (P & G0 & (x & y & t & Sp & R0 & R1 & R2) & (a & b & Sl & Q0 & Q1)) js i. pose proof (pose2_at_sees _ _ _ _ _ Sp) as Ea. destruct Sp as (idp & cp & Ha). remember (LVar idp cp _) as va eqn:Eva in Ha.
  assert (Ka : ksize (l_kind va) = 3) by (rewrite Eva; reflexivity). clear Eva. destruct (value2_sees l a b 0 Wb Sl) as (vb & Hb & Kb & Eb).
  cbn [build]. unfold range_bearing_2d. cbv zeta. cbn [f_jac f_rsize f_vars]. unfold range2_jac. rewrite (local2_sees _ _ _ _ _ _ _ _ _ Ea Eb Ha Hb). cbn [obind fst snd v2x v2y].
  destruct (turn_back t (a - x) (b - y)) as (I1 & I2 & I3 & I4 & I5). change (@ncos RN) with cos. change (@nsin RN) with sin. change (@nmul RN) with Rmult. change (@nadd RN) with Rplus. change (@nsub RN) with Rminus.
  change (car RN) with R in *. destruct (nltb _ _) eqn:Ef; cbn [withj]; [discriminate|]. rewrite I5 in Ef. apply Rltb_false in Ef. rewrite min_dist_R in Ef. blks.
  intros E Hi. cbn in E. injection E as <-. terms. rewrite Ka, Kb, rsum3, rsum2, R0, R1, R2, Q0, Q1. rewrite G0.
  assert (Hn : ((a - x) * (a - x) + (b - y) * (b - y))%R <> 0%R). { intros Z. rewrite Z in Ef. change (@nsqrt RN) with sqrt in Ef. rewrite sqrt_0 in Ef. lra. }
  clear -Hn Hi I1 I2 I3 I4 I5. destruct P as [w g tx ty]. cbn [turn2 grow2 go_x go_y]. destruct i as [|[|i]]; [| |lia]; entries; gx; rewrite ?I1, ?I2, ?I3, ?I4, ?I5.
  - unfold Rdiv. ring.
  - match goal with |- ?e = _ => transitivity (1 / bs * w * (((a - x) * (a - x) + (b - y) * (b - y)) / ((a - x) * (a - x) + (b - y) * (b - y)) - 1))%R end; [unfold Rdiv; ring|]. unfold Rdiv at 2; rewrite Rinv_r by exact Hn; ring.
Qed.
Lemma s_pose2_prior id p prior s t : well_used h (LPose2Prior id p prior s t) -> halts h u p -> blind (build (LPose2Prior id p prior s t)).
Proof.
  intros W St js i. cbn [well_used] in W. destruct (pose2_read _ _ W) as (v & P & Hv & K & Ep). cbn [build]. unfold pose2_prior. cbv zeta. cbn [f_jac f_rsize f_vars]. unfold pri2_jac.
  rewrite (blk_at _ _ _ _ Hv). cbn. intros E Hi. injection E as <-. terms. rewrite (halts_rsum _ _ _ _ _ _ St). ring.
Qed.
Lemma s_pose2_between id a b m s t loc : well_used h (LPose2Between id a b m s t loc) -> unseen h u (LPose2Between id a b m s t loc) -> blind (build (LPose2Between id a b m s t loc)).
Proof.
  intros (Wa & Wb & Wm) (To & Lo) js i. destruct (pose2_read _ _ Wa) as (va & A & Ha & Ka & Ea). destruct (pose2_read _ _ Wb) as (vb & B & Hb & Kb & Eb). destruct (value2_read _ _ 1 Wm) as (vm & x & Hm & Km & Em).
  pose proof (To 0 ltac:(lia)) as T0. pose proof (To 1 ltac:(lia)) as T1. pose proof (To 2 ltac:(lia)) as T2. cbn [Nat.add] in Km.
  cbn [build]. unfold pose2_between. cbv zeta. cbn [f_jac f_rsize f_vars]. unfold bet2_jac. rewrite Ea, Eb. cbn [obind]. destruct loc; cbn [withj]; blks; intros E Hi; cbn in E; injection E as <-; terms.
  - destruct (Lo eq_refl) as (Hm0 & Ha2). rewrite (Hm0 0) in T0. rewrite (Hm0 1) in T1. rewrite (Hm0 2) in T2. rewrite Ka, Kb, (halts_rsum _ _ _ _ _ _ Hm0), !rsum3.
    assert (E0 : rate h u b 0 = rate h u a 0) by lra. assert (E1 : rate h u b 1 = rate h u a 1) by lra. assert (E2 : rate h u b 2 = 0%R) by lra. rewrite E0, E1, E2, Ha2. i3 i; entries; gx; unfold Rdiv; ring.
  - rewrite Ka, Kb, Km, !rsum3, <- T0, <- T1, <- T2. i3 i; entries; gx; unfold Rdiv; ring.
Qed.
Lemma value3_sees a (p : v3 RN) : sees_vector h a [vx p; vy p; vz p] -> exists v, nth_error h a = Some v /\ ksize (l_kind v) = 3 /\ value3_at h a = Ok p.
Proof. intros S. pose proof (value3_at_sees _ _ _ S) as E. destruct S as (id & c & [H|(L & H)]); (eexists; split; [exact H|]; split; [reflexivity|exact E]). Qed.
Lemma s_plane id q m s : well_used h (LPlane id q m s None) -> unseen h u (LPlane id q m s None) -> blind (build (LPlane id q m s None)).
Proof.
  intros _ (S & G0 & (x & Sq & Rq) & (n & e & Sm & Rn & Re)) js i. destruct (value3_sees _ _ Sq) as (vq & Hq & Kq & Eq). pose proof (plane_at_sees _ _ _ _ Sm) as Em.
  destruct Sm as (idm & cm & Hm). remember (LVar idm cm _) as vm eqn:Evm in Hm. assert (Km : ksize (l_kind vm) = 4) by (rewrite Evm; reflexivity). clear Evm.
  cbn [build]. unfold plane_factor. cbv zeta. cbn [f_jac f_rsize f_vars]. unfold plane_jac. rewrite Eq, Em. cbn [obind withj]. blks. intros E Hi. cbn in E. injection E as <-. terms.
  rewrite Kq, Km, rsum3, rsum4, (Rq 0), (Rq 1), (Rq 2), (Rn 0), (Rn 1), (Rn 2), Re by lia. clear -G0 Hi. unfold swept, crossing. rewrite G0. destruct S as [w g t]. cbn [turn go]. destruct w as [wx wy wz]. destruct t as [tx ty tz]. destruct x as [x y z]. destruct n as [nx ny nz].
  destruct i as [|i]; [|lia]. entries. gx. unfold Rdiv. ring.
Qed.
Lemma s_plane_scaled id q m s r : well_used h (LPlane id q m s (Some r)) -> halts h u q -> halts h u m -> blind (build (LPlane id q m s (Some r))).
Proof.
  intros (Wq & Wm) Sq Sm js i. destruct (value3_read _ _ Wq) as (vq & x & Hq & Kq & Eq). destruct (plane_read _ _ Wm) as (vm & [n e] & Hm & Km & Em). destruct r as [r0 p0].
  cbn [build]. unfold plane_factor. cbv zeta. cbn [f_jac f_rsize f_vars]. unfold plane_jac. rewrite Eq, Em. cbn [obind withj]. blks. intros E Hi. cbn in E. injection E as <-. terms.
  rewrite !halts_rsum by assumption. ring.
Qed.
Lemma s_plane_prior id m np dp s t : well_used h (LPlanePrior id m np dp s t) -> halts h u m -> blind (build (LPlanePrior id m np dp s t)).
Proof.
  intros W St js i. cbn [well_used] in W. destruct (plane_read _ _ W) as (v & P & Hv & K & Ep). cbn [build]. unfold plane_prior. cbv zeta. cbn [f_jac f_rsize f_vars]. unfold planepri_jac.
  rewrite (get_at _ _ _ Hv). cbn [withj]. rewrite Ep. cbn [obind]. destruct (l_const v) eqn:C.
  - intros E Hi. injection E as <-. cbn [response]. unfold term. rewrite Hv, C. ring.
  - intros E Hi. cbn in E. injection E as <-. cbn [response].
    match goal with |- context [term _ _ _ ?M _] => pose proof (term_rate h u m v M i Hv) as T end. rewrite C in T. rewrite T, (halts_rsum _ _ _ _ _ _ St). ring.
Qed.
Lemma s_transform id r o s la lb sg : well_used h (LTransform id r o s la lb sg) -> unseen h u (LTransform id r o s la lb sg) -> blind (build (LTransform id r o s la lb sg)).
Proof.
  intros (_ & Wo & _ & Wa & _) (S & C & k & x & Sr & HC & Ss & Sb & Rb & Rs & Rr & Ra) js i. destruct (generic_read _ _ _ Wo) as (vo & xo & Ho & Ko & Eo & Lo). destruct (landmark_read _ _ Wa) as (va & pa & Ha & Ka & Ea).
  pose proof (rot_at_sees _ _ _ Sr) as Er. destruct Sr as (idr & cr & rr & Hr). remember (LVar idr cr _) as vr eqn:Evr in Hr. assert (Kr : ksize (l_kind vr) = 3) by (rewrite Evr; reflexivity). clear Evr.
  pose proof (generic_at_sees _ _ _ Ss) as Es. destruct Ss as (ids & cs & Hs). remember (LVar ids cs _) as vs eqn:Evs in Hs. assert (Ks : ksize (l_kind vs) = 1) by (rewrite Evs; reflexivity). clear Evs.
  pose proof (landmark_at_sees _ _ _ Sb) as Eb. destruct Sb as (idb & cb & Hb). remember (LVar idb cb _) as vb eqn:Evb in Hb. assert (Kb : ksize (l_kind vb) = 3) by (rewrite Evb; reflexivity). clear Evb.
  cbn [build]. unfold coordinate_transform. cbv zeta. cbn [f_jac f_rsize f_vars]. unfold ctrans_jac. rewrite Er, Es. cbn [obind]. rewrite Eb. cbn [obind withj]. blks.
  intros E Hi. cbn in E. injection E as <-. terms. rewrite Kr, Ko, Ks, Ka, Kb, !rsum3, rsum1.
  pose proof (turned C (turn S) x HC) as T. pose proof (Ra 0 ltac:(lia)) as A0. pose proof (Ra 1 ltac:(lia)) as A1. pose proof (Ra 2 ltac:(lia)) as A2.
  rewrite (Rb 0), (Rb 1), (Rb 2), Rs, (Rr 0), (Rr 1), (Rr 2) by lia. revert A0 A1 A2. generalize (rate h u la 0) (rate h u la 1) (rate h u la 2) (rate h u o 0) (rate h u o 1) (rate h u o 2). clear -T Hi.
  intros l0 l1 l2 o0 o1 o2 A0 A1 A2. unfold swept, crossing. destruct S as [w g t]. cbn [turn grow go] in *. destruct w as [wx wy wz]. destruct t as [tx ty tz]. destruct x as [x y z]. dm C. gx in T. gx in A0. gx in A1. gx in A2. injection T as T0 T1 T2.
  match type of T0 with ?a = ?a' => match type of T1 with ?b = ?b' => match type of T2 with ?c = ?c' => match type of A0 with ?d = ?d' => match type of A1 with ?e = ?e' => match type of A2 with ?f = ?f' =>
    i3 i; [transitivity (1 / sg * (k * (a - a') + (d - d')))%R|transitivity (1 / sg * (k * (b - b') + (e - e')))%R|transitivity (1 / sg * (k * (c - c') + (f - f')))%R] end end end end end end;
  try (rewrite ?T0, ?T1, ?T2, ?A0, ?A1, ?A2; change (car RN) with R; ring); entries; gx; unfold Rdiv; ring.
Qed.
Theorem lib_overlooks (f : lib_factor RN) : well_used h f -> unseen h u f -> blind (build f).
Proof.
  destruct f; intros W H.
  - exact (s_generic_prior _ _ _ _ W H).
  - exact (s_generic_between _ _ _ _ _ _ W H).
  - exact (s_linear_velocity _ _ _ _ _ _ _ _ W H).
  - exact (s_position_prior _ _ _ _ W H).
  - exact (s_orientation_prior _ _ _ _ W H).
  - exact (s_rotation_prior _ _ _ _ W H).
  - exact (s_position_between _ _ _ _ _ _ W H).
  - exact (s_orientation_between _ _ _ _ _ W H).
  - exact (s_bearing h u _ _ _ _ _ W H).
  - exact (s_inverse_range h u _ _ _ _ _ W H).
  - exact (s_projection h u _ _ _ _ _ _ W H).
  - exact (s_bearing2 _ _ _ _ _ W H).
  - exact (s_range2 _ _ _ _ _ _ _ W H).
  - exact (s_pose2_prior _ _ _ _ _ W H).
  - exact (s_pose2_between _ _ _ _ _ _ _ W H).
  - destruct sc as [r|]; [exact (s_plane_scaled _ _ _ _ _ W (proj1 H) (proj2 H))|exact (s_plane _ _ _ _ W H)].
  - exact (s_plane_prior _ _ _ _ _ _ W H).
  - exact (s_transform _ _ _ _ _ _ _ W H).
Qed.
End Rest.
