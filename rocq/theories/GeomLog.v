(** Quaternions, angle-axis and the logarithm over the reals. *)
From Coq Require Import Reals Lra Psatz Bool List ZArith QArith Nsatz Machin.
From Coquelicot Require Import Coquelicot.
From Verif Require Import Base SpecOpt Real Geom SpecGeom Trig VarsLemmas GeomR GeomExp.
Local Open Scope R_scope.

(** ** bounds for pi *)
Lemma pi_bounds : 31415 / 10000 < PI < 31416 / 10000.
Proof.
  pose proof (PI_2_3_7_ineq 3) as H. unfold PI_2_3_7_tg, tg_alt, Ratan_seq in H. cbn [sum_f_R0 Nat.mul Nat.add] in H. 
  simpl pow in H. simpl INR in H. lra.
Qed.
Lemma pi_lit : Q2R (314159265358979323846 # 100000000000000000000) = 314159265358979323846 / 100000000000000000000.
Proof. reflexivity. Qed.

(** ** polynomial identities of rotations *)
Lemma rot_ids r00 r01 r02 r10 r11 r12 r20 r21 r22 : rotation (M3 (N:=RN) r00 r01 r02 r10 r11 r12 r20 r21 r22) ->
  let t := r00 + r11 + r22 in
  (* trace branch *)
  ((1 + t) * (r01 + r10) = (r21 - r12) * (r02 - r20) /\ (1 + t) * (r02 + r20) = (r21 - r12) * (r10 - r01) /\
   (1 + t) * (r12 + r21) = (r02 - r20) * (r10 - r01) /\
   (1 + t) * (2 * r00 - t + 1) = (r21 - r12) * (r21 - r12) /\ (1 + t) * (2 * r11 - t + 1) = (r02 - r20) * (r02 - r20) /\
   (1 + t) * (2 * r22 - t + 1) = (r10 - r01) * (r10 - r01)) /\
  ((r10 + r01) * (r20 + r02) = (2 * r00 - t + 1) * (r21 + r12) /\ (r10 + r01) * (r10 + r01) = (2 * r00 - t + 1) * (2 * r11 - t + 1) /\
   (r20 + r02) * (r20 + r02) = (2 * r00 - t + 1) * (2 * r22 - t + 1) /\
   (r21 - r12) * (r10 + r01) = (2 * r00 - t + 1) * (r02 - r20) /\ (r21 - r12) * (r20 + r02) = (2 * r00 - t + 1) * (r10 - r01)) /\
  ((r01 + r10) * (r21 + r12) = (2 * r11 - t + 1) * (r20 + r02) /\
   (r21 + r12) * (r21 + r12) = (2 * r11 - t + 1) * (2 * r22 - t + 1) /\
   (r02 - r20) * (r01 + r10) = (2 * r11 - t + 1) * (r21 - r12) /\ (r02 - r20) * (r21 + r12) = (2 * r11 - t + 1) * (r10 - r01)) /\
  ((r02 + r20) * (r12 + r21) = (2 * r22 - t + 1) * (r10 + r01) /\
   (r10 - r01) * (r02 + r20) = (2 * r22 - t + 1) * (r21 - r12) /\ (r10 - r01) * (r12 + r21) = (2 * r22 - t + 1) * (r02 - r20)).
Proof.
  intros H t. destruct (rot_all _ H) as [A B C]. unfold adj in A. gx in A. gx in B. gx in C.
  apply m3_inj in A; apply m3_inj in B; apply m3_inj in C. decompose [and] A; decompose [and] B; decompose [and] C.
  clear A B C H. unfold t. repeat split; lra.
Qed.

(** the rotation matrix of a unit quaternion *)
Definition qmat (w x y z : R) : m3 RN :=
  M3 (N:=RN) (1 - 2 * (y * y + z * z)) (2 * (x * y - w * z)) (2 * (x * z + w * y))
     (2 * (x * y + w * z)) (1 - 2 * (x * x + z * z)) (2 * (y * z - w * x))
     (2 * (x * z - w * y)) (2 * (y * z + w * x)) (1 - 2 * (x * x + y * y)).

Lemma sq_unit s u S : s * s = S -> 0 < S -> u = / 2 / s -> u * s = / 2 /\ 4 * (u * u) * S = 1.
Proof.
  intros Hs HS ->. assert (s <> 0) by (intros ->; lra). split; [field; auto|]. rewrite <- Hs. field; auto.
Qed.
Lemma mon p q X S u : 4 * (u * u) * S = 1 -> p * q = S * X -> p * u * (q * u) = X / 4.
Proof. intros U H. transitivity (p * q * (u * u)); [ring|]. rewrite H. transitivity (4 * (u * u) * S * X / 4); [field|]. rewrite U. field. Qed.
Lemma mon1 p u s : u * s = / 2 -> / 2 * s * (p * u) = p / 4 /\ p * u * (/ 2 * s) = p / 4.
Proof. intros U. split; [transitivity (/ 2 * p * (u * s))|transitivity (/ 2 * p * (u * s))]; try ring; rewrite U; field. Qed.
Lemma mon2 s S : s * s = S -> / 2 * s * (/ 2 * s) = S / 4.
Proof. intros <-. field. Qed.
(** Eigen's matrix-to-quaternion conversion gives a unit quaternion of the same rotation *)
Lemma quat_ok (a : m3 RN) : rotation a ->
  let '(w, v) := quat_of_matrix a in
  w * w + vx v * vx v + vy v * vy v + vz v * vz v = 1 /\ a = qmat w (vx v) (vy v) (vz v).
Proof.
  intros H. destruct a as [r00 r01 r02 r10 r11 r12 r20 r21 r22]. pose proof (rot_ids _ _ _ _ _ _ _ _ _ H) as I. clear H. cbv zeta in I.
  destruct I as ((A1 & A2 & A3 & A4 & A5 & A6) & (B1 & B2 & B3 & B4 & B5) & (C1 & C2 & C3 & C4) & (D1 & D2 & D3)).
  unfold quat_of_matrix, qmat.
  assert (Et : m3trace (N:=RN) (M3 r00 r01 r02 r10 r11 r12 r20 r21 r22) = r00 + r11 + r22) by reflexivity. rewrite Et. clear Et.
  set (t := r00 + r11 + r22) in *.
  destruct (nltb (n:=RN) nzero t) eqn:Et.
  - apply Rltb_true in Et. rewrite lit_zero in Et. gx.
    assert (Hs : sqrt (t + 1) * sqrt (t + 1) = t + 1) by (apply sqrt_sqrt; lra).
    destruct (sq_unit _ _ (t + 1) Hs ltac:(lra) eq_refl) as [U1 U2].
    set (s := sqrt (t + 1)) in *. set (u := / 2 / s) in *. clearbody s u.
    assert (T : t = r00 + r11 + r22) by reflexivity. clearbody t. clear B1 B2 B3 B4 B5 C1 C2 C3 C4 D1 D2 D3 Et. assert (Hh : 2 * / 2 = 1) by lra. set (hf := / 2) in *. clearbody hf. split; [|f_equal]; nsz.
  - apply Rltb_false in Et. rewrite lit_zero in Et.
    assert (Ei : forall d0 d1 d2 : R, exists k, (if nltb (n:=RN) d0 d1 then (if nltb (n:=RN) d1 d2 then 2 else 1)%nat else (if nltb (n:=RN) d0 d2 then 2 else 0)%nat) = k /\
       ((k = 0%nat /\ d1 <= d0 /\ d2 <= d0) \/ (k = 1%nat /\ d0 <= d1 /\ d2 <= d1) \/ (k = 2%nat /\ d0 <= d2 /\ d1 <= d2))).
    { intros d0 d1 d2. destruct (nltb (n:=RN) d0 d1) eqn:E1; [destruct (nltb (n:=RN) d1 d2) eqn:E2|destruct (nltb (n:=RN) d0 d2) eqn:E2];
      (apply Rltb_true in E1 || apply Rltb_false in E1); (apply Rltb_true in E2 || apply Rltb_false in E2); eexists; (split; [reflexivity|]);
      first [left; repeat split; solve [reflexivity|lra]|right; left; repeat split; solve [reflexivity|lra]|right; right; repeat split; solve [reflexivity|lra]]. }
    destruct (Ei r00 r11 r22) as [k [Ek Hk]]. clear Ei. cbn [m00 m11 m22] in *.
    match goal with |- context [match ?e with O => _ | _ => _ end] => replace e with k by (symmetry; exact Ek) end. clear Ek.
    destruct Hk as [(-> & H1 & H2)|[(-> & H1 & H2)|(-> & H1 & H2)]].
    + gx. replace (r00 - r11 - r22 + 1) with (2 * r00 - t + 1) by (unfold t; ring).
      assert (P : 0 < 2 * r00 - t + 1) by (unfold t in *; lra).
      assert (Hs : sqrt (2 * r00 - t + 1) * sqrt (2 * r00 - t + 1) = 2 * r00 - t + 1) by (apply sqrt_sqrt; lra).
      destruct (sq_unit _ _ _ Hs P eq_refl) as [U1 U2].
      set (s := sqrt _) in *. set (u := / 2 / s) in *. clearbody s u. clear C1 C2 C3 C4 D1 D2 D3 A1 A2 A3 A5 A6 H1 H2 P.
      assert (A4' : (2 * r00 - t + 1) * (1 + t) = (r21 - r12) * (r21 - r12)) by lra.
      pose proof (mon1 (r21 - r12) u s U1) as [M1 M2]. pose proof (mon1 (r10 + r01) u s U1) as [M3 M4]. pose proof (mon1 (r20 + r02) u s U1) as [M5 M6].
      pose proof (mon2 s _ Hs) as M7. pose proof (mon _ _ _ _ u U2 (eq_sym A4')) as N1. pose proof (mon _ _ _ _ u U2 B1) as N2. pose proof (mon _ _ _ _ u U2 B2) as N3.
      pose proof (mon _ _ _ _ u U2 B3) as N4. pose proof (mon _ _ _ _ u U2 B4) as N5. pose proof (mon _ _ _ _ u U2 B5) as N6.
      split; [|f_equal]; unfold t in *; lra.
    + gx. replace (r11 - r22 - r00 + 1) with (2 * r11 - t + 1) by (unfold t; ring).
      assert (P : 0 < 2 * r11 - t + 1) by (unfold t in *; lra).
      assert (Hs : sqrt (2 * r11 - t + 1) * sqrt (2 * r11 - t + 1) = 2 * r11 - t + 1) by (apply sqrt_sqrt; lra).
      destruct (sq_unit _ _ _ Hs P eq_refl) as [U1 U2].
      set (s := sqrt _) in *. set (u := / 2 / s) in *. clearbody s u. clear B1 B3 B4 B5 D1 D2 D3 A1 A2 A3 A4 A6 H1 H2 P.
      pose proof (mon1 (r02 - r20) u s U1) as [M1 M2]. pose proof (mon1 (r01 + r10) u s U1) as [M3 M4]. pose proof (mon1 (r21 + r12) u s U1) as [M5 M6].
      pose proof (mon2 s _ Hs) as M7. assert (A5' : (r02 - r20) * (r02 - r20) = (2 * r11 - t + 1) * (1 + t)) by lra.
      assert (B2' : (r01 + r10) * (r01 + r10) = (2 * r11 - t + 1) * (2 * r00 - t + 1)) by lra.
      pose proof (mon _ _ _ _ u U2 A5') as N1. pose proof (mon _ _ _ _ u U2 B2') as N2. pose proof (mon _ _ _ _ u U2 C1) as N3.
      pose proof (mon _ _ _ _ u U2 C2) as N4. pose proof (mon _ _ _ _ u U2 C3) as N5. pose proof (mon _ _ _ _ u U2 C4) as N6.
      split; [|f_equal]; unfold t in *; lra.
    + gx. replace (r22 - r00 - r11 + 1) with (2 * r22 - t + 1) by (unfold t; ring).
      assert (P : 0 < 2 * r22 - t + 1) by (unfold t in *; lra).
      assert (Hs : sqrt (2 * r22 - t + 1) * sqrt (2 * r22 - t + 1) = 2 * r22 - t + 1) by (apply sqrt_sqrt; lra).
      destruct (sq_unit _ _ _ Hs P eq_refl) as [U1 U2].
      set (s := sqrt _) in *. set (u := / 2 / s) in *. clearbody s u. clear B1 B2 B4 B5 C1 C3 C4 A1 A2 A3 A4 A5 H1 H2 P.
      pose proof (mon1 (r10 - r01) u s U1) as [M1 M2]. pose proof (mon1 (r02 + r20) u s U1) as [M3 M4]. pose proof (mon1 (r12 + r21) u s U1) as [M5 M6].
      pose proof (mon2 s _ Hs) as M7. assert (A6' : (r10 - r01) * (r10 - r01) = (2 * r22 - t + 1) * (1 + t)) by lra.
      assert (B3' : (r02 + r20) * (r02 + r20) = (2 * r22 - t + 1) * (2 * r00 - t + 1)) by lra.
      assert (C2' : (r12 + r21) * (r12 + r21) = (2 * r22 - t + 1) * (2 * r11 - t + 1)) by lra.
      pose proof (mon _ _ _ _ u U2 A6') as N1. pose proof (mon _ _ _ _ u U2 B3') as N2. pose proof (mon _ _ _ _ u U2 C2') as N3.
      pose proof (mon _ _ _ _ u U2 D1) as N4. pose proof (mon _ _ _ _ u U2 D2) as N5. pose proof (mon _ _ _ _ u U2 D3) as N6.
      split; [|f_equal]; unfold t in *; lra.
Qed.

Lemma atan2_quarter n w : 0 < n -> n * n + w * w = 1 -> let p := Ratan2 n (Rabs w) in 0 < p <= PI / 2 /\ sin p = n /\ cos p = Rabs w.
Proof.
  intros Hn E p. assert (E' : Rabs w * Rabs w = w * w) by (rewrite <- Rabs_mult; apply Rabs_pos_eq; nra).
  destruct (atan2_unit n (Rabs w)) as (B & C & S); [lra|]. fold p in B, C, S. pose proof (Rabs_pos w). pose proof PI_RGT_0.
  assert (0 < p).
  { destruct (Rlt_or_le 0 p) as [|L]; auto. pose proof (sin_le_0 (p + 2 * PI)). rewrite sin_plus, sin_2PI, cos_2PI in *. lra. }
  repeat split; auto. destruct (Rle_or_lt p (PI / 2)) as [|L]; auto. pose proof (cos_lt_0 p L). lra.
Qed.

Lemma angle_axis_ok (a : m3 RN) : rotation a ->
  let '(ang, ax) := angle_axis a in length2 ax = 1 /\ 0 <= ang <= PI /\ aa_matrix ang ax = a.
Proof.
  intros H. pose proof (quat_ok a H) as Q. unfold angle_axis. destruct (quat_of_matrix a) as [w v].
  destruct Q as [Q1 Q2]. rewrite v3sq_len. pose proof (len_sq v) as L. pose proof (len_nonneg v) as L0. pose proof PI_RGT_0.
  assert (Ec : (nltb (len v : RN) nzero || nltb nzero (len v : RN))%bool = Rltb 0 (len v)).
  { rewrite lit_zero. change (Rltb (len v) 0 || Rltb 0 (len v) = Rltb 0 (len v))%bool. rewrite (proj2 (Rltb_false (len v) 0)) by lra. reflexivity. }
  rewrite Ec. clear Ec. destruct (Rltb 0 (len v)) eqn:En.
  - apply Rltb_true in En. set (n := len v) in *. clearbody n. dv v. gx in L. cbn [vx vy vz] in Q1, Q2.
    destruct (atan2_quarter n w En ltac:(lra)) as (P1 & P2 & P3). set (p := Ratan2 n (Rabs w)) in *.
    change (natan2 (n:=RN) n (nabs (n:=RN) w)) with p. clearbody p.
    assert (Es : exists e, (if nltb (n:=RN) w nzero then nneg (n:=RN) n else n) = e * n /\ e * e = 1 /\ e * Rabs w = w).
    { rewrite lit_zero. change (nltb (n:=RN) w 0) with (Rltb w 0). destruct (Rltb w 0) eqn:E1.
      - apply Rltb_true in E1. exists (-1). rewrite Rabs_left by auto. split; [change (- n = -1 * n)|split]; ring.
      - apply Rltb_false in E1. exists 1. rewrite Rabs_right by lra. split; [change (n = 1 * n)|split]; ring. }
    destruct Es as [e [Ee [E1 E2]]].
    match goal with |- context [if ?b then _ else _] => replace (if b then nneg (n:=RN) n else n) with (e * n) by (symmetry; exact Ee) end.
    assert (He : e <> 0) by (intros ->; lra).
    assert (Si : sin (2 * p) = 2 * (n * Rabs w)) by (rewrite sin_2a, P2, P3; ring).
    assert (Co : cos (2 * p) = 1 - 2 * (n * n)) by (rewrite cos_2a_sin, P2; ring).
    assert (Iv : / (e * n) = e * / n). { apply Rmult_eq_reg_r with (e * n); [|apply Rmult_integral_contrapositive_currified; lra]. rewrite Rinv_l by (apply Rmult_integral_contrapositive_currified; lra). transitivity (e * e * (/ n * n)); [rewrite Rinv_l, E1 by lra; ring|ring]. }
    assert (In : / n * n = 1) by (apply Rinv_l; lra).
    repeat split.
    + gx. unfold Rdiv. rewrite Iv. set (i := / n) in *. clearbody i. clear - In E1 L. nsz.
    + cbn. rewrite q2. lra.
    + cbn. rewrite q2. lra.
    + rewrite Q2. unfold qmat. gx. change (nmul (n:=RN) (Q2R 2) p) with (Q2R 2 * p). rewrite ?q2. rewrite Si, Co. unfold Rdiv. rewrite Iv. set (i := / n) in *.
      set (aw := Rabs w) in *. clearbody aw. clearbody i. clear - In E1 E2 L. f_equal; nsz.
  - apply Rltb_false in En. assert (E0 : len v = 0) by lra. apply len_zero in E0. subst v. rewrite Q2. unfold qmat. gx in Q1.
    repeat split; gx; rewrite ?sin_0, ?cos_0; try lra. f_equal; ring.
Qed.

(** ** LogMapSO3 *)
Lemma aa_trace t a : length2 a = 1 -> m3trace (aa_matrix t a) = 1 + 2 * cos t.
Proof. intros H. dv a. gx in H. gx. nsz. Qed.
Lemma aa_skew t a : m3sub (aa_matrix t a) (m3t (aa_matrix t a)) = m3scale (2 * sin t) (skew a).
Proof. dv a. gring. Qed.
Lemma unskew_skew s (a : v3 RN) : unskew (m3scale s (skew a)) = v3scale s a.
Proof. dv a. gx. f_equal; field. Qed.
Lemma m3scale_scale r s (a : m3 RN) : m3scale r (m3scale s a) = m3scale (r * s) a.
Proof. dm a. gring. Qed.
Lemma lit_e5 : Q2R (1#100000) = / 100000. Proof. unfold Q2R; simpl; lra. Qed.
Lemma lit_e3 : Q2R (1#1000) = / 1000. Proof. unfold Q2R; simpl; lra. Qed.

Lemma log_aa t a : length2 a = 1 -> 0 <= t <= PI ->
  log_so3 (aa_matrix t a) =
    if Rlt_dec t (/ 100000) then v3scale (sin t) a
    else if Rlt_dec (Rabs (t - Q2R (314159265358979323846 # 100000000000000000000))) (/ 1000)
         then let '(ang, ax) := angle_axis (aa_matrix t a) in v3scale ang ax
         else v3scale t a.
Proof.
  intros U B. unfold log_so3. cbv zeta. rewrite aa_skew, (aa_trace t a U), !m3scale_scale, !unskew_skew.
  assert (Ec : nmin (N:=RN) (nmax (N:=RN) (nmul (n:=RN) (nsub (n:=RN) (1 + 2 * cos t) nunit) (nlit (n:=RN) (1#2))) (nlit (n:=RN) (-1))) nunit = cos t).
  { rewrite r_nmin, r_nmax. cbn. unfold nunit. cbn. rewrite q1, qh, qm1. replace ((1 + 2 * cos t - 1) * / 2) with (cos t) by field.
    pose proof (COS_bound t). rewrite Rmax_left, Rmin_left by lra. reflexivity. }
  rewrite Ec. change (nacos (n:=RN) (cos t)) with (acos (cos t)). rewrite (acos_cos t B).
  change (nltb (n:=RN) t (nlit (n:=RN) (1#100000))) with (Rltb t (Q2R (1#100000))). rewrite lit_e5. unfold Rltb at 1.
  destruct (Rlt_dec t (/ 100000)) as [H1|H1].
  - f_equal. cbn. rewrite qh. field.
  - match goal with |- (if ?b then _ else _) = _ => change b with (Rltb (Rabs (t - Q2R (314159265358979323846 # 100000000000000000000))) (Q2R (1#1000))) end.
    rewrite lit_e3. unfold Rltb. destruct (Rlt_dec (Rabs _) (/ 1000)) as [H2|H2]; [reflexivity|].
    f_equal. cbn. rewrite q2. assert (0 < sin t); [|field; lra].
    apply sin_gt_0; [lra|]. destruct B as [_ [B|B]]; auto. exfalso. apply H2. rewrite pi_lit, B. pose proof pi_bounds.
    apply Rabs_def1; lra.
Qed.

(** an angle below pi and its axis are determined by the matrix *)
Lemma aa_inj t a t' a' : length2 a = 1 -> length2 a' = 1 -> 0 <= t <= PI -> 0 <= t' <= PI -> aa_matrix t a = aa_matrix t' a' ->
  t = t' /\ (0 < t < PI -> a = a').
Proof.
  intros U U' B B' E. assert (Ec : cos t = cos t').
  { assert (m3trace (aa_matrix t a) = m3trace (aa_matrix t' a')) by (rewrite E; reflexivity).
    rewrite (aa_trace _ _ U), (aa_trace _ _ U') in H. lra. }
  assert (Et : t = t') by (rewrite <- (acos_cos t B), <- (acos_cos t' B'), Ec; reflexivity). split; auto. intros P. subst t'.
  assert (S : 0 < sin t) by (apply sin_gt_0; lra).
  assert (Es : m3sub (aa_matrix t a) (m3t (aa_matrix t a)) = m3sub (aa_matrix t a') (m3t (aa_matrix t a'))) by (rewrite E; reflexivity).
  rewrite !aa_skew in Es. apply (f_equal unskew) in Es. rewrite !unskew_skew in Es.
  rewrite <- (div_scale (2 * sin t) a), <- (div_scale (2 * sin t) a'), Es by lra. reflexivity.
Qed.

(** the logarithm of a rotation: its angle and axis, except that angles below 1e-5 are replaced by their sine *)
Lemma log_ok (R : m3 RN) : rotation R -> exists t a, length2 a = 1 /\ 0 <= t <= PI /\ R = aa_matrix t a /\
  log_so3 R = v3scale (if Rlt_dec t (/ 100000) then sin t else t) a.
Proof.
  intros H. pose proof (angle_axis_ok R H) as Q. destruct (angle_axis R) as [t a] eqn:Ea. destruct Q as (U & B & E).
  exists t, a. repeat split; auto; try apply B. rewrite <- E at 1. rewrite (log_aa t a U B).
  destruct (Rlt_dec t (/ 100000)); [reflexivity|].
  destruct (Rlt_dec _ (/ 1000)); [|reflexivity]. rewrite E, Ea. reflexivity.
Qed.
Lemma log_of_exp (w : v3 RN) : len w < / 10000000000 \/ / 100000 <= len w < PI -> log_so3 (exp_so3 w) = w.
Proof.
  intros [H|[H1 H2]].
  - rewrite exp_small by auto. unfold log_so3. cbv zeta.
    assert (Ec : nmin (N:=RN) (nmax (N:=RN) (nmul (n:=RN) (nsub (n:=RN) (m3trace (m3add m3id (skew w))) nunit) (nlit (n:=RN) (1#2))) (nlit (n:=RN) (-1))) nunit = 1).
    { rewrite r_nmin, r_nmax. dv w. gx. replace ((1 + 0 + (1 + 0) + (1 + 0) - 1) * / 2) with 1 by field. rewrite Rmax_left, Rmin_left by lra. reflexivity. }
    rewrite Ec. change (nacos (n:=RN) 1) with (acos 1). rewrite acos_1.
    match goal with |- (if ?b then _ else _) = _ => change b with (Rltb 0 (Q2R (1#100000))) end. rewrite lit_e5.
    rewrite (proj2 (Rltb_true _ _)) by lra. dv w. gx. f_equal; field.
  - rewrite exp_large by lra. assert (L : 0 < len w) by lra. pose proof (unit_axis w L) as U.
    rewrite (log_aa _ _ U) by (pose proof (len_nonneg w); lra).
    destruct (Rlt_dec (len w) (/ 100000)); [lra|]. destruct (Rlt_dec _ (/ 1000)); [|apply axis_scale; auto].
    pose proof (angle_axis_ok _ (aa_rotation (len w) _ U)) as Q. destruct (angle_axis _) as [t a]. destruct Q as (U' & B & E).
    destruct (aa_inj _ _ _ _ U' U B (conj (len_nonneg w) (Rlt_le _ _ H2)) E) as [-> E2]. rewrite E2 by (split; assumption). apply axis_scale; auto.
Qed.
Lemma exp_of_log (R : m3 RN) : rotation R -> R = m3id \/ / 100000 <= acos ((m3trace R - 1) / 2) -> exp_so3 (log_so3 R) = R.
Proof.
  intros H [->|T].
  - rewrite <- exp_zero at 1. rewrite log_of_exp; [apply exp_zero|]. left. rewrite len0. lra.
  - destruct (log_ok R H) as (t & a & U & B & E & L). rewrite E, (aa_trace t a U) in T. replace ((1 + 2 * cos t - 1) / 2) with (cos t) in T by field.
    rewrite (acos_cos t B) in T. rewrite L. destruct (Rlt_dec t (/ 100000)); [lra|].
    assert (Lt : len (v3scale t a) = t) by (rewrite (len_scale t a U); apply Rabs_pos_eq; lra).
    rewrite exp_large by (rewrite Lt; lra). rewrite Lt, div_scale by lra. auto.
Qed.
Lemma log_bound (R : m3 RN) : rotation R -> len (log_so3 R) <= PI.
Proof.
  intros H. destruct (log_ok R H) as (t & a & U & B & E & L). rewrite L, (len_scale _ a U).
  destruct (Rlt_dec t (/ 100000)); [|rewrite Rabs_pos_eq; lra].
  pose proof (SIN_bound t). pose proof pi_bounds. apply Rabs_le. lra.
Qed.
(** the small-angle error *)
Lemma sin_cubic t : 0 <= t <= PI -> t - t * t * t / 6 <= sin t <= t.
Proof.
  intros [H1 H2]. split.
  - destruct (sin_bound t 0 H1 H2) as [H _]. unfold sin_approx, sin_term in H. simpl in H. lra.
  - destruct H1 as [H1|<-]; [left; apply sin_lt_x; auto|rewrite sin_0; lra].
Qed.
Lemma log_of_exp_near (w : v3 RN) : len w < PI -> exists w', log_so3 (exp_so3 w) = w' /\ len (v3sub w' w) <= / 6000000000000000.
Proof.
  intros H. destruct (Rlt_or_le (len w) (/ 10000000000)) as [L|L]; [|destruct (Rlt_or_le (len w) (/ 100000)) as [L'|L']].
  - exists w. split; [apply log_of_exp; auto|]. replace (v3sub w w) with (v3zero (N:=RN)); [rewrite len0; lra|]. dv w. gring.
  - eexists; split; [reflexivity|]. rewrite exp_large by auto. assert (P : 0 < len w) by lra. pose proof (unit_axis w P) as U.
    rewrite (log_aa _ _ U) by lra. destruct (Rlt_dec (len w) (/ 100000)); [|lra].
    rewrite <- (axis_scale w P) at 4. set (a := v3div (N:=RN) w (len w)) in *. set (t := len w) in *. clearbody a t.
    replace (v3sub (v3scale (sin t) a) (v3scale t a)) with (v3scale (N:=RN) (sin t - t) a) by (dv a; gring).
    rewrite (len_scale _ a U). pose proof (sin_cubic t ltac:(pose proof pi_bounds; lra)). rewrite Rabs_left1 by lra.
    assert (t * t <= / 100000 * / 100000) by nra. assert (t * t * t <= / 100000 * / 100000 * / 100000) by nra. lra.
  - exists w. split; [apply log_of_exp; auto|]. replace (v3sub w w) with (v3zero (N:=RN)); [rewrite len0; lra|]. dv w. gring.
Qed.
