(** How far the small-angle branches are from the exact maps. *)
From Coq Require Import Reals Lra Psatz Bool List ZArith QArith Nsatz.
From Coquelicot Require Import Coquelicot.
From Verif Require Import Base SpecOpt Real Geom Vars SpecGeom Trig VarsLemmas GeomR GeomExp GeomLog VarsRun.
Local Open Scope R_scope.

Lemma sin_abs x : Rabs (sin x) <= Rabs x.
Proof.
  assert (P : forall y, 0 <= y -> Rabs (sin y) <= y).
  { intros y Hy. destruct (Rle_or_lt y PI) as [H|H].
    - rewrite Rabs_pos_eq; [apply sin_cubic; lra|apply sin_ge_0; auto].
    - pose proof (SIN_bound y). pose proof pi_bounds. apply Rabs_le. lra. }
  destruct (Rle_or_lt 0 x) as [H|H].
  - rewrite (Rabs_pos_eq x H). apply P; auto.
  - rewrite <- (Rabs_Ropp (sin x)), <- sin_neg, <- (Rabs_Ropp x), (Rabs_pos_eq (- x)) by lra. apply P; lra.
Qed.
Lemma sin_lip s t : Rabs (sin s - sin t) <= Rabs (s - t).
Proof.
  rewrite form4. rewrite !Rabs_mult. rewrite (Rabs_pos_eq 2) by lra. pose proof (sin_abs ((s - t) / 2)) as A.
  rewrite Rabs_div, (Rabs_pos_eq 2) in A by lra. pose proof (COS_bound ((s + t) / 2)) as B. assert (Rabs (cos ((s + t) / 2)) <= 1) by (apply Rabs_le; lra).
  pose proof (Rabs_pos (sin ((s - t) / 2))). pose proof (Rabs_pos (cos ((s + t) / 2))). nra.
Qed.
Lemma cos_lip s t : Rabs (cos s - cos t) <= Rabs (s - t).
Proof.
  rewrite form2. rewrite !Rabs_mult. rewrite (Rabs_left (-2)) by lra. pose proof (sin_abs ((s - t) / 2)) as A.
  rewrite Rabs_div, (Rabs_pos_eq 2) in A by lra. pose proof (SIN_bound ((s + t) / 2)) as B. assert (Rabs (sin ((s + t) / 2)) <= 1) by (apply Rabs_le; lra).
  pose proof (Rabs_pos (sin ((s - t) / 2))). pose proof (Rabs_pos (sin ((s + t) / 2))). nra.
Qed.
(** entries of a rotation matrix: cos * (delta - a a) + a a +- sin * a *)
Lemma aa_entry (a : v3 RN) i j : length2 a = 1 -> (i < 3)%nat -> (j < 3)%nat -> exists p q r, Rabs p <= 1 /\ Rabs q <= 1 /\
  p + r = delta i j /\ q = crossm a i j /\
  forall t, ent (aa_matrix t a) i j = p * cos t + q * sin t + r.
Proof.
  intros U Hi Hj. dv a. gx in U.
  assert (x * x <= 1) by nra. assert (y * y <= 1) by nra. assert (z * z <= 1) by nra.
  assert (Bx : -1 <= x <= 1) by nra. assert (By : -1 <= y <= 1) by nra. assert (Bz : -1 <= z <= 1) by nra.
  destruct i as [|[|[|i]]]; [| | |lia]; destruct j as [|[|[|j]]]; try lia.
  - exists ((1 - x * x)). exists (0). exists (x * x). split; [apply Rabs_le; nra|]. split; [apply Rabs_le; nra|]. split; [unfold delta; cbn [Nat.eqb]; ring|]. split; [reflexivity|]. intros t. gx. ring.
  - exists ((- (x * y))). exists ((- z)). exists (x * y). split; [apply Rabs_le; nra|]. split; [apply Rabs_le; nra|]. split; [unfold delta; cbn [Nat.eqb]; ring|]. split; [reflexivity|]. intros t. gx. ring.
  - exists ((- (x * z))). exists (y). exists (x * z). split; [apply Rabs_le; nra|]. split; [apply Rabs_le; nra|]. split; [unfold delta; cbn [Nat.eqb]; ring|]. split; [reflexivity|]. intros t. gx. ring.
  - exists ((- (x * y))). exists (z). exists (x * y). split; [apply Rabs_le; nra|]. split; [apply Rabs_le; nra|]. split; [unfold delta; cbn [Nat.eqb]; ring|]. split; [reflexivity|]. intros t. gx. ring.
  - exists ((1 - y * y)). exists (0). exists (y * y). split; [apply Rabs_le; nra|]. split; [apply Rabs_le; nra|]. split; [unfold delta; cbn [Nat.eqb]; ring|]. split; [reflexivity|]. intros t. gx. ring.
  - exists ((- (y * z))). exists ((- x)). exists (y * z). split; [apply Rabs_le; nra|]. split; [apply Rabs_le; nra|]. split; [unfold delta; cbn [Nat.eqb]; ring|]. split; [reflexivity|]. intros t. gx. ring.
  - exists ((- (x * z))). exists ((- y)). exists (x * z). split; [apply Rabs_le; nra|]. split; [apply Rabs_le; nra|]. split; [unfold delta; cbn [Nat.eqb]; ring|]. split; [reflexivity|]. intros t. gx. ring.
  - exists ((- (y * z))). exists (x). exists (y * z). split; [apply Rabs_le; nra|]. split; [apply Rabs_le; nra|]. split; [unfold delta; cbn [Nat.eqb]; ring|]. split; [reflexivity|]. intros t. gx. ring.
  - exists ((1 - z * z)). exists (0). exists (z * z). split; [apply Rabs_le; nra|]. split; [apply Rabs_le; nra|]. split; [unfold delta; cbn [Nat.eqb]; ring|]. split; [reflexivity|]. intros t. gx. ring.
Qed.
Lemma aa_diff s t (a : v3 RN) i j : length2 a = 1 -> (i < 3)%nat -> (j < 3)%nat ->
  Rabs (ent (aa_matrix s a) i j - ent (aa_matrix t a) i j) <= 2 * Rabs (s - t).
Proof.
  intros U Hi Hj. destruct (aa_entry a i j U Hi Hj) as (p & q & r & P & Q & _ & _ & E). rewrite !E.
  replace (p * cos s + q * sin s + r - (p * cos t + q * sin t + r)) with (p * (cos s - cos t) + q * (sin s - sin t)) by ring.
  eapply Rle_trans; [apply Rabs_triang|]. rewrite !Rabs_mult. pose proof (cos_lip s t). pose proof (sin_lip s t).
  pose proof (Rabs_pos (cos s - cos t)). pose proof (Rabs_pos (sin s - sin t)). pose proof (Rabs_pos p). pose proof (Rabs_pos q). nra.
Qed.
Lemma aa_0 (a : v3 RN) : length2 a = 1 -> aa_matrix 0 a = m3id.
Proof. intros U. dv a. gx. rewrite sin_0, cos_0. f_equal; ring. Qed.
Lemma cos_quad t : 0 <= t -> 1 - cos t <= t * t / 2.
Proof.
  intros H. replace t with (2 * (t / 2)) at 1 by field. rewrite cos_2a_sin. pose proof (sin_abs (t / 2)) as A. rewrite (Rabs_pos_eq (t / 2)) in A by lra.
  assert (sin (t / 2) * sin (t / 2) <= (t / 2) * (t / 2)); [|nra]. rewrite <- (Rabs_pos_eq (sin (t / 2) * sin (t / 2))) by nra. rewrite Rabs_mult.
  pose proof (Rabs_pos (sin (t / 2))). nra.
Qed.
Lemma small_sin t : 0 <= t < / 100000 -> 0 <= t - sin t <= / 1000000000000000 / 6 /\ t <= 11 / 10 * sin t /\ 0 <= sin t.
Proof.
  intros H. pose proof pi_bounds. destruct (sin_cubic t ltac:(lra)) as [A B]. assert (0 <= sin t) by (apply sin_ge_0; lra).
  assert (t * t <= / 10000000000) by nra. assert (t * t * t <= / 10000000000 * t) by nra. split; [|split; [|auto]]; [|lra].
  assert (t * t * t <= / 1000000000000000) by nra. lra.
Qed.
(** Exp(Log R) is within 1e-15 of R, entry by entry, for every rotation *)
Lemma exp_log_near (Rm : m3 RN) i j : rotation Rm -> (i < 3)%nat -> (j < 3)%nat ->
  Rabs (ent (exp_so3 (log_so3 Rm)) i j - ent Rm i j) <= / 1000000000000000.
Proof.
  intros H Hi Hj. destruct (log_ok Rm H) as (t & a & U & B & E & L). rewrite L. clear L. subst Rm.
  destruct (Rlt_dec t (/ 100000)) as [Ht|Ht].
  - destruct (small_sin t ltac:(lra)) as (A1 & A2 & A3).
    assert (Ls : len (v3scale (sin t) a) = sin t) by (rewrite (len_scale _ a U); apply Rabs_pos_eq; lra).
    destruct (Rle_or_lt (/ 10000000000) (sin t)) as [Hs|Hs].
    + rewrite exp_large by (rewrite Ls; auto). rewrite Ls, div_scale by lra. eapply Rle_trans; [apply aa_diff; auto|].
      rewrite Rabs_left1 by lra. lra.
    + rewrite exp_small by (rewrite Ls; auto). destruct (aa_entry a i j U Hi Hj) as (p & q & r & P & Q & E1 & E2 & E). rewrite E.
      assert (Ee : ent (m3add m3id (skew (v3scale (sin t) a))) i j = delta i j + q * sin t).
      { subst q. clear - Hi Hj. dv a. destruct i as [|[|[|i]]]; [| | |lia]; destruct j as [|[|[|j]]]; try lia; unfold delta; cbn [Nat.eqb]; gx; ring. }
      rewrite Ee, <- E1. replace (p + r + q * sin t - (p * cos t + q * sin t + r)) with (p * (1 - cos t)) by ring.
      rewrite Rabs_mult. pose proof (cos_quad t ltac:(lra)). pose proof (COS_bound t). rewrite (Rabs_pos_eq (1 - cos t)) by lra.
      assert (t <= 2 * / 10000000000) by lra. assert (t * t <= / 1000000000000000) by nra. pose proof (Rabs_pos p). nra.
  - assert (Lt : len (v3scale t a) = t) by (rewrite (len_scale t a U); apply Rabs_pos_eq; lra).
    rewrite exp_large by (rewrite Lt; lra). rewrite Lt, div_scale by lra.
    rewrite Rminus_diag_eq, Rabs_R0 by reflexivity. lra.
Qed.
(** the matrix a PoseVariable holds after storing Log R is within 3e-8 of R, and equal to R if the angle of R is 0 or at least 1e-5 *)
Lemma dcm_log_near (Rm : m3 RN) i j : rotation Rm -> (i < 3)%nat -> (j < 3)%nat ->
  Rabs (ent (dcm_of_rot (log_so3 Rm)) i j - ent Rm i j) <= 3 * / 100000000.
Proof.
  intros H Hi Hj. destruct (log_ok Rm H) as (t & a & U & B & E & L). rewrite L. clear L. subst Rm.
  destruct (Rlt_dec t (/ 100000)) as [Ht|Ht].
  - destruct (small_sin t ltac:(lra)) as (A1 & A2 & A3).
    assert (Ls : len (v3scale (sin t) a) = sin t) by (rewrite (len_scale _ a U); apply Rabs_pos_eq; lra).
    destruct (Rle_or_lt (/ 100000000) (sin t)) as [Hs|Hs].
    + rewrite dcm_large by (rewrite Ls; auto). rewrite Ls, div_scale by lra. eapply Rle_trans; [apply aa_diff; auto|].
      rewrite Rabs_left1 by lra. lra.
    + rewrite dcm_small by (rewrite Ls; auto). rewrite <- (aa_0 a U). eapply Rle_trans; [apply aa_diff; auto|]. rewrite Rabs_left1 by lra. lra.
  - assert (Lt : len (v3scale t a) = t) by (rewrite (len_scale t a U); apply Rabs_pos_eq; lra).
    rewrite dcm_large by (rewrite Lt; lra). rewrite Lt, div_scale by lra.
    rewrite Rminus_diag_eq, Rabs_R0 by reflexivity. lra.
Qed.
Lemma dcm_log (Rm : m3 RN) : rotation Rm -> Rm = m3id \/ / 100000 <= acos ((m3trace Rm - 1) / 2) -> dcm_of_rot (log_so3 Rm) = Rm.
Proof.
  intros H [->|T].
  - assert (El : log_so3 (N:=RN) m3id = v3zero) by (rewrite <- exp_zero at 1; rewrite log_of_exp; [reflexivity|left; rewrite len0; lra]).
    rewrite El. apply dcm_small. rewrite len0. lra.
  - destruct (log_ok Rm H) as (t & a & U & B & E & L). rewrite E, (aa_trace t a U) in T. replace ((1 + 2 * cos t - 1) / 2) with (cos t) in T by field.
    rewrite (acos_cos t B) in T. rewrite L. destruct (Rlt_dec t (/ 100000)); [lra|].
    assert (Lt : len (v3scale t a) = t) by (rewrite (len_scale t a U); apply Rabs_pos_eq; lra).
    rewrite dcm_large by (rewrite Lt; lra). rewrite Lt, div_scale by lra. auto.
Qed.
(** constructing a PoseVariable from a rotation matrix, or setting one, stores that matrix up to 2.1e-8 *)
Lemma dcm_aa_near (Rm : m3 RN) i j : rotation Rm -> (i < 3)%nat -> (j < 3)%nat ->
  Rabs (ent (dcm_of_rot (aa_vector Rm)) i j - ent Rm i j) <= 2 * / 100000000.
Proof.
  intros H Hi Hj. pose proof (angle_axis_ok Rm H) as Q. unfold aa_vector. destruct (angle_axis Rm) as [t a]. destruct Q as (U & B & E). subst Rm.
  assert (Es : V3 (N:=RN) (vx a * t) (vy a * t) (vz a * t) = v3scale t a) by (dv a; gring).
  change (Rabs (ent (dcm_of_rot (V3 (N:=RN) (vx a * t) (vy a * t) (vz a * t))) i j - ent (aa_matrix t a) i j) <= 2 * / 100000000). rewrite Es.
  assert (Lt : len (v3scale t a) = t) by (rewrite (len_scale t a U); apply Rabs_pos_eq; lra).
  destruct (Rle_or_lt (/ 100000000) t) as [Hs|Hs].
  - rewrite dcm_large by (rewrite Lt; lra). rewrite Lt, div_scale by lra. rewrite Rminus_diag_eq, Rabs_R0 by reflexivity. lra.
  - rewrite dcm_small by (rewrite Lt; lra). rewrite <- (aa_0 a U). eapply Rle_trans; [apply aa_diff; auto|]. rewrite Rabs_left1 by lra. lra.
Qed.
Lemma dcm_aa (Rm : m3 RN) : rotation Rm -> Rm = m3id \/ / 100000000 <= acos ((m3trace Rm - 1) / 2) -> dcm_of_rot (aa_vector Rm) = Rm.
Proof.
  intros H T. pose proof (angle_axis_ok Rm H) as Q. unfold aa_vector. destruct (angle_axis Rm) as [t a]. destruct Q as (U & B & E). subst Rm.
  assert (Es : V3 (N:=RN) (vx a * t) (vy a * t) (vz a * t) = v3scale t a) by (dv a; gring).
  change (dcm_of_rot (V3 (N:=RN) (vx a * t) (vy a * t) (vz a * t)) = aa_matrix t a). rewrite Es. clear Es.
  assert (Lt : len (v3scale t a) = t) by (rewrite (len_scale t a U); apply Rabs_pos_eq; lra).
  assert (T' : t = 0 \/ / 100000000 <= t).
  { destruct T as [T|T].
    - left. rewrite <- (aa_0 a U) in T. apply (aa_inj t a 0 a U U B ltac:(lra)) in T. apply T.
    - right. rewrite (aa_trace t a U) in T. replace ((1 + 2 * cos t - 1) / 2) with (cos t) in T by field. rewrite (acos_cos t B) in T. exact T. }
  destruct T' as [-> | T'].
  - rewrite dcm_small by (rewrite Lt; lra). rewrite aa_0; auto.
  - rewrite dcm_large by (rewrite Lt; lra). rewrite Lt, div_scale by lra. reflexivity.
Qed.
