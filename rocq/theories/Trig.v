(** atan2 over the reals *)
From Coq Require Import Reals Lra Psatz Bool List ZArith QArith.
From Verif Require Import Base SpecOpt Real.
Local Open Scope R_scope.

Lemma sqrt_1px2_pos x : 0 < sqrt (1 + x²).
Proof. apply sqrt_lt_R0. pose proof (Rle_0_sqr x). lra. Qed.

Lemma hyp_pos x y : x <> 0 \/ y <> 0 -> 0 < x * x + y * y.
Proof. intros [H|H]; pose proof (Rle_0_sqr x); pose proof (Rle_0_sqr y); unfold Rsqr in *.
  - assert (0 < x * x) by (apply Rsqr_pos_lt in H; exact H). lra.
  - assert (0 < y * y) by (apply Rsqr_pos_lt in H; exact H). lra.
Qed.

Lemma sqrt_ratio x y : 0 < x -> sqrt (x * x + y * y) = x * sqrt (1 + (y / x)²).
Proof.
  intros H. replace (x * x + y * y) with ((x * x) * (1 + (y / x)²)) by (unfold Rsqr; field; lra).
  rewrite sqrt_mult_alt by nra. rewrite sqrt_square by lra. reflexivity.
Qed.

(** [t] is the angle of the vector (x, y) *)
Definition angle_of (t x y : R) : Prop :=
  - PI < t <= PI /\ cos t * sqrt (x * x + y * y) = x /\ sin t * sqrt (x * x + y * y) = y.

Lemma angle_of_pos x y : 0 < x -> angle_of (atan (y / x)) x y.
Proof.
  intros H. unfold angle_of. rewrite sqrt_ratio by lra. pose proof (atan_bound (y / x)). pose proof PI_RGT_0.
  pose proof (sqrt_1px2_pos (y / x)).
  rewrite cos_atan, sin_atan. repeat split; try lra; field; lra.
Qed.

Theorem atan2_angle y x : x <> 0 \/ y <> 0 -> angle_of (Ratan2 y x) x y.
Proof.
  intros H. unfold Ratan2. pose proof PI_RGT_0 as HPI.
  destruct (Rlt_dec 0 x) as [Hx|Hx]; [apply angle_of_pos; lra|].
  destruct (Rlt_dec x 0) as [Hx'|Hx'].
  - destruct (angle_of_pos (- x) (- y)) as [_ [Hc Hs]]; [lra|].
    replace (- y / - x) with (y / x) in * by (field; lra).
    replace (- x * - x + - y * - y) with (x * x + y * y) in * by ring.
    pose proof (atan_bound (y / x)) as Hb.
    destruct (Rle_dec 0 y) as [Hy|Hy].
    + assert (y / x <= 0). { unfold Rdiv. assert (/ x < 0) by (apply Rinv_lt_0_compat; lra). nra. }
      assert (atan (y / x) <= 0).
      { destruct (Req_dec (y / x) 0) as [E|E]; [rewrite E, atan_0; lra|].
        apply Rlt_le. rewrite <- atan_0. apply atan_increasing. lra. }
      unfold angle_of. rewrite neg_cos, neg_sin. repeat split; lra.
    + assert (0 < y / x). { unfold Rdiv. assert (/ x < 0) by (apply Rinv_lt_0_compat; lra). nra. }
      assert (0 < atan (y / x)) by (rewrite <- atan_0; apply atan_increasing; lra).
      unfold angle_of.
      replace (cos (atan (y / x) - PI)) with (- cos (atan (y / x))).
      2:{ rewrite <- neg_cos. replace (atan (y / x) + PI) with (atan (y / x) - PI + 2 * PI) by ring.
          pose proof (cos_period (atan (y / x) - PI) 1) as Q. simpl INR in Q. rewrite Rmult_1_r in Q. exact Q. }
      replace (sin (atan (y / x) - PI)) with (- sin (atan (y / x))).
      2:{ rewrite <- neg_sin. replace (atan (y / x) + PI) with (atan (y / x) - PI + 2 * PI) by ring.
          pose proof (sin_period (atan (y / x) - PI) 1) as Q. simpl INR in Q. rewrite Rmult_1_r in Q. exact Q. }
      repeat split; lra.
  - assert (x = 0) by lra. subst x. destruct H as [H|H]; [lra|].
    unfold angle_of. replace (0 * 0 + y * y) with (y * y) by ring.
    destruct (Rlt_dec 0 y) as [Hy|Hy].
    + rewrite sqrt_square by lra. rewrite cos_PI2, sin_PI2. repeat split; lra.
    + destruct (Rlt_dec y 0) as [Hy'|Hy']; [|lra].
      replace (y * y) with (- y * - y) by ring. rewrite sqrt_square by lra.
      replace (- PI / 2) with (- (PI / 2)) by field. rewrite cos_neg, sin_neg, cos_PI2, sin_PI2. repeat split; lra.
Qed.

Lemma atan2_unit s c : c * c + s * s = 1 -> - PI < Ratan2 s c <= PI /\ cos (Ratan2 s c) = c /\ sin (Ratan2 s c) = s.
Proof.
  intros H. destruct (atan2_angle s c) as [A [B C]].
  - destruct (Req_dec c 0); [right|left]; nra.
  - rewrite H, sqrt_1 in *. lra.
Qed.

Lemma wrap_spec a : let w := Ratan2 (sin a) (cos a) in - PI < w <= PI /\ cos w = cos a /\ sin w = sin a.
Proof. apply atan2_unit. pose proof (sin2_cos2 a). unfold Rsqr in *. lra. Qed.

(** angles with the same sine and cosine differ by a multiple of 2 pi *)
Lemma same_angle a b : cos a = cos b -> sin a = sin b -> exists k : Z, a = b + 2 * IZR k * PI.
Proof.
  intros Hc Hs.
  assert (Hd : cos (a - b) = 1). { rewrite cos_minus, Hc, Hs. pose proof (sin2_cos2 b). unfold Rsqr in *. lra. }
  assert (Hsin : sin ((a - b) / 2) = 0).
  { replace (a - b) with (2 * ((a - b) / 2)) in Hd by field. rewrite cos_2a_sin in Hd. nra. }
  destruct (sin_eq_0_0 _ Hsin) as [k Hk]. exists k. lra.
Qed.

Lemma angle_unique a b : cos a = cos b -> sin a = sin b -> - PI < a <= PI -> - PI < b <= PI -> a = b.
Proof.
  intros Hc Hs Ha Hb. destruct (same_angle a b Hc Hs) as [k Hk]. pose proof PI_RGT_0 as HP.
  assert (k = 0)%Z.
  { assert (-1 < IZR k < 1) as [K1 K2]. { split; nra. }
    apply lt_IZR in K1. apply lt_IZR in K2. lia. }
  subst k. lra.
Qed.

Lemma wrap_id a : - PI < a <= PI -> Ratan2 (sin a) (cos a) = a.
Proof. intros H. destruct (wrap_spec a) as [A [B C]]. apply angle_unique; auto. Qed.
