(** compute_inverse_right_jacobian_so3 inside its small-angle window: nearly the inverse of the derivative of the exponential map. *)
From Coq Require Import Reals Lra Psatz Bool List ZArith QArith Nsatz.
From Coquelicot Require Import Coquelicot.
From Verif Require Import Base SpecOpt Real Geom SpecGeom Trig VarsLemmas GeomR GeomExp GeomLog GeomJac GeomLeft.
Local Open Scope R_scope.
Set Bullet Behavior "Strict Subproofs".

(** the exact inverse *)
Definition exact_inverse (t : R) (a : v3 RN) : m3 RN :=
  m3sub (m3add (m3scale (/ 2 * t * / tan (/ 2 * t)) m3id) (m3scale (1 - / 2 * t * / tan (/ 2 * t)) (m3outer a a))) (m3scale (/ 2 * t) (skew a)).
Lemma exact_inverts (t : R) (a v : v3 RN) : length2 a = 1 -> 0 < t -> cos (/ 2 * t) <> 0 -> sin (/ 2 * t) <> 0 -> m3v (exact_inverse t a) (left_jac t a v) = v.
Proof.
  intros U B C S. unfold exact_inverse.
  destruct (half_angle t C S) as [H1 H2]. set (k := / tan (/ 2 * t)) in *. clearbody k. clear C S.
  pose proof (sin2_cos2 t) as P. unfold Rsqr in P. assert (I1 : / t * t = 1) by (apply Rinv_l; lra). unfold left_jac, dot3.
  assert (Hh : 2 * / 2 = 1) by lra.
  dv a. dv v. gx in U. gx.
  set (iv := / t) in *; set (sn := sin t) in *; set (cs := cos t) in *; set (hf := / 2) in *; clearbody sn cs; clearbody iv; clearbody hf; clear - U P I1 Hh H1 H2.
  f_equal; nsz.
Qed.
Lemma cot_bound x : 0 < x < 1 -> 0 <= 1 - x * / tan x <= x * x.
Proof.
  intros [A B]. pose proof pi_bounds as PB. assert (C : 0 < cos x) by (apply cos_gt_0; lra). assert (D : 0 < sin x) by (apply sin_gt_0; lra).
  assert (E : x * / tan x = x * cos x / sin x) by (unfold tan; field; lra). rewrite E.
  assert (F : sin x < x) by (apply sin_lt_x; exact A).
  assert (G : 1 - x * x <= cos x).
  { pose proof (cos_2a_sin (x / 2)) as K. replace (2 * (x / 2)) with x in K by field. rewrite K.
    assert (0 < sin (x / 2)) by (apply sin_gt_0; lra). assert (sin (x / 2) < x / 2) by (apply sin_lt_x; lra). nra. }
  assert (H : x * cos x <= sin x).
  { destruct (MVT_cor2 (fun y => sin y - y * cos y) (fun y => y * sin y) 0 x A) as (c & K & Hc).
    - intros c Hc. replace (c * sin c) with (cos c - (1 * cos c + c * - sin c)) by ring.
      apply derivable_pt_lim_minus; [apply derivable_pt_lim_sin|]. apply derivable_pt_lim_mult; [apply derivable_pt_lim_id|apply derivable_pt_lim_cos].
    - rewrite sin_0 in K. assert (0 < sin c) by (apply sin_gt_0; lra). assert (0 <= c * sin c * (x - 0)) by (repeat apply Rmult_le_pos; lra). lra. }
  assert (I1 : / sin x * sin x = 1) by (apply Rinv_l; lra). assert (0 < / sin x) by (apply Rinv_0_lt_compat; exact D). unfold Rdiv. split.
  - assert (x * cos x * / sin x <= sin x * / sin x) by (apply Rmult_le_compat_r; lra). lra.
  - assert ((1 - x * x) * sin x <= x * cos x).
    { assert ((1 - x * x) * sin x <= (1 - x * x) * x) by (apply Rmult_le_compat_l; nra). assert ((1 - x * x) * x <= cos x * x) by (apply Rmult_le_compat_r; lra). lra. }
    assert ((1 - x * x) * sin x * / sin x <= x * cos x * / sin x) by (apply Rmult_le_compat_r; lra). rewrite Rmult_assoc, (Rmult_comm (sin x)), I1, Rmult_1_r in H2. lra.
Qed.
Lemma tiny_value w : len w < / 100000000 -> inv_right_jacobian (N:=RN) w = Ok (m3sub m3id (m3scale (/ 2) (skew w))).
Proof.
  intros L. unfold inv_right_jacobian. cbv zeta. rewrite v3sq_len.
  match goal with |- (if ?b then _ else _) = _ => replace b with true end; [cbn [nlit RN]; rewrite qh; reflexivity|].
  symmetry. apply Rltb_true. cbn. unfold Q2R; simpl. lra.
Qed.
(** the part of [d] across the unit vector [a] *)
Lemma across_le (a d : v3 RN) : length2 a = 1 -> len (v3sub d (v3scale (dot3 a d) a)) <= len d.
Proof.
  intros U. apply sqrt_le_1_alt. unfold dot3. dv a. dv d. gx in U. gx.
  assert (E : forall p q r s u v : R, p*p+q*q+r*r=1 -> let k := p*s+q*u+r*v in (s-k*p)*(s-k*p)+(u-k*q)*(u-k*q)+(v-k*r)*(v-k*r) = s*s+u*u+v*v - k*k) by (intros; subst k; nsatz).
  rewrite E by lra. match goal with |- _ - ?k * ?k <= _ => pose proof (Rle_0_sqr k) as K; unfold Rsqr in K; lra end.
Qed.
(** for 1e-10 < |w| < 1e-8: M d differs from v by less than 1e-16 of the size of d *)
Lemma tiny_inverse (w v : v3 RN) : / 10000000000 < len w < / 100000000 -> exists M d, inv_right_jacobian w = Ok M /\
  turning (fun s : R => exp_so3 (v3add w (v3scale s v))) (exp_so3 w) d /\
  forall i, (i < 3)%nat -> Rabs (sum3 (fun k => ent M i k * coord d k) - coord v i) <= / 10000000000000000 * len d.
Proof.
  intros [L1 L2]. pose proof (axis_scale w ltac:(lra)) as E. pose proof (unit_axis w ltac:(lra)) as U. set (a := v3div w (len w)) in *. set (t := len w) in *.
  eexists. exists (left_jac t a v). split; [apply tiny_value; exact L2|]. pose proof (exp_turning t a v U ltac:(lra)) as Tn. rewrite E in Tn. split; [exact Tn|].
  pose proof pi_bounds as PB. assert (C : 0 < cos (/ 2 * t)) by (apply cos_gt_0; lra). assert (D : 0 < sin (/ 2 * t)) by (apply sin_gt_0; lra).
  pose proof (exact_inverts t a v U ltac:(lra) ltac:(lra) ltac:(lra)) as X. set (d := left_jac t a v) in *. clearbody d.
  destruct (cot_bound (/ 2 * t) ltac:(lra)) as [B1 B2]. assert (B3 : / 2 * t * (/ 2 * t) <= / 10000000000000000).
  { apply Rle_trans with (/ 100000000 * / 100000000); [apply Rmult_le_compat; lra|lra]. }
  unfold exact_inverse in X. set (q := / 2 * t * / tan (/ 2 * t)) in *. clearbody q.
  pose proof (across_le a d U) as AL. pose proof (coord_bound (v3sub d (v3scale (dot3 a d) a))) as CB. pose proof (len_nonneg d) as LN.
  assert (K : forall i, (i < 3)%nat -> sum3 (fun k => ent (m3sub m3id (m3scale (/ 2) (skew w))) i k * coord d k) - coord v i = (1 - q) * coord (v3sub d (v3scale (dot3 a d) a)) i).
  { intros i Hi. rewrite <- X, <- E. unfold dot3. clear -Hi. clearbody a t. dv a. dv d. destruct i as [|[|[|i]]]; [| | |lia]; gx; ring. }
  intros i Hi. rewrite (K i Hi), Rabs_mult, (Rabs_pos_eq (1 - q)) by lra. apply Rmult_le_compat; [lra|apply Rabs_pos|lra|].
  destruct i as [|[|[|i]]]; [| | |lia]; cbn [coord]; lra.
Qed.
