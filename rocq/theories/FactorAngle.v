(** Derivatives of wrapped angles. *)
From Coq Require Import List Arith ZArith QArith Bool Reals Lra Lia Psatz.
From Coquelicot Require Import Coquelicot.
From Verif Require Import Base SpecOpt Real Trig Geom Vars FactorCalc.
Import ListNotations.
Local Open Scope R_scope.

Lemma hyp_root x y : 0 < x * x + y * y -> 0 < sqrt (x * x + y * y) /\ sqrt (x * x + y * y) * sqrt (x * x + y * y) = x * x + y * y.
Proof. intros H. split; [apply sqrt_lt_R0; exact H|apply sqrt_sqrt; lra]. Qed.
Lemma hyp_ne x y : 0 < x * x + y * y -> x <> 0 \/ y <> 0.
Proof. intros H. destruct (Req_dec x 0); [right|left; assumption]. intros ->. subst. lra. Qed.
(** away from the negative x axis *)
Lemma atan2_half v u : 0 < sqrt (u * u + v * v) + u -> 0 < u * u + v * v -> Ratan2 v u = 2 * atan (v / (sqrt (u * u + v * v) + u)).
Proof.
  intros Hs Hp. destruct (atan2_angle v u (hyp_ne _ _ Hp)) as (B & C & S). destruct (hyp_root _ _ Hp) as (R0 & _).
  set (r := sqrt (u * u + v * v)) in *. set (t := Ratan2 v u) in *. pose proof PI_RGT_0 as HPI.
  assert (Ht : t < PI).
  { destruct (Rle_lt_or_eq_dec _ _ (proj2 B)) as [L|E]; [exact L|]. rewrite E, cos_PI in C. lra. }
  assert (Hc : 0 < cos (t / 2)) by (apply cos_gt_0; lra).
  assert (E : v / (r + u) = tan (t / 2)).
  { assert (S2 : sin t = 2 * sin (t / 2) * cos (t / 2)) by (replace t with (2 * (t / 2)) at 1 by field; apply sin_2a).
    assert (C2 : cos t = 2 * cos (t / 2) * cos (t / 2) - 1) by (replace t with (2 * (t / 2)) at 1 by field; apply cos_2a_cos).
    replace (r + u) with (2 * cos (t / 2) * cos (t / 2) * r) by (rewrite <- C at 1; rewrite C2; ring).
    rewrite <- S, S2. unfold tan. field. split; lra. }
  rewrite E. rewrite atan_tan by lra. field.
Qed.
Lemma d_atan2 (u v : R -> R) (du dv : R) : is_derive u 0 du -> is_derive v 0 dv -> 0 < u 0 * u 0 + v 0 * v 0 -> 0 < sqrt (u 0 * u 0 + v 0 * v 0) + u 0 ->
  is_derive (fun s => Ratan2 (v s) (u s)) 0 ((u 0 * dv - v 0 * du) / (u 0 * u 0 + v 0 * v 0)).
Proof.
  intros Hu Hv Hp Hs.
  assert (DS : is_derive (fun s => u s * u s + v s * v s) 0 (2 * (u 0 * du + v 0 * dv))) by (der; ring).
  destruct (hyp_root _ _ Hp) as (R0 & RR).
  assert (DR : is_derive (fun s => sqrt (u s * u s + v s * v s)) 0 ((u 0 * du + v 0 * dv) / sqrt (u 0 * u 0 + v 0 * v 0))).
  { eapply d_eq; [apply d_sqrt; [exact DS|exact Hp]|]. cbv beta. field. lra. }
  assert (DN : is_derive (fun s => sqrt (u s * u s + v s * v s) + u s) 0 ((u 0 * du + v 0 * dv) / sqrt (u 0 * u 0 + v 0 * v 0) + du)) by (apply d_plus; assumption).
  eapply is_derive_ext_loc with (f := fun s => 2 * atan (v s / (sqrt (u s * u s + v s * v s) + u s))).
  { eapply filter_imp; [|apply filter_and; [apply (near_gt _ _ 0 _ DS Hp)|apply (near_gt _ _ 0 _ DN Hs)]]. cbv beta. intros s [H1 H2]. symmetry. apply atan2_half; assumption. }
  assert (DA : is_derive atan (v 0 / (sqrt (u 0 * u 0 + v 0 * v 0) + u 0)) (/ (1 + (v 0 / (sqrt (u 0 * u 0 + v 0 * v 0) + u 0))²))).
  { rewrite Rsqr_pow2. apply is_derive_Reals. apply derivable_pt_lim_atan. }
  eapply d_eq.
  { apply d_scal. apply (d_comp atan (fun s => v s / (sqrt (u s * u s + v s * v s) + u s))); [exact DA|].
    apply d_div; [exact Hv|exact DN|lra]. }
  cbv beta. set (r := sqrt (u 0 * u 0 + v 0 * v 0)) in *. clearbody r. rewrite <- RR in *. clear DS DR DN DA Hp Hu Hv.
  set (a := u 0) in *. set (b := v 0) in *. clearbody a b. unfold Rsqr.
  assert (N1 : (r + a) * (r + a) + b * b <> 0) by nra.
  assert (E : b * b = r * r - a * a) by lra.
  replace (/ (1 + b / (r + a) * (b / (r + a)))) with ((r + a) * (r + a) / ((r + a) * (r + a) + b * b)) by (field; split; nra).
  replace ((r + a) * (r + a) + b * b) with (2 * r * (r + a)) by (rewrite E; ring).
  transitivity ((dv * (r * (r + a)) - b * ((a * du + b * dv) + du * r)) / (r * r * (r + a))); [field; lra|].
  replace (dv * (r * (r + a)) - b * (a * du + b * dv + du * r)) with (dv * (r * (r + a)) - (b * b) * dv - b * du * (a + r)) by ring.
  rewrite E. field. lra.
Qed.
(** atan2(y, x) - o, wrapped *)
Lemma wrap_atan2 (y x o : R) : 0 < x * x + y * y ->
  wrap_angle (N:=RN) (Ratan2 y x - o) = Ratan2 (y * cos o - x * sin o) (x * cos o + y * sin o).
Proof.
  intros Hp. destruct (atan2_angle y x (hyp_ne _ _ Hp)) as (_ & C & S). destruct (hyp_root _ _ Hp) as (R0 & RR).
  pose proof (sin2_cos2 o) as SC. unfold Rsqr in SC.
  set (u := x * cos o + y * sin o). set (v := y * cos o - x * sin o).
  assert (EQ : u * u + v * v = x * x + y * y).
  { unfold u, v. transitivity ((x * x + y * y) * (sin o * sin o + cos o * cos o)); [ring|rewrite SC; ring]. }
  assert (Hp' : 0 < u * u + v * v) by lra.
  destruct (atan2_angle v u (hyp_ne _ _ Hp')) as (B' & C' & S'). rewrite EQ in C', S'. set (r := sqrt (x * x + y * y)) in *.
  destruct (wrap_spec (Ratan2 y x - o)) as (B & Cw & Sw). change (wrap_angle (N:=RN) (Ratan2 y x - o)) with (Ratan2 (sin (Ratan2 y x - o)) (cos (Ratan2 y x - o))).
  apply angle_unique; [| |exact B|exact B'].
  { rewrite Cw, cos_minus. apply (Rmult_eq_reg_r r); [|lra]. rewrite C'. unfold u.
    transitivity ((cos (Ratan2 y x) * r) * cos o + (sin (Ratan2 y x) * r) * sin o); [ring|]. rewrite C, S. reflexivity. }
  { rewrite Sw, sin_minus. apply (Rmult_eq_reg_r r); [|lra]. rewrite S'. unfold v.
    transitivity ((sin (Ratan2 y x) * r) * cos o - (cos (Ratan2 y x) * r) * sin o); [ring|]. rewrite C, S. reflexivity. }
Qed.
(** off the negative axis *)
Lemma off_axis v u : 0 < u * u + v * v -> Ratan2 v u <> PI -> 0 < sqrt (u * u + v * v) + u.
Proof.
  intros Hp Hn. destruct (atan2_angle v u (hyp_ne _ _ Hp)) as (B & C & S). destruct (hyp_root _ _ Hp) as (R0 & RR).
  set (r := sqrt (u * u + v * v)) in *. destruct (Rlt_le_dec 0 (r + u)) as [L|L]; [exact L|exfalso].
  assert (Hc : cos (Ratan2 v u) = -1).
  { assert (cos (Ratan2 v u) * r <= -1 * r) by lra. assert (cos (Ratan2 v u) <= -1) by (apply (Rmult_le_reg_r r); lra).
    pose proof (COS_bound (Ratan2 v u)). lra. }
  assert (Hsn : sin (Ratan2 v u) = 0) by (pose proof (sin2_cos2 (Ratan2 v u)) as Q; unfold Rsqr in Q; rewrite Hc in Q; nra).
  apply Hn. pose proof PI_RGT_0. apply angle_unique; [rewrite cos_PI; exact Hc|rewrite sin_PI; exact Hsn|exact B|lra].
Qed.
(** an angle error whose true angle U - o is differentiable *)
Lemma d_wrap (A U : R -> R) (du : R) : is_derive U 0 du -> (forall s, cos (A s) = cos (U s) /\ sin (A s) = sin (U s)) -> wrap_angle (N:=RN) (A 0) <> PI ->
  is_derive (fun s => wrap_angle (N:=RN) (A s)) 0 du.
Proof.
  intros DU W Hn. eapply d_ext with (f := fun s => Ratan2 (sin (U s)) (cos (U s))).
  { intros s. change (wrap_angle (N:=RN) (A s)) with (Ratan2 (sin (A s)) (cos (A s))). rewrite (proj1 (W s)), (proj2 (W s)). reflexivity. }
  pose proof (sin2_cos2 (U 0)) as SC. unfold Rsqr in SC.
  assert (Hp : cos (U 0) * cos (U 0) + sin (U 0) * sin (U 0) = 1) by lra.
  eapply d_eq; [apply (d_atan2 (fun s => cos (U s)) (fun s => sin (U s))); [apply d_cos; exact DU|apply d_sin; exact DU|lra|]|].
  { apply off_axis; [lra|]. change (wrap_angle (N:=RN) (A 0)) with (Ratan2 (sin (A 0)) (cos (A 0))) in Hn. rewrite (proj1 (W 0)), (proj2 (W 0)) in Hn. exact Hn. }
  cbv beta. rewrite Hp. replace (cos (U 0) * (du * cos (U 0)) - sin (U 0) * (du * - sin (U 0))) with (du * (cos (U 0) * cos (U 0) + sin (U 0) * sin (U 0))) by ring.
  rewrite Hp. field.
Qed.
