(** The matrix of compute_inverse_right_jacobian_so3 inverts the derivative of the exponential map. *)
From Coq Require Import Reals Lra Psatz Bool List ZArith QArith Nsatz.
From Coquelicot Require Import Coquelicot.
From Verif Require Import Base SpecOpt Real Geom SpecGeom Trig VarsLemmas GeomR GeomExp GeomLog GeomJac.
Local Open Scope R_scope.

Definition dot3 (a b : v3 RN) : R := vx a * vx b + vy a * vy b + vz a * vz b.
Lemma len_derive (w v : v3 RN) : 0 < len w -> is_derive (fun s : R => len (v3add w (v3scale s v))) 0 (dot3 w v / len w).
Proof.
  intros P. unfold len in *. dv w. dv v. cbn in P. gx in P.
  assert (Q : 0 < x * x + y * y + z * z) by (apply sqrt_lt_0_alt; rewrite sqrt_0; exact P).
  apply (is_derive_ext (fun s => sqrt ((x + s * x0) * (x + s * x0) + (y + s * y0) * (y + s * y0) + (z + s * z0) * (z + s * z0)))); [intros s; gx; reflexivity|].
  assert (E0 : forall p q : R, p + 0 * q = p) by (intros; ring).
  auto_derive; rewrite ?E0; [exact Q|]. unfold dot3. gx. field. lra.
Qed.

(** angular velocity of Exp(w + s v) at s = 0 *)
Definition left_jac (t : R) (a v : v3 RN) : v3 RN :=
  let k := dot3 a v in
  let b := v3scale (/ t) (v3sub v (v3scale k a)) in
  v3add (v3add (v3scale k a) (v3scale (sin t) b)) (v3scale (1 - cos t) (v3cross a b)).
Lemma exp_turning (t : R) (a v : v3 RN) : length2 a = 1 -> / 10000000000 < t ->
  turning (fun s : R => exp_so3 (v3add (v3scale t a) (v3scale s v))) (exp_so3 (v3scale t a)) (left_jac t a v).
Proof.
  intros U T. set (w := v3scale (N:=RN) t a). assert (Lw : len w = t) by (unfold w; rewrite (len_scale t a U); apply Rabs_pos_eq; lra).
  assert (E0 : v3add w (v3scale 0 v) = w) by (unfold w; dv a; dv v; gring).
  split; [rewrite E0; reflexivity|]. intros i j Hi Hj.
  pose proof (len_derive w v ltac:(lra)) as D. rewrite Lw in D.
  set (g := fun s : R => len (v3add w (v3scale s v))) in *.
  assert (G0 : g 0 = t) by (unfold g; rewrite E0; exact Lw).
  assert (LOC : locally 0 (fun s : R => ent (aa_matrix (g s) (v3div (v3add w (v3scale s v)) (g s))) i j = ent (exp_so3 (v3add w (v3scale s v))) i j)).
  { assert (CT : continuous g 0) by (apply (ex_derive_continuous (K:=R_AbsRing) (V:=R_NormedModule)); eexists; exact D).
    assert (NB : locally 0 (fun s => / 10000000000 < g s)) by (apply (CT (fun y => / 10000000000 < y)); rewrite G0; apply open_gt; exact T).
    revert NB. apply filter_imp. intros s NB. unfold g in *. rewrite exp_large; [reflexivity|lra]. }
  apply (is_derive_ext_loc _ _ _ _ LOC). clear LOC. rewrite exp_large by lra. rewrite Lw.
  assert (Ew : v3div w t = a) by (unfold w; apply div_scale; lra). rewrite Ew.
  assert (Dg : dot3 w v / t = dot3 a v) by (unfold dot3, w; dv a; dv v; gx; field; lra). rewrite Dg in D. clear Dg Ew E0 Lw.
  assert (D' : is_derive g 0 (dot3 a v)) by exact D. clear D. clearbody g. subst w.
  assert (DG : Derive (fun x : R => g x) 0 = dot3 a v) by (apply is_derive_unique; exact D').
  assert (EG : ex_derive (fun x : R => g x) 0) by (eexists; exact D').
  assert (I1 : / t * t = 1) by (apply Rinv_l; lra). pose proof (sin2_cos2 t) as P. unfold Rsqr in P. unfold left_jac, dot3 in *.
  dv a. dv v. gx in U. cbn [vx vy vz] in *.
  destruct i as [|[|[|i]]]; [| | |lia]; destruct j as [|[|[|j]]]; try lia.
  all: eapply is_derive_ext; [intros s; gx; reflexivity|].
  all: auto_derive; [rewrite ?G0; repeat split; first [exact I|exact EG|apply Rgt_not_eq; lra]|].
  all: rewrite ?DG, ?G0; gx.
  all: assert (F1 : forall p q : R, (t * p + 0 * q) * / t = p) by (intros; field; lra);
       assert (F2 : forall p q r : R, (t * p + 0 * q) * (r * / (t * t)) = p * r * / t) by (intros; field; lra).
  all: rewrite ?F1, ?F2; clear F1 F2 DG EG D' G0.
  all: set (iv := / t) in *; set (sn := sin t) in *; set (cs := cos t) in *; clearbody sn cs; clearbody iv; clear - U P.
  all: nsz.
Qed.

(** compute_inverse_right_jacobian_so3 away from its thresholds *)
Lemma jac_gen t a : length2 a = 1 -> / 100000000 <= t -> / 1000000000000 <= Rabs (tan (/ 2 * t)) ->
  inv_right_jacobian (v3scale t a) =
  Ok (m3sub (m3add (m3scale (/ 2 * t * / tan (/ 2 * t)) m3id) (m3scale (1 - / 2 * t * / tan (/ 2 * t)) (m3outer a a))) (m3scale (/ 2 * t) (skew a))).
Proof.
  intros U B T. unfold inv_right_jacobian. cbv zeta. rewrite v3sq_len, (len_scale t a U), Rabs_pos_eq by lra.
  rewrite div_scale by lra.
  match goal with |- (if ?b then _ else _) = _ => replace b with false end.
  2:{ symmetry. apply Rltb_false. cbn. unfold Q2R; simpl. lra. }
  match goal with |- (if ?b then _ else _) = _ => replace b with false end.
  2:{ symmetry. apply Rltb_false. cbn. rewrite qh. unfold Q2R at 1; simpl. lra. }
  assert (Eh : nmul (n:=RN) (nlit (n:=RN) (1#2)) t = / 2 * t) by (cbn; rewrite qh; reflexivity).
  rewrite Eh. change (ntan (n:=RN) (/ 2 * t)) with (tan (/ 2 * t)).
  assert (Ec : ndiv (n:=RN) nunit (tan (/ 2 * t)) = / tan (/ 2 * t)) by (cbn; rewrite q1; unfold Rdiv; apply Rmult_1_l).
  rewrite Ec. unfold nunit. cbn [nlit RN]. rewrite q1. reflexivity.
Qed.
Lemma half_angle t : cos (/ 2 * t) <> 0 -> sin (/ 2 * t) <> 0 -> / tan (/ 2 * t) * sin t = 1 + cos t /\ / tan (/ 2 * t) * (1 - cos t) = sin t.
Proof.
  intros C S.
  assert (E1 : sin t = 2 * sin (/ 2 * t) * cos (/ 2 * t)) by (rewrite <- sin_2a; f_equal; field).
  assert (E2 : cos t = 2 * cos (/ 2 * t) * cos (/ 2 * t) - 1) by (rewrite <- cos_2a_cos; f_equal; field).
  assert (E3 : cos t = 1 - 2 * sin (/ 2 * t) * sin (/ 2 * t)) by (rewrite <- cos_2a_sin; f_equal; field).
  unfold tan. split; [rewrite E1, E2|rewrite E1, E3]; field; auto.
Qed.
Lemma jac_inverts (t : R) (a v : v3 RN) : length2 a = 1 -> / 100000000 <= t -> cos (/ 2 * t) <> 0 -> / 1000000000000 <= Rabs (tan (/ 2 * t)) ->
  exists M, inv_right_jacobian (v3scale t a) = Ok M /\ m3v M (left_jac t a v) = v.
Proof.
  intros U B C T. eexists. split; [apply jac_gen; auto|].
  assert (S : sin (/ 2 * t) <> 0). { intros S. unfold tan in T. rewrite S in T. unfold Rdiv in T. rewrite Rmult_0_l, Rabs_R0 in T. lra. }
  destruct (half_angle t C S) as [H1 H2]. set (k := / tan (/ 2 * t)) in *. clearbody k. clear C T S.
  pose proof (sin2_cos2 t) as P. unfold Rsqr in P. assert (I1 : / t * t = 1) by (apply Rinv_l; lra). unfold left_jac, dot3.
  assert (Hh : 2 * / 2 = 1) by lra.
  dv a. dv v. gx in U. gx.
  set (iv := / t) in *; set (sn := sin t) in *; set (cs := cos t) in *; set (hf := / 2) in *; clearbody sn cs; clearbody iv; clearbody hf; clear - U P I1 Hh H1 H2.
  f_equal; nsz.
Qed.
(** the angular velocity of a curve is determined *)
Lemma turning_unique (C : R -> m3 RN) a d e : rotation a -> turning C a d -> turning C a e -> d = e.
Proof.
  intros H [_ D] [_ E].
  assert (K : forall i j, (i < 3)%nat -> (j < 3)%nat -> sum3 (fun k => crossm d i k * ent a k j) = sum3 (fun k => crossm e i k * ent a k j)).
  { intros i j Hi Hj. rewrite <- (is_derive_unique _ _ _ (D i j Hi Hj)). apply is_derive_unique. apply (E i j Hi Hj). }
  assert (Ek : m3mul (skew d) a = m3mul (skew e) a).
  { apply m3_eq. intros i j Hi Hj. specialize (K i j Hi Hj). clear D E H. dm a. dv d. dv e.
    destruct i as [|[|[|i]]]; [| | |lia]; destruct j as [|[|[|j]]]; try lia; gx in K; gx; exact K. }
  assert (Es : skew d = skew e).
  { apply (f_equal (fun m => m3mul m (m3t a))) in Ek. rewrite !m3mul_assoc, !(rot_mul_t a H), !m3mul_id_r in Ek. exact Ek. }
  dv d. dv e. apply m3_inj in Es. f_equal; tauto.
Qed.
(** for every direction v, Exp(w + s v) starts to turn with an angular velocity d, and M d = v *)
Lemma inverse_jacobian (w v : v3 RN) : / 100000000 <= len w -> cos (/ 2 * len w) <> 0 -> / 1000000000000 <= Rabs (tan (/ 2 * len w)) ->
  exists M d, inv_right_jacobian w = Ok M /\ turning (fun s : R => exp_so3 (v3add w (v3scale s v))) (exp_so3 w) d /\ m3v M d = v.
Proof.
  intros L C T. pose proof (axis_scale w ltac:(lra)) as E. pose proof (unit_axis w ltac:(lra)) as U. set (a := v3div w (len w)) in *. set (t := len w) in *.
  destruct (jac_inverts t a v U L C T) as (M & EM & Ev). exists M, (left_jac t a v). pose proof (exp_turning t a v U ltac:(lra)) as Tn. rewrite E in EM, Tn. auto.
Qed.
