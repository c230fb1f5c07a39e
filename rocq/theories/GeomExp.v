(** The exponential map and Rodrigues' formula over the reals. *)
From Coq Require Import Reals Lra Psatz Bool List ZArith QArith Nsatz.
From Coquelicot Require Import Coquelicot.
From Verif Require Import Base SpecOpt Real Geom SpecGeom Trig VarsLemmas GeomR.
Local Open Scope R_scope.

Lemma sq3_derive (f0 f1 f2 g0 g1 g2 : R -> R) t a0 a1 a2 b0 b1 b2 :
  is_derive f0 t a0 -> is_derive f1 t a1 -> is_derive f2 t a2 -> is_derive g0 t b0 -> is_derive g1 t b1 -> is_derive g2 t b2 ->
  is_derive (fun s => (f0 s - g0 s) * (f0 s - g0 s) + (f1 s - g1 s) * (f1 s - g1 s) + (f2 s - g2 s) * (f2 s - g2 s)) t
    (2 * ((f0 t - g0 t) * (a0 - b0) + (f1 t - g1 t) * (a1 - b1) + (f2 t - g2 t) * (a2 - b2))).
Proof.
  intros A0 A1 A2 B0 B1 B2. auto_derive.
  - repeat split; eexists; eassumption.
  - replace (Derive (fun x => f0 x) t) with a0 by (symmetry; apply is_derive_unique; exact A0).
    replace (Derive (fun x => f1 x) t) with a1 by (symmetry; apply is_derive_unique; exact A1).
    replace (Derive (fun x => f2 x) t) with a2 by (symmetry; apply is_derive_unique; exact A2).
    replace (Derive (fun x => g0 x) t) with b0 by (symmetry; apply is_derive_unique; exact B0).
    replace (Derive (fun x => g1 x) t) with b1 by (symmetry; apply is_derive_unique; exact B1).
    replace (Derive (fun x => g2 x) t) with b2 by (symmetry; apply is_derive_unique; exact B2).
    ring.
Qed.

Lemma sq3_zero a b c : a * a + b * b + c * c = 0 -> a = 0 /\ b = 0 /\ c = 0.
Proof.
  intros H. pose proof (Rle_0_sqr a). pose proof (Rle_0_sqr b). pose proof (Rle_0_sqr c). unfold Rsqr in *.
  repeat split; apply Rsqr_0_uniq; unfold Rsqr; lra.
Qed.
(** ** the motion with constant angular velocity is unique *)
Lemma motion_unique w X Y : motion w X -> motion w Y -> forall i j, (i < 3)%nat -> (j < 3)%nat -> X 1 i j = Y 1 i j.
Proof.
  intros [X0 X1] [Y0 Y1].
  assert (K : forall j, (j < 3)%nat -> let f := fun t => sum3 (fun i => (X t i j - Y t i j) * (X t i j - Y t i j)) in f 0 = f 1).
  { intros j Hj f. apply (eq_is_derive f 0 1); [|lra]. intros t _. unfold f, sum3.
    pose proof (X1 t 0%nat j ltac:(lia) Hj) as A0. pose proof (X1 t 1%nat j ltac:(lia) Hj) as A1. pose proof (X1 t 2%nat j ltac:(lia) Hj) as A2.
    pose proof (Y1 t 0%nat j ltac:(lia) Hj) as B0. pose proof (Y1 t 1%nat j ltac:(lia) Hj) as B1. pose proof (Y1 t 2%nat j ltac:(lia) Hj) as B2.
    pose proof (sq3_derive _ _ _ _ _ _ _ _ _ _ _ _ _ A0 A1 A2 B0 B1 B2) as Q. cbn beta in Q. revert Q.
    match goal with |- is_derive _ _ ?u -> is_derive _ _ ?v => replace u with v; [auto|] end.
    unfold sum3, crossm. change zero with 0. match goal with |- @eq _ ?a ?b => change (@eq R a b) end. ring. }
  intros i j Hi Hj. specialize (K j Hj). unfold sum3 in K. simpl in K.
  rewrite !X0, !Y0 in K by lia.
  set (a := X 1 0%nat j) in *; set (b := X 1 1%nat j) in *; set (c := X 1 2%nat j) in *.
  set (a' := Y 1 0%nat j) in *; set (b' := Y 1 1%nat j) in *; set (c' := Y 1 2%nat j) in *.
  assert (a - a' = 0 /\ b - b' = 0 /\ c - c' = 0) by (apply sq3_zero; rewrite <- K; ring).
  destruct i as [|[|[|i]]]; [| | |lia]; fold a b c a' b' c'; lra.
Qed.
Lemma rotation_by_unique w a b : rotation_by w a -> rotation_by w b -> a = b.
Proof.
  intros [X [HX Ha]] [Y [HY Hb]]. apply m3_eq. intros i j Hi Hj. rewrite Ha, Hb by auto. apply (motion_unique w); auto.
Qed.

(** ** Rodrigues' formula *)
Lemma aa_rotation t a : length2 a = 1 -> rotation (aa_matrix t a).
Proof.
  intros H. apply rotation_alg. dv a. gx in H. pose proof (sin2_cos2 t) as P. unfold Rsqr in P. unfold mdet. gx.
  set (s := sin t) in *. set (c := cos t) in *. clearbody s c. split; [f_equal|]; nsz.
Qed.
Lemma aa_motion t a : length2 a = 1 -> motion (v3scale t a) (fun s => ent (aa_matrix (t * s) a)).
Proof.
  intros H. dv a. gx in H. split.
  - intros i j Hi Hj. rewrite Rmult_0_r.
    destruct i as [|[|[|i]]]; [| | |lia]; destruct j as [|[|[|j]]]; try lia; gx; rewrite ?sin_0, ?cos_0; unfold delta; simpl; ring.
  - intros s i j Hi Hj. pose proof (sin2_cos2 (t * s)) as P. unfold Rsqr in P.
    destruct i as [|[|[|i]]]; [| | |lia]; destruct j as [|[|[|j]]]; try lia; gx; (auto_derive; [exact I|]);
    set (u := sin (t * s)) in *; set (c := cos (t * s)) in *; clearbody u c; clear P Hi Hj; nsz.
Qed.
Lemma aa_by t a : length2 a = 1 -> rotation_by (v3scale t a) (aa_matrix t a).
Proof.
  intros H. exists (fun s => ent (aa_matrix (t * s) a)). split; [apply aa_motion; auto|]. intros. rewrite Rmult_1_r. reflexivity.
Qed.
Lemma zero_by : rotation_by v3zero m3id.
Proof.
  exists (fun _ => delta). split; [split; [reflexivity|]|].
  - intros t i j Hi Hj. replace (sum3 _) with 0; [apply (is_derive_const (K:=R_AbsRing) (V:=R_NormedModule))|].
    destruct i as [|[|[|i]]]; [| | |lia]; gx; ring.
  - intros i j Hi Hj. destruct i as [|[|[|i]]]; [| | |lia]; destruct j as [|[|[|j]]]; try lia; gx; reflexivity.
Qed.

Lemma unit_axis (w : v3 RN) : 0 < len w -> length2 (v3div w (len w)) = 1.
Proof.
  intros H. pose proof (len_sq w) as E. dv w. gx. set (l := len _) in *. clearbody l. gx in E. field_simplify; [|lra].
  apply Rmult_eq_reg_r with (l ^ 2); [|nra]. field_simplify; [|lra]. nra.
Qed.
Lemma axis_scale (w : v3 RN) : 0 < len w -> v3scale (len w) (v3div w (len w)) = w.
Proof. intros H. dv w. set (l := len _) in *. clearbody l. gx. f_equal; field; lra. Qed.
Lemma len_zero (w : v3 RN) : len w = 0 -> w = v3zero.
Proof.
  intros H. pose proof (len_sq w) as E. rewrite H in E. dv w. gx in E. gx. destruct (sq3_zero x y z) as [-> [-> ->]]; auto; lra.
Qed.
Lemma len0 : len v3zero = 0.
Proof. unfold len. gx. replace (0 * 0 + 0 * 0 + 0 * 0) with 0 by ring. apply sqrt_0. Qed.
Lemma len_scale s (a : v3 RN) : length2 a = 1 -> len (v3scale s a) = Rabs s.
Proof.
  intros H. unfold len. replace (length2 (v3scale s a)) with (s * s).
  - apply sqrt_Rsqr_abs.
  - dv a. gx. gx in H. nsatz.
Qed.
Lemma div_scale s (a : v3 RN) : s <> 0 -> v3div (v3scale s a) s = a.
Proof. intros H. dv a. gx. f_equal; field; auto. Qed.
(** every rotation vector turns into exactly one rotation *)
Lemma rotation_by_exists w : exists a, rotation_by w a /\ rotation a.
Proof.
  destruct (len_nonneg w) as [H|H].
  - exists (aa_matrix (len w) (v3div w (len w))). split; [|apply aa_rotation, unit_axis; auto].
    rewrite <- (axis_scale w H) at 1. apply aa_by, unit_axis; auto.
  - exists m3id. symmetry in H. apply len_zero in H. subst. split; [apply zero_by|apply rot_id].
Qed.
Lemma rotation_by_rotation w a : rotation_by w a -> rotation a.
Proof. intros H. destruct (rotation_by_exists w) as [b [B1 B2]]. rewrite (rotation_by_unique w a b H B1). auto. Qed.

(** ** ExpMapSO3 *)
Lemma exp_large (w : v3 RN) : / 10000000000 <= len w -> exp_so3 w = aa_matrix (len w) (v3div w (len w)).
Proof.
  intros H. unfold exp_so3. rewrite v3sq_len.
  replace (nltb (len w : RN) _) with false.
  2:{ symmetry. apply Rltb_false. cbn. unfold Q2R; simpl. lra. }
  assert (L : 0 < len w) by lra. pose proof (unit_axis w L) as U.
  set (a := v3div (N:=RN) w (len w)) in *. clearbody a. set (t := len w) in *. clearbody t. dv a. gx in U. gx. f_equal; nsz.
Qed.
Lemma exp_small (w : v3 RN) : len w < / 10000000000 -> exp_so3 w = m3add m3id (skew w).
Proof.
  intros H. unfold exp_so3. rewrite v3sq_len.
  replace (nltb (len w : RN) _) with true; [reflexivity|].
  symmetry. apply Rltb_true. cbn. unfold Q2R; simpl. lra.
Qed.
Lemma exp_zero : exp_so3 (N:=RN) v3zero = m3id.
Proof. rewrite exp_small; [gring|]. rewrite len0. lra. Qed.
(** the angles for which ExpMapSO3 does not use the first-order branch, or where that branch is exact *)
Definition exp_exact (w : v3 RN) : Prop := / 10000000000 <= len w \/ w = v3zero.
Lemma exp_by (w : v3 RN) : exp_exact w -> rotation_by w (exp_so3 w).
Proof.
  intros [H| ->].
  - rewrite exp_large by auto. rewrite <- (axis_scale w) at 1 by lra. apply aa_by, unit_axis. lra.
  - rewrite exp_zero. apply zero_by.
Qed.
Lemma exp_rotation (w : v3 RN) : exp_exact w -> rotation (exp_so3 w).
Proof. intros H. apply (rotation_by_rotation w). apply exp_by; auto. Qed.
Lemma aa_fixes t s a : length2 a = 1 -> m3v (aa_matrix t a) (v3scale s a) = v3scale s a.
Proof. intros U. dv a. gx in U. gx. set (si := sin t) in *; set (co := cos t) in *; clearbody si co. f_equal; nsz. Qed.
Lemma exp_fixes (w : v3 RN) : m3v (exp_so3 w) w = w.
Proof.
  destruct (Rle_or_lt (/ 10000000000) (len w)) as [H|H].
  - rewrite exp_large by auto. assert (L : 0 < len w) by lra. pose proof (unit_axis w L) as U.
    pose proof (aa_fixes (len w) (len w) _ U) as Q. rewrite (axis_scale w L) in Q. exact Q.
  - rewrite exp_small by auto. dv w. gring.
Qed.
Lemma len_neg (w : v3 RN) : len (v3neg w) = len w.
Proof. unfold len. f_equal. dv w. gx. ring. Qed.
Lemma exp_neg (w : v3 RN) : exp_so3 (v3neg w) = m3t (exp_so3 w).
Proof.
  destruct (Rle_or_lt (/ 10000000000) (len w)) as [H|H].
  - rewrite !exp_large by (rewrite ?len_neg; auto). rewrite len_neg. set (t := len w) in *. clearbody t.
    dv w. gx. f_equal; field; lra.
  - rewrite !exp_small by (rewrite ?len_neg; auto). dv w. gring.
Qed.
(** the first-order branch is within 1e-20 of orthonormal *)
Lemma coord_bound (w : v3 RN) : Rabs (vx w) <= len w /\ Rabs (vy w) <= len w /\ Rabs (vz w) <= len w.
Proof.
  pose proof (len_sq w) as E. pose proof (len_nonneg w) as P. set (l := len w) in *. clearbody l. dv w. gx in E. cbn [vx vy vz].
  repeat split; apply Rabs_le; nra.
Qed.
Lemma exp_almost (w : v3 RN) i j : (i < 3)%nat -> (j < 3)%nat ->
  Rabs (sum3 (fun k => ent (exp_so3 w) k i * ent (exp_so3 w) k j) - delta i j) <= / 100000000000000000000.
Proof.
  intros Hi Hj. destruct (Rle_or_lt (/ 10000000000) (len w)) as [H|H].
  - destruct (exp_rotation w (or_introl H)) as [A _]. rewrite A by auto. rewrite Rminus_diag_eq by auto. rewrite Rabs_R0. lra.
  - rewrite exp_small by auto. pose proof (len_sq w) as E. pose proof (len_nonneg w) as P. set (l := len w) in *. clearbody l.
    dv w. gx in E. assert (l * l <= / 100000000000000000000) by nra.
    destruct i as [|[|[|i]]]; [| | |lia]; destruct j as [|[|[|j]]]; try lia; unfold delta; cbn [Nat.eqb]; gx; apply Rabs_le; split; nra.
Qed.
