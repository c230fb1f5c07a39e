(** Corollaries and witnesses for the geometry properties. *)
From Coq Require Import Reals Lra Psatz Bool List ZArith QArith Nsatz.
From Coquelicot Require Import Coquelicot.
From Verif Require Import Base Sparse Graph SpecOpt Real Geom Vars SpecGeom Trig VarsLemmas GeomR GeomExp GeomLog GeomJac GeomLeft VarOps SpecVars VarsRun GeomNear VarsInc.
Import ListNotations.
Local Open Scope R_scope.

(** the library's own left increment is a turning curve *)
Lemma exp_curve (a : m3 RN) (d : v3 RN) : turning (fun s : R => m3mul (exp_so3 (v3scale s d)) a) a d.
Proof.
  assert (Z : v3scale (N:=RN) 0 d = v3zero) by (dv d; gring).
  split; [rewrite Z, exp_zero; apply m3mul_id_l|]. intros i j Hi Hj.
  apply (is_derive_ext_loc (fun s : R => ent (m3mul (m3add m3id (skew (v3scale s d))) a) i j)).
  - assert (K : 0 < / 10000000000 / (len d + 1)) by (apply Rdiv_lt_0_compat; [lra|pose proof (len_nonneg d); lra]).
    exists (mkposreal _ K). intros s Hs. rewrite exp_small; [reflexivity|].
    assert (Ls : len (v3scale s d) = Rabs s * len d).
    { unfold len. replace (length2 (v3scale s d)) with (Rsqr s * length2 d) by (dv d; gx; unfold Rsqr; ring). rewrite sqrt_mult_alt by apply Rle_0_sqr. rewrite sqrt_Rsqr_abs. reflexivity. }
    rewrite Ls. change (Rabs (minus s 0) < / 10000000000 / (len d + 1)) in Hs. unfold minus, plus, opp in Hs; cbn in Hs. rewrite Ropp_0, Rplus_0_r in Hs.
    pose proof (len_nonneg d). pose proof (Rabs_pos s). apply Rle_lt_trans with (Rabs s * (len d + 1)); [nra|].
    apply Rlt_le_trans with (/ 10000000000 / (len d + 1) * (len d + 1)); [apply Rmult_lt_compat_r; lra|]. right. field. lra.
  - dm a. dv d. destruct i as [|[|[|i]]]; [| | |lia]; destruct j as [|[|[|j]]]; try lia.
    all: eapply is_derive_ext; [intros s; gx; reflexivity|]; auto_derive; auto; gx; ring.
Qed.
(** Log(Exp(s d) Exp(w)) = w + s M d + o(s) *)
Lemma log_step (w d : v3 RN) : / 100000 < len w < 314 / 100 -> exists M, inv_right_jacobian w = Ok M /\ log_so3 (exp_so3 w) = w /\
  forall i, (i < 3)%nat -> is_derive (fun s : R => coord (log_so3 (m3mul (exp_so3 (v3scale s d)) (exp_so3 w))) i) 0 (sum3 (fun k => ent M i k * coord d k)).
Proof.
  intros L. pose proof pi_bounds. pose proof (axis_scale w ltac:(lra)) as E. pose proof (unit_axis w ltac:(lra)) as U.
  destruct (log_derive_any (fun s : R => m3mul (exp_so3 (v3scale s d)) (exp_so3 w)) (len w) (v3div w (len w)) d U L) as (M & EM & D).
  - rewrite exp_large by lra. apply exp_curve.
  - rewrite E in EM. exists M. split; [exact EM|]. split; [apply log_of_exp; right; lra|exact D].
Qed.
(** at w = 0, in every direction *)
Lemma log_step_zero (d : v3 RN) : exists M, inv_right_jacobian (N:=RN) v3zero = Ok M /\
  forall i, (i < 3)%nat -> is_derive (fun s : R => coord (log_so3 (exp_so3 (v3scale s d))) i) 0 (sum3 (fun k => ent M i k * coord d k)).
Proof.
  exists m3id. split.
  - unfold inv_right_jacobian. cbv zeta. rewrite v3sq_len, len0. match goal with |- (if ?b then _ else _) = _ => replace b with true end.
    + apply f_equal. gring.
    + symmetry. apply Rltb_true. cbn. rewrite lit_e8. lra.
  - intros i Hi. apply (is_derive_ext_loc (fun s : R => s * coord d i)).
    + assert (K : 0 < / 10000000000 / (len d + 1)) by (apply Rdiv_lt_0_compat; [lra|pose proof (len_nonneg d); lra]).
      exists (mkposreal _ K). intros s Hs. rewrite log_of_exp.
      * dv d. destruct i as [|[|[|i]]]; [| | |lia]; reflexivity.
      * left. assert (Ls : len (v3scale s d) = Rabs s * len d).
        { unfold len. replace (length2 (v3scale s d)) with (Rsqr s * length2 d) by (dv d; gx; unfold Rsqr; ring). rewrite sqrt_mult_alt by apply Rle_0_sqr. rewrite sqrt_Rsqr_abs. reflexivity. }
        rewrite Ls. change (Rabs (minus s 0) < / 10000000000 / (len d + 1)) in Hs. unfold minus, plus, opp in Hs; cbn in Hs. rewrite Ropp_0, Rplus_0_r in Hs.
        pose proof (len_nonneg d). pose proof (Rabs_pos s). apply Rle_lt_trans with (Rabs s * (len d + 1)); [nra|].
        apply Rlt_le_trans with (/ 10000000000 / (len d + 1) * (len d + 1)); [apply Rmult_lt_compat_r; lra|]. right. field. lra.
    + dv d. destruct i as [|[|[|i]]]; [| | |lia]; cbn [coord vx vy vz]; auto_derive; auto; gx; ring.
Qed.

(** ** Witnesses *)
Definition ex (t : R) : v3 RN := V3 (N:=RN) t 0 0.
Lemma ex_scale t : ex t = v3scale t (ex 1).
Proof. unfold ex. gx. f_equal; match goal with |- @eq _ ?a ?b => change (@eq R a b) end; ring. Qed.
Lemma ex_unit : length2 (ex 1) = 1. Proof. unfold ex. gx. ring. Qed.
Lemma ex_len t : 0 <= t -> len (ex t) = t.
Proof. intros H. rewrite ex_scale, (len_scale t _ ex_unit). apply Rabs_pos_eq; auto. Qed.
Lemma exp_not_rotation : ~ rotation (exp_so3 (ex (/ 100000000000))).
Proof.
  rewrite exp_small by (rewrite ex_len; lra). intros [H _]. specialize (H 1%nat 1%nat ltac:(lia) ltac:(lia)). unfold ex, delta in H. cbn [Nat.eqb] in H. gx in H. lra.
Qed.
Lemma log_exp_wrong : len (ex (/ 1000000)) < PI /\ log_so3 (exp_so3 (ex (/ 1000000))) <> ex (/ 1000000).
Proof.
  pose proof pi_bounds. rewrite ex_len by lra. split; [lra|]. rewrite exp_large by (rewrite ex_len; lra). rewrite ex_len by lra. rewrite (ex_scale (/ 1000000)). rewrite div_scale by lra.
  rewrite (log_aa _ _ ex_unit) by lra. destruct (Rlt_dec _ _) as [_|N]; [|lra]. intros E. unfold ex in E. gx in E. injection E as E.
  pose proof (sin_lt_x (/ 1000000) ltac:(lra)). lra.
Qed.
Lemma exp_log_wrong : let r := aa_matrix (/ 1000000) (ex 1) in rotation r /\ exp_so3 (log_so3 r) <> r.
Proof.
  pose proof pi_bounds. cbv zeta. split; [apply aa_rotation, ex_unit|]. rewrite (log_aa _ _ ex_unit) by lra. destruct (Rlt_dec _ _) as [_|N]; [|lra].
  destruct (small_sin (/ 1000000) ltac:(lra)) as (A1 & A2 & A3). pose proof (sin_lt_x (/ 1000000) ltac:(lra)) as A4.
  set (s := sin (/ 1000000)) in *. assert (L : len (v3scale s (ex 1)) = s) by (rewrite <- ex_scale; apply ex_len; lra).
  rewrite exp_large by (rewrite L; lra). rewrite L, div_scale by lra. intros E. apply (aa_inj _ _ _ _ ex_unit ex_unit) in E; lra.
Qed.
Lemma log_exp_wraps : log_so3 (exp_so3 (ex (3 * PI / 2))) <> ex (3 * PI / 2).
Proof.
  pose proof pi_bounds. intros E. pose proof (log_bound (exp_so3 (ex (3 * PI / 2)))) as B. rewrite E in B. rewrite ex_len in B by lra.
  assert (3 * PI / 2 <= PI); [|lra]. apply B. apply exp_rotation. left. rewrite ex_len; lra.
Qed.
Lemma not_identity t : 0 < t < PI -> aa_matrix t (ex 1) <> m3id.
Proof. intros B E. rewrite <- (aa_0 (ex 1) ex_unit) in E. apply (aa_inj _ _ _ _ ex_unit ex_unit) in E; lra. Qed.
Lemma pose_dcm_wrong : dcm_CW (mk_pose 0 v3zero (ex (/ 1000000000))) = Some m3id /\ ~ rotation_by (ex (/ 1000000000)) m3id.
Proof.
  pose proof pi_bounds. split.
  - change (Some (dcm_of_rot (ex (/ 1000000000))) = Some m3id). rewrite dcm_small; [reflexivity|]. rewrite ex_len; lra.
  - intros H1. apply (not_identity (/ 1000000000)); [lra|]. apply (rotation_by_unique (ex (/ 1000000000))); auto. rewrite (ex_scale (/ 1000000000)). apply aa_by, ex_unit.
Qed.
Lemma increment_wrong : exists v', vcall (mk_pose (N:=RN) 0 v3zero v3zero) (OInc (v3list v3zero ++ v3list (ex (/ 1000000000)))) = Ok v' /\
  dcm_CW (mk_pose (N:=RN) 0 v3zero v3zero) = Some m3id /\ dcm_CW v' = Some m3id /\ ~ product (exp_so3 (ex (/ 1000000000))) m3id m3id.
Proof.
  pose proof pi_bounds. destruct (small_sin (/ 1000000000) ltac:(lra)) as (A1 & A2 & A3).
  assert (D0 : dcm_CW (mk_pose (N:=RN) 0 v3zero v3zero) = Some m3id).
  { change (Some (dcm_of_rot (N:=RN) v3zero) = Some m3id). rewrite dcm_small; [reflexivity|]. rewrite len0. lra. }
  assert (Ee : exp_so3 (ex (/ 1000000000)) = aa_matrix (/ 1000000000) (ex 1)).
  { rewrite exp_large by (rewrite ex_len; lra). rewrite ex_len by lra. rewrite (ex_scale (/ 1000000000)), div_scale by lra. reflexivity. }
  eexists. split; [reflexivity|]. split; [exact D0|]. split.
  - match goal with |- dcm_CW ?v = _ => change (dcm_CW v) with (Some (dcm_of_rot (log_so3 (m3mul (exp_so3 (ex (/ 1000000000))) (dcm_of_rot (N:=RN) v3zero))))) end.
    rewrite (dcm_small v3zero) by (rewrite len0; lra). rewrite m3mul_id_r, Ee, (log_aa _ _ ex_unit) by lra. destruct (Rlt_dec _ _) as [_|N]; [|lra].
    rewrite <- ex_scale. rewrite dcm_small; [reflexivity|]. rewrite ex_len; lra.
  - intros P. apply product_mul in P. rewrite m3mul_id_r, Ee in P. symmetry in P. revert P. apply not_identity. lra.
Qed.
(** between the thresholds the logarithm's derivative is off: Log(Exp(s e) Exp(w)) for w = 1e-6 e *)
Lemma jac_small_wrong : let C := fun s : R => aa_matrix (/ 1000000 + s) (ex 1) in
  turning C (exp_so3 (ex (/ 1000000))) (ex 1) /\ (forall s, rotation (C s)) /\
  exists M, inv_right_jacobian (ex (/ 1000000)) = Ok M /\ ~ is_derive (fun s : R => coord (log_so3 (C s)) 0) 0 (sum3 (fun k => ent M 0 k * coord (ex 1) k)).
Proof.
  pose proof pi_bounds. set (t := / 1000000). assert (Ht : t = / 1000000) by reflexivity. clearbody t. cbv zeta. split; [|split].
  - rewrite exp_large by (rewrite ex_len; lra). rewrite ex_len, (ex_scale t), div_scale by lra. split; [rewrite Rplus_0_r; reflexivity|].
    intros i j Hi Hj. destruct i as [|[|[|i]]]; [| | |lia]; destruct j as [|[|[|j]]]; try lia.
    1-9: eapply is_derive_ext; [intros s; unfold ex; gx; reflexivity|]; auto_derive; auto; rewrite ?Rplus_0_r; unfold ex; gx; ring.
  - intros s. apply aa_rotation, ex_unit.
  - exists (jac_matrix t (ex 1)). split; [rewrite ex_scale; apply jac_value; [apply ex_unit|lra]|]. intros D.
    assert (D2 : is_derive (fun s : R => sin (t + s)) 0 (cos t)) by (auto_derive; auto; rewrite Rplus_0_r; ring).
    assert (L : locally 0 (fun s : R => sin (t + s) = coord (log_so3 (aa_matrix (t + s) (ex 1))) 0)).
    { exists (mkposreal t ltac:(lra)). intros s Hs. change (Rabs (minus s 0) < t) in Hs. unfold minus, plus, opp in Hs; cbn in Hs. rewrite Ropp_0, Rplus_0_r in Hs. apply Rabs_def2 in Hs.
      rewrite (log_aa _ _ ex_unit) by lra. destruct (Rlt_dec _ _) as [_|N]; [|lra]. unfold ex. gx. ring. }
    apply (is_derive_ext_loc _ _ _ _ L) in D2. apply is_derive_unique in D. apply is_derive_unique in D2. rewrite D in D2.
    assert (V : sum3 (fun k => ent (jac_matrix t (ex 1)) 0 k * coord (ex 1) k) = 1) by (unfold jac_matrix, ex; gx; ring).
    assert (B : cos t < 1). { rewrite <- cos_0. apply cos_decreasing_1; lra. }
    match type of D2 with ?a = ?b => assert (X : b = 1) by (rewrite <- D2; exact V) end. lra.
Qed.
