(** Exact Jacobians of the orientation factors. *)
From Coq Require Import List Arith ZArith QArith Bool Reals Lra Lia Psatz.
From Coquelicot Require Import Coquelicot.
From Verif Require Import Base Sparse Graph Geom Vars VarOps VarsLemmas FactorsLin FactorsLinFacts FactorsGeo SpecGeom SpecFactor Real RSum Trig GeomR GeomExp GeomLog GeomJac GeomLeft GeomFacts FactorCalc FactorRead FactorJac.
Import ListNotations.
Local Open Scope R_scope.

(** ** Derivatives of matrix curves *)
Definition mder (C : R -> m3 RN) (M : m3 RN) : Prop := forall i j, (i < 3)%nat -> (j < 3)%nat -> is_derive (fun t => ent (C t) i j) 0 (ent M i j).
Lemma turning_mder C a d : turning C a d <-> C 0 = a /\ mder C (m3mul (skew d) a).
Proof.
  split.
  1: { intros [E H]. split; auto. intros i j Hi Hj. eapply d_eq; [apply H; auto|]. dm a; dv d. i3 i; i3 j; gx; ring. }
  intros [E H]. apply turning_of; auto.
Qed.
Lemma mder_mul A M B P : mder A M -> mder B P -> mder (fun s => m3mul (A s) (B s)) (m3add (m3mul M (B 0)) (m3mul (A 0) P)).
Proof.
  intros HA HB i j Hi Hj.
  assert (E : forall X Y, ent (m3mul X Y) i j = sum3 (fun k => ent X i k * ent Y k j)). { intros X Y. dm X; dm Y. i3 i; i3 j; gx; ring. }
  assert (E' : forall X Y, ent (m3add X Y) i j = ent X i j + ent Y i j). { intros X Y. dm X; dm Y. i3 i; i3 j; gx; ring. }
  apply (is_derive_ext (fun s : R => ent (A s) i 0 * ent (B s) 0 j + ent (A s) i 1 * ent (B s) 1 j + ent (A s) i 2 * ent (B s) 2 j)); [intros s; rewrite E; reflexivity|]. rewrite E', !E. unfold sum3.
  assert (L0 : (0 < 3)%nat) by lia. assert (L1 : (1 < 3)%nat) by lia. assert (L2 : (2 < 3)%nat) by lia.
  pose proof (d_mult _ _ _ _ _ (HA i 0%nat Hi L0) (HB 0%nat j L0 Hj)) as P0. pose proof (d_mult _ _ _ _ _ (HA i 1%nat Hi L1) (HB 1%nat j L1 Hj)) as P1. pose proof (d_mult _ _ _ _ _ (HA i 2%nat Hi L2) (HB 2%nat j L2 Hj)) as P2.
  eapply d_eq; [exact (d_plus _ _ _ _ _ (d_plus _ _ _ _ _ P0 P1) P2)|]. cbv beta. ring.
Qed.
Lemma mder_t A M : mder A M -> mder (fun s => m3t (A s)) (m3t M).
Proof.
  intros H i j Hi Hj. assert (E : forall X, ent (m3t X) i j = ent X j i) by (intros X; dm X; i3 i; i3 j; reflexivity).
  apply (is_derive_ext (fun s : R => ent (A s) j i)); [intros s; rewrite E; reflexivity|]. rewrite E. auto.
Qed.
Lemma mder_const (a : m3 RN) : mder (fun _ => a) m3zero.
Proof. intros i j Hi Hj. eapply d_eq; [apply d_const|]. i3 i; i3 j; gx; reflexivity. Qed.
Lemma skew_conj (a : m3 RN) e : rotation a -> m3mul (skew (m3v a e)) a = m3mul a (skew e).
Proof.
  intros Ha. pose proof (rot_adj _ Ha) as Q. dm a; dv e. unfold adj in Q. revert Q. gx. intros Q. injection Q; intros. f_equal; nsz.
Qed.
Lemma turning_right C a d (B : m3 RN) : turning C a d -> turning (fun s => m3mul (C s) B) (m3mul a B) d.
Proof.
  rewrite !turning_mder. intros [E H]. split; [rewrite E; auto|]. pose proof (mder_mul _ _ _ _ H (mder_const B)) as P. cbv beta in P.
  rewrite <- m3mul_assoc. replace (m3mul (m3mul (skew d) a) B) with (m3add (m3mul (m3mul (skew d) a) B) (m3mul (C 0) m3zero)); auto.
  generalize (m3mul (m3mul (skew d) a) B). intros X. rewrite E. dm X; dm a. gring.
Qed.
Lemma turning_mul A a d B b e : rotation a -> turning A a d -> turning B b e -> turning (fun s => m3mul (A s) (B s)) (m3mul a b) (v3add d (m3v a e)).
Proof.
  rewrite !turning_mder. intros Ha [E H] [E' H']. split; [rewrite E, E'; auto|]. pose proof (mder_mul _ _ _ _ H H') as P. rewrite E, E' in P.
  replace (m3mul (skew (v3add d (m3v a e))) (m3mul a b)) with (m3add (m3mul (m3mul (skew d) a) b) (m3mul a (m3mul (skew e) b))); auto.
  rewrite <- (m3mul_assoc a), <- skew_conj by auto. rewrite !m3mul_assoc. generalize (m3mul a b) (m3v a e). intros X v. dm X; dv d; dv v. gring.
Qed.
Lemma turning_t A a d : rotation a -> turning A a d -> turning (fun s => m3t (A s)) (m3t a) (v3neg (m3v (m3t a) d)).
Proof.
  rewrite !turning_mder. intros Ha [E H]. split; [rewrite E; auto|]. pose proof (mder_t _ _ H) as P.
  replace (m3mul (skew (v3neg (m3v (m3t a) d))) (m3t a)) with (m3t (m3mul (skew d) a)); auto.
  transitivity (m3neg (m3mul (skew (m3v (m3t a) d)) (m3t a))).
  1: { rewrite skew_conj by (apply rot_t; auto). dm a; dv d. gring. }
  generalize (m3v (m3t a) d). intros v. dm a; dv v. gring.
Qed.

(** ** The derivative of the logarithm at the identity *)
Lemma small_log (r : m3 RN) : cos (/ 200000) < cosang r -> log_so3 r = unskew (m3scale (/ 2) (m3sub r (m3t r))).
Proof.
  intros Hc. unfold log_so3. cbv zeta. pose proof pi_bounds as PB. pose proof (COS_bound (/ 200000)) as CB.
  assert (Ec : nmin (N:=RN) (nmax (N:=RN) (nmul (n:=RN) (nsub (n:=RN) (m3trace r) nunit) (nlit (n:=RN) (1#2))) (nlit (n:=RN) (-1))) nunit = Rmin (cosang r) 1).
  { rewrite r_nmin, r_nmax. cbn. unfold nunit. cbn. rewrite q1, qh, qm1. change ((m00 r + m11 r + m22 r - 1) * / 2) with (cosang r).
    rewrite Rmax_left by lra. reflexivity. }
  rewrite Ec. change (nacos (n:=RN) (Rmin (cosang r) 1)) with (acos (Rmin (cosang r) 1)).
  assert (Hm : cos (/ 200000) < Rmin (cosang r) 1).
  { apply Rmin_glb_lt; [exact Hc|]. rewrite <- cos_0. apply cos_decreasing_1; lra. }
  assert (Ha : acos (Rmin (cosang r) 1) < / 200000).
  { pose proof (acos_bound (Rmin (cosang r) 1)) as AB. apply cos_decreasing_0; [lra|lra|lra|lra|]. rewrite cos_acos; [exact Hm|]. pose proof (Rmin_r (cosang r) 1). lra. }
  set (t := acos (Rmin (cosang r) 1)) in *.
  change (nltb (n:=RN) t (nlit (n:=RN) (1#100000))) with (Rltb t (Q2R (1#100000))). rewrite lit_e5.
  rewrite (proj2 (Rltb_true t (/ 100000))) by lra. dm r. gx. reflexivity.
Qed.
Lemma log_derive_id C d : turning C m3id d -> moving (fun s => log_so3 (C s)) v3zero d.
Proof.
  intros HC. pose proof HC as [E0 _]. tcomp HC. destruct d as [d0 d1 d2]. cbn [vx vy vz] in *.
  assert (Hid : forall r : m3 RN, r = m3id -> m00 r = 1 /\ m01 r = 0 /\ m02 r = 0 /\ m10 r = 0 /\ m11 r = 1 /\ m12 r = 0 /\ m20 r = 0 /\ m21 r = 0 /\ m22 r = 1)
    by (intros r ->; gx; repeat split; reflexivity).
  pose proof (Hid _ (eq_sym E1)) as (A00 & A01 & A02 & A10 & A11 & A12 & A20 & A21 & A22). cbn [m00 m01 m02 m10 m11 m12 m20 m21 m22] in *.
  rewrite A00, A01, A02, A10, A11, A12, A20, A21, A22 in *.
  assert (L : locally 0 (fun s => log_so3 (C s) = unskew (m3scale (/ 2) (m3sub (C s) (m3t (C s)))))).
  { eapply filter_imp; [intros s; apply small_log|]. cbv beta.
    assert (D : is_derive (fun s : R => cosang (C s)) 0 0).
    { apply (is_derive_ext (fun s : R => (c00 s + c11 s + c22 s - 1) * / 2)); [intros s; unfold cosang; rewrite Ec; reflexivity|]. der. ring. }
    apply (near_gt (fun s : R => cosang (C s)) _ _ _ D).
    rewrite E0. pose proof pi_bounds. replace (cosang m3id) with 1 by (unfold cosang; gx; field). rewrite <- cos_0. apply cos_decreasing_1; lra. }
  eapply moving_loc; [exact L|].
  eapply moving_of; [intros s; rewrite Ec; gx; reflexivity|gx; rewrite A01, A02, A10, A12, A20, A21; f_equal; ring| | |]; gx; der; field.
Qed.
Lemma jac_zero : inv_right_jacobian (v3zero (N:=RN)) = Ok m3id.
Proof.
  unfold inv_right_jacobian. change (v3norm v3zero) with (len v3zero). rewrite len0. cbv zeta.
  match goal with |- (if ?b then _ else _) = _ => change b with (Rltb 0 (Q2R (1#100000000))) end.
  rewrite (proj2 (Rltb_true _ _)). 2: { unfold Q2R; simpl; lra. }
  f_equal. gx. f_equal; ring.
Qed.

(** ** The logarithm along a motion *)
Lemma log_moves C E w d : turning C E d -> rotation_by w E -> w = v3zero \/ / 100000 < len w < 314 / 100 ->
  exists M : m3 RN, log_so3 E = w /\ inv_right_jacobian w = Ok M /\ moving (fun s => log_so3 (C s)) w (m3v M d) /\ m3t M = m3mul M E.
Proof.
  intros HC HE [->|HL].
  1: { assert (EI : E = m3id) by (eapply rotation_by_unique; [exact HE|apply zero_by]). subst E. exists m3id.
    pose proof (log_derive_id _ _ HC) as HM. split; [|split; [apply jac_zero|split]].
    1: { destruct HC as [E0 _]. destruct HM as [H0 _]. rewrite E0 in H0. exact H0. }
    1: { assert (Ed : m3v m3id d = d) by (dv d; gx; f_equal; cbv [RN car] in *; ring). rewrite Ed. exact HM. }
    gx. f_equal; ring. }
  pose proof pi_bounds as PB. set (t := len w) in *. set (a := v3div w t).
  assert (U : length2 a = 1) by (apply unit_axis; fold t; lra).
  assert (Ew : v3scale t a = w) by (apply axis_scale; fold t; lra).
  assert (EE : E = aa_matrix t a) by (eapply rotation_by_unique; [exact HE|rewrite <- Ew; apply aa_by; exact U]).
  subst E. clearbody a t. subst w.
  exists (jac_matrix t a).
  assert (EJ : inv_right_jacobian (v3scale t a) = Ok (jac_matrix t a)) by (apply jac_value; auto; lra).
  destruct (log_derive_any C t a d U HL HC) as (M & HM1 & HM2). rewrite EJ in HM1. injection HM1 as <-.
  assert (Hs : 0 < sin t) by (apply sin_gt_0; lra).
  assert (HL0 : log_so3 (aa_matrix t a) = v3scale t a).
  { rewrite log_logf_any, logf_aa; auto; [lra| |].
    1: { rewrite (cosang_aa t a U). pose proof (sin2_cos2 t) as P. unfold Rsqr in P. nra. }
    rewrite (cosang_aa t a U), acos_cos by lra. lra. }
  split; [exact HL0|split; [exact EJ|split]].
  1: { split; [destruct HC as [E0 _]; rewrite E0; exact HL0|]. intros i Hi. eapply d_eq; [apply HM2; exact Hi|]. generalize (jac_matrix t a). intros M. dm M; dv d. i3 i; gx; ring. }
  pose proof (sin2_cos2 t) as P. unfold Rsqr in P. unfold jac_matrix. set (al := / 2 * t * ((1 + cos t) / sin t)).
  assert (A1 : al * sin t = / 2 * t * (1 + cos t)) by (unfold al; field; lra).
  assert (A2 : al * (1 - cos t) = / 2 * t * sin t). { apply (Rmult_eq_reg_r (sin t)); [|lra]. replace (al * (1 - cos t) * sin t) with ((al * sin t) * (1 - cos t)) by ring. rewrite A1. replace (/ 2 * t * sin t * sin t) with (/ 2 * t * (sin t * sin t)) by ring. replace (sin t * sin t) with (1 - cos t * cos t) by lra. ring. }
  generalize dependent al. intros al A1 A2. unfold aa_matrix. cbn [ncos nsin RN]. set (h := / 2 * t) in *. clearbody h. set (c := cos t) in *. set (k := sin t) in *. clearbody c k.
  clear - U A1 A2 P. dv a. revert U. gx. intros U. f_equal; nsz.
Qed.

(** ** The factors *)
Lemma v3scale_mv (w : R) (M : m3 RN) v : v3scale w (m3v M v) = m3v (m3scale w M) v.
Proof. dm M; dv v. gx. f_equal; ring. Qed.
Lemma rotpri_exact id a prior (sigma : R) h C t : sees_rot h a C -> rotation_by t (m3mul C (m3t prior)) -> t = v3zero \/ / 100000 < len t < 314 / 100 ->
  exists M, inv_right_jacobian t = Ok M /\ exact_jacobian (rotation_prior (N:=RN) id a prior sigma) h [blkv h a (mat33 (m3scale (1 / sigma) M))].
Proof.
  intros S HE HL. pose proof (there_rot _ _ _ S) as T.
  destruct (log_moves _ _ _ _ (still_turns (m3mul C (m3t prior))) HE HL) as (M & EL & EM & _ & _).
  exists M. split; [exact EM|]. unfold rotation_prior. cbv zeta. rewrite unit_over. set (w := 1 / sigma). apply exact3; [reflexivity| | |]; cbn [f_jac f_vars f_res].
  1: { intros J0. unfold rotpri_jac. rewrite (rot_at_sees _ _ _ S). destruct (sized1 J0) as (x & ->). destruct T as (v & Ev & Ek).
    unfold hget. rewrite Ev. cbn [withj obind]. rewrite EL, EM. unfold blkv. rewrite Ev. destruct (l_const v); reflexivity. }
  1: shapes.
  intros H D HM. destruct (read_rot _ _ _ _ _ HM S) as (Q & E & MQ).
  destruct (log_moves _ _ _ _ (turning_right _ _ _ (m3t prior) MQ) HE HL) as (M' & _ & EM' & MM & _). rewrite EM in EM'. injection EM' as <-.
  eexists _, _, _. split; [intros s; unfold rotpri_res; rewrite E; reflexivity|].
  split; [apply v3scale_moves; exact MM|].
  intros i Hi. cbn [response]. rewrite term_mat33 by assumption. rewrite v3scale_mv. ring.
Qed.
Lemma oripri_exact id a prior (sigma : R) h p C t : sees_pose h a p C -> rotation_by t (m3mul C (m3t (exp_so3 (log_so3 prior)))) -> t = v3zero \/ / 100000 < len t < 314 / 100 ->
  exists M, inv_right_jacobian t = Ok M /\ exact_jacobian (pose_orientation_prior (N:=RN) id a prior sigma) h [blkv h a (mat36 m3zero (m3scale (1 / sigma) M))].
Proof.
  intros S HE HL. pose proof (there_pose _ _ _ _ S) as T. set (q := exp_so3 (log_so3 prior)) in *.
  destruct (log_moves _ _ _ _ (still_turns (m3mul C (m3t q))) HE HL) as (M & EL & EM & _ & _).
  exists M. split; [exact EM|]. unfold pose_orientation_prior. cbv zeta. rewrite unit_over. set (w := 1 / sigma). apply exact3; [reflexivity| | |]; cbn [f_jac f_vars f_res].
  1: { intros J0. unfold oripri_jac. rewrite (pose_at_sees _ _ _ _ S). destruct (sized1 J0) as (x & ->). destruct T as (v & Ev & Ek).
    unfold hget, oripri_err. rewrite Ev. cbn [withj obind snd]. fold q. rewrite EL, EM. unfold blkv. rewrite Ev. destruct (l_const v); reflexivity. }
  1: shapes.
  intros H D HM. destruct (read_pose _ _ _ _ _ _ HM S) as (P & Q & E & _ & MQ).
  destruct (log_moves _ _ _ _ (turning_right _ _ _ (m3t q) MQ) HE HL) as (M' & _ & EM' & MM & _). rewrite EM in EM'. injection EM' as <-.
  eexists _, _, _. split; [intros s; unfold oripri_res, oripri_err; rewrite E; cbn [obind snd]; fold q; reflexivity|].
  split; [apply v3scale_moves; exact MM|].
  intros i Hi. cbn [response]. rewrite term_mat36 by assumption. gend. dm M. i3 i; gx; ring.
Qed.
Definition oribet_blocks (h : rheap) a b c (w : R) (C E M : m3 RN) : list (mat RN) :=
  [blkv h a (mat36 m3zero (m3mul (m3scale (- w) (m3t M)) (m3t C))); blkv h b (mat36 m3zero (m3scale w (m3mul (m3t M) (m3t E)))); blkv h c (mat33 (m3mul (m3scale w (m3t M)) (m3t C)))].
Lemma scale_mul_l (w : R) (A B : m3 RN) : m3mul (m3scale w A) B = m3scale w (m3mul A B).
Proof. dm A; dm B. gring. Qed.
Lemma mul_id_r (A : m3 RN) : m3mul A m3id = A.
Proof. dm A. gx. f_equal; cbv [RN car] in *; ring. Qed.
Lemma oribet_exact id a b c (sigma : R) h p1 R1 p2 R2 C t : sees_pose h a p1 R1 -> sees_pose h b p2 R2 -> sees_rot h c C -> rotation R1 -> rotation R2 -> rotation C ->
  rotation_by t (m3mul (m3mul R2 (m3t R1)) C) -> t = v3zero \/ / 100000 < len t < 314 / 100 ->
  exists M, inv_right_jacobian t = Ok M /\ exact_jacobian (pose_orientation_between (N:=RN) id a b c sigma) h (oribet_blocks h a b c (1 / sigma) C (m3mul (m3mul R2 (m3t R1)) C) M).
Proof.
  intros Sa Sb Sc O1 O2 OC HE HL. pose proof (there_pose _ _ _ _ Sa) as Ta. pose proof (there_pose _ _ _ _ Sb) as Tb. pose proof (there_rot _ _ _ Sc) as Tc.
  set (Q := m3mul R2 (m3t R1)) in *. assert (OQ : rotation Q) by (apply rot_mul; [exact O2|apply rot_t; exact O1]). set (E := m3mul Q C) in *.
  destruct (log_moves _ _ _ _ (still_turns E) HE HL) as (M & EL & EM & _ & MT).
  exists M. split; [exact EM|]. unfold pose_orientation_between. cbv zeta. rewrite unit_over. set (w := 1 / sigma). apply exact3; [reflexivity| | |]; cbn [f_jac f_vars f_res].
  1: { intros J0. unfold oribet_jac. rewrite (pose_at_sees _ _ _ _ Sa), (pose_at_sees _ _ _ _ Sb), (rot_at_sees _ _ _ Sc). destruct (sized3 J0) as (j0 & j1 & j2 & ->).
    unfold oribet_err. cbn [obind snd]. fold Q. fold E. rewrite EL, EM. cbn [obind withj]. rewrite !(blk_there _ _ _ _ Ta), !(blk_there _ _ _ _ Tb), !(blk_there _ _ _ _ Tc). reflexivity. }
  1: shapes.
  intros H D HM. destruct (read_pose _ _ _ _ _ _ HM Sa) as (P1 & Q1 & E1 & _ & MQ1). destruct (read_pose _ _ _ _ _ _ HM Sb) as (P2 & Q2 & E2 & _ & MQ2).
  destruct (read_rot _ _ _ _ _ HM Sc) as (Q3 & E3 & MQ3).
  pose proof (turning_mul _ _ _ _ _ _ OQ (turning_mul _ _ _ _ _ _ O2 MQ2 (turning_t _ _ _ O1 MQ1)) MQ3) as TT.
  destruct (log_moves _ _ _ _ TT HE HL) as (M' & _ & EM' & MM & _). rewrite EM in EM'. injection EM' as <-.
  eexists _, _, _. split; [intros s; unfold oribet_res, oribet_err; rewrite E1, E2, E3; cbn [obind snd]; reflexivity|].
  split; [apply v3scale_moves; exact MM|].
  assert (B1 : m3mul (m3t M) (m3t C) = m3mul M Q). { rewrite MT. unfold E. rewrite !m3mul_assoc, rot_mul_t by exact OC. rewrite mul_id_r. reflexivity. }
  assert (B2 : m3mul (m3t M) (m3t E) = M). { rewrite MT, m3mul_assoc, rot_mul_t by (apply rot_mul; assumption). apply mul_id_r. }
  intros i Hi. cbn [response oribet_blocks]. rewrite !term_mat36, term_mat33 by assumption. rewrite !scale_mul_l, B1, B2.
  assert (B3 : m3v R2 (v3neg (m3v (m3t R1) (dir3 3 (vel h D a)))) = v3neg (m3v Q (dir3 3 (vel h D a)))).
  { unfold Q. gend. clear. dm R1; dm R2. gx. f_equal; ring. }
  rewrite B3. clearbody Q E. gend. clear - Hi. dm M; dm Q. i3 i; gx; ring.
Qed.
