(** The derivative of the logarithm along curves of rotations. *)
From Coq Require Import Reals Lra Psatz Bool List ZArith QArith Nsatz.
From Coquelicot Require Import Coquelicot.
From Verif Require Import Base SpecOpt Real Geom SpecGeom Trig VarsLemmas GeomR GeomExp GeomLog.
Local Open Scope R_scope.

Lemma acos_derive x : -1 < x < 1 -> is_derive acos x (- / sqrt (1 - x * x)).
Proof.
  intros H. apply is_derive_Reals. pose proof (derive_pt_acos x H) as D.
  pose proof (derive_pt_eq_1 acos x _ (derivable_pt_acos x H) D) as L.
  replace (- / sqrt (1 - x * x)) with (-1 / sqrt (1 - x²)); [exact L|]. unfold Rsqr, Rdiv. ring.
Qed.

(** on rotations with angle in [1e-5, pi) the logarithm is one smooth formula *)
Definition cosang (r : m3 RN) : R := (m00 r + m11 r + m22 r - 1) / 2.
Definition logf (r : m3 RN) : v3 RN :=
  let k := acos (cosang r) / (2 * sin (acos (cosang r))) in
  V3 (N:=RN) (k * (m21 r - m12 r)) (k * (m02 r - m20 r)) (k * (m10 r - m01 r)).
Lemma cosang_aa t a : length2 a = 1 -> cosang (aa_matrix t a) = cos t.
Proof. intros U. pose proof (aa_trace t a U) as T. unfold cosang. change (m3trace (aa_matrix t a)) with (m00 (aa_matrix t a) + m11 (aa_matrix t a) + m22 (aa_matrix t a)) in T. rewrite T. field. Qed.
Lemma logf_aa t a : length2 a = 1 -> 0 < t < PI -> logf (aa_matrix t a) = v3scale t a.
Proof.
  intros U B. unfold logf. rewrite (cosang_aa t a U), acos_cos by lra. assert (0 < sin t) by (apply sin_gt_0; lra).
  dv a. gx. f_equal; field; lra.
Qed.
Lemma log_logf (r : m3 RN) : rotation r -> / 100000 <= acos (cosang r) < PI -> log_so3 r = logf r.
Proof.
  intros H T. destruct (log_ok r H) as (t & a & U & B & E & L). rewrite E, (cosang_aa t a U), (acos_cos t B) in T.
  rewrite L. destruct (Rlt_dec t (/ 100000)); [lra|]. rewrite E, logf_aa; auto. lra.
Qed.

Section Curve.
Variables (C : R -> m3 RN) (t : R) (a d : v3 RN).
Hypotheses (U : length2 a = 1) (B : 0 < t < PI) (HC : turning C (aa_matrix t a) d).

Lemma curve_cos : is_derive (fun s => cosang (C s)) 0 (- sin t * (vx a * vx d + vy a * vy d + vz a * vz d)).
Proof.
  destruct HC as [C0 D]. unfold cosang.
  assert (D0 := D 0%nat 0%nat ltac:(lia) ltac:(lia)). assert (D1 := D 1%nat 1%nat ltac:(lia) ltac:(lia)). assert (D2 := D 2%nat 2%nat ltac:(lia) ltac:(lia)).
  cbn [ent] in D0, D1, D2.
  evar_last.
  { apply (is_derive_ext (fun s => /2 * (m00 (C s) + m11 (C s) + m22 (C s)) + (-1/2))); [intros s; change (@eq R (/ 2 * (m00 (C s) + m11 (C s) + m22 (C s)) + (-1 / 2)) ((m00 (C s) + m11 (C s) + m22 (C s) - 1) / 2)); field|].
    apply @is_derive_plus; [apply is_derive_scal; apply @is_derive_plus; [apply @is_derive_plus; [exact D0|exact D1]|exact D2]|apply @is_derive_const]. }
  clear D0 D1 D2 D HC. unfold plus, zero; cbn. dv a; dv d. gx in U. gx. field.
Qed.
Lemma curve_ang : is_derive (fun s => acos (cosang (C s))) 0 (vx a * vx d + vy a * vy d + vz a * vz d).
Proof.
  pose proof curve_cos as D. assert (S : 0 < sin t) by (apply sin_gt_0; lra).
  assert (E : cosang (C 0) = cos t) by (destruct HC as [-> _]; apply cosang_aa; auto).
  assert (P : sin t * sin t + cos t * cos t = 1) by (pose proof (sin2_cos2 t) as P; exact P).
  evar_last.
  { apply (is_derive_comp acos (fun s => cosang (C s))); [|exact D]. apply acos_derive. rewrite E. nra. }
  rewrite E. replace (1 - cos t * cos t) with (sin t * sin t) by lra. rewrite sqrt_square by lra. cbn. unfold scal, mult; cbn. unfold mult; cbn. field. lra.
Qed.
(** derivative of one coordinate of the formula *)
Lemma curve_coord (f : R -> R) f' : is_derive f 0 f' ->
  is_derive (fun s => acos (cosang (C s)) / (2 * sin (acos (cosang (C s)))) * f s) 0
    ((sin t - t * cos t) / (2 * (sin t * sin t)) * (vx a * vx d + vy a * vy d + vz a * vz d) * f 0 + t / (2 * sin t) * f').
Proof.
  intros Hf. pose proof curve_ang as D. assert (S : 0 < sin t) by (apply sin_gt_0; lra).
  assert (E : acos (cosang (C 0)) = t) by (destruct HC as [-> _]; rewrite (cosang_aa t a U); apply acos_cos; lra).
  set (g := fun s => acos (cosang (C s))) in *. change (is_derive (fun s => g s / (2 * sin (g s)) * f s) 0
    ((sin t - t * cos t) / (2 * (sin t * sin t)) * (vx a * vx d + vy a * vy d + vz a * vz d) * f 0 + t / (2 * sin t) * f')).
  assert (E' : g 0 = t) by exact E. assert (D' : is_derive g 0 (vx a * vx d + vy a * vy d + vz a * vz d)) by exact D. clear D. rename D' into D. clearbody g. auto_derive.
  - rewrite E'. repeat split; first [exact I|eexists; eassumption|apply Rgt_not_eq; lra].
  - replace (Derive (fun x => g x) 0) with (vx a * vx d + vy a * vy d + vz a * vz d) by (symmetry; apply is_derive_unique; exact D).
    replace (Derive (fun x => f x) 0) with f' by (symmetry; apply is_derive_unique; exact Hf).
    rewrite E'. set (q := vx a * vx d + vy a * vy d + vz a * vz d). clearbody q. field. lra.
Qed.
End Curve.


Lemma half_tan t : 0 < t < PI -> tan (/ 2 * t) <> 0 /\ / tan (/ 2 * t) = (1 + cos t) / sin t /\ / 4 * t <= tan (/ 2 * t).
Proof.
  intros B. pose proof PI_RGT_0. assert (S : 0 < sin (/ 2 * t)) by (apply sin_gt_0; lra). assert (K : 0 < cos (/ 2 * t)) by (apply cos_gt_0; lra).
  assert (E1 : sin t = 2 * sin (/ 2 * t) * cos (/ 2 * t)) by (rewrite <- sin_2a; f_equal; field).
  assert (E2 : cos t = 2 * cos (/ 2 * t) * cos (/ 2 * t) - 1) by (rewrite <- cos_2a_cos; f_equal; field).
  unfold tan. split; [|split].
  - apply Rgt_not_eq. apply Rdiv_lt_0_compat; auto.
  - rewrite E1, E2. field. lra.
  - pose proof pi_bounds. destruct (sin_cubic (/ 2 * t) ltac:(lra)) as [Q _]. pose proof (COS_bound (/ 2 * t)) as [_ Q2].
    apply Rle_trans with (sin (/ 2 * t)).
    + assert (/ 2 * t * (/ 2 * t) <= 3) by nra. assert (/ 2 * t * (/ 2 * t) * (/ 2 * t) <= 3 * (/ 2 * t)) by nra. lra.
    + apply Rmult_le_reg_r with (cos (/ 2 * t)); auto. unfold Rdiv. rewrite Rmult_assoc, Rinv_l by lra. nra.
Qed.
(** compute_inverse_right_jacobian_so3 *)
Lemma jac_value t a : length2 a = 1 -> / 100000000 <= t < PI ->
  inv_right_jacobian (v3scale t a) =
  Ok (m3sub (m3add (m3scale (/ 2 * t * ((1 + cos t) / sin t)) m3id) (m3scale (1 - / 2 * t * ((1 + cos t) / sin t)) (m3outer a a))) (m3scale (/ 2 * t) (skew a))).
Proof.
  intros U B. unfold inv_right_jacobian. cbv zeta. rewrite v3sq_len, (len_scale t a U), Rabs_pos_eq by lra.
  rewrite div_scale by lra.
  destruct (half_tan t) as (T1 & T2 & T3); [lra|].
  match goal with |- (if ?b then _ else _) = _ => replace b with false end.
  2:{ symmetry. apply Rltb_false. cbn. unfold Q2R; simpl. lra. }
  match goal with |- (if ?b then _ else _) = _ => replace b with false end.
  2:{ symmetry. apply Rltb_false. cbn. rewrite qh. rewrite Rabs_pos_eq by lra. unfold Q2R; simpl. lra. }
  assert (Eh : nmul (n:=RN) (nlit (n:=RN) (1#2)) t = / 2 * t) by (cbn; rewrite qh; reflexivity).
  rewrite Eh. change (ntan (n:=RN) (/ 2 * t)) with (tan (/ 2 * t)).
  assert (Ec : ndiv (n:=RN) nunit (tan (/ 2 * t)) = (1 + cos t) / sin t) by (cbn; rewrite q1; unfold Rdiv at 1; rewrite Rmult_1_l; exact T2).
  rewrite Ec. unfold nunit. cbn [nlit RN]. rewrite q1. reflexivity.
Qed.

Ltac fin U I2 P :=
  unfold minus, plus, opp; cbn -[sin cos Rplus Rmult Rinv Ropp Rminus];
  match goal with |- @eq _ ?x ?y => change (@eq R x y) end; gx; gx in U;
  let sn := fresh "sn" in let cs := fresh "cs" in let iv := fresh "iv" in let hf := fresh "hf" in let Hh := fresh "Hh" in
  match goal with |- context [sin ?t] => set (sn := sin t) in *; set (cs := cos t) in *; set (iv := / sn) in * end; clearbody iv; clearbody sn cs;
  assert (Hh : 2 * / 2 = 1) by lra; set (hf := / 2) in *; clearbody hf; clear - U I2 P Hh; nsz.
Definition jac_matrix (t : R) (a : v3 RN) : m3 RN :=
  m3sub (m3add (m3scale (/ 2 * t * ((1 + cos t) / sin t)) m3id) (m3scale (1 - / 2 * t * ((1 + cos t) / sin t)) (m3outer a a))) (m3scale (/ 2 * t) (skew a)).
Lemma logf_derive (C : R -> m3 RN) (t : R) (a d : v3 RN) : length2 a = 1 -> 0 < t < PI -> turning C (aa_matrix t a) d ->
  forall i, (i < 3)%nat -> is_derive (fun s : R => coord (logf (C s)) i) 0 (sum3 (fun k => ent (jac_matrix t a) i k * coord d k)).
Proof.
  intros U B' HC i Hi. unfold jac_matrix. pose proof (curve_coord C t a d U B' HC) as K.
  assert (S : 0 < sin t) by (apply sin_gt_0; lra). pose proof (sin2_cos2 t) as P. unfold Rsqr in P.
  assert (I2 : / sin t * sin t = 1) by (apply Rinv_l; lra).
  destruct HC as [C0 D].
  assert (F1 : (sin t - t * cos t) / (2 * (sin t * sin t)) = / 2 * (/ sin t * / sin t) * (sin t - t * cos t)) by (field; lra).
  assert (F2 : t / (2 * sin t) = / 2 * / sin t * t) by (field; lra).
  assert (F3 : / 2 * t * ((1 + cos t) / sin t) = / 2 * t * (1 + cos t) * / sin t) by (field; lra).
  rewrite F3. rewrite F1, F2 in K.
  destruct i as [|[|[|i]]]; [| | |lia]; cbn [coord logf vx vy vz].
  - pose proof (K (fun s => m21 (C s) - m12 (C s)) _ (is_derive_minus (fun s => m21 (C s)) (fun s => m12 (C s)) 0 _ _ (D 2 1 ltac:(lia) ltac:(lia))%nat (D 1 2 ltac:(lia) ltac:(lia))%nat)) as M.
    evar_last; [exact M|]. clear K D M. cbn beta. rewrite !C0. clear C0. dv a; dv d. fin U I2 P.
  - pose proof (K (fun s => m02 (C s) - m20 (C s)) _ (is_derive_minus (fun s => m02 (C s)) (fun s => m20 (C s)) 0 _ _ (D 0 2 ltac:(lia) ltac:(lia))%nat (D 2 0 ltac:(lia) ltac:(lia))%nat)) as M.
    evar_last; [exact M|]. clear K D M. cbn beta. rewrite !C0. clear C0. dv a; dv d. fin U I2 P.
  - pose proof (K (fun s => m10 (C s) - m01 (C s)) _ (is_derive_minus (fun s => m10 (C s)) (fun s => m01 (C s)) 0 _ _ (D 1 0 ltac:(lia) ltac:(lia))%nat (D 0 1 ltac:(lia) ltac:(lia))%nat)) as M.
    evar_last; [exact M|]. clear K D M. cbn beta. rewrite !C0. clear C0. dv a; dv d. fin U I2 P.
Qed.

(** the angle of the curve is locally within an open interval around [t] *)
Lemma curve_near (C : R -> m3 RN) (t lo hi : R) (a d : v3 RN) : length2 a = 1 -> 0 < t < PI -> lo < t < hi -> turning C (aa_matrix t a) d ->
  locally 0 (fun s : R => lo < acos (cosang (C s)) < hi /\ -1 < cosang (C s) < 1).
Proof.
  intros U B L HC. pose proof (curve_ang C t a d U B HC) as DA. pose proof (curve_cos C t a d U HC) as DC.
  assert (EC : cosang (C 0) = cos t) by (destruct HC as [-> _]; apply (cosang_aa t a U)).
  assert (EA : acos (cosang (C 0)) = t) by (rewrite EC; apply acos_cos; lra).
  assert (CT : continuous (fun s => acos (cosang (C s))) 0) by (apply (ex_derive_continuous (K:=R_AbsRing) (V:=R_NormedModule)); eexists; exact DA).
  assert (CC : continuous (fun s => cosang (C s)) 0) by (apply (ex_derive_continuous (K:=R_AbsRing) (V:=R_NormedModule)); eexists; exact DC).
  apply filter_and.
  - apply (CT (fun y => lo < y < hi)). rewrite EA. apply (open_and (fun y => lo < y) (fun y => y < hi)); [apply open_gt|apply open_lt|exact L].
  - apply (CC (fun y => -1 < y < 1)). rewrite EC. apply (open_and (fun y => -1 < y) (fun y => y < 1)); [apply open_gt|apply open_lt|].
    assert (0 < sin t) by (apply sin_gt_0; lra). pose proof (sin2_cos2 t) as P. unfold Rsqr in P. nra.
Qed.
(** along every curve of rotations through a rotation with angle between 1e-5 and pi, the logarithm's derivative is the matrix
    returned by compute_inverse_right_jacobian_so3 applied to the angular velocity *)
Lemma log_derive (C : R -> m3 RN) (t : R) (a d : v3 RN) : length2 a = 1 -> / 100000 < t < PI -> turning C (aa_matrix t a) d -> (forall s, rotation (C s)) ->
  exists M : m3 RN, (inv_right_jacobian (v3scale t a) = Ok M) /\
  (forall i, (i < 3)%nat -> is_derive (fun s => coord (log_so3 (C s)) i) 0 (sum3 (fun k => ent M i k * coord d k))).
Proof.
  intros U B HC HR. exists (jac_matrix t a). split; [apply jac_value; auto; lra|]. intros i Hi.
  assert (B' : 0 < t < PI) by lra.
  apply (is_derive_ext_loc (fun s => coord (logf (C s)) i)); [|apply logf_derive; auto].
  generalize (curve_near C t (/ 100000) PI a d U B' B HC). apply filter_imp. intros s [NB _]. rewrite log_logf; auto. lra.
Qed.
(** away from pi the formula is used for every matrix, so the curve need not consist of rotations *)
Lemma log_logf_any (r : m3 RN) : -1 < cosang r < 1 -> / 100000 <= acos (cosang r) < 314 / 100 -> log_so3 r = logf r.
Proof.
  intros Hc T. unfold log_so3. cbv zeta.
  assert (Ec : nmin (N:=RN) (nmax (N:=RN) (nmul (n:=RN) (nsub (n:=RN) (m3trace r) nunit) (nlit (n:=RN) (1#2))) (nlit (n:=RN) (-1))) nunit = cosang r).
  { rewrite r_nmin, r_nmax. cbn. unfold nunit. cbn. rewrite q1, qh, qm1. change ((m00 r + m11 r + m22 r - 1) * / 2) with (cosang r).
    rewrite Rmax_left, Rmin_left by lra. reflexivity. }
  rewrite Ec. change (nacos (n:=RN) (cosang r)) with (acos (cosang r)). set (t := acos (cosang r)) in *.
  change (nltb (n:=RN) t (nlit (n:=RN) (1#100000))) with (Rltb t (Q2R (1#100000))). rewrite lit_e5.
  rewrite (proj2 (Rltb_false t (/ 100000))) by lra.
  match goal with |- (if ?b then _ else _) = _ => change b with (Rltb (Rabs (t - Q2R (314159265358979323846 # 100000000000000000000))) (Q2R (1#1000))) end.
  rewrite lit_e3, pi_lit. rewrite (proj2 (Rltb_false _ (/ 1000))).
  2:{ rewrite Rabs_left by lra. lra. }
  unfold logf. fold t. clearbody t. dm r. gx. change (ndiv (n:=RN) t (nmul (n:=RN) (Q2R 2) (sin t))) with (t / (Q2R 2 * sin t)). rewrite ?q2. unfold Rdiv. set (i := / (2 * sin t)). clearbody i.
  f_equal; field.
Qed.
Lemma log_derive_any (C : R -> m3 RN) (t : R) (a d : v3 RN) : length2 a = 1 -> / 100000 < t < 314 / 100 -> turning C (aa_matrix t a) d ->
  exists M : m3 RN, (inv_right_jacobian (v3scale t a) = Ok M) /\
  (forall i, (i < 3)%nat -> is_derive (fun s => coord (log_so3 (C s)) i) 0 (sum3 (fun k => ent M i k * coord d k))).
Proof.
  intros U B HC. pose proof pi_bounds. assert (B' : 0 < t < PI) by lra. exists (jac_matrix t a). split; [apply jac_value; auto; lra|]. intros i Hi.
  apply (is_derive_ext_loc (fun s => coord (logf (C s)) i)); [|apply logf_derive; auto].
  generalize (curve_near C t (/ 100000) (314 / 100) a d U B' B HC). apply filter_imp. intros s [NB NC]. rewrite log_logf_any; auto. lra.
Qed.
