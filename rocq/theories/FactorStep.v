(** apply_increment's own curves are motions in the sense of [SpecFactor.kind_moves]. *)
From Coq Require Import List Arith ZArith QArith Bool Reals Lra Lia Psatz.
From Coquelicot Require Import Coquelicot.
From Verif Require Import Base Sparse Graph Geom Vars VarOps VarsLemmas VarsRun SpecGeom SpecFactor Real RSum Trig GeomR GeomExp GeomLog GeomJac GeomLeft GeomNear GeomFacts FactorCalc FactorAngle.
Import ListNotations.
Local Open Scope R_scope.

Lemma left_jac_inverts (t : R) (a d : v3 RN) : length2 a = 1 -> 0 < t < PI -> left_jac t a (m3v (jac_matrix t a) d) = d.
Proof.
  intros U B. assert (Hs : 0 < sin t) by (apply sin_gt_0; lra). unfold jac_matrix. set (al := / 2 * t * ((1 + cos t) / sin t)).
  pose proof (sin2_cos2 t) as P. unfold Rsqr in P.
  assert (A1 : al * sin t = / 2 * t * (1 + cos t)) by (unfold al; field; lra).
  assert (A2 : al * (1 - cos t) = / 2 * t * sin t). { apply (Rmult_eq_reg_r (sin t)); [|lra]. replace (al * (1 - cos t) * sin t) with ((al * sin t) * (1 - cos t)) by ring. rewrite A1. replace (/ 2 * t * sin t * sin t) with (/ 2 * t * (sin t * sin t)) by ring. replace (sin t * sin t) with (1 - cos t * cos t) by lra. ring. }
  generalize dependent al. intros al A1 A2. assert (I1 : / t * t = 1) by (apply Rinv_l; lra). unfold left_jac, dot3.
  assert (Hh : 2 * / 2 = 1) by lra.
  dv a. dv d. gx in U. gx.
  set (iv := / t) in *; set (sn := sin t) in *; set (cs := cos t) in *; set (hf := / 2) in *; clearbody sn cs; clearbody iv; clearbody hf; clear - U P I1 Hh A1 A2.
  f_equal; nsz.
Qed.
Lemma len_moves W w e : moving W w e -> 0 < len w -> is_derive (fun s : R => len (W s)) 0 (dot3 w e / len w).
Proof.
  intros HW P. mcomp HW. subst w. destruct e as [e0 e1 e2]. cbn [vx vy vz] in *. unfold len in *. gx in P.
  assert (Q : 0 < x 0 * x 0 + y 0 * y 0 + z 0 * z 0) by (apply sqrt_lt_0_alt; rewrite sqrt_0; exact P).
  apply (is_derive_ext (fun s : R => sqrt (x s * x s + y s * y s + z s * z s))); [intros s; rewrite Ec; gx; reflexivity|].
  eapply d_eq; [apply d_sqrt; [ders|exact Q]|]. cbv beta. unfold dot3. gx. field. apply Rgt_not_eq. exact P.
Qed.
(** Exp along any curve of rotation vectors *)
Lemma aa_turns W t (a v : v3 RN) : length2 a = 1 -> 0 < t -> moving W (v3scale t a) v ->
  turning (fun s : R => aa_matrix (len (W s)) (v3div (W s) (len (W s)))) (aa_matrix t a) (left_jac t a v).
Proof.
  intros U T HW. set (w := v3scale (N:=RN) t a). assert (Lw : len w = t) by (unfold w; rewrite (len_scale t a U); apply Rabs_pos_eq; lra).
  pose proof (len_moves _ _ _ HW) as D. fold w in D. rewrite Lw in D. specialize (D T).
  pose proof (proj1 HW) as W0. set (g := fun s : R => len (W s)) in *. assert (G0 : g 0 = t) by (unfold g; rewrite W0; exact Lw).
  assert (Dg : dot3 w v / t = dot3 a v) by (unfold dot3, w; dv a; dv v; gx; field; lra). rewrite Dg in D. clear Dg.
  assert (D' : is_derive g 0 (dot3 a v)) by exact D. clear D.
  assert (Ew : v3div w t = a) by (unfold w; apply div_scale; lra).
  split; [fold (g 0); rewrite G0, W0; fold w; rewrite Ew; reflexivity|]. intros i j Hi Hj.
  change (is_derive (fun s : R => ent (aa_matrix (g s) (v3div (W s) (g s))) i j) 0 (sum3 (fun k => crossm (left_jac t a v) i k * ent (aa_matrix t a) k j))).
  clear Ew Lw. clearbody g. subst w. mcomp HW.
  assert (DG : Derive (fun x : R => g x) 0 = dot3 a v) by (apply is_derive_unique; exact D').
  assert (EG : ex_derive (fun x : R => g x) 0) by (eexists; exact D').
  assert (I1 : / t * t = 1) by (apply Rinv_l; lra). pose proof (sin2_cos2 t) as P. unfold Rsqr in P. unfold left_jac, dot3 in *.
  dv a. dv v. gx in U. cbn [vx vy vz] in *.
  assert (DX : Derive (fun s : R => x s) 0 = x1) by (apply is_derive_unique; assumption).
  assert (DY : Derive (fun s : R => y s) 0 = y1) by (apply is_derive_unique; assumption).
  assert (DZ : Derive (fun s : R => z s) 0 = z1) by (apply is_derive_unique; assumption).
  assert (EX : ex_derive (fun s : R => x s) 0) by (eexists; eassumption).
  assert (EY : ex_derive (fun s : R => y s) 0) by (eexists; eassumption).
  assert (EZ : ex_derive (fun s : R => z s) 0) by (eexists; eassumption).
  assert (X0 : x 0 = t * x0 /\ y 0 = t * y0 /\ z 0 = t * z0) by (injection E0; gx; auto). destruct X0 as (X0 & Y0 & Z0).
  destruct i as [|[|[|i]]]; [| | |lia]; destruct j as [|[|[|j]]]; try lia.
  all: eapply is_derive_ext; [intros s; rewrite Ec; gx; reflexivity|].
  all: auto_derive; [rewrite ?G0; repeat split; first [exact I|exact EG|exact EX|exact EY|exact EZ|apply Rgt_not_eq; lra]|].
  all: rewrite ?DG, ?DX, ?DY, ?DZ, ?G0, ?X0, ?Y0, ?Z0; gx.
  all: assert (F1 : forall p : R, (t * p) * / t = p) by (intros; field; lra);
       assert (F2 : forall p r : R, (t * p) * (r * / (t * t)) = p * r * / t) by (intros; field; lra).
  all: rewrite ?F1, ?F2; clear - U P.
  all: set (iv := / t) in *; set (sn := sin t) in *; set (cs := cos t) in *; clearbody sn cs; clearbody iv; clear - U P.
  all: nsz.
Qed.

Lemma nth_map_mul s (d : list R) i : nth i (map (Rmult s) d) 0 = s * nth i d 0.
Proof. rewrite <- (Rmult_0_r s) at 1. apply map_nth. Qed.
Lemma seg3_scale s off (d : list R) : seg3 (N:=RN) off (map (Rmult s) d) = v3scale (N:=RN) s (dir3 off d).
Proof.
  unfold seg3, v3scale, dir3. cbn [vx vy vz nmul RN]. change (nzero (N:=RN)) with (Q2R 0). rewrite q0. f_equal; apply nth_map_mul.
Qed.
Lemma vadd_nth (x y : list R) i : length x = length y -> nth i (vadd (N:=RN) x y) 0 = nth i x 0 + nth i y 0.
Proof.
  revert y i. induction x as [|a x IH]; intros [|b y] i L; try discriminate; [destruct i; cbn; ring|]. destruct i; cbn; [reflexivity|]. apply IH. injection L as L. exact L.
Qed.
Lemma vec_line (x d : list R) : length d = length x -> vec_moves (fun s => vadd (N:=RN) x (map (Rmult s) d)) x d.
Proof.
  intros L. assert (Lm : forall s, length x = length (map (Rmult s) d)) by (intros s; rewrite map_length; auto).
  split; [|split].
  1: { apply (nth_ext _ _ 0 0); [transitivity (Nat.min (length x) (length (map (Rmult 0) d))); [exact (vadd_length x (map (Rmult 0) d))|rewrite <- (Lm 0); apply Nat.min_id]|]. intros i Hi. rewrite vadd_nth by apply Lm. rewrite nth_map_mul. ring. }
  1: { intros s. transitivity (Nat.min (length x) (length (map (Rmult s) d))); [exact (vadd_length x (map (Rmult s) d))|rewrite <- (Lm s); apply Nat.min_id]. }
  intros i Hi. apply (is_derive_ext (fun s : R => nth i x 0 + s * nth i d 0)); [intros s; rewrite vadd_nth by apply Lm; rewrite nth_map_mul; reflexivity|].
  auto_derive; [exact I|]. ring.
Qed.
Lemma line_moves (p d : v3 RN) : moving (fun s : R => v3add p (v3scale s d)) p d.
Proof.
  split; [dv p; dv d; gring|]. intros i Hi. dv p; dv d. destruct i as [|[|[|i]]]; [| | |lia]; (eapply d_ext; [intros s; gx; reflexivity|]); gx; auto_derive; try exact I; ring.
Qed.
Lemma pose_turns (A : m3 RN) (w d : v3 RN) : rotation_by w A -> / 100000 < len w < 314 / 100 ->
  turning (fun s : R => dcm_of_rot (log_so3 (m3mul (exp_so3 (v3scale s d)) A))) A d.
Proof.
  intros HE HL. pose proof pi_bounds as PB. set (t := len w) in *. set (a := v3div w t).
  assert (U : length2 a = 1) by (apply unit_axis; fold t; lra).
  assert (Ew : v3scale t a = w) by (apply axis_scale; fold t; lra).
  assert (EE : A = aa_matrix t a) by (eapply rotation_by_unique; [exact HE|rewrite <- Ew; apply aa_by; exact U]).
  pose proof (exp_curve A d) as HC. set (C := fun s : R => m3mul (exp_so3 (v3scale s d)) A) in *. subst A. clear HE.
  assert (Lw : len (v3scale t a) = t) by (rewrite (len_scale t a U); apply Rabs_pos_eq; lra).
  destruct (log_derive_any C t a d U HL HC) as (M & HM1 & HM2).
  assert (EJ : inv_right_jacobian (v3scale t a) = Ok (jac_matrix t a)) by (apply jac_value; auto; lra).
  rewrite EJ in HM1. injection HM1 as <-.
  assert (HW : moving (fun s => log_so3 (C s)) (v3scale t a) (m3v (jac_matrix t a) d)).
  { split.
    1: { rewrite (proj1 HC). assert (0 < sin t) by (apply sin_gt_0; lra). rewrite log_logf_any, logf_aa; auto; [lra| |].
      1: { rewrite (cosang_aa t a U). pose proof (sin2_cos2 t) as P. unfold Rsqr in P. nra. }
      rewrite (cosang_aa t a U), acos_cos by lra. lra. }
    intros i Hi. eapply d_eq; [apply HM2; exact Hi|]. generalize (jac_matrix t a). intros M. dm M; dv d. destruct i as [|[|[|i]]]; [| | |lia]; gx; ring. }
  pose proof (aa_turns _ t a _ U ltac:(lra) HW) as TT. rewrite left_jac_inverts in TT by (auto; lra).
  destruct TT as [T0 T1].
  assert (NB : locally 0 (fun s => / 100000000 < len (log_so3 (C s)))).
  { apply (near_gt (fun s => len (log_so3 (C s))) 0 (/ 100000000) _ (len_moves _ _ _ HW ltac:(lra))). rewrite (proj1 HW). lra. }
  split.
  1: { change (dcm_of_rot (log_so3 (C 0)) = aa_matrix t a). rewrite <- T0. apply dcm_large. rewrite (proj1 HW). lra. }
  intros i j Hi Hj. eapply is_derive_ext_loc; [|apply T1; assumption]. revert NB. apply filter_imp. intros s NB. cbv beta.
  change (ent (aa_matrix (len (log_so3 (C s))) (v3div (log_so3 (C s)) (len (log_so3 (C s))))) i j = ent (dcm_of_rot (log_so3 (C s))) i j).
  rewrite dcm_large by lra. reflexivity.
Qed.

Lemma wrap_same t : - PI < t <= PI -> wrap_angle (N:=RN) t = t.
Proof.
  intros B. destruct (wrap_asked t) as [k E]. pose proof (wrap_range t) as W. rewrite E in W. pose proof PI_RGT_0.
  assert (K : k = 0%Z). { assert (-1 < IZR k < 1) by (split; nra). destruct H0. apply lt_IZR in H0. apply lt_IZR in H1. lia. }
  assert (X : t + 2 * IZR 0 * PI = t) by ring. rewrite E, K. exact X.
Qed.
Lemma wrap_cs t : cos (wrap_angle (N:=RN) t) = cos t /\ sin (wrap_angle (N:=RN) t) = sin t.
Proof.
  destruct (wrap_asked t) as [k E]. rewrite E. clear E.
  assert (P : forall n x, cos (x + 2 * INR n * PI) = cos x /\ sin (x + 2 * INR n * PI) = sin x) by (intros; split; [apply cos_period|apply sin_period]).
  destruct (Z_le_gt_dec 0 k) as [L|L].
  1: { destruct (P (Z.to_nat k) t) as [P1 P2]. rewrite INR_IZR_INZ, Z2Nat.id in P1, P2 by lia. auto. }
  destruct (P (Z.to_nat (- k)) (t + 2 * IZR k * PI)) as [P1 P2]. rewrite INR_IZR_INZ, Z2Nat.id, opp_IZR in P1, P2 by lia.
  assert (X : t + 2 * IZR k * PI + 2 * - IZR k * PI = t) by ring. rewrite X in P1, P2. auto.
Qed.
Lemma list1 {A} (d : list A) : length d = 1%nat -> exists x, d = [x].
Proof. destruct d as [|x [|y d]]; try discriminate. eauto. Qed.
Lemma list3' {A} (d : list A) : length d = 3%nat -> exists x y z, d = [x; y; z].
Proof. destruct d as [|x [|y [|z [|u d]]]]; try discriminate. eauto. Qed.
Lemma list4 {A} (d : list A) : length d = 4%nat -> exists x y z u, d = [x; y; z; u].
Proof. destruct d as [|x [|y [|z [|u [|v d]]]]]; try discriminate. eauto. Qed.
Lemma list6 {A} (d : list A) : length d = 6%nat -> exists x y z u v w, d = [x; y; z; u; v; w].
Proof. destruct d as [|x [|y [|z [|u [|v [|w [|k d]]]]]]]; try discriminate. eauto 7. Qed.
Lemma clip_inside lo hi r : lo < r < hi -> clip (N:=RN) lo hi r = r.
Proof. intros H. unfold clip. rewrite r_nmin, r_nmax, Rmax_left, Rmin_left by lra. reflexivity. Qed.
Lemma increment_moves (k : kind RN) (d : list R) : regular k -> length d = ksize k ->
  exists K, (forall s, kinc k (map (Rmult s) d) = Ok (K s)) /\ kind_moves K k d.
Proof.
  intros Rg L. destruct k as [x|x|x A|x A|o b lo hi x|n e|x]; cbn [regular ksize] in Rg, L.
  1: { exists (fun s => KGeneric (vadd (N:=RN) x (map (Rmult s) d))). split.
    1: { intros s. cbn [kinc]. rewrite map_length, L, Nat.eqb_refl. reflexivity. }
    eexists. split; [intros s; reflexivity|]. apply vec_line. exact L. }
  1: { exists (fun s => KLandmark (vadd (N:=RN) x (map (Rmult s) d))). split.
    1: { intros s. cbn [kinc]. rewrite map_length, L, Nat.eqb_refl. unfold vec_plus. rewrite map_length, L.
      change (@length (car RN) x = 3%nat) in Rg. rewrite Rg. reflexivity. }
    eexists. split; [intros s; reflexivity|]. apply vec_line. rewrite L. symmetry. exact Rg. }
  1: { destruct Rg as (Lx & w & Rw & Bw). destruct (list6 _ Lx) as (x0 & x1 & x2 & x3 & x4 & x5 & Ex).
    exists (fun s => KPose (v3list (v3add (seg3 (N:=RN) 0 x) (v3scale (N:=RN) s (dir3 0 d))) ++ v3list (log_so3 (m3mul (exp_so3 (v3scale s (dir3 3 d))) A)) ++ skipn 6 x)
       (dcm_of_rot (log_so3 (m3mul (exp_so3 (v3scale s (dir3 3 d))) A)))). split.
    1: { intros s. cbn [kinc]. rewrite map_length, L. change (@length (car RN) x = 6%nat) in Lx. rewrite Lx. cbn [Nat.eqb Nat.ltb Nat.leb].
      rewrite !seg3_scale. reflexivity. }
    subst x. eexists _, _. split; [intros s; reflexivity|]. split; [intros s; reflexivity|]. split; [|apply (pose_turns A w _ Rw Bw)].
    pose proof (line_moves (V3 (N:=RN) x0 x1 x2) (dir3 0 d)) as HM. exact HM. }
  1: { exists (fun s => KRot (v3list (log_so3 (m3mul (exp_so3 (v3scale s (dir3 0 d))) A))) (m3mul (exp_so3 (v3scale s (dir3 0 d))) A)). split.
    1: { intros s. cbn [kinc]. unfold to_v3. rewrite map_length, L. cbn [Nat.eqb obind]. rewrite seg3_scale. reflexivity. }
    eexists _, _. split; [intros s; reflexivity|]. apply exp_curve. }
  1: { destruct Rg as (r & -> & B). destruct (list1 _ L) as (y & ->). exists (fun s => KInv o b lo hi [clip (N:=RN) lo hi (r + s * y)]). split; [intros s; reflexivity|].
    eexists. split; [intros s; reflexivity|]. cbv beta. split; [rewrite Rmult_0_l, Rplus_0_r, clip_inside by exact B; reflexivity|].
    assert (D : is_derive (fun s : R => r + s * y) 0 y) by (auto_derive; [exact I|ring]).
    apply (is_derive_ext_loc (fun s : R => r + s * y)); [|exact D].
    assert (N1 : locally 0 (fun s : R => lo < r + s * y)) by (apply (near_gt (fun s : R => r + s * y) _ _ _ D); rewrite Rmult_0_l, Rplus_0_r; tauto).
    assert (N2 : locally 0 (fun s : R => r + s * y < hi)) by (apply (near_lt (fun s : R => r + s * y) _ _ _ D); rewrite Rmult_0_l, Rplus_0_r; tauto).
    generalize (filter_and _ _ N1 N2). apply filter_imp. intros s [H1 H2]. rewrite clip_inside by lra. reflexivity. }
  1: { exists (fun s : R => KPlane (v3normalized (v3add n (v3scale (N:=RN) s (dir3 0 d)))) (e + s * nth 3 d 0)). split.
    1: { intros s. cbn [kinc]. rewrite map_length, L. cbn [Nat.eqb]. rewrite seg3_scale. change (nzero (N:=RN)) with (Q2R 0). rewrite q0. rewrite nth_map_mul. reflexivity. }
    eexists _, _. split; [intros s; reflexivity|]. split; [rewrite Rmult_0_l, Rplus_0_r; reflexivity|]. split; [auto_derive; [exact I|ring]|].
    assert (Ln : len n = 1) by (unfold len; rewrite Rg; apply sqrt_1).
    pose proof (normalized_moves _ _ _ (line_moves n (dir3 0 d)) ltac:(lra)) as HM. rewrite Ln in HM.
    assert (E1 : v3div n 1 = n) by (dv n; gx; f_equal; cbv [RN car] in *; field). rewrite E1 in HM.
    replace (across n (dir3 0 d)) with (v3div (v3sub (dir3 0 d) (v3scale (dot n (dir3 0 d) / (1 * 1)) n)) 1); [exact HM|].
    generalize (dir3 0 d). intros v. unfold across, dot. dv n; dv v. gx. f_equal; field. }
  destruct Rg as (u & v & t & -> & B). destruct (list3' _ L) as (p & q & r & ->).
  exists (fun s : R => KPose2 [u + s * p; v + s * q; wrap_angle (N:=RN) (t + s * r)]). split; [intros s; reflexivity|].
  exists (fun s : R => u + s * p), (fun s : R => v + s * q), (fun s : R => wrap_angle (N:=RN) (t + s * r)), (fun s : R => t + s * r).
  split; [intros s; reflexivity|]. cbv beta. rewrite !Rmult_0_l, !Rplus_0_r, wrap_same by exact B. split; [reflexivity|]. cbn [nth].
  split; [auto_derive; [exact I|ring]|]. split; [auto_derive; [exact I|ring]|]. split; [reflexivity|]. split; [auto_derive; [exact I|ring]|].
  intros s. apply wrap_cs.
Qed.
Lemma nudges_move H h D : steps_regularly h D -> nudges H h D -> hmoves H h D.
Proof.
  intros SR NU a v Ha. specialize (NU a v Ha). destruct (l_const v) eqn:Ec.
  1: { exists (fun _ => l_kind v). rewrite <- Ec. split; [intros s; rewrite (NU s); destruct v; reflexivity|auto]. }
  destruct (SR a v Ha Ec) as [Rg L]. destruct (increment_moves _ _ Rg L) as (K & EK & MK). exists K. split; [|exact MK].
  intros s. destruct (NU s) as (v' & E & ->). cbn in E. rewrite EK in E. cbn in E. injection E as <-. rewrite Ec. reflexivity.
Qed.
(** the increments exist *)
Fixpoint nudge (D : addr -> list R) (s : R) (a : addr) (h : @heap (lvar RN)) : @heap (lvar RN) :=
  match h with
  | [] => []
  | v :: t => (if l_const v then v else match vinc (lib RN) v (map (Rmult s) (D a)) with Ok v' => v' | _ => v end) :: nudge D s (S a) t
  end.
Lemma nudge_nth D s h : forall a b, nth_error (nudge D s a h) b = match nth_error h b with None => None | Some v =>
  Some (if l_const v then v else match vinc (lib RN) v (map (Rmult s) (D (a + b)%nat)) with Ok v' => v' | _ => v end) end.
Proof.
  induction h as [|v h IH]; intros a b; [destruct b; reflexivity|]. destruct b as [|b]; cbn [nudge nth_error]; [rewrite Nat.add_0_r; reflexivity|].
  rewrite IH. replace (S a + b)%nat with (a + S b)%nat by lia. reflexivity.
Qed.
Lemma nudges_exist h D : steps_regularly h D -> nudges (fun s => nudge D s 0%nat h) h D.
Proof.
  intros SR a v Ha s. rewrite nudge_nth, Ha. destruct (l_const v) eqn:Ec; [reflexivity|].
  destruct (SR a v Ha Ec) as [Rg L]. destruct (increment_moves _ _ Rg L) as (K & EK & _). cbn [vinc lib Nat.add]. specialize (EK s). unfold addr in *. rewrite EK. eexists. split; reflexivity.
Qed.
