(** Motions exist for every velocity; exact Jacobians are exact along increments; angles. *)
From Coq Require Import List Arith ZArith QArith Bool Reals Lra Lia Psatz.
From Coquelicot Require Import Coquelicot.
From Verif Require Import Base Sparse Graph Geom Vars VarOps VarsLemmas VarsRun FactorsLin FactorsGeo SpecGeom SpecFactor Real RSum Trig GeomR GeomExp GeomLog GeomJac GeomFacts FactorCalc FactorRead FactorJac FactorAngle FactorJac3 FactorStep.
Import ListNotations.
Local Open Scope R_scope.

Lemma kind_motion (k : kind RN) (d : list R) : well_formed k -> length d = ksize k -> exists K, kind_moves K k d.
Proof.
  intros W L. destruct k as [x|x|x A|x A|o b lo hi x|n e|x]; cbn [well_formed ksize] in W, L.
  1: { eexists (fun s => KGeneric (N:=RN) _), _. split; [intros s; reflexivity|]. apply vec_line. exact L. }
  1: { eexists (fun s => KLandmark (N:=RN) _), _. split; [intros s; reflexivity|]. apply vec_line. rewrite L. symmetry. exact W. }
  1: { destruct (list6 _ W) as (x0 & x1 & x2 & x3 & x4 & x5 & ->).
    exists (fun s => KPose (N:=RN) [x0 + s * nth 0 d 0; x1 + s * nth 1 d 0; x2 + s * nth 2 d 0; x3; x4; x5] (m3mul (exp_so3 (v3scale s (dir3 3 d))) A)).
    eexists _, _. split; [intros s; reflexivity|]. split; [intros s; reflexivity|]. split; [|apply exp_curve]. exact (line_moves (V3 (N:=RN) x0 x1 x2) (dir3 0 d)). }
  1: { eexists (fun s => KRot (N:=RN) _ _), (fun _ => x), _. split; [intros s; reflexivity|]. apply exp_curve. }
  1: { destruct (list1 _ W) as (r & ->). exists (fun s => KInv (N:=RN) o b lo hi [r + s * nth 0 d 0]). eexists. split; [intros s; reflexivity|]. cbv beta.
    split; [rewrite Rmult_0_l, Rplus_0_r; reflexivity|]. auto_derive; [exact I|ring]. }
  1: { exists (fun s : R => KPlane (N:=RN) (v3add n (v3scale (N:=RN) s (across n (dir3 0 d)))) (e + s * nth 3 d 0)). eexists _, _. split; [intros s; reflexivity|].
    split; [rewrite Rmult_0_l, Rplus_0_r; reflexivity|]. split; [auto_derive; [exact I|ring]|]. apply line_moves. }
  destruct (list3' _ W) as (u & v & t & ->).
  exists (fun s : R => KPose2 (N:=RN) [u + s * nth 0 d 0; v + s * nth 1 d 0; t + s * nth 2 d 0]).
  exists (fun s : R => u + s * nth 0 d 0), (fun s : R => v + s * nth 1 d 0), (fun s : R => t + s * nth 2 d 0), (fun s : R => t + s * nth 2 d 0).
  split; [intros s; reflexivity|]. cbv beta. rewrite !Rmult_0_l, !Rplus_0_r. split; [reflexivity|].
  split; [auto_derive; [exact I|ring]|]. split; [auto_derive; [exact I|ring]|]. split; [reflexivity|]. split; [auto_derive; [exact I|ring]|]. auto.
Qed.
Lemma motions_exist (h : @heap (lvar RN)) (D : addr -> list R) :
  (forall a v, nth_error h a = Some v -> well_formed (l_kind v) /\ length (D a) = ksize (l_kind v)) -> exists H, hmoves H h D.
Proof.
  revert D. induction h as [|v h IH]; intros D W.
  1: { exists (fun _ => []). intros a v Ha. destruct a; discriminate. }
  destruct (IH (fun a => D (S a)) (fun a v' Ha => W (S a) v' Ha)) as [H HM]. destruct (W 0%nat v eq_refl) as [Wv Lv].
  destruct (kind_motion _ _ Wv Lv) as [K HK].
  exists (fun s => LVar (l_id v) (l_const v) (if l_const v then l_kind v else K s) :: H s). intros a u Ha. destruct a as [|a].
  1: { injection Ha as <-. exists (fun s => if l_const v then l_kind v else K s). split; [intros s; reflexivity|]. destruct (l_const v); auto. }
  exact (HM a u Ha).
Qed.
Lemma exact_increments f h J : exact_jacobian f h J -> exact_along_increments f h J.
Proof. intros (A & B & C). split; [exact A|]. split; [exact B|]. intros H D SR NU. apply C. apply nudges_move; assumption. Qed.

(** ** Angles *)
Lemma wrap_pi a : wrap_angle (N:=RN) a = PI -> exists k : Z, a = PI + 2 * IZR k * PI.
Proof. intros E. destruct (wrap_asked a) as [k Ek]. rewrite E in Ek. exists (- k)%Z. rewrite opp_IZR. change (@eq R PI (a + 2 * IZR k * PI)) in Ek. lra. Qed.
Lemma not_opposite a b : ~ opposite a b -> wrap_angle (N:=RN) (nsub (n:=RN) a b) <> PI.
Proof. intros H E. apply H. exact (wrap_pi _ E). Qed.
Lemma cs_period t (k : Z) : cos (t + 2 * IZR k * PI) = cos t /\ sin (t + 2 * IZR k * PI) = sin t.
Proof.
  assert (P : forall n x, cos (x + 2 * INR n * PI) = cos x /\ sin (x + 2 * INR n * PI) = sin x) by (intros; split; [apply cos_period|apply sin_period]).
  destruct (Z_le_gt_dec 0 k) as [L|L].
  1: { destruct (P (Z.to_nat k) t) as [P1 P2]. rewrite INR_IZR_INZ, Z2Nat.id in P1, P2 by lia. auto. }
  destruct (P (Z.to_nat (- k)) (t + 2 * IZR k * PI)) as [P1 P2]. rewrite INR_IZR_INZ, Z2Nat.id, opp_IZR in P1, P2 by lia.
  assert (X : t + 2 * IZR k * PI + 2 * - IZR k * PI = t) by ring. rewrite X in P1, P2. auto.
Qed.
(** the polar angle of the point in the pose's frame is the direction in which it is seen *)
Lemma seen_dir x y t lx ly : 0 < (lx - x) * (lx - x) + (ly - y) * (ly - y) -> points_at x y t lx ly (Ratan2 (loc_y x y t lx ly) (loc_x x y t lx ly)).
Proof.
  intros P. set (dx := loc_x x y t lx ly). set (dy := loc_y x y t lx ly).
  pose proof (sin2_cos2 t) as SC. unfold Rsqr in SC.
  assert (N2 : dx * dx + dy * dy = (lx - x) * (lx - x) + (ly - y) * (ly - y)) by (unfold dx, dy, loc_x, loc_y; nsz).
  assert (P' : 0 < dx * dx + dy * dy) by lra.
  destruct (atan2_angle dy dx (hyp_ne _ _ P')) as (_ & C & S). destruct (hyp_root _ _ P') as (R0 & RR).
  exists (sqrt (dx * dx + dy * dy)). split; [exact R0|]. rewrite cos_plus, sin_plus. set (r := sqrt (dx * dx + dy * dy)) in *. set (al := Ratan2 dy dx) in *.
  assert (Cx : r * cos al = dx) by (rewrite Rmult_comm; exact C). assert (Sy : r * sin al = dy) by (rewrite Rmult_comm; exact S).
  unfold dx, loc_x in Cx. unfold dy, loc_y in Sy. clear - Cx Sy SC. split; nsz.
Qed.
Lemma points_same x y t lx ly a b : points_at x y t lx ly a -> points_at x y t lx ly b -> congruent a b.
Proof.
  intros (r & Hr & X & Y) (r' & Hr' & X' & Y'). pose proof (sin2_cos2 (t + a)) as P. pose proof (sin2_cos2 (t + b)) as P'. unfold Rsqr in P, P'.
  assert (E2 : r * r = r' * r'). { replace (r * r) with ((r * cos (t + a)) * (r * cos (t + a)) + (r * sin (t + a)) * (r * sin (t + a))) by nsz. rewrite <- X, <- Y, X', Y'. nsz. }
  assert (E : r = r') by nra. subst r'.
  assert (C : cos (t + a) = cos (t + b)) by (apply (Rmult_eq_reg_l r); lra). assert (S : sin (t + a) = sin (t + b)) by (apply (Rmult_eq_reg_l r); lra).
  destruct (same_angle _ _ C S) as [k E]. exists k. lra.
Qed.
Lemma points_moved x y t lx ly a b : points_at x y t lx ly a -> congruent b a -> points_at x y t lx ly b.
Proof.
  intros (r & Hr & X & Y) (k & E). exists r. split; [exact Hr|]. destruct (cs_period (t + a) k) as [P1 P2].
  replace (t + b) with (t + a + 2 * IZR k * PI) by lra. rewrite P1, P2. auto.
Qed.
(** the error angle of the 2D bearing factors is pi only when the landmark is seen opposite to the measured direction *)
Lemma not_behind x y t lx ly obs : 0 < (lx - x) * (lx - x) + (ly - y) * (ly - y) -> ~ points_at x y t lx ly (obs + PI) ->
  wrap_angle (N:=RN) (Ratan2 (loc_y x y t lx ly) (loc_x x y t lx ly) - obs) <> PI.
Proof.
  intros P H E. apply H. apply wrap_pi in E. destruct E as [k E]. apply (points_moved _ _ _ _ _ _ _ (seen_dir _ _ _ _ _ P)).
  exists (- k)%Z. rewrite opp_IZR. lra.
Qed.
Lemma wrap_zero a : wrap_angle (N:=RN) a = 0 <-> exists k : Z, a = 2 * IZR k * PI.
Proof.
  split.
  1: { intros E. destruct (wrap_asked a) as [k Ek]. rewrite E in Ek. exists (- k)%Z. rewrite opp_IZR. change (@eq R 0 (a + 2 * IZR k * PI)) in Ek. lra. }
  intros [k E]. destruct (wrap_asked a) as [j Ej]. pose proof (wrap_range a) as W. rewrite Ej in W. pose proof PI_RGT_0.
  assert (K : (k + j)%Z = 0%Z). { assert (-1 < IZR (k + j) < 1) by (rewrite plus_IZR; split; nra). destruct H0. apply lt_IZR in H0. apply lt_IZR in H1. lia. }
  apply (f_equal IZR) in K. rewrite plus_IZR in K. rewrite Ej. change (@eq R (a + 2 * IZR j * PI) 0). nra.
Qed.
Lemma seen_zero x y t lx ly obs : 0 < (lx - x) * (lx - x) + (ly - y) * (ly - y) ->
  wrap_angle (N:=RN) (Ratan2 (loc_y x y t lx ly) (loc_x x y t lx ly) - obs) = 0 <-> points_at x y t lx ly obs.
Proof.
  intros P. rewrite wrap_zero. pose proof (seen_dir _ _ t _ _ P) as S. split.
  1: { intros [k E]. apply (points_moved _ _ _ _ _ _ _ S). exists (- k)%Z. rewrite opp_IZR. lra. }
  intros H. exact (points_same _ _ _ _ _ _ _ S H).
Qed.
