(** Exact Jacobians: plane prior and 2D factors. *)
From Coq Require Import List Arith ZArith QArith Bool Reals Lra Lia.
From Coquelicot Require Import Coquelicot.
From Verif Require Import Base Sparse Graph Geom Vars VarOps FactorsLin FactorsLinFacts FactorsGeo SpecGeom SpecFactor Real RSum Trig GeomR FactorCalc FactorRead FactorJac FactorJac2 FactorAngle.
Import ListNotations.
Local Open Scope R_scope.

(** ** Plane prior *)
Definition planepri_block (n np : v3 RN) (wn wd : R) : mat RN :=
  let c := v3dot n np in
  let A := m3scale wn (m3sub (m3add (m3scale c m3id) (m3outer n np)) (m3scale ((nlit (n:=RN) 2 : R) * c) (m3outer n n))) in
  rows_mat 4 4 [v3list (m3row0 A) ++ [nzero (N:=RN)]; v3list (m3row1 A) ++ [nzero (N:=RN)]; v3list (m3row2 A) ++ [nzero (N:=RN)]; [nzero (N:=RN); nzero (N:=RN); nzero (N:=RN); wd]].
Lemma planepri_exact id m np (dp nsigma dsigma : R) h n e : sees_plane h m n e -> len n = 1 ->
  exact_jacobian (plane_prior (N:=RN) id m np dp nsigma dsigma) h [blkv h m (planepri_block n (v3normalized np) (1 / nsigma) (1 / dsigma))].
Proof.
  intros Sm Hn. pose proof (there_plane _ _ _ _ Sm) as Tm. unfold plane_prior. cbv zeta. rewrite !unit_over.
  generalize (1 / nsigma) (1 / dsigma) (v3normalized np). intros wn wd np'. split; [|split]; cbn [f_jac f_vars f_res f_rsize].
  { intros J0. unfold planepri_jac. destruct (sized1 J0) as (x & ->). rewrite (plane_at_sees _ _ _ _ Sm). unfold blkv, hget.
    destruct Sm as (id' & c & Hm). rewrite Hm. cbn [obind withj l_const]. destruct c; reflexivity. }
  1: shapes.
  intros H D HM. destruct (read_plane _ _ _ _ _ _ HM Sm) as (M & E & EM & MM & E0 & DE).
  eexists. split; [intros s; unfold planepri_res; rewrite EM; split; reflexivity|]. cbn [obind].
  assert (H1 : vx n * vx n + vy n * vy n + vz n * vz n = 1) by (pose proof (len_sq n) as Q; rewrite Hn in Q; unfold length2 in Q; lra).
  mcomp MM. intros i Hi. cbn [response]. rewrite (term_there _ _ _ _ _ _ Tm), rsum4.
  set (wv := across n (dir3 0 (vel h D m))) in *.
  assert (W : wv = across n (dir3 0 (vel h D m))) by reflexivity. unfold across, dir3, dot in W. cbn [Nat.add] in W.
  destruct wv as [w0 w1 w2]. destruct n as [n0 n1 n2]. inversion E1; subst n0 n1 n2. destruct np' as [p0 p1 p2]. cbn [vx vy vz] in *.
  inversion W as [[W0 W1 W2]]. clear W E1. 
  destruct i as [|[|[|[|i]]]]; [| | | |lia].
  1-3: (eapply d_ext; [intros s; rewrite Ec; gx; cbn [v3list app nth vx vy vz]; reflexivity|]).
  1-3: (eapply d_eq; [ders|]).
  1-3: (unfold planepri_block; cbv zeta; rowsx; gx; revert H1 W0 W1 W2; genv; generalize (x 0) (y 0) (z 0); intros n0 n1 n2 H1 W0 W1 W2).
  4: (eapply d_eq; [apply (d_scal (fun s => E s - dp)); apply d_minus; [exact DE|apply d_const]|]; unfold planepri_block; cbv zeta; rowsx; gx; ring).
  1-3: (clear - H1 W0 W1 W2; subst w0 w1 w2; change (car RN) with R in *; nsz).
Qed.

(** ** 2D *)
Ltac gy := cbv [local2 dcm2 m2v m2t v2sub v2scale v2list v2x v2y a00 a01 a10 a11 fst snd]; gx.
(** the landmark in the pose frame *)
Definition loc_x (x y t lx ly : R) : R := cos t * (lx - x) + sin t * (ly - y).
Definition loc_y (x y t lx ly : R) : R := - sin t * (lx - x) + cos t * (ly - y).
Lemma loc_norm x y t lx ly : loc_x x y t lx ly * loc_x x y t lx ly + loc_y x y t lx ly * loc_y x y t lx ly = (lx - x) * (lx - x) + (ly - y) * (ly - y).
Proof.
  unfold loc_x, loc_y. pose proof (sin2_cos2 t) as Q. unfold Rsqr in Q.
  transitivity (((lx - x) * (lx - x) + (ly - y) * (ly - y)) * (sin t * sin t + cos t * cos t)); [ring|rewrite Q; ring].
Qed.
Lemma local2_value (h : rheap) p l x y t lx ly : pose2_at h p = Ok (V2 (N:=RN) x y, t) -> value2_at h l = Ok (V2 (N:=RN) lx ly) ->
  local2 h p l = Ok (V2 (N:=RN) (loc_x x y t lx ly) (loc_y x y t lx ly), t).
Proof. intros Hp Hl. unfold local2. rewrite Hp, Hl. reflexivity. Qed.
Lemma read_local (H : R -> rheap) h D p l x y t lx ly : hmoves H h D -> sees_pose2 h p x y t -> sees_generic h l [lx; ly] ->
  exists (A B T : R -> R), (forall s, local2 (H s) p l = Ok (V2 (N:=RN) (A s) (B s), T s)) /\ A 0 = loc_x x y t lx ly /\ B 0 = loc_y x y t lx ly /\
  is_derive A 0 (cos t * (nth 0 (vel h D l) 0 - nth 0 (vel h D p) 0) + sin t * (nth 1 (vel h D l) 0 - nth 1 (vel h D p) 0) + nth 2 (vel h D p) 0 * loc_y x y t lx ly) /\
  is_derive B 0 (- sin t * (nth 0 (vel h D l) 0 - nth 0 (vel h D p) 0) + cos t * (nth 1 (vel h D l) 0 - nth 1 (vel h D p) 0) - nth 2 (vel h D p) 0 * loc_x x y t lx ly).
Proof.
  intros HM Sp Sl. destruct (read_pose2 _ _ _ _ _ _ _ HM Sp) as (X & Y & T & U & ER & X0 & Y0 & T0 & U0 & DX & DY & DU & W).
  destruct (read_generic _ _ _ _ _ HM Sl) as (L & EL & ML). destruct ML as (L0 & LL & DL).
  assert (D0 : is_derive (fun s => nth 0 (L s) 0) 0 (nth 0 (vel h D l) 0)) by (apply DL; simpl; lia).
  assert (D1 : is_derive (fun s => nth 1 (L s) 0) 0 (nth 1 (vel h D l) 0)) by (apply DL; simpl; lia).
  assert (EV : forall s, value2_at (H s) l = Ok (V2 (N:=RN) (nth 0 (L s) 0) (nth 1 (L s) 0))).
  { intros s. specialize (EL s). specialize (LL s). unfold value2_at, value_at. unfold generic_at in EL. destruct (hget (H s) l) as [v| |]; try discriminate. cbn [obind] in *.
    destruct (l_kind v); try discriminate. inversion EL; subst. cbn [kval]. destruct (L s) as [|? [|? [|]]]; try discriminate. reflexivity. }
  exists (fun s => loc_x (X s) (Y s) (T s) (nth 0 (L s) 0) (nth 1 (L s) 0)), (fun s => loc_y (X s) (Y s) (T s) (nth 0 (L s) 0) (nth 1 (L s) 0)), T.
  split; [intros s; apply local2_value; [apply ER|apply EV]|].
  split; [rewrite X0, Y0, T0, L0; reflexivity|]. split; [rewrite X0, Y0, T0, L0; reflexivity|].
  pose proof (d_cos _ _ _ DU) as DC. pose proof (d_sin _ _ _ DU) as DS.
  split; (eapply d_ext; [intros s; unfold loc_x, loc_y; rewrite (proj1 (W s)), (proj2 (W s)); reflexivity|]).
  1: (eapply d_eq; [apply (d_plus (fun s => cos (U s) * (nth 0 (L s) 0 - X s)) (fun s => sin (U s) * (nth 1 (L s) 0 - Y s))); apply d_mult; [exact DC|exact (d_minus _ _ _ _ _ D0 DX)|exact DS|exact (d_minus _ _ _ _ _ D1 DY)]|]).
  2: (eapply d_eq; [apply (d_plus (fun s => - sin (U s) * (nth 0 (L s) 0 - X s)) (fun s => cos (U s) * (nth 1 (L s) 0 - Y s))); apply d_mult; [apply (d_opp (fun s => sin (U s))); exact DS|exact (d_minus _ _ _ _ _ D0 DX)|exact DC|exact (d_minus _ _ _ _ _ D1 DY)]|]).
  all: cbv beta; rewrite U0, X0, Y0, L0; cbn [nth]; unfold loc_x, loc_y; ring.
Qed.
(** derivative of the bearing error *)
Lemma d_bearing (A B : R -> R) (a b da db o : R) : A 0 = a -> B 0 = b -> is_derive A 0 da -> is_derive B 0 db -> 0 < a * a + b * b ->
  wrap_angle (N:=RN) (Ratan2 b a - o) <> PI -> is_derive (fun s => wrap_angle (N:=RN) (Ratan2 (B s) (A s) - o)) 0 ((a * db - b * da) / (a * a + b * b)).
Proof.
  intros EA EB DA DB Hp Hn.
  assert (DN : is_derive (fun s => A s * A s + B s * B s) 0 (2 * (a * da + b * db))) by (der; rewrite EA, EB; ring).
  eapply is_derive_ext_loc with (f := fun s => Ratan2 (B s * cos o - A s * sin o) (A s * cos o + B s * sin o)).
  { eapply filter_imp; [|apply (near_gt _ _ 0 _ DN); rewrite EA, EB; exact Hp]. cbv beta. intros s Hs. symmetry. apply wrap_atan2. exact Hs. }
  rewrite (wrap_atan2 b a o Hp) in Hn. pose proof (sin2_cos2 o) as Q. unfold Rsqr in Q.
  assert (EQ : (a * cos o + b * sin o) * (a * cos o + b * sin o) + (b * cos o - a * sin o) * (b * cos o - a * sin o) = a * a + b * b).
  { transitivity ((a * a + b * b) * (sin o * sin o + cos o * cos o)); [ring|rewrite Q; ring]. }
  eapply d_eq; [apply (d_atan2 (fun s => A s * cos o + B s * sin o) (fun s => B s * cos o - A s * sin o))|].
  1: (eapply d_eq; [ders|]; rewrite EA, EB; instantiate (1 := da * cos o + db * sin o); ring).
  1: (eapply d_eq; [ders|]; rewrite EA, EB; instantiate (1 := db * cos o - da * sin o); ring).
  1: (rewrite EA, EB; lra).
  1: (rewrite EA, EB; apply off_axis; [lra|exact Hn]).
  cbv beta. rewrite EA, EB, EQ. f_equal. transitivity ((a * db - b * da) * (sin o * sin o + cos o * cos o)); [ring|rewrite Q; ring].
Qed.
Lemma value2_at_sees (h : rheap) a x y : sees_generic h a [x; y] -> value2_at h a = Ok (V2 (N:=RN) x y).
Proof. intros (id & c & Ha). unfold value2_at, value_at, hget. rewrite Ha. reflexivity. Qed.
Definition bear2_row (w x y t lx ly : R) : list R :=
  let dx := loc_x x y t lx ly in let dy := loc_y x y t lx ly in let r2 := dx * dx + dy * dy in
  [w * (dy * cos t + dx * sin t) / r2; w * (dy * sin t - dx * cos t) / r2].
Definition bear2_lrow (w x y t lx ly : R) : list R :=
  let dx := loc_x x y t lx ly in let dy := loc_y x y t lx ly in let r2 := dx * dx + dy * dy in
  [- w * (dy * cos t + dx * sin t) / r2; - w * (dy * sin t - dx * cos t) / r2].
Lemma far2 (r2 : R) : 1 / 1000000000 * (1 / 1000000000) <= r2 -> nltb (n:=RN) r2 (nmul (n:=RN) min_dist min_dist) = false.
Proof. intros H. apply Rltb_false. change (nmul (n:=RN) min_dist min_dist) with ((min_dist (N:=RN) : R) * (min_dist (N:=RN) : R)). rewrite min_dist_R. exact H. Qed.
Lemma bear2_exact id p l (obs sigma : R) h x y t lx ly : sees_pose2 h p x y t -> sees_generic h l [lx; ly] ->
  1 / 1000000000 * (1 / 1000000000) <= (lx - x) * (lx - x) + (ly - y) * (ly - y) ->
  wrap_angle (N:=RN) (Ratan2 (loc_y x y t lx ly) (loc_x x y t lx ly) - obs) <> PI ->
  exact_jacobian (bearing_observation_2d (N:=RN) id p l obs sigma) h
    [blkv h p (rows_mat (N:=RN) 1 3 [bear2_row (1 / sigma) x y t lx ly ++ [- (1 / sigma)]]); blkv h l (rows_mat (N:=RN) 1 2 [bear2_lrow (1 / sigma) x y t lx ly])].
Proof.
  intros Sp Sl F Hn. pose proof (there_pose2 _ _ _ _ _ Sp) as Tp. pose proof (there_generic _ _ _ Sl) as Tl. cbn [length] in Tl.
  rewrite <- (loc_norm x y t) in F.
  unfold bearing_observation_2d. cbv zeta. rewrite unit_over. generalize (1 / sigma). intros w. apply exact1; [reflexivity| | |]; cbn [f_jac f_vars f_res].
  1: (intros J0; unfold bear2_jac; destruct (sized2 J0) as (j0 & j1 & ->);
      rewrite (local2_value _ _ _ _ _ _ _ _ (pose2_at_sees _ _ _ _ _ Sp) (value2_at_sees _ _ _ _ Sl)); cbn [obind v2x v2y fst snd];
      rewrite far2 by exact F; cbn [withj]; rewrite !(blk_there _ _ _ _ Tp), !(blk_there _ _ _ _ Tl); reflexivity).
  1: shapes.
  intros H D HM. destruct (read_local _ _ _ _ _ _ _ _ _ _ HM Sp Sl) as (A & B & T & E & A0 & B0 & DA & DB).
  exists (fun s => w * wrap_angle (N:=RN) (Ratan2 (B s) (A s) - obs)). split; [intros s; unfold bear2_res; rewrite E; reflexivity|].
  eapply d_eq; [apply d_scal; apply (d_bearing A B _ _ _ _ obs A0 B0 DA DB); [lra|exact Hn]|].
  cbn [response]. rewrite (term_there _ _ _ _ _ _ Tp), (term_there _ _ _ _ _ _ Tl), rsum3, rsum2.
  unfold bear2_row, bear2_lrow. cbv zeta. cbn [app]. rowsx. genv. assert (F0 : 0 < loc_x x y t lx ly * loc_x x y t lx ly + loc_y x y t lx ly * loc_y x y t lx ly) by lra.
  clear - F0. revert F0. generalize (loc_x x y t lx ly) (loc_y x y t lx ly) (cos t) (sin t). intros a b c s F0.
  change (car RN) with R. field. lra.
Qed.
Definition range2_row (w x y t lx ly : R) : list R :=
  let dx := loc_x x y t lx ly in let dy := loc_y x y t lx ly in let r := sqrt (dx * dx + dy * dy) in
  [- w * (dx * cos t - dy * sin t) / r; - w * (dx * sin t + dy * cos t) / r].
Definition range2_lrow (w x y t lx ly : R) : list R :=
  let dx := loc_x x y t lx ly in let dy := loc_y x y t lx ly in let r := sqrt (dx * dx + dy * dy) in
  [w * (dx * cos t - dy * sin t) / r; w * (dx * sin t + dy * cos t) / r].
Lemma range2_exact id p l (robs obs rs bs : R) h x y t lx ly : sees_pose2 h p x y t -> sees_generic h l [lx; ly] ->
  1 / 1000000000 <= sqrt ((lx - x) * (lx - x) + (ly - y) * (ly - y)) ->
  wrap_angle (N:=RN) (Ratan2 (loc_y x y t lx ly) (loc_x x y t lx ly) - obs) <> PI ->
  exact_jacobian (range_bearing_2d (N:=RN) id p l robs obs rs bs) h
    [blkv h p (rows_mat (N:=RN) 2 3 [range2_row (1 / rs) x y t lx ly ++ [nzero (N:=RN)]; bear2_row (1 / bs) x y t lx ly ++ [- (1 / bs)]]);
     blkv h l (rows_mat (N:=RN) 2 2 [range2_lrow (1 / rs) x y t lx ly; bear2_lrow (1 / bs) x y t lx ly])].
Proof.
  intros Sp Sl F Hn. pose proof (there_pose2 _ _ _ _ _ Sp) as Tp. pose proof (there_generic _ _ _ Sl) as Tl. cbn [length] in Tl.
  rewrite <- (loc_norm x y t) in F.
  assert (F0 : 0 < loc_x x y t lx ly * loc_x x y t lx ly + loc_y x y t lx ly * loc_y x y t lx ly).
  { destruct (Rle_lt_dec (loc_x x y t lx ly * loc_x x y t lx ly + loc_y x y t lx ly * loc_y x y t lx ly) 0) as [N0|N0]; [|exact N0].
    rewrite sqrt_neg_0 in F by exact N0. lra. }
  unfold range_bearing_2d. cbv zeta. rewrite !unit_over. generalize (1 / rs) (1 / bs). intros wr wb. split; [|split]; cbn [f_jac f_vars f_res f_rsize].
  { intros J0; unfold range2_jac; destruct (sized2 J0) as (j0 & j1 & ->).
    rewrite (local2_value _ _ _ _ _ _ _ _ (pose2_at_sees _ _ _ _ _ Sp) (value2_at_sees _ _ _ _ Sl)); cbn [obind v2x v2y fst snd].
    replace (nltb (n:=RN) (nsqrt (n:=RN) (nadd (n:=RN) (nmul (n:=RN) (loc_x x y t lx ly) (loc_x x y t lx ly)) (nmul (n:=RN) (loc_y x y t lx ly) (loc_y x y t lx ly)))) min_dist) with false
      by (symmetry; apply Rltb_false; rewrite min_dist_R; exact F).
    cbn [withj]; rewrite !(blk_there _ _ _ _ Tp), !(blk_there _ _ _ _ Tl); reflexivity. }
  1: shapes.
  intros H D HM. destruct (read_local _ _ _ _ _ _ _ _ _ _ HM Sp Sl) as (A & B & T & E & A0 & B0 & DA & DB).
  exists (fun s => [wr * (sqrt (A s * A s + B s * B s) - robs); wb * wrap_angle (N:=RN) (Ratan2 (B s) (A s) - obs)]).
  split; [intros s; unfold range2_res; rewrite E; split; reflexivity|].
  assert (FR : 0 < sqrt (loc_x x y t lx ly * loc_x x y t lx ly + loc_y x y t lx ly * loc_y x y t lx ly)) by lra.
  intros i Hi. destruct i as [|[|i]]; [| |lia]; cbn [nth].
  2: (eapply d_eq; [apply d_scal; apply (d_bearing A B _ _ _ _ obs A0 B0 DA DB); [lra|exact Hn]|]).
  1: (eapply d_eq; [apply (d_scal (fun s => sqrt (A s * A s + B s * B s) - robs)); apply (d_minus (fun s => sqrt (A s * A s + B s * B s)) (fun _ => robs));
      [apply d_sqrt; [apply (d_plus (fun s => A s * A s) (fun s => B s * B s)); apply d_mult; first [exact DA|exact DB]|rewrite A0, B0; exact F0]|apply d_const]|]; cbv beta; rewrite A0, B0).
  all: cbn [response]; rewrite (term_there _ _ _ _ _ _ Tp), (term_there _ _ _ _ _ _ Tl), rsum3, rsum2;
    unfold range2_row, range2_lrow, bear2_row, bear2_lrow; cbv zeta; cbn [app]; rowsx; genv; clear - F0 FR; gx; revert F0 FR; 
    try generalize (sqrt (loc_x x y t lx ly * loc_x x y t lx ly + loc_y x y t lx ly * loc_y x y t lx ly));
    generalize (loc_x x y t lx ly) (loc_y x y t lx ly) (cos t) (sin t); intros; field; lra.
Qed.
(** ** 2D priors and relative poses *)
Lemma exact_list3 (f : factor (N:=RN) (V:=lvar RN)) h J : f_rsize f = 3%nat -> (forall J0, f_jac f h J0 = (J, Ok tt)) -> shaped h 3 (f_vars f) J ->
  (forall H D, hmoves H h D -> exists a b c : R -> R, (forall s, f_res f (H s) = Ok [a s; b s; c s]) /\
    is_derive a 0 (response h D (f_vars f) J 0) /\ is_derive b 0 (response h D (f_vars f) J 1) /\ is_derive c 0 (response h D (f_vars f) J 2)) -> exact_jacobian f h J.
Proof.
  intros E HJ HS HD. split; [exact HJ|]. rewrite E. split; [exact HS|]. intros H D HM. destruct (HD H D HM) as (a & b & c & HR & Da & Db & Dc).
  exists (fun s => [a s; b s; c s]). split; [intros s; split; [apply HR|reflexivity]|]. intros i Hi. i3 i; assumption.
Qed.
Lemma pri2_exact id p prior (ps rs : R) h x y t : sees_pose2 h p x y t -> wrap_angle (N:=RN) (t - vz prior) <> PI ->
  exact_jacobian (pose2_prior (N:=RN) id p prior ps rs) h [blkv h p (diag2 (1 / ps) (1 / rs))].
Proof.
  intros Sp Hn. pose proof (there_pose2 _ _ _ _ _ Sp) as Tp. unfold pose2_prior. cbv zeta. rewrite !unit_over. generalize (1 / ps) (1 / rs). intros wp wa.
  apply exact_list3; [reflexivity| | |]; cbn [f_jac f_vars f_res].
  1: (intros J0; unfold pri2_jac; destruct (sized1 J0) as (j & ->); rewrite (blk_there _ _ _ _ Tp); reflexivity).
  1: shapes.
  intros H D HM. destruct (read_pose2 _ _ _ _ _ _ _ HM Sp) as (X & Y & T & U & ER & X0 & Y0 & T0 & U0 & DX & DY & DU & W).
  exists (fun s => wp * (X s - vx prior)), (fun s => wp * (Y s - vy prior)), (fun s => wa * wrap_angle (N:=RN) (T s - vz prior)).
  split; [intros s; unfold pri2_res; rewrite (proj1 (ER s)); reflexivity|].
  cbn [response]. rewrite !(term_there _ _ _ _ _ _ Tp), !rsum3. unfold diag2. rowsx.
  split; [|split].
  1: (eapply d_eq; [apply d_scal; apply d_minus; [exact DX|apply d_const]|]; gx; ring).
  1: (eapply d_eq; [apply d_scal; apply d_minus; [exact DY|apply d_const]|]; gx; ring).
  eapply d_eq; [apply d_scal; apply (d_wrap (fun s => T s - vz prior) (fun s => U s - vz prior)); [apply (d_minus U (fun _ => vz prior)); [exact DU|apply d_const]| |rewrite T0; exact Hn]|].
  1: (intros s; rewrite !cos_minus, !sin_minus, (proj1 (W s)), (proj2 (W s)); split; reflexivity).
  gx. ring.
Qed.
(** a three-element measurement: a vector variable or another 2D pose *)
Definition sees_planar (h : rheap) (m : addr) (x y t : R) : Prop := sees_vector h m [x; y; t] \/ sees_pose2 h m x y t.
Lemma read_planar (H : R -> rheap) h D a x y t : hmoves H h D -> sees_planar h a x y t ->
  exists X Y T U : R -> R, (forall s, value_at (H s) a = Ok [X s; Y s; T s]) /\ X 0 = x /\ Y 0 = y /\ T 0 = t /\ U 0 = t /\
  is_derive X 0 (nth 0 (vel h D a) 0) /\ is_derive Y 0 (nth 1 (vel h D a) 0) /\ is_derive U 0 (nth 2 (vel h D a) 0) /\
  forall s, cos (T s) = cos (U s) /\ sin (T s) = sin (U s).
Proof.
  intros HM [S|S].
  { destruct (read_vector _ _ _ _ _ HM S) as (X & E & X0 & LX & DX).
    exists (fun s => nth 0 (X s) 0), (fun s => nth 1 (X s) 0), (fun s => nth 2 (X s) 0), (fun s => nth 2 (X s) 0).
    split; [intros s; rewrite E; f_equal; apply list3; apply LX|]. rewrite X0. repeat (split; [reflexivity|]).
    split; [apply DX; simpl; lia|]. split; [apply DX; simpl; lia|]. split; [apply DX; simpl; lia|]. intros s; split; reflexivity. }
  destruct (read_pose2 _ _ _ _ _ _ _ HM S) as (X & Y & T & U & ER & X0 & Y0 & T0 & U0 & DX & DY & DU & W). exists X, Y, T, U.
  split; [intros s; apply ER|]. repeat (split; [assumption|]). exact W.
Qed.
Lemma there_planar h a x y t : sees_planar h a x y t -> there h a 3.
Proof. intros [S|S]; [exact (there_vector _ _ _ S)|exact (there_pose2 _ _ _ _ _ S)]. Qed.
Definition bet2_blocks (h : rheap) a b m (wp wa : R) (loc : bool) (x1 y1 t1 x2 y2 : R) : list (mat RN) :=
  let o : RN := nzero (N:=RN) in let u : R := (nunit (N:=RN) : R) in let oo : R := (nzero (N:=RN) : R) in
  if loc then
    let c := cos t1 in let s := sin t1 in
    let dr0 := (oo * c + - u * s) * (x2 - x1) + (oo * - s + - u * c) * (y2 - y1) in
    let dr1 := (u * c + oo * s) * (x2 - x1) + (u * - s + oo * c) * (y2 - y1) in
    [blkv h a (rows_mat (N:=RN) 3 3 [[- wp * c; - wp * - s; wp * dr0]; [- wp * s; - wp * c; wp * dr1]; [o; o; - wa]]);
     blkv h b (rows_mat (N:=RN) 3 3 [[wp * c; wp * - s; o]; [wp * s; wp * c; o]; [o; o; wa]]); blkv h m (diag2 (N:=RN) (- wp) (- wa))]
  else [blkv h a (diag2 (N:=RN) (- wp) (- wa)); blkv h b (diag2 (N:=RN) wp wa); blkv h m (diag2 (N:=RN) (- wp) (- wa))].
Lemma bet2_exact id a b m (ps rs : R) loc h x1 y1 t1 x2 y2 t2 mx my mt :
  sees_pose2 h a x1 y1 t1 -> sees_pose2 h b x2 y2 t2 -> sees_planar h m mx my mt -> wrap_angle (N:=RN) (t2 - t1 - mt) <> PI ->
  exact_jacobian (pose2_between (N:=RN) id a b m ps rs loc) h (bet2_blocks h a b m (1 / ps) (1 / rs) loc x1 y1 t1 x2 y2).
Proof.
  intros Sa Sb Sm Hn. pose proof (there_pose2 _ _ _ _ _ Sa) as Ta. pose proof (there_pose2 _ _ _ _ _ Sb) as Tb. pose proof (there_planar _ _ _ _ _ Sm) as Tm.
  unfold pose2_between. cbv zeta. rewrite !unit_over. generalize (1 / ps) (1 / rs). intros wp wa.
  apply exact_list3; [reflexivity| | |]; cbn [f_jac f_vars f_res].
  1: (intros J0; unfold bet2_jac; destruct (sized3 J0) as (j0 & j1 & j2 & ->); rewrite (pose2_at_sees _ _ _ _ _ Sa), (pose2_at_sees _ _ _ _ _ Sb);
      destruct loc; cbn [obind withj]; rewrite !(blk_there _ _ _ _ Ta), !(blk_there _ _ _ _ Tb), !(blk_there _ _ _ _ Tm); reflexivity).
  1: (destruct loc; shapes).
  intros H D HM. destruct (read_pose2 _ _ _ _ _ _ _ HM Sa) as (X1 & Y1 & T1 & U1 & ER1 & X10 & Y10 & T10 & U10 & DX1 & DY1 & DU1 & W1).
  destruct (read_pose2 _ _ _ _ _ _ _ HM Sb) as (X2 & Y2 & T2 & U2 & ER2 & X20 & Y20 & T20 & U20 & DX2 & DY2 & DU2 & W2).
  destruct (read_planar _ _ _ _ _ _ _ HM Sm) as (X3 & Y3 & T3 & U3 & ER3 & X30 & Y30 & T30 & U30 & DX3 & DY3 & DU3 & W3).
  assert (EV : forall s, value2_at (H s) m = Ok (V2 (N:=RN) (X3 s) (Y3 s))) by (intros s; unfold value2_at; rewrite ER3; reflexivity).
  assert (DW : is_derive (fun s => wrap_angle (N:=RN) (T2 s - T1 s - T3 s)) 0 (nth 2 (vel h D b) 0 - nth 2 (vel h D a) 0 - nth 2 (vel h D m) 0)).
  { apply (d_wrap (fun s => T2 s - T1 s - T3 s) (fun s => U2 s - U1 s - U3 s)); [apply (d_minus (fun s => U2 s - U1 s) U3); [apply d_minus; assumption|exact DU3]| |rewrite T10, T20, T30; exact Hn].
    intros s. rewrite !cos_minus, !sin_minus, !cos_minus, (proj1 (W1 s)), (proj2 (W1 s)), (proj1 (W2 s)), (proj2 (W2 s)), (proj1 (W3 s)), (proj2 (W3 s)); split; reflexivity. }
  destruct loc.
  { exists (fun s => wp * (cos (U1 s) * (X2 s - X1 s) + - sin (U1 s) * (Y2 s - Y1 s) - X3 s)),
      (fun s => wp * (sin (U1 s) * (X2 s - X1 s) + cos (U1 s) * (Y2 s - Y1 s) - Y3 s)), (fun s => wa * wrap_angle (N:=RN) (T2 s - T1 s - T3 s)).
    split. 1: (intros s; unfold bet2_res; rewrite (proj1 (ER1 s)), (proj1 (ER2 s)), EV, ER3; cbn [obind nth_error]; gy; rewrite (proj1 (W1 s)), (proj2 (W1 s)); reflexivity).
    unfold bet2_blocks, diag2. cbn [response]. rewrite !(term_there _ _ _ _ _ _ Ta), !(term_there _ _ _ _ _ _ Tb), !(term_there _ _ _ _ _ _ Tm), !rsum3. rowsx. gx.
    split; [|split].
    3: (eapply d_eq; [apply d_scal; exact DW|ring]).
    all: eapply d_eq; [ders|]; cbv beta; rewrite U10, X10, X20, Y10, Y20, ?X30, ?Y30; ring. }
  exists (fun s => wp * (X2 s - X1 s - X3 s)), (fun s => wp * (Y2 s - Y1 s - Y3 s)), (fun s => wa * wrap_angle (N:=RN) (T2 s - T1 s - T3 s)).
  split. 1: (intros s; unfold bet2_res; rewrite (proj1 (ER1 s)), (proj1 (ER2 s)), EV, ER3; reflexivity).
  unfold bet2_blocks, diag2. cbn [response]. rewrite !(term_there _ _ _ _ _ _ Ta), !(term_there _ _ _ _ _ _ Tb), !(term_there _ _ _ _ _ _ Tm), !rsum3. rowsx. gx.
  split; [|split].
  3: (eapply d_eq; [apply d_scal; exact DW|ring]).
  all: eapply d_eq; [ders|]; ring.
Qed.
