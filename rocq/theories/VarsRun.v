(** Invariants of single variables over every sequence of calls. *)
From Coq Require Import List Arith ZArith QArith Bool Lia Reals Lra Psatz.
From Verif Require Import Base Sparse Graph SpecGraph SpecOpt Geom Vars Real Trig VarsLemmas VarOps SpecVars SpecGeom GeomR GeomExp GeomLog.
Import ListNotations.
Local Open Scope R_scope.

Ltac req := match goal with |- @eq _ ?a ?b => change (@eq R a b) end.

(** ** Pose2DVariable *)
Definition is_pose2 (v : lvar RN) (s : R * R * R) : Prop :=
  let '(x, y, th) := s in exists t, l_kind v = KPose2 [x; y; t] /\ - PI < t <= PI /\ exists k : Z, t = th + 2 * IZR k * PI.
Lemma wrap_asked th : exists k : Z, wrap_angle (N:=RN) th = th + 2 * IZR k * PI.
Proof.
  destruct (wrap_spec th) as (A & B & C). change (wrap_angle (N:=RN) th) with (Ratan2 (sin th) (cos th)). simpl in *.
  apply same_angle; auto.
Qed.
Lemma wrap_range th : - PI < wrap_angle (N:=RN) th <= PI.
Proof. destruct (wrap_spec th) as (A & _). exact A. Qed.
Lemma wrap_asked2 th t k : t = th + 2 * IZR k * PI -> forall d, exists k' : Z, wrap_angle (N:=RN) (t + d) = th + d + 2 * IZR k' * PI.
Proof.
  intros E d. destruct (wrap_asked (t + d)) as [k' Ek]. exists (k + k')%Z. rewrite Ek, E, plus_IZR. req. ring.
Qed.
Lemma pose2_call (v : lvar RN) s o : is_pose2 v s ->
  exists v', (vcall v o = Ok v' \/ (exists e, vcall v o = Throw e /\ v' = v)) /\ is_pose2 v' (asked2 s o).
Proof.
  destruct s as [[x y] th]. intros (t & Ek & B & k & Et). destruct v as [i c kd]. cbn [l_kind] in Ek. subst kd.
  assert (Same : forall v' : lvar RN, l_kind v' = KPose2 [x; y; t] -> is_pose2 v' (x, y, th)) by (intros v' E; exists t; eauto).
  destruct o; cbn [vcall asked2].
  - destruct x0 as [|x0 [|y0 [|t0 [|? ?]]]]; try (eexists; split; [right; eexists; split; [reflexivity|reflexivity]|apply Same; reflexivity]).
    eexists. split; [left; reflexivity|]. exists (wrap_angle (N:=RN) t0). split; [reflexivity|]. split; [apply wrap_range|apply wrap_asked].
  - destruct dx as [|x0 [|y0 [|t0 [|? ?]]]]; try (eexists; split; [right; eexists; split; [reflexivity|reflexivity]|apply Same; reflexivity]).
    eexists. split; [left; reflexivity|]. exists (wrap_angle (N:=RN) (t + t0)). split; [reflexivity|]. split; [apply wrap_range|]. eapply wrap_asked2; eauto.
  - eexists; split; [left; reflexivity|apply Same; reflexivity].
  - eexists; split; [left; reflexivity|apply Same; reflexivity].
  - eexists; split; [left; reflexivity|apply Same; reflexivity].
  - eexists; split; [left; reflexivity|apply Same; reflexivity].
  - eexists; split; [left; reflexivity|apply Same; reflexivity].
  - eexists; split; [left; reflexivity|]. exists t. eauto.
  - eexists; split; [left; reflexivity|]. exists (wrap_angle (N:=RN) t0). split; [reflexivity|]. split; [apply wrap_range|apply wrap_asked].
Qed.
Lemma pose2_calls l : forall (v : lvar RN) s, is_pose2 v s -> exists v', vcalls v l = Ok v' /\ is_pose2 v' (fold_left asked2 l s).
Proof.
  induction l as [|o l IH]; intros v s H; [exists v; auto|]. destruct (pose2_call v s o H) as (v1 & [E|(e & E & ->)] & H1); cbn [vcalls fold_left]; rewrite E; apply IH; auto.
Qed.
Lemma pose2_wrapped id (p : v3 RN) l : exists v x y t th,
  vcalls (mk_pose2 id p) l = Ok v /\ vval (lib RN) v = [x; y; t] /\ fold_left asked2 l (vx p, vy p, vz p) = (x, y, th) /\
  - PI < t <= PI /\ exists k : Z, t = th + 2 * IZR k * PI.
Proof.
  destruct (pose2_calls l (mk_pose2 id p) (vx p, vy p, vz p)) as (v & E & H).
  - exists (wrap_angle (vz p)). split; [reflexivity|]. split; [apply wrap_range|apply wrap_asked].
  - destruct (fold_left asked2 l (vx p, vy p, vz p)) as [[x y] th] eqn:F. destruct H as (t & Ek & B & K). exists v, x, y, t, th.
    split; auto. split; [|auto]. change (vval (lib RN) v) with (kval (l_kind v)). rewrite Ek. reflexivity.
Qed.

(** ** InverseRangeVariable *)
Lemma lit_lo : Q2R (1#1000000) = / 1000000. Proof. unfold Q2R; simpl; lra. Qed.
Lemma lit_hi : Q2R 1000 = 1000. Proof. unfold Q2R; simpl; lra. Qed.
Lemma lit_e9 : Q2R (1#1000000000) = / 1000000000. Proof. unfold Q2R; simpl; lra. Qed.
Lemma clip_nearest lo hi q : lo <= hi -> nearest lo hi q (clip (N:=RN) lo hi q).
Proof.
  intros H. unfold clip, nearest. rewrite r_nmin, r_nmax. unfold Rmin, Rmax.
  destruct (Rle_dec q lo); destruct (Rle_dec _ hi); (split; [lra|]); intros s Hs; unfold Rabs; repeat destruct (Rcase_abs _); lra.
Qed.
Definition is_inv (o b : v3 RN) (v : lvar RN) : Prop :=
  exists r t, l_kind v = KInv o b (Q2R (1#1000000)) (Q2R 1000) (r :: t) /\ / 1000000 <= r <= 1000.
Lemma clip_lib q : / 1000000 <= clip (N:=RN) (Q2R (1#1000000)) (Q2R 1000) q <= 1000.
Proof. rewrite lit_lo, lit_hi. apply (clip_nearest (/ 1000000) 1000 q). lra. Qed.
Lemma inv_call o b (v : lvar RN) op : is_inv o b v -> forall v', vcall v op = Ok v' -> is_inv o b v'.
Proof.
  intros (r & t & Ek & B) v' H. destruct v as [i c kd]. cbn [l_kind] in Ek. subst kd.
  destruct op; cbn [vcall] in H; try (injection H as <-; exists r, t; auto; fail).
  - destruct x as [|q x]; [discriminate|]. injection H as <-. eexists _, _. split; [reflexivity|apply clip_lib].
  - destruct dx as [|q [|? ?]]; try discriminate. destruct t as [|? ?]; [|discriminate]. injection H as <-. eexists _, _. split; [reflexivity|apply clip_lib].
Qed.
Lemma inv_calls o b l : forall (v : lvar RN), is_inv o b v -> forall v', vcalls v l = Ok v' -> is_inv o b v'.
Proof.
  induction l as [|op l IH]; intros v H v' E; cbn [vcalls] in E; [congruence|].
  destruct (vcall v op) eqn:Ec; try discriminate; [eapply IH; [eapply inv_call; eauto|eauto]|eauto].
Qed.
Lemma inv_pos_ok o b (v : lvar RN) : is_inv o b v -> exists r t, vval (lib RN) v = r :: t /\ / 1000000 <= r <= 1000 /\
  inv_pos v = Some (v3add o (v3scale (1 / r) b)).
Proof.
  intros (r & t & Ek & B). exists r, t. split; [change (vval (lib RN) v) with (kval (l_kind v)); rewrite Ek; reflexivity|]. split; auto.
  unfold inv_pos. rewrite Ek. cbn [nth].
  match goal with |- (if ?b then _ else _) = _ => replace b with false end.
  - cbn. rewrite q1. reflexivity.
  - symmetry. apply orb_false_intro; [reflexivity|]. apply Rltb_false. cbn. rewrite lit_e9. rewrite Rabs_pos_eq by lra. lra.
Qed.
Lemma inverse_range_clipped id (o b : v3 RN) range l v : vcalls (mk_inverse_range id o b range) l = Ok v ->
  exists r t, vval (lib RN) v = r :: t /\ / 1000000 <= r <= 1000 /\ inv_pos v = Some (v3add o (v3scale (1 / r) (v3normalized b))).
Proof.
  intros H. apply inv_pos_ok. eapply inv_calls; [|exact H]. eexists _, _. split; [reflexivity|apply clip_lib].
Qed.
(** what one call does *)
Lemma inverse_range_step id (o b : v3 RN) range l v r t : vcalls (mk_inverse_range id o b range) l = Ok v -> vval (lib RN) v = r :: t ->
  (forall q u, exists v', vcall v (OSet (q :: u)) = Ok v' /\ exists r', vval (lib RN) v' = r' :: u /\ nearest (/ 1000000) 1000 q r') /\
  (forall d, t = [] -> exists v', vcall v (OInc [d]) = Ok v' /\ exists r', vval (lib RN) v' = [r'] /\ nearest (/ 1000000) 1000 (r + d) r').
Proof.
  intros H Hv. assert (I : is_inv o (v3normalized b) v) by (eapply inv_calls; [|exact H]; eexists _, _; split; [reflexivity|apply clip_lib]).
  destruct I as (r0 & t0 & Ek & B). change (vval (lib RN) v) with (kval (l_kind v)) in Hv. rewrite Ek in Hv. cbn [kval] in Hv. injection Hv as -> ->.
  destruct v as [i c kd]. cbn [l_kind] in Ek. subst kd.
  assert (Nr : forall q, nearest (/ 1000000) 1000 q (clip (N:=RN) (Q2R (1#1000000)) (Q2R 1000) q)) by (intros q; rewrite lit_lo, lit_hi; apply clip_nearest; lra).
  split.
  - intros q u. eexists. split; [reflexivity|]. eexists. split; [reflexivity|]. apply Nr.
  - intros d ->. eexists. split; [reflexivity|]. eexists. split; [reflexivity|]. apply Nr.
Qed.

(** ** PlaneVariable *)
Lemma normalized_direction x y z : x * x + y * y + z * z <> 0 -> direction x y z (v3normalized (V3 (N:=RN) x y z)).
Proof.
  intros H. assert (P : 0 < v3sq (V3 (N:=RN) x y z)).
  { destruct (v3sq_nonneg (V3 (N:=RN) x y z)) as [P|P]; auto. exfalso. apply H. rewrite v3sq_r in P. cbn in P. lra. }
  destruct (normalized_pos _ P) as [E U]. split; [rewrite v3sq_r in U; exact U|].
  exists (sqrt (v3sq (V3 (N:=RN) x y z))). assert (S : 0 < sqrt (v3sq (V3 (N:=RN) x y z))) by (apply sqrt_lt_R0; auto).
  split; auto. rewrite E. set (s := sqrt _) in *. clearbody s. cbn. repeat split; field; lra.
Qed.
Definition is_plane (v : lvar RN) (n : v3 RN) (d : R) : Prop := l_kind v = KPlane n d.
Lemma plane_call (v : lvar RN) n d op : is_plane v n d ->
  exists v' n', (vcall v op = Ok v' \/ (exists e, vcall v op = Throw e /\ v' = v)) /\ is_plane v' n' (asked_distance d op) /\
  n' = match asked_normal n op with None => n | Some (x, y, z) => v3normalized (V3 (N:=RN) x y z) end.
Proof.
  unfold is_plane. intros Ek. destruct v as [i c kd]. cbn [l_kind] in Ek. subst kd.
  destruct op; cbn [vcall asked_distance asked_normal]; try (eexists _, _; split; [left; reflexivity|split; reflexivity]).
  - destruct x as [|x [|y [|z [|w [|? ?]]]]]; try (eexists _, _; split; [right; eexists; split; reflexivity|split; reflexivity]).
    eexists _, _. split; [left; reflexivity|]. split; reflexivity.
  - destruct dx as [|x [|y [|z [|w [|? ?]]]]]; try (eexists _, _; split; [right; eexists; split; reflexivity|split; reflexivity]).
    eexists _, _. split; [left; reflexivity|]. split; reflexivity.
Qed.
Lemma plane_calls l : forall (v : lvar RN) n d, is_plane v n d -> length2 n = 1 -> never_zero n l ->
  exists v' n', vcalls v l = Ok v' /\ is_plane v' n' (fold_left asked_distance l d) /\ length2 n' = 1.
Proof.
  induction l as [|o l IH]; intros v n d H U NZ; [exists v, n; auto|].
  destruct (plane_call v n d o H) as (v1 & n1 & E & H1 & En). cbn [never_zero] in NZ.
  assert (W : length2 n1 = 1 /\ never_zero n1 l).
  { rewrite En. destruct (asked_normal n o) as [[[x y] z]|]; [|auto]. destruct NZ as [NZ1 NZ2]. pose proof (normalized_direction x y z NZ1) as D. split; [apply D|apply NZ2; exact D]. }
  destruct W as [W1 W2]. destruct (IH v1 n1 _ H1 W1 W2) as (v2 & n2 & E2 & R). exists v2, n2. split; [|exact R].
  cbn [vcalls]. destruct E as [->|(e & -> & ->)]; exact E2.
Qed.
Lemma plane_unit id (n : v3 RN) d l : length2 n <> 0 -> (forall n0, direction (vx n) (vy n) (vz n) n0 -> never_zero n0 l) ->
  exists v n', vcalls (mk_plane id n d) l = Ok v /\ unit_vector v = Some n' /\ distance_from_origin v = Some (fold_left asked_distance l d) /\
  vval (lib RN) v = [vx n'; vy n'; vz n'; fold_left asked_distance l d] /\ length2 n' = 1.
Proof.
  intros Hn NZ. pose proof (normalized_direction _ _ _ Hn) as D.
  destruct (plane_calls l (mk_plane id n d) (v3normalized n) d eq_refl) as (v & n' & E & Ek & U).
  - destruct n; apply D.
  - apply NZ. destruct n; exact D.
  - exists v, n'. split; auto. unfold is_plane in Ek. unfold unit_vector, distance_from_origin. change (vval (lib RN) v) with (kval (l_kind v)). rewrite Ek. auto.
Qed.
(** without that assumption the normal is a unit vector or zero *)
Lemma plane_unit_or_zero id (n : v3 RN) d l : exists v n', vcalls (mk_plane id n d) l = Ok v /\
  unit_vector v = Some n' /\ distance_from_origin v = Some (fold_left asked_distance l d) /\
  vval (lib RN) v = [vx n'; vy n'; vz n'; fold_left asked_distance l d] /\ (length2 n' = 1 \/ n' = v3zero).
Proof.
  assert (NZ : forall m : v3 RN, length2 (v3normalized m) = 1 \/ v3normalized m = v3zero).
  { intros m. destruct (v3sq_nonneg m) as [P|P]; [left; apply normalized_pos; auto|right]. rewrite normalized_zero by auto.
    apply len_zero. unfold len. replace (length2 m) with 0 by (rewrite v3sq_r in P; exact P). apply sqrt_0. }
  assert (G : forall l (v : lvar RN) n d, is_plane v n d -> (length2 n = 1 \/ n = v3zero) ->
     exists v' n', vcalls v l = Ok v' /\ is_plane v' n' (fold_left asked_distance l d) /\ (length2 n' = 1 \/ n' = v3zero)).
  { clear - NZ. induction l as [|o l IH]; intros v n d H U; [exists v, n; auto|].
    destruct (plane_call v n d o H) as (v1 & n1 & E & H1 & En).
    assert (W : length2 n1 = 1 \/ n1 = v3zero) by (rewrite En; destruct (asked_normal n o) as [[[x y] z]|]; auto).
    destruct (IH v1 n1 _ H1 W) as (v2 & n2 & E2 & R). exists v2, n2. split; [|exact R].
    cbn [vcalls]. destruct E as [->|(e & -> & ->)]; exact E2. }
  destruct (G l (mk_plane id n d) (v3normalized n) d eq_refl (NZ n)) as (v & n' & E & Ek & U).
  exists v, n'. split; auto. unfold is_plane in Ek. unfold unit_vector, distance_from_origin. change (vval (lib RN) v) with (kval (l_kind v)). rewrite Ek. auto.
Qed.
(** one call, on a plane in any state *)
Lemma plane_step (v : lvar RN) n d op x y z : l_kind v = KPlane n d -> asked_normal n op = Some (x, y, z) -> x * x + y * y + z * z <> 0 ->
  exists v' n', vcall v op = Ok v' /\ l_kind v' = KPlane n' (asked_distance d op) /\ direction x y z n'.
Proof.
  intros Ek Ea Hz. destruct (plane_call v n d op Ek) as (v' & n' & E & Ek' & En). rewrite Ea in En.
  exists v', n'. split; [|split; [exact Ek'|rewrite En; apply normalized_direction; auto]].
  destruct E as [E|(e & E & ->)]; auto. exfalso. destruct v as [i c kd]. cbn [l_kind] in Ek. subst kd.
  destruct op as [x0|x0| | | | | | |]; try discriminate; destruct x0 as [|x0 [|y0 [|z0 [|w0 [|? ?]]]]]; discriminate.
Qed.

Lemma plane_step_api (v : lvar RN) n d op x y z : unit_vector v = Some n -> distance_from_origin v = Some d -> asked_normal n op = Some (x, y, z) -> x * x + y * y + z * z <> 0 ->
  exists v' n', vcall v op = Ok v' /\ unit_vector v' = Some n' /\ distance_from_origin v' = Some (asked_distance d op) /\ direction x y z n'.
Proof.
  intros Hn Hd Ha Hz. assert (Ek : l_kind v = KPlane n d) by (unfold unit_vector, distance_from_origin in *; destruct (l_kind v); congruence).
  destruct (plane_step v n d op x y z Ek Ha Hz) as (v' & n' & E & Ek' & D). exists v', n'. unfold unit_vector, distance_from_origin. rewrite Ek'. auto.
Qed.

(** ** PoseVariable *)
Lemma dcm_rotation (r : v3 RN) : rotation (dcm_of_rot r).
Proof.
  unfold dcm_of_rot. rewrite v3sq_len. match goal with |- rotation (if ?b then _ else _) => destruct b eqn:E end; [apply rot_id|].
  apply Rltb_false in E. cbn in E. assert (len r > 0) by (unfold Q2R in E; simpl in E; lra). apply aa_rotation. apply unit_axis. auto.
Qed.
Lemma lit_e8 : Q2R (1#100000000) = / 100000000. Proof. unfold Q2R; simpl; lra. Qed.
Lemma dcm_large (r : v3 RN) : / 100000000 <= len r -> dcm_of_rot r = aa_matrix (len r) (v3div r (len r)).
Proof.
  intros H. unfold dcm_of_rot. rewrite v3sq_len. match goal with |- (if ?b then _ else _) = _ => replace b with false; [reflexivity|] end.
  symmetry. apply Rltb_false. cbn. rewrite lit_e8. exact H.
Qed.
Lemma dcm_small (r : v3 RN) : len r < / 100000000 -> dcm_of_rot r = m3id.
Proof.
  intros H. unfold dcm_of_rot. rewrite v3sq_len. match goal with |- (if ?b then _ else _) = _ => replace b with true; [reflexivity|] end.
  symmetry. apply Rltb_true. cbn. rewrite lit_e8. exact H.
Qed.
Lemma dcm_by (r : v3 RN) : / 100000000 <= len r \/ r = v3zero -> rotation_by r (dcm_of_rot r).
Proof.
  intros [H| ->].
  - rewrite dcm_large by auto. rewrite <- (axis_scale r) at 1 by lra. apply aa_by. apply unit_axis. lra.
  - rewrite dcm_small by (rewrite len0; lra). apply zero_by.
Qed.
Definition is_pose (v : lvar RN) : Prop := exists x, l_kind v = KPose x (dcm_of_rot (seg3 3 x)) /\ (6 <= length x)%nat.
Lemma pose_call (v : lvar RN) op v' : is_pose v -> vcall v op = Ok v' -> is_pose v'.
Proof.
  intros (x & Ek & L) H. destruct v as [i c kd]. cbn [l_kind] in Ek. subst kd.
  destruct op; cbn [vcall] in H; try (injection H as <-; exists x; auto; fail).
  - cbn in H. destruct x0 as [|a0 [|a1 [|a2 [|a3 [|a4 [|a5 x0]]]]]]; try discriminate. injection H as <-. eexists. split; [reflexivity|]. simpl. lia.
  - change (with_kind (LVar i c (KPose x (dcm_of_rot (seg3 3 x)))) (kinc (KPose x (dcm_of_rot (seg3 3 x))) dx) = Ok v') in H. apply with_kind_ok in H. destruct H as (k & H & ->). cbn [kinc] in H.
    destruct (length dx =? 6)%nat; [|discriminate]. destruct (length x <? 6)%nat; [discriminate|].
    apply (f_equal (fun o => match o with Ok a => a | _ => k end)) in H. cbv beta iota in H. subst k. cbv zeta. eexists. cbn [l_kind]. split; [apply (f_equal2 (@KPose RN)); [reflexivity|symmetry; apply f_equal, seg3_app]|]. rewrite !app_length. simpl. lia.
  - injection H as <-. eexists. split; [apply (f_equal2 (@KPose RN)); [reflexivity|destruct r; reflexivity]|]. simpl. lia.
  - injection H as <-. do 6 (destruct x as [|? x]; [simpl in L; lia|]). eexists. split; [apply (f_equal2 (@KPose RN)); reflexivity|]. simpl. lia.
  - injection H as <-. do 6 (destruct x as [|? x]; [simpl in L; lia|]). eexists. split; [apply (f_equal2 (@KPose RN)); [reflexivity|destruct (aa_vector D); reflexivity]|]. simpl. lia.
Qed.
Lemma pose_calls l : forall (v : lvar RN), is_pose v -> forall v', vcalls v l = Ok v' -> is_pose v'.
Proof.
  induction l as [|op l IH]; intros v H v' E; cbn [vcalls] in E; [congruence|].
  destruct (vcall v op) eqn:Ec; try discriminate; [eapply IH; [eapply pose_call; eauto|eauto]|eauto].
Qed.
Lemma pose_dcm id (t r : v3 RN) l v : vcalls (mk_pose id t r) l = Ok v ->
  exists r' R, rot_CW v = Some r' /\ dcm_CW v = Some R /\ rotation R /\ (/ 100000000 <= len r' \/ r' = v3zero -> rotation_by r' R).
Proof.
  intros H. assert (I : is_pose v).
  { eapply pose_calls; [|exact H]. eexists. split; [apply (f_equal2 (@KPose RN)); [reflexivity|destruct r; reflexivity]|]. simpl. lia. }
  destruct I as (x & Ek & L). exists (seg3 3 x), (dcm_of_rot (seg3 3 x)). unfold rot_CW, dcm_CW. rewrite Ek. split; auto. split; auto. split; [apply dcm_rotation|apply dcm_by].
Qed.
