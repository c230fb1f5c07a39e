(** Proofs for PropsShape: overloads, shapes and safety of the library's factors, for every number system. *)
From Coq Require Import List Arith ZArith QArith Bool Lia.
From Verif Require Import Base Sparse Graph Geom Vars FactorsLin FactorsGeo FactorLib SpecGraph SpecFactor SpecShape.
Import ListNotations.
Local Open Scope nat_scope.
Set Bullet Behavior "Strict Subproofs".

Section FactorShape.
Context {N : num}.
Notation heap := (@heap (lvar N)).

(** overloads *)
Ltac step := match goal with |- context [obind ?o _] => destruct o; cbn [obind]; try reflexivity end.
Lemma overloads_agree (f : lib_factor N) (h : heap) : f_res (build f) h = f_res_ref (build f) h.
Proof.
  destruct f; cbn [build]; try reflexivity; unfold pose_position_between, plane_factor, plane_prior, pose2_between, pose2_prior; cbv zeta; cbn [f_res f_res_ref].
  - unfold posbet_res, posbet_ref. repeat step; destruct loc; reflexivity.
  - unfold plane_res, plane_ref. repeat step. destruct a0. destruct sc as [[]|]; reflexivity.
  - unfold planepri_res, planepri_ref. repeat step. destruct a. reflexivity.
Qed.

(** reading variables *)
Lemma get_at (h : heap) a v : nth_error h a = Some v -> hget h a = Ok v.
Proof. intros H. unfold hget. rewrite H. reflexivity. Qed.
Lemma blk_at (h : heap) a v M : nth_error h a = Some v -> blk h a M = Ok (if l_const v then mempty else M).
Proof. intros H. unfold blk, block_for. rewrite (get_at _ _ _ H). reflexivity. Qed.
Lemma pose_read (h : heap) a : var_at h a is_pose -> exists v P, nth_error h a = Some v /\ ksize (l_kind v) = 6 /\ pose_at h a = Ok P.
Proof.
  intros (v & Hv & S & K). exists v. unfold pose_at. rewrite (get_at _ _ _ Hv). cbn [obind]. unfold in_shape in S. destruct (l_kind v); try contradiction.
  cbn in S. rewrite S. cbn. eauto.
Qed.
Lemma landmark_read (h : heap) a : var_at h a is_landmark -> exists v p, nth_error h a = Some v /\ ksize (l_kind v) = 3 /\ landmark_at h a = Ok p.
Proof.
  intros (v & Hv & S & K). exists v. unfold landmark_at. rewrite (get_at _ _ _ Hv). cbn [obind]. unfold in_shape in S. destruct (l_kind v); try contradiction.
  cbn in S. unfold to_v3. rewrite S. cbn. eauto.
Qed.
Lemma rot_read (h : heap) a : var_at h a is_rotation -> exists v p, nth_error h a = Some v /\ ksize (l_kind v) = 3 /\ rot_at h a = Ok p.
Proof.
  intros (v & Hv & S & K). exists v. unfold rot_at. rewrite (get_at _ _ _ Hv). cbn [obind]. destruct (l_kind v); try contradiction. cbn. eauto.
Qed.
Lemma inv_read (h : heap) a : var_at h a is_inverse -> exists v p, nth_error h a = Some v /\ ksize (l_kind v) = 1 /\ inv_at h a = Ok p.
Proof.
  intros (v & Hv & S & K). exists v. unfold inv_at. rewrite (get_at _ _ _ Hv). cbn [obind]. unfold in_shape in S. destruct (l_kind v) as [| | | |o b lo hi x| |]; try contradiction.
  cbn in S. destruct x as [|y t]; [discriminate|]. cbn. eauto.
Qed.
Lemma plane_read (h : heap) a : var_at h a is_plane -> exists v p, nth_error h a = Some v /\ ksize (l_kind v) = 4 /\ plane_at h a = Ok p.
Proof.
  intros (v & Hv & S & K). exists v. unfold plane_at. rewrite (get_at _ _ _ Hv). cbn [obind]. destruct (l_kind v); try contradiction. cbn. eauto.
Qed.
Lemma pose2_read (h : heap) a : var_at h a is_pose2 -> exists v p, nth_error h a = Some v /\ ksize (l_kind v) = 3 /\ pose2_at h a = Ok p.
Proof.
  intros (v & Hv & S & K). exists v. unfold pose2_at. rewrite (get_at _ _ _ Hv). cbn [obind]. unfold in_shape in S. destruct (l_kind v) as [| | | | | |x]; try contradiction.
  cbn in S. destruct x as [|p [|q [|r [|]]]]; try discriminate. cbn. eauto.
Qed.
Lemma value_read (h : heap) a (P : kind N -> Prop) : var_at h a P -> exists v, nth_error h a = Some v /\ P (l_kind v) /\ value_at h a = Ok (kval (l_kind v)) /\ length (kval (l_kind v)) = ksize (l_kind v).
Proof. intros (v & Hv & S & K). exists v. unfold value_at. rewrite (get_at _ _ _ Hv). auto. Qed.
Lemma value3_read (h : heap) a : var_at h a (of_size 3) -> exists v p, nth_error h a = Some v /\ ksize (l_kind v) = 3 /\ value3_at h a = Ok p.
Proof.
  intros H. destruct (value_read _ _ _ H) as (v & Hv & K & E & L). exists v. unfold value3_at. rewrite E. cbn [obind]. unfold to_v3. rewrite L, K. cbn. eauto.
Qed.
Lemma value2_read (h : heap) a n : var_at h a (of_size (2 + n)) -> exists v p, nth_error h a = Some v /\ ksize (l_kind v) = 2 + n /\ value2_at h a = Ok p.
Proof.
  intros H. destruct (value_read _ _ _ H) as (v & Hv & K & E & L). exists v. unfold value2_at. rewrite E. cbn [obind]. rewrite K in L.
  destruct (kval (l_kind v)) as [|p [|q t]]; try discriminate. eauto.
Qed.
Lemma generic_read (h : heap) a n : var_at h a (fun k => is_generic k /\ of_size n k) -> exists v x, nth_error h a = Some v /\ ksize (l_kind v) = n /\ generic_at h a = Ok x /\ length x = n.
Proof.
  intros (v & Hv & S & K & L). exists v. unfold generic_at. rewrite (get_at _ _ _ Hv). cbn [obind]. unfold of_size in L. destruct (l_kind v); try contradiction. cbn in L |- *. eauto.
Qed.

(** residuals *)
Lemma minus_len (a b : list N) : length a = length b -> vec_minus a b = Ok (vsub a b).
Proof. intros H. unfold vec_minus. rewrite H, Nat.eqb_refl. reflexivity. Qed.
Ltac use_reads :=
  repeat match goal with
  | H : _ /\ _ |- _ => destruct H
  | H : var_at _ _ is_pose |- _ => let v := fresh "v" in let P := fresh "P" in destruct (pose_read _ _ H) as (v & P & ? & ? & ?); clear H
  | H : var_at _ _ is_landmark |- _ => let v := fresh "v" in let P := fresh "P" in destruct (landmark_read _ _ H) as (v & P & ? & ? & ?); clear H
  | H : var_at _ _ is_rotation |- _ => let v := fresh "v" in let P := fresh "P" in destruct (rot_read _ _ H) as (v & P & ? & ? & ?); clear H
  | H : var_at _ _ is_inverse |- _ => let v := fresh "v" in let P := fresh "P" in destruct (inv_read _ _ H) as (v & P & ? & ? & ?); clear H
  | H : var_at _ _ is_plane |- _ => let v := fresh "v" in let P := fresh "P" in destruct (plane_read _ _ H) as (v & P & ? & ? & ?); clear H
  | H : var_at _ _ is_pose2 |- _ => let v := fresh "v" in let P := fresh "P" in destruct (pose2_read _ _ H) as (v & P & ? & ? & ?); clear H
  end.
Ltac reads := repeat match goal with H : _ = Ok _ |- _ => rewrite H; cbn [obind] end.
Lemma vsub_len (a b : list N) : length (vsub a b) = Nat.min (length a) (length b).
Proof. unfold vsub, vzip. rewrite map_length, combine_length. reflexivity. Qed.
Lemma segment_ok (x : list N) i n : i + n <= length x -> exists y, segment i n x = Ok y /\ length y = n.
Proof.
  intros H. unfold segment. destruct (i + n <=? length x) eqn:E; [|apply Nat.leb_gt in E; lia]. eexists. split; [reflexivity|]. rewrite firstn_length, skipn_length. lia.
Qed.
Lemma residual_size_ok (f : lib_factor N) (h : heap) : well_used h f -> exists r, f_res (build f) h = Ok r /\ length r = f_rsize (build f).
Proof.
  destruct f; cbn [build well_used]; intros W.
  - destruct (value_read _ _ _ W) as (v & Hv & K & E & L). unfold generic_prior. cbv zeta. cbn [f_res f_rsize]. unfold gprior_res. rewrite (get_at _ _ _ Hv). cbn [obind].
    unfold of_size in K. change (vval (lib N) v) with (kval (l_kind v)). rewrite minus_len by congruence. eexists. split; [reflexivity|].
    unfold vscale. rewrite map_length, vsub_len. rewrite L, K. apply Nat.min_id.
  - destruct W as (A & B & D). destruct (value_read _ _ _ A) as (va & Hva & Ka & Ea & La). destruct (value_read _ _ _ B) as (vb & Hvb & Kb & Eb & Lb).
    destruct (value_read _ _ _ D) as (vd & Hvd & Kd & Ed & Ld). unfold of_size in *. unfold generic_between. cbv zeta. cbn [f_res f_rsize]. unfold gbetween_res.
    rewrite (get_at _ _ _ Hva), (get_at _ _ _ Hvb), (get_at _ _ _ Hvd). cbn [obind vval lib]. rewrite minus_len by congruence. cbn [obind].
    rewrite minus_len by (rewrite vsub_len; lia). eexists. split; [reflexivity|]. unfold vscale. rewrite map_length, !vsub_len. lia.
  - destruct W as (A & B & D). destruct (value_read _ _ _ A) as (va & Hva & Ka & Ea & La). destruct (value_read _ _ _ B) as (vb & Hvb & Kb & Eb & Lb).
    destruct (value_read _ _ _ D) as (vd & Hvd & Kd & Ed & Ld). cbn beta in *. unfold of_size in *. unfold linear_velocity. cbv zeta. cbn [f_res f_rsize]. unfold linvel_res. rewrite Eb, Ea, Ed. cbn [obind].
    destruct (segment_ok (kval (l_kind vb)) i0 n) as (yb & Sb & Lyb); [lia|]. destruct (segment_ok (kval (l_kind va)) i0 n) as (ya & Sa & Lya); [lia|].
    rewrite Sb. cbn [obind]. rewrite Sa. cbn [obind]. rewrite minus_len by (rewrite map_length, vsub_len; lia). eexists. split; [reflexivity|].
    unfold vscale. rewrite map_length, !vsub_len, map_length. lia.
  - use_reads. unfold pose_position_prior. cbv zeta. cbn [f_res f_rsize]. unfold pospri_res. reads. eexists. split; reflexivity.
  - use_reads. unfold pose_orientation_prior. cbv zeta. cbn [f_res f_rsize]. unfold oripri_res. reads. eexists. split; reflexivity.
  - use_reads. unfold rotation_prior. cbv zeta. cbn [f_res f_rsize]. unfold rotpri_res. reads. eexists. split; reflexivity.
  - use_reads. destruct (value3_read _ _ H1) as (v1 & x & ? & ? & ?). unfold pose_position_between. cbv zeta. cbn [f_res f_rsize]. unfold posbet_res. reads. eexists. split; reflexivity.
  - use_reads. unfold pose_orientation_between. cbv zeta. cbn [f_res f_rsize]. unfold oribet_res. reads. eexists. split; reflexivity.
  - use_reads. unfold bearing_observation. cbv zeta. cbn [f_res f_rsize]. unfold bearing_res. reads. eexists. split; reflexivity.
  - use_reads. unfold inverse_range_bearing. cbv zeta. cbn [f_res f_rsize]. unfold invbear_res. reads. eexists. split; reflexivity.
  - use_reads. unfold bearing_projection. cbv zeta. cbn [f_res f_rsize]. unfold proj_res. reads. destruct (nleb _ _); eexists; split; reflexivity.
  - use_reads. destruct (value2_read _ _ 0 H0) as (v1 & x & ? & ? & ?). unfold bearing_observation_2d. cbv zeta. cbn [f_res f_rsize]. unfold bear2_res, local2. reads. eexists. split; reflexivity.
  - use_reads. destruct (value2_read _ _ 0 H0) as (v1 & x & ? & ? & ?). unfold range_bearing_2d. cbv zeta. cbn [f_res f_rsize]. unfold range2_res, local2. reads. eexists. split; reflexivity.
  - use_reads. unfold pose2_prior. cbv zeta. cbn [f_res f_rsize]. unfold pri2_res. reads. eexists. split; reflexivity.
  - use_reads. destruct (value2_read _ _ 1 H1) as (v1 & x & ? & ? & ?). destruct (value_read _ _ _ H1) as (v2 & ? & K & E & L). unfold of_size in K.
    unfold pose2_between. cbv zeta. cbn [f_res f_rsize]. unfold bet2_res. reads. rewrite K in L. destruct (kval (l_kind v2)) as [|p [|q [|r t]]]; try discriminate.
    cbn [nth_error]. eexists. split; reflexivity.
  - use_reads. destruct (value3_read _ _ H) as (v1 & x & ? & ? & ?). unfold plane_factor. cbv zeta. cbn [f_res f_rsize]. unfold plane_res. reads. destruct P as [nn dd].
    destruct sc as [[r0 p0]|]; eexists; split; reflexivity.
  - use_reads. unfold plane_prior. cbv zeta. cbn [f_res f_rsize]. unfold planepri_res. reads. destruct P as [nn dd]. eexists. split; reflexivity.
  - use_reads. destruct (generic_read _ _ _ H0) as (v4 & x & ? & ? & Eo & Lo). destruct (generic_read _ _ _ H1) as (v5 & y & ? & ? & Es & Ls).
    unfold coordinate_transform. cbv zeta. cbn [f_res f_rsize]. unfold ctrans_res, ctrans_ref. reads. destruct y as [|k [|]]; try discriminate. cbn [obind]. reads. unfold to_v3. rewrite Lo. cbn [Nat.eqb obind]. reads. eexists. split; reflexivity.
Qed.

(** Jacobians *)
Lemma sized_length n (J0 : list (mat N)) : length (FactorsGeo.sized n J0) = n.
Proof. unfold FactorsGeo.sized. destruct (Nat.eqb_spec (length J0) n); [assumption|apply repeat_length]. Qed.
Lemma sized_1 (J0 : list (mat N)) : exists x, FactorsGeo.sized 1 J0 = [x].
Proof. pose proof (sized_length 1 J0) as L. destruct (FactorsGeo.sized 1 J0) as [|x [|]]; try discriminate. eauto. Qed.
Lemma sized_2 (J0 : list (mat N)) : exists x y, FactorsGeo.sized 2 J0 = [x; y].
Proof. pose proof (sized_length 2 J0) as L. destruct (FactorsGeo.sized 2 J0) as [|x [|y [|]]]; try discriminate. eauto. Qed.
Lemma sized_3 (J0 : list (mat N)) : exists x y z, FactorsGeo.sized 3 J0 = [x; y; z].
Proof. pose proof (sized_length 3 J0) as L. destruct (FactorsGeo.sized 3 J0) as [|x [|y [|z [|]]]]; try discriminate. eauto. Qed.
Lemma ctrans_sized_5 (J0 : list (mat N)) : length J0 = 0 \/ length J0 = 5 -> exists a b c d e, ctrans_sized J0 = [a; b; c; d; e].
Proof.
  unfold ctrans_sized. intros [H|H]; rewrite H; cbn; [repeat eexists|]. destruct J0 as [|a [|b [|c [|d [|e [|]]]]]]; try discriminate. repeat eexists.
Qed.
Lemma ifok (b : bool) (x y : mat N) : (if b then Ok x else Ok y) = Ok (if b then x else y).
Proof. destruct b; reflexivity. Qed.
Definition jac_ok (h : heap) (f : factor (N:=N) (V:=lvar N)) (J0 : list (mat N)) : Prop :=
  exists J, f_jac f h J0 = (J, Ok tt) /\ shaped h (f_rsize f) (f_vars f) J.
Lemma shaped_cons (h : heap) r a v M vs J : nth_error h a = Some v -> (l_const v = false -> mrows M = r /\ mcols M = ksize (l_kind v)) -> shaped h r vs J ->
  shaped h r (Some a :: vs) ((if l_const v then mempty else M) :: J).
Proof.
  intros Hv HM HS. constructor; [|exact HS]. exists a, v. split; [reflexivity|]. split; [exact Hv|]. destruct (l_const v); [split; reflexivity|exact (HM eq_refl)].
Qed.
Ltac shp := repeat (apply shaped_cons; [eassumption|intros _; split; [reflexivity|cbn; first [congruence|lia]]|]); constructor.
Ltac blks := repeat match goal with H : nth_error _ ?a = Some ?v |- context [blk _ ?a ?M] => rewrite (blk_at _ a v M H) end.
Lemma jac_shapes (f : lib_factor N) (h : heap) J0 : well_used h f -> ~ constant_generic_prior h f -> ~ odd_transform_buffer f J0 ->
  jac_ok h (build f) J0 \/ (may_refuse f /\ exists J, f_jac (build f) h J0 = (J, Throw EDegenerate)).
Proof.
  unfold jac_ok. destruct f; cbn [build well_used constant_generic_prior odd_transform_buffer may_refuse]; intros W NC NT.
  - left. destruct (value_read _ _ _ W) as (v & Hv & K & E & L). unfold generic_prior. cbv zeta. cbn [f_jac f_rsize f_vars]. unfold gprior_jac, all_blocks.
    rewrite (get_at _ _ _ Hv). cbn [obind vconst lib]. destruct (l_const v) eqn:C; [exfalso; apply NC; eauto|]. eexists. split; [reflexivity|].
    constructor; [|constructor]. exists a, v. rewrite C. cbn. auto.
  - left. destruct W as (A & B & D). destruct (value_read _ _ _ A) as (va & Hva & Ka & Ea & La). destruct (value_read _ _ _ B) as (vb & Hvb & Kb & Eb & Lb).
    destruct (value_read _ _ _ D) as (vd & Hvd & Kd & Ed & Ld). unfold of_size in *. unfold generic_between. cbv zeta. cbn [f_jac f_rsize f_vars]. unfold gbetween_jac, all_blocks, block_for.
    rewrite (get_at _ _ _ Hva), (get_at _ _ _ Hvb), (get_at _ _ _ Hvd). cbn [obind vconst lib]. eexists. split; [reflexivity|]. shp.
  - left. destruct W as (A & B & D). destruct (value_read _ _ _ A) as (va & Hva & Ka & Ea & La). destruct (value_read _ _ _ B) as (vb & Hvb & Kb & Eb & Lb).
    destruct (value_read _ _ _ D) as (vd & Hvd & Kd & Ed & Ld). cbn beta in *. unfold of_size in *. unfold linear_velocity. cbv zeta. cbn [f_jac f_rsize f_vars]. unfold linvel_jac.
    rewrite (get_at _ _ _ Hva), (get_at _ _ _ Hvb), (get_at _ _ _ Hvd). cbn [obind withj]. destruct (sized_3 J0) as (j0 & j1 & j2 & ->). unfold diag_block. rewrite Kd, Nat.leb_refl.
    rewrite (proj2 (Nat.leb_le _ _) Ka), (proj2 (Nat.leb_le _ _) Kb). cbn [andb]. blks.
    rewrite !ifok.
    eexists. split; [reflexivity|]. shp.
  - left. use_reads. unfold pose_position_prior. cbv zeta. cbn [f_jac f_rsize f_vars]. unfold pospri_jac. destruct (sized_1 J0) as (j0 & ->). blks. eexists. split; [reflexivity|]. shp.
  - use_reads. unfold pose_orientation_prior. cbv zeta. cbn [f_jac f_rsize f_vars]. unfold oripri_jac. destruct (sized_1 J0) as (j0 & ->). rewrite (get_at _ _ _ H). cbn [withj]. reads.
    destruct (l_const v) eqn:C.
    + left. eexists. split; [reflexivity|]. constructor; [|constructor]. exists p, v. rewrite C. cbn. auto.
    + unfold inv_right_jacobian. destruct (nltb _ _); [|destruct (nltb _ _)]; cbn [obind].
      * left. eexists. split; [reflexivity|]. constructor; [|constructor]. exists p, v. rewrite C. cbn. auto.
      * right. split; [exact I|]. eexists. reflexivity.
      * left. eexists. split; [reflexivity|]. constructor; [|constructor]. exists p, v. rewrite C. cbn. auto.
  - use_reads. unfold rotation_prior. cbv zeta. cbn [f_jac f_rsize f_vars]. unfold rotpri_jac. destruct (sized_1 J0) as (j0 & ->). rewrite (get_at _ _ _ H). cbn [withj]. reads.
    destruct (l_const v) eqn:C.
    + left. eexists. split; [reflexivity|]. constructor; [|constructor]. exists p, v. rewrite C. cbn. auto.
    + unfold inv_right_jacobian. destruct (nltb _ _); [|destruct (nltb _ _)]; cbn [obind].
      * left. eexists. split; [reflexivity|]. constructor; [|constructor]. exists p, v. rewrite C. cbn. auto.
      * right. split; [exact I|]. eexists. reflexivity.
      * left. eexists. split; [reflexivity|]. constructor; [|constructor]. exists p, v. rewrite C. cbn. auto.
  - left. use_reads. destruct (value3_read _ _ H1) as (v1 & x & ? & ? & ?). unfold pose_position_between. cbv zeta. cbn [f_jac f_rsize f_vars]. unfold posbet_jac.
    destruct (sized_3 J0) as (j0 & j1 & j2 & ->). reads. destruct loc; cbn [withj]; blks; eexists; (split; [reflexivity|]); shp.
  - use_reads. unfold pose_orientation_between. cbv zeta. cbn [f_jac f_rsize f_vars]. unfold oribet_jac. destruct (sized_3 J0) as (j0 & j1 & j2 & ->). reads.
    unfold inv_right_jacobian. destruct (nltb _ _); [|destruct (nltb _ _)]; cbn [obind withj].
    + left. blks. eexists. split; [reflexivity|]. shp.
    + right. split; [exact I|]. eexists. reflexivity.
    + left. blks. eexists. split; [reflexivity|]. shp.
  - use_reads. unfold bearing_observation. cbv zeta. cbn [f_jac f_rsize f_vars]. unfold bearing_jac. destruct (sized_2 J0) as (j0 & j1 & ->). reads.
    destruct (nltb _ _); cbn [withj]; [right; split; [exact I|]; eexists; reflexivity|]. left. blks. eexists. split; [reflexivity|]. shp.
  - use_reads. unfold inverse_range_bearing. cbv zeta. cbn [f_jac f_rsize f_vars]. unfold invbear_jac. destruct (sized_2 J0) as (j0 & j1 & ->). reads.
    destruct (nltb _ _); cbn [withj]; [right; split; [exact I|]; eexists; reflexivity|]. destruct P0 as [[pp rho] dir]. destruct (nltb _ _).
    + right. split; [exact I|]. blks. eexists. reflexivity.
    + left. blks. eexists. split; [reflexivity|]. shp.
  - left. use_reads. unfold bearing_projection. cbv zeta. cbn [f_jac f_rsize f_vars]. unfold proj_jac. destruct (sized_2 J0) as (j0 & j1 & ->). reads. cbn [withj].
    destruct (nleb _ _); blks; eexists; (split; [reflexivity|]); shp.
  - use_reads. destruct (value2_read _ _ 0 H0) as (v1 & x & ? & ? & ?). unfold bearing_observation_2d. cbv zeta. cbn [f_jac f_rsize f_vars]. unfold bear2_jac, local2.
    destruct (sized_2 J0) as (j0 & j1 & ->). reads. destruct (nltb _ _); cbn [withj]; [right; split; [exact I|]; eexists; reflexivity|]. left. blks. eexists. split; [reflexivity|]. shp.
  - use_reads. destruct (value2_read _ _ 0 H0) as (v1 & x & ? & ? & ?). unfold range_bearing_2d. cbv zeta. cbn [f_jac f_rsize f_vars]. unfold range2_jac, local2.
    destruct (sized_2 J0) as (j0 & j1 & ->). reads. destruct (nltb _ _); cbn [withj]; [right; split; [exact I|]; eexists; reflexivity|]. left. blks. eexists. split; [reflexivity|]. shp.
  - left. use_reads. unfold pose2_prior. cbv zeta. cbn [f_jac f_rsize f_vars]. unfold pri2_jac. destruct (sized_1 J0) as (j0 & ->). blks. eexists. split; [reflexivity|]. shp.
  - left. use_reads. destruct (value2_read _ _ 1 H1) as (v1 & x & ? & ? & ?). unfold pose2_between. cbv zeta. cbn [f_jac f_rsize f_vars]. unfold bet2_jac.
    destruct (sized_3 J0) as (j0 & j1 & j2 & ->). reads. destruct loc; cbn [withj]; blks; eexists; (split; [reflexivity|]); shp.
  - left. use_reads. destruct (value3_read _ _ H) as (v1 & x & ? & ? & ?). unfold plane_factor. cbv zeta. cbn [f_jac f_rsize f_vars]. unfold plane_jac.
    destruct (sized_2 J0) as (j0 & j1 & ->). reads. cbn [withj]. destruct P as [nn dd]. destruct sc as [[r0 p0]|]; blks; eexists; (split; [reflexivity|]); shp.
  - left. use_reads. unfold plane_prior. cbv zeta. cbn [f_jac f_rsize f_vars]. unfold planepri_jac. destruct (sized_1 J0) as (j0 & ->). rewrite (get_at _ _ _ H). cbn [withj]. reads.
    destruct (l_const v) eqn:C; (eexists; split; [reflexivity|]; constructor; [|constructor]; exists m, v; rewrite C; cbn; auto).
  - left. use_reads. destruct (generic_read _ _ _ H0) as (v4 & x & ? & ? & Eo & Lo). destruct (generic_read _ _ _ H1) as (v5 & y & ? & ? & Es & Ls).
    unfold coordinate_transform. cbv zeta. cbn [f_jac f_rsize f_vars]. unfold ctrans_jac. reads. destruct y as [|k [|]]; try discriminate. cbn [obind]. reads. cbn [withj].
    destruct (ctrans_sized_5 J0) as (j0 & j1 & j2 & j3 & j4 & ->); [lia|]. blks. eexists. split; [reflexivity|]. shp.
Qed.
Lemma transform_overruns (f : lib_factor N) (h : heap) J0 : well_used h f -> odd_transform_buffer f J0 -> exists J, f_jac (build f) h J0 = (J, UB UBIndex).
Proof.
  destruct f; try contradiction. cbn [well_used odd_transform_buffer build]. intros W [A B]. use_reads.
  destruct (generic_read _ _ _ H0) as (v4 & x & ? & ? & Eo & Lo). destruct (generic_read _ _ _ H1) as (v5 & y & ? & ? & Es & Ls).
  unfold coordinate_transform. cbv zeta. cbn [f_jac f_rsize f_vars]. unfold ctrans_jac. reads. destruct y as [|k [|]]; try discriminate. cbn [obind]. reads. cbn [withj].
  unfold ctrans_sized. rewrite (proj2 (Nat.eqb_neq _ _) A), (proj2 (Nat.eqb_neq _ _) B). blks. eexists. reflexivity.
Qed.
End FactorShape.
