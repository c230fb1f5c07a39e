(** Library factors read the variables they list and nothing else. *)
From Coq Require Import List Arith ZArith Bool.
From Verif Require Import Base Sparse Graph SpecGraph Geom Vars FactorsLin FactorsGeo FactorLib SpecPart.
Import ListNotations.

Section Lib.
Context {N : num}.
Notation heap := (@heap (lvar N)).
Theorem lib_reads_only (f : lib_factor N) : reads_only (build f).
Proof.
  intros h h' H.
  assert (G : forall a, In (Some a) (f_vars (build f)) -> hget h a = hget h' a) by (intros a Ha; unfold hget; rewrite (H a Ha); reflexivity). clear H.
  destruct f; cbn [build] in *; cbn in G.
  all: try (assert (G1 := G _ (or_introl eq_refl))); try (assert (G2 := G _ (or_intror (or_introl eq_refl)))); try (assert (G3 := G _ (or_intror (or_intror (or_introl eq_refl)))));
    try (assert (G4 := G _ (or_intror (or_intror (or_intror (or_introl eq_refl)))))); try (assert (G5 := G _ (or_intror (or_intror (or_intror (or_intror (or_introl eq_refl))))))); clear G.
  all: split; unfold generic_prior, generic_between, linear_velocity, pose_position_prior, pose_orientation_prior, rotation_prior, pose_position_between, pose_orientation_between, bearing_observation,
    inverse_range_bearing, bearing_projection, bearing_observation_2d, range_bearing_2d, pose2_prior, pose2_between, plane_factor, plane_prior, coordinate_transform;
    cbn [f_res_ref f_jac]; cbv zeta; unfold linvel_res, linvel_ref, linvel_jac, pospri_res, pospri_ref, pospri_jac, oripri_res, oripri_ref, oripri_jac, rotpri_res, rotpri_ref, rotpri_jac, posbet_res, posbet_ref, posbet_jac, oribet_res, oribet_ref, oribet_jac, bearing_res, bearing_ref, bearing_jac, invbear_res, invbear_ref, invbear_jac, proj_res, proj_ref, proj_jac, bear2_res, bear2_ref, bear2_jac, range2_res, range2_ref, range2_jac, pri2_res, pri2_ref, pri2_jac, bet2_res, bet2_ref, bet2_jac, plane_res, plane_ref, plane_jac, planepri_res, planepri_ref, planepri_jac, ctrans_ref, ctrans_res, ctrans_jac, gprior_res, gprior_ref, gprior_jac, gbetween_res, gbetween_ref, gbetween_jac, local2, value3_at, value2_at, value0_at, value_at, pose_at, landmark_at, rot_at, inv_at, plane_at, pose2_at, generic_at, blk, block_for;
    rewrite ?G1, ?G2, ?G3, ?G4, ?G5; reflexivity.
Qed.
End Lib.
