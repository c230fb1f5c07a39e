(** All factor classes of the library in one type: one constructor per concrete class in /repo/src/factorama/*factor*.hpp, with the
    arguments of the C++ constructor ([n]: size() of the measured variable when the factor is constructed). *)
From Coq Require Import List Arith ZArith.
From Verif Require Import Base Sparse Graph Geom Vars FactorsLin FactorsGeo.
Import ListNotations.

Section FactorLib.
Context {N : num}.
Inductive lib_factor : Type :=
| LGenericPrior (id : Z) (a : addr) (prior : list N) (sigma : N)                          (* generic_prior_factor.hpp:30 *)
| LGenericBetween (id : Z) (a b d : addr) (n : nat) (sigma : N)                           (* generic_between_factor.cpp:7 *)
| LLinearVelocity (id : Z) (a b c : addr) (n : nat) (dt sigma : N) (i0 : nat)             (* linear_velocity_factor.cpp:6 *)
| LPositionPrior (id : Z) (p : addr) (prior : v3 N) (sigma : N)                           (* pose_prior_factors.cpp:8 *)
| LOrientationPrior (id : Z) (p : addr) (prior : m3 N) (sigma : N)                        (* pose_prior_factors.cpp:62 *)
| LRotationPrior (id : Z) (p : addr) (prior : m3 N) (sigma : N)                           (* rotation_prior_factor.hpp:31 *)
| LPositionBetween (id : Z) (a b m : addr) (sigma : N) (loc : bool)                       (* pose_between_factors.hpp:36 *)
| LOrientationBetween (id : Z) (a b c : addr) (sigma : N)                                 (* pose_between_factors.hpp:218 *)
| LBearing (id : Z) (p l : addr) (obs : v3 N) (sigma : N)                                 (* bearing_observation_factor.hpp:37 *)
| LInverseRange (id : Z) (p l : addr) (obs : v3 N) (sigma : N)                            (* inverse_range_bearing_factor.hpp:40 *)
| LProjection (id : Z) (p l : addr) (obs : v3 N) (sigma tol : N)                          (* bearing_projection_factor_2d.hpp:35 *)
| LBearing2 (id : Z) (p l : addr) (obs sigma : N)                                         (* bearing_observation_factor_2d.cpp:7 *)
| LRangeBearing2 (id : Z) (p l : addr) (robs obs rsigma bsigma : N)                       (* range_bearing_factor_2d.cpp:7 *)
| LPose2Prior (id : Z) (p : addr) (prior : v3 N) (psigma asigma : N)                      (* pose_2d_prior_factor.cpp:6 *)
| LPose2Between (id : Z) (a b m : addr) (psigma asigma : N) (loc : bool)                  (* pose_2d_between_factor.cpp:6 *)
| LPlane (id : Z) (q m : addr) (sigma : N) (sc : option (N * v3 N))                       (* plane_factor.cpp:7 *)
| LPlanePrior (id : Z) (m : addr) (np : v3 N) (dp nsigma dsigma : N)                      (* plane_prior_factor.cpp:7 *)
| LTransform (id : Z) (r o s la lb : addr) (sigma : N).                                   (* coordinate_transform_factor.hpp:40 *)

(** the object that the constructor makes; lines as above *)
Definition build (f : lib_factor) : factor (N:=N) (V:=lvar N) :=
  match f with
  | LGenericPrior id a prior s => generic_prior (lib N) id a prior s
  | LGenericBetween id a b d n s => generic_between (lib N) id a b d n s
  | LLinearVelocity id a b c n dt s i0 => linear_velocity id a b c n dt s i0
  | LPositionPrior id p prior s => pose_position_prior id p prior s
  | LOrientationPrior id p prior s => pose_orientation_prior id p prior s
  | LRotationPrior id p prior s => rotation_prior id p prior s
  | LPositionBetween id a b m s loc => pose_position_between id a b m s loc
  | LOrientationBetween id a b c s => pose_orientation_between id a b c s
  | LBearing id p l obs s => bearing_observation id p l obs s
  | LInverseRange id p l obs s => inverse_range_bearing id p l obs s
  | LProjection id p l obs s tol => bearing_projection id p l obs s tol
  | LBearing2 id p l obs s => bearing_observation_2d id p l obs s
  | LRangeBearing2 id p l robs obs rs bs => range_bearing_2d id p l robs obs rs bs
  | LPose2Prior id p prior ps rs => pose2_prior id p prior ps rs
  | LPose2Between id a b m ps rs loc => pose2_between id a b m ps rs loc
  | LPlane id q m s sc => plane_factor id q m s sc
  | LPlanePrior id m np dp ns ds => plane_prior id m np dp ns ds
  | LTransform id r o s la lb sg => coordinate_transform id r o s la lb sg
  end.
End FactorLib.
Arguments lib_factor : clear implicits.
