(** Calls on one variable object, in sequence.  A throwing call leaves the object as it was (every throw in the *_variable
    files precedes the first assignment of the call); a call with undefined behaviour ends the sequence. *)
From Coq Require Import List ZArith QArith.
From Verif Require Import Base Sparse Graph Geom Vars.
Import ListNotations.

Section Ops.
Context {N : num}.
Inductive vop : Type :=
| OSet (x : list N)                 (* set_value_from_vector, base_types.hpp:144 *)
| OInc (dx : list N)                (* apply_increment, base_types.hpp:148 *)
| OConst (b : bool)                 (* set_constant, base_types.hpp:177 *)
| OPoseVector (t r : v3 N)          (* PoseVariable::set_pose_vector, pose_variable.cpp:77-81 *)
| OPosePos (t : v3 N)               (* PoseVariable::set_pos_W, pose_variable.cpp:83-86 *)
| OPoseDcm (D : m3 N)               (* PoseVariable::set_dcm_CW, pose_variable.cpp:88-93 *)
| OLandmarkPos (p : v3 N)           (* LandmarkVariable::set_pos_W, landmark_variable.hpp:58 *)
| OPos2 (p : v2 N)                  (* Pose2DVariable::set_pos_2d, pose_2d_variable.cpp:55-58 *)
| OTheta (t : N).                   (* Pose2DVariable::set_theta, pose_2d_variable.cpp:60-63 *)
Definition vcall (v : lvar N) (o : vop) : outcome (lvar N) :=
  match o with
  | OSet x => vset (lib N) v x
  | OInc dx => vinc (lib N) v dx
  | OConst b => Ok (vsetconst (lib N) b v)
  | OPoseVector t r => Ok (pose_set_vector v t r)
  | OPosePos t => Ok (pose_set_pos v t)
  | OPoseDcm D => Ok (pose_set_dcm v D)
  | OLandmarkPos p => Ok (landmark_set_pos v p)
  | OPos2 p => Ok (pose2_set_pos v p)
  | OTheta t => Ok (pose2_set_theta v t)
  end.
(** the caller catches exceptions and goes on *)
Fixpoint vcalls (v : lvar N) (l : list vop) : outcome (lvar N) :=
  match l with
  | [] => Ok v
  | o :: t => match vcall v o with
              | Ok v' => vcalls v' t
              | Throw _ => vcalls v t
              | UB u => UB u
              end
  end.

(** ** Accessors; [None] for a variable of another class *)
(** pose_variable.hpp:49 pos_W, pose_variable.hpp:55 rot_CW, pose_variable.cpp:58-61 dcm_CW *)
Definition pos_W (v : lvar N) : option (v3 N) := match l_kind v with KPose x _ => Some (seg3 0 x) | _ => None end.
Definition rot_CW (v : lvar N) : option (v3 N) := match l_kind v with KPose x _ => Some (seg3 3 x) | _ => None end.
Definition dcm_CW (v : lvar N) : option (m3 N) := match l_kind v with KPose _ R => Some R | _ => None end.
(** rotation_variable.hpp:55,63 dcm_AB, rotation *)
Definition dcm_AB (v : lvar N) : option (m3 N) := match l_kind v with KRot _ R => Some R | _ => None end.
(** plane_variable.hpp:76-82 unit_vector, distance_from_origin *)
Definition unit_vector (v : lvar N) : option (v3 N) := match l_kind v with KPlane n _ => Some n | _ => None end.
Definition distance_from_origin (v : lvar N) : option N := match l_kind v with KPlane _ d => Some d | _ => None end.
(** pose_2d_variable.hpp:47 theta *)
Definition theta (v : lvar N) : option N := match l_kind v with KPose2 x => nth_error x 2 | _ => None end.
End Ops.
Arguments vop : clear implicits.
