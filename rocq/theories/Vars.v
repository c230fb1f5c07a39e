(** The library's Variable classes: /repo/src/factorama/*_variable.hpp, *_variable.cpp.  One sum type holds the states of all
    of them; print() and type names are dropped.  VectorXd members keep their run-time length, because some setters do not
    check it. *)
From Coq Require Import List Arith ZArith QArith Bool.
From Verif Require Import Base Sparse Graph Geom.
Import ListNotations.
Local Open Scope num_scope.

Section Vars.
Context {N : num}.

Inductive kind : Type :=
| KGeneric (x : list N)                                          (* generic_variable.hpp: value_ *)
| KLandmark (x : list N)                                         (* landmark_variable.hpp: pos_W_ *)
| KPose (x : list N) (R : m3 N)                                  (* pose_variable.hpp: pose_CW_, dcm_CW_ *)
| KRot (x : list N) (R : m3 N)                                   (* rotation_variable.hpp: value_, dcm_AB_ *)
| KInv (origin bearing : v3 N) (lo hi : N) (x : list N)          (* inverse_range_variable.hpp *)
| KPlane (n : v3 N) (d : N)                                      (* plane_variable.hpp; value_ is always (n, d) *)
| KPose2 (x : list N).                                           (* pose_2d_variable.hpp: pose_2d_ *)
(** base_types.hpp:179-181: id_, is_constant_ *)
Record lvar : Type := LVar { l_id : Z; l_const : bool; l_kind : kind }.

(** v.segment<3>(off) as a Vector3d, without the range check (callers check) *)
Definition seg3 (off : nat) (x : list N) : v3 N := V3 (nth off x nzero) (nth (1 + off) x nzero) (nth (2 + off) x nzero).
(** copy a dynamic vector into a Vector3d: a different size violates an eigen_assert *)
Definition to_v3 (x : list N) : outcome (v3 N) := if (length x =? 3)%nat then Ok (seg3 0 x) else UB UBSize.
(** a += b on dynamic vectors *)
Definition vec_plus (a b : list N) : outcome (list N) := if (length a =? length b)%nat then Ok (vadd a b) else UB UBSize.

(** pose_variable.cpp:63-75 recompute_dcm_CW, on the rotation vector *)
Definition dcm_of_rot (r : v3 N) : m3 N :=
  let angle := v3norm r in
  if nltb angle (nlit (1#100000000)) then m3id else aa_matrix angle (v3div r angle).
(** pose_2d_variable.cpp:77-81 wrap_angle *)
Definition wrap_angle (a : N) : N := natan2 (nsin a) (ncos a).
(** inverse_range_variable.cpp:22-27 clip_inverse_range, on element 0 *)
Definition clip (lo hi x : N) : N := nmin (nmax x lo) hi.
Definition clip0 (lo hi : N) (x : list N) : outcome (list N) :=
  match x with [] => UB UBIndex | y :: t => Ok (clip lo hi y :: t) end.
Definition wrap2 (x : list N) : list N := [nth 0 x nzero; nth 1 x nzero; wrap_angle (nth 2 x nzero)].

(** size() of each class *)
Definition ksize (k : kind) : nat :=
  match k with
  | KGeneric x => length x    (* generic_variable.hpp:36 *)
  | KLandmark _ => 3          (* landmark_variable.hpp:32 *)
  | KPose _ _ => 6            (* pose_variable.hpp:41 *)
  | KRot _ _ => 3             (* rotation_variable.hpp:37 *)
  | KInv _ _ _ _ _ => 1       (* inverse_range_variable.hpp:44 *)
  | KPlane _ _ => 4           (* plane_variable.hpp:43 *)
  | KPose2 _ => 3             (* pose_2d_variable.hpp:31 *)
  end.
(** value() of each class *)
Definition kval (k : kind) : list N :=
  match k with
  | KGeneric x | KLandmark x | KPose x _ | KRot x _ | KInv _ _ _ _ x | KPose2 x => x
  | KPlane n d => [vx n; vy n; vz n; d]
  end.
(** set_value_from_vector of each class *)
Definition kset (k : kind) (x : list N) : outcome kind :=
  match k with
  | KGeneric y =>           (* generic_variable.hpp:40-46 *)
    if (length x =? length y)%nat then Ok (KGeneric x) else Throw EVarSizeMismatch
  | KLandmark _ => Ok (KLandmark x)                       (* landmark_variable.hpp:36: no check *)
  | KPose _ _ =>            (* pose_variable.cpp:26-30: no check; segment<3>(3) needs six entries *)
    if (length x <? 6)%nat then UB UBSegment else Ok (KPose x (dcm_of_rot (seg3 3 x)))
  | KRot _ _ =>             (* rotation_variable.hpp:43-47 *)
    let* w := to_v3 x in Ok (KRot x (exp_so3 w))
  | KInv o b lo hi _ =>     (* inverse_range_variable.cpp:29-33: no check; [0] of an empty vector *)
    let* y := clip0 lo hi x in Ok (KInv o b lo hi y)
  | KPlane _ _ =>           (* plane_variable.hpp:49-57 *)
    if (length x =? 4)%nat then Ok (KPlane (v3normalized (seg3 0 x)) (nth 3 x nzero)) else Throw EVarSizeMismatch
  | KPose2 _ =>             (* pose_2d_variable.cpp:16-24 *)
    if (length x =? 3)%nat then Ok (KPose2 (wrap2 x)) else Throw EVarSizeMismatch
  end.
(** apply_increment of each class *)
Definition kinc (k : kind) (dx : list N) : outcome kind :=
  match k with
  | KGeneric y =>           (* generic_variable.hpp:48-54 *)
    if (length dx =? length y)%nat then Ok (KGeneric (vadd y dx)) else Throw EVarSizeMismatch
  | KLandmark y =>          (* landmark_variable.hpp:38-44 *)
    if (length dx =? 3)%nat then let* z := vec_plus y dx in Ok (KLandmark z) else Throw EVarSizeMismatch
  | KPose y R =>            (* pose_variable.cpp:32-56 *)
    if (length dx =? 6)%nat then
      if (length y <? 6)%nat then UB UBSegment else
      let p := v3add (seg3 0 y) (seg3 0 dx) in
      let Rn := m3mul (exp_so3 (seg3 3 dx)) R in
      let r := log_so3 Rn in
      Ok (KPose (v3list p ++ v3list r ++ skipn 6 y) (dcm_of_rot r))
    else Throw EVarSizeMismatch
  | KRot _ R =>             (* rotation_variable.hpp:49-53: no size check *)
    let* w := to_v3 dx in
    let Rn := m3mul (exp_so3 w) R in Ok (KRot (v3list (log_so3 Rn)) Rn)
  | KInv o b lo hi y =>     (* inverse_range_variable.cpp:35-42 *)
    if (length dx =? 1)%nat then
      let* z := vec_plus y dx in let* z' := clip0 lo hi z in Ok (KInv o b lo hi z')
    else Throw EVarSizeMismatch
  | KPlane n d =>           (* plane_variable.hpp:59-70; the assert is compiled out *)
    if (length dx =? 4)%nat then
      Ok (KPlane (v3normalized (v3add n (seg3 0 dx))) (d + nth 3 dx nzero))
    else Throw EVarSizeMismatch
  | KPose2 y =>             (* pose_2d_variable.cpp:26-39 *)
    if (length dx =? 3)%nat then
      Ok (KPose2 [nth 0 y nzero + nth 0 dx nzero; nth 1 y nzero + nth 1 dx nzero; wrap_angle (nth 2 y nzero + nth 2 dx nzero)])
    else Throw EVarSizeMismatch
  end.

(** the virtual interface (base_types.hpp:129-182) *)
Definition with_kind (v : lvar) (o : outcome kind) : outcome lvar := omap (LVar (l_id v) (l_const v)) o.
Definition lib : vclass N lvar :=
  VClass N lvar l_id (fun v => ksize (l_kind v)) (fun v => kval (l_kind v)) l_const
    (fun b v => LVar (l_id v) b (l_kind v))
    (fun v x => with_kind v (kset (l_kind v) x))
    (fun v x => with_kind v (kinc (l_kind v) x)).

(** ** Constructors; is_constant_ starts false (base_types.hpp:181) *)
(** generic_variable.hpp:27-34 *)
Definition mk_generic (id : Z) (x : list N) : outcome lvar :=
  if (length x =? 0)%nat then Throw EBadArgument else Ok (LVar id false (KGeneric x)).
(** landmark_variable.hpp:26-30 *)
Definition mk_landmark (id : Z) (p : v3 N) : lvar := LVar id false (KLandmark (v3list p)).
(** pose_variable.cpp:8-13; the argument is a Matrix<double,6,1> *)
Definition mk_pose (id : Z) (t r : v3 N) : lvar := LVar id false (KPose (v3list t ++ v3list r) (dcm_of_rot r)).
(** pose_variable.cpp:15-24; axis() * angle() *)
Definition aa_vector (R : m3 N) : v3 N := let '(ang, ax) := angle_axis R in V3 (vx ax * ang) (vy ax * ang) (vz ax * ang).
Definition mk_pose_dcm (id : Z) (t : v3 N) (R : m3 N) : lvar := mk_pose id t (aa_vector R).
(** rotation_variable.hpp:30-35 *)
Definition mk_rotation (id : Z) (R : m3 N) : lvar := LVar id false (KRot (v3list (log_so3 R)) R).
(** inverse_range_variable.cpp:9-20 and inverse_range_variable.hpp:40-42 (default limits) *)
Definition mk_inverse_range (id : Z) (o b : v3 N) (range : N) : lvar :=
  let lo := nlit (1#1000000) in let hi := nlit 1000 in
  LVar id false (KInv o (v3normalized b) lo hi [clip lo hi (nunit / range)]).
(** plane_variable.hpp:33-41; the assert is compiled out *)
Definition mk_plane (id : Z) (n : v3 N) (d : N) : lvar := LVar id false (KPlane (v3normalized n) d).
(** pose_2d_variable.cpp:8-14 *)
Definition mk_pose2 (id : Z) (p : v3 N) : lvar := LVar id false (KPose2 [vx p; vy p; wrap_angle (vz p)]).

(** ** Further setters *)
(** pose_variable.cpp:77-81 set_pose_vector *)
Definition pose_set_vector (v : lvar) (t r : v3 N) : lvar :=
  match l_kind v with KPose _ _ => LVar (l_id v) (l_const v) (KPose (v3list t ++ v3list r) (dcm_of_rot r)) | _ => v end.
(** pose_variable.cpp:83-86 set_pos_W *)
Definition pose_set_pos (v : lvar) (t : v3 N) : lvar :=
  match l_kind v with KPose y R => LVar (l_id v) (l_const v) (KPose (v3list t ++ skipn 3 y) R) | _ => v end.
(** pose_variable.cpp:88-93 set_dcm_CW *)
Definition pose_set_dcm (v : lvar) (D : m3 N) : lvar :=
  match l_kind v with
  | KPose y _ => LVar (l_id v) (l_const v) (KPose (firstn 3 y ++ v3list (aa_vector D) ++ skipn 6 y) (dcm_of_rot (aa_vector D)))
  | _ => v
  end.
(** landmark_variable.hpp:58 set_pos_W *)
Definition landmark_set_pos (v : lvar) (p : v3 N) : lvar :=
  match l_kind v with KLandmark _ => LVar (l_id v) (l_const v) (KLandmark (v3list p)) | _ => v end.
(** pose_2d_variable.cpp:55-63 set_pos_2d, set_theta *)
Definition pose2_set_pos (v : lvar) (p : v2 N) : lvar :=
  match l_kind v with KPose2 y => LVar (l_id v) (l_const v) (KPose2 ([v2x p; v2y p] ++ skipn 2 y)) | _ => v end.
Definition pose2_set_theta (v : lvar) (t : N) : lvar :=
  match l_kind v with KPose2 y => LVar (l_id v) (l_const v) (KPose2 (firstn 2 y ++ [wrap_angle t])) | _ => v end.
(** inverse_range_variable.cpp:44-52 pos_W; [None] is the NaN vector *)
Definition inv_pos (v : lvar) : option (v3 N) :=
  match l_kind v with
  | KInv o b _ _ x =>
    let r := nth 0 x nzero in
    if negb (nfinite r) || nltb (nabs r) (nlit (1#1000000000)) then None
    else Some (v3add o (v3scale (nunit / r) b))
  | _ => None
  end.
(** plane_variable.hpp:89-94 distance_from_point *)
Definition plane_distance (n : v3 N) (d : N) (p : v3 N) : N := v3dot n p + d.
End Vars.
Arguments kind : clear implicits.
Arguments lvar : clear implicits.
Arguments lib : clear implicits.
