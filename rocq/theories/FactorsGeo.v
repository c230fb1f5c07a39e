(** The factor classes that know their variables' types: /repo/src/factorama/*_factor*.hpp, *_factor*.cpp.
    Pointers are addresses; a pointer to an object of another class is undefined behaviour.  Constructor asserts are compiled
    out.  Printing is dropped.  compute_residual() and compute_residual(Ref) have separate bodies in the C++ code and separate
    definitions here ([_res], [_ref]); an Eigen::Ref argument has residual_size() elements, resize() to that size does nothing. *)
From Coq Require Import List Arith ZArith QArith Bool.
From Verif Require Import Base Sparse Graph Geom Vars FactorsLin.
Import ListNotations.
Local Open Scope num_scope.

Section FactorsGeo.
Context {N : num}.
Notation heap := (@heap (lvar N)).
Notation factor := (factor (N:=N) (V:=lvar N)).

(** ** Reading variables *)
(** PoseVariable: pos_W() (pose_variable.hpp:49) and dcm_CW() (pose_variable.cpp:58-61) *)
Definition pose_at (h : heap) (a : addr) : outcome (v3 N * m3 N) :=
  let* v := hget h a in
  match l_kind v with KPose x R => if (length x <? 3)%nat then UB UBSegment else Ok (seg3 0 x, R) | _ => UB UBDangling end.
(** LandmarkVariable: pos_W() (landmark_variable.hpp:52) *)
Definition landmark_at (h : heap) (a : addr) : outcome (v3 N) :=
  let* v := hget h a in match l_kind v with KLandmark x => to_v3 x | _ => UB UBDangling end.
(** RotationVariable: rotation(), dcm_AB() (rotation_variable.hpp:55,63) *)
Definition rot_at (h : heap) (a : addr) : outcome (m3 N) :=
  let* v := hget h a in match l_kind v with KRot _ R => Ok R | _ => UB UBDangling end.
(** InverseRangeVariable: pos_W() (inverse_range_variable.cpp:44-52), inverse_range(), bearing_W()
    (inverse_range_variable.hpp:47-49); the NaN vector is written 0/0 *)
Definition nan3 : v3 N := let x := nzero / nzero in V3 x x x.
Definition inv_at (h : heap) (a : addr) : outcome (v3 N * N * v3 N) :=
  let* v := hget h a in
  match l_kind v with
  | KInv _ b _ _ (x :: _) => Ok (match inv_pos v with Some p => p | None => nan3 end, x, b)
  | KInv _ _ _ _ [] => UB UBIndex
  | _ => UB UBDangling
  end.
(** PlaneVariable: unit_vector(), distance_from_origin() (plane_variable.hpp:76-82) *)
Definition plane_at (h : heap) (a : addr) : outcome (v3 N * N) :=
  let* v := hget h a in match l_kind v with KPlane n d => Ok (n, d) | _ => UB UBDangling end.
(** Pose2DVariable: pos_2d(), theta() (pose_2d_variable.hpp:45-51) *)
Definition pose2_at (h : heap) (a : addr) : outcome (v2 N * N) :=
  let* v := hget h a in match l_kind v with KPose2 [x; y; t] => Ok (V2 x y, t) | KPose2 _ => UB UBIndex | _ => UB UBDangling end.
(** Pose2DVariable: dcm_2d() (pose_2d_variable.cpp:46-53) *)
Definition dcm2 (t : N) : m2 N := M2 (ncos t) (- nsin t) (nsin t) (ncos t).
(** value() of any variable, as a VectorXd, as a Vector3d, its head<2>(), its element 0 *)
Definition value_at (h : heap) (a : addr) : outcome (list N) := let* v := hget h a in Ok (kval (l_kind v)).
Definition value3_at (h : heap) (a : addr) : outcome (v3 N) := let* x := value_at h a in to_v3 x.
Definition value2_at (h : heap) (a : addr) : outcome (v2 N) :=
  let* x := value_at h a in match x with p :: q :: _ => Ok (V2 p q) | _ => UB UBSegment end.
Definition value0_at (h : heap) (a : addr) : outcome N :=
  let* x := value_at h a in match x with p :: _ => Ok p | _ => UB UBIndex end.
Definition generic_at (h : heap) (a : addr) : outcome (list N) :=
  let* v := hget h a in match l_kind v with KGeneric x => Ok x | _ => UB UBDangling end.

Definition v2sub (a b : v2 N) : v2 N := V2 (v2x a - v2x b) (v2y a - v2y b).
Definition v2scale (s : N) (a : v2 N) : v2 N := V2 (s * v2x a) (s * v2y a).
Definition v2list (a : v2 N) : list N := [v2x a; v2y a].

(** ** The in/out vector of compute_jacobians *)
(** sized to n elements: kept if it already has n, otherwise n empty matrices (as in bearing_observation_factor.cpp:10-15) *)
Definition sized (n : nat) (J0 : list (mat N)) : list (mat N) := if (length J0 =? n)%nat then J0 else repeat mempty n.
Definition jacs : Type := (list (mat N) * outcome unit)%type.
(** computations that may fail before anything else is written *)
Definition withj {A} (J : list (mat N)) (o : outcome A) (f : A -> jacs) : jacs :=
  match o with Ok a => f a | Throw e => (J, Throw e) | UB u => (J, UB u) end.
(** jacobians[k] = m, or the failure met while computing m *)
Definition setj (k : nat) (o : outcome (mat N)) (x : jacs) : jacs :=
  match x with
  | (J, Ok _) => withj J o (fun M => if (k <? length J)%nat then (lupd k M J, Ok tt) else (J, UB UBIndex))
  | _ => x
  end.
(** block of the variable at [a]: empty if it is constant (setConstant), otherwise M *)
Definition blk (h : heap) (a : addr) (M : mat N) : outcome (mat N) := block_for (lib N) h a M.

(** matrices given by their rows *)
Definition rows_mat (r c : nat) (l : list (list N)) : mat N := Mat r c (fun i j => nth j (nth i l []) nzero).
Definition m3rows (a : m3 N) : list (list N) := [v3list (m3row0 a); v3list (m3row1 a); v3list (m3row2 a)].
Definition mat33 (a : m3 N) : mat N := rows_mat 3 3 (m3rows a).
(** [a b], a 3x6 matrix *)
Definition mat36 (a b : m3 N) : mat N :=
  rows_mat 3 6 [v3list (m3row0 a) ++ v3list (m3row0 b); v3list (m3row1 a) ++ v3list (m3row1 b); v3list (m3row2 a) ++ v3list (m3row2 b)].
Definition col3 (v : v3 N) : mat N := rows_mat 3 1 [[vx v]; [vy v]; [vz v]].
Definition m3diag (w : N) : m3 N := M3 w nzero nzero nzero w nzero nzero nzero w.

(** ** LinearVelocityFactor; a negative initial_index is not modelled *)
(** linear_velocity_factor.cpp:29-36 *)
Definition linvel_res (a b c : addr) (n i0 : nat) (dt w : N) (h : heap) : outcome (list N) :=
  let* xb := value_at h b in let* sb := segment i0 n xb in
  let* xa := value_at h a in let* sa := segment i0 n xa in
  let diff := vsub sb sa in
  let* v := value_at h c in let* r := vec_minus diff (map (fun x => x * dt) v) in Ok (vscale w r).
(** linear_velocity_factor.cpp:38-44 *)
Definition linvel_ref (a b c : addr) (n i0 : nat) (dt w : N) (h : heap) : outcome (list N) :=
  let* xb := value_at h b in let* sb := segment i0 n xb in
  let* xa := value_at h a in let* sa := segment i0 n xa in
  let* v := value_at h c in let* r := vec_minus (vsub sb sa) (map (fun x => x * dt) v) in Ok (vscale w r).
(** J.setZero(); J.block(0, i0, dim, dim).diagonal().setConstant(w) on an r x c matrix *)
Definition diag_block (r c i0 dim : nat) (w : N) : outcome (mat N) :=
  if ((dim <=? r) && (i0 + dim <=? c))%nat then Ok (Mat r c (fun i j => if ((j =? i0 + i) && (i <? dim))%nat then w else nzero)) else UB UBSegment.
(** linear_velocity_factor.cpp:46-86 *)
Definition linvel_jac (a b c : addr) (n i0 : nat) (dt w : N) (h : heap) (J0 : list (mat N)) : jacs :=
  let J := sized 3 J0 in
  let dimo := let* v := hget h c in Ok (ksize (l_kind v)) in
  withj J dimo (fun dim =>
  let part x wx := let* v := hget h x in if l_const v then Ok mempty else diag_block n (ksize (l_kind v)) i0 dim wx in
  setj 2 (blk h c (diagm n (- w * dt))) (setj 1 (part b w) (setj 0 (part a (- w)) (J, Ok tt)))).
(** linear_velocity_factor.cpp:6-25, 88-91; [n] is the size of the velocity variable when the factor is constructed *)
Definition linear_velocity (id : Z) (a b c : addr) (n : nat) (dt sigma : N) (i0 : nat) : factor :=
  let w := nunit / sigma in
  Factor id [Some a; Some b; Some c] n (linvel_res a b c n i0 dt w) (linvel_ref a b c n i0 dt w) (linvel_jac a b c n i0 dt w).

(** ** PosePositionPriorFactor *)
(** pose_prior_factors.cpp:19-23 *)
Definition pospri_res (p : addr) (prior : v3 N) (w : N) (h : heap) : outcome (list N) :=
  let* P := pose_at h p in let res := v3sub (fst P) prior in Ok (v3list (v3scale w res)).
(** pose_prior_factors.cpp:25-28 *)
Definition pospri_ref (p : addr) (prior : v3 N) (w : N) (h : heap) : outcome (list N) :=
  let* P := pose_at h p in Ok (v3list (v3scale w (v3sub (fst P) prior))).
(** pose_prior_factors.cpp:30-49 *)
Definition pospri_jac (p : addr) (w : N) (h : heap) (J0 : list (mat N)) : jacs :=
  setj 0 (blk h p (mat36 (m3diag w) m3zero)) (sized 1 J0, Ok tt).
(** pose_prior_factors.cpp:8-17, 51-54 *)
Definition pose_position_prior (id : Z) (p : addr) (prior : v3 N) (sigma : N) : factor :=
  let w := nunit / sigma in Factor id [Some p] 3 (pospri_res p prior w) (pospri_ref p prior w) (pospri_jac p w).

(** ** PoseOrientationPriorFactor *)
(** dcm_error, pose_prior_factors.cpp:79-81, 91-93, 122-124 *)
Definition oripri_err (R : m3 N) (rp : v3 N) : m3 N := m3mul R (m3t (exp_so3 rp)).
(** pose_prior_factors.cpp:75-85 *)
Definition oripri_res (p : addr) (rp : v3 N) (w : N) (h : heap) : outcome (list N) :=
  let* P := pose_at h p in Ok (v3list (v3scale w (log_so3 (oripri_err (snd P) rp)))).
(** pose_prior_factors.cpp:87-97 *)
Definition oripri_ref (p : addr) (rp : v3 N) (w : N) (h : heap) : outcome (list N) :=
  let* P := pose_at h p in let res := log_so3 (oripri_err (snd P) rp) in Ok (v3list (v3scale w res)).
(** pose_prior_factors.cpp:99-130; jacobians[0] is already resized and zero when the inverse Jacobian throws *)
Definition oripri_jac (p : addr) (rp : v3 N) (w : N) (h : heap) (J0 : list (mat N)) : jacs :=
  let J := sized 1 J0 in
  withj J (hget h p) (fun v =>
  if l_const v then setj 0 (Ok mempty) (J, Ok tt)
  else setj 0 (let* P := pose_at h p in let* M := inv_right_jacobian (log_so3 (oripri_err (snd P) rp)) in Ok (mat36 m3zero (m3scale w M)))
         (setj 0 (Ok (mzero 3 6)) (J, Ok tt))).
(** pose_prior_factors.cpp:62-73, 132-135; the prior is stored as its rotation vector *)
Definition pose_orientation_prior (id : Z) (p : addr) (prior : m3 N) (sigma : N) : factor :=
  let w := nunit / sigma in let rp := log_so3 prior in
  Factor id [Some p] 3 (oripri_res p rp w) (oripri_ref p rp w) (oripri_jac p rp w).

(** ** RotationPriorFactor *)
(** rotation_prior_factor.hpp:44-56 *)
Definition rotpri_res (p : addr) (prior : m3 N) (w : N) (h : heap) : outcome (list N) :=
  let* R := rot_at h p in Ok (v3list (v3scale w (log_so3 (m3mul R (m3t prior))))).
(** rotation_prior_factor.hpp:58-67 *)
Definition rotpri_ref (p : addr) (prior : m3 N) (w : N) (h : heap) : outcome (list N) :=
  let* R := rot_at h p in let res := log_so3 (m3mul R (m3t prior)) in Ok (v3list (v3scale w res)).
(** rotation_prior_factor.hpp:69-99 *)
Definition rotpri_jac (p : addr) (prior : m3 N) (w : N) (h : heap) (J0 : list (mat N)) : jacs :=
  let J := sized 1 J0 in
  withj J (hget h p) (fun v =>
  if l_const v then setj 0 (Ok mempty) (J, Ok tt)
  else setj 0 (let* R := rot_at h p in let* M := inv_right_jacobian (log_so3 (m3mul R (m3t prior))) in Ok (mat33 (m3scale w M)))
         (setj 0 (Ok (mzero 3 3)) (J, Ok tt))).
(** rotation_prior_factor.hpp:31-40, 102 *)
Definition rotation_prior (id : Z) (p : addr) (prior : m3 N) (sigma : N) : factor :=
  let w := nunit / sigma in Factor id [Some p] 3 (rotpri_res p prior w) (rotpri_ref p prior w) (rotpri_jac p prior w).

(** ** PosePositionBetweenFactor *)
(** pose_between_factors.hpp:55-71; diff - measured_diff_->value() needs three elements *)
Definition posbet_res (a b m : addr) (w : N) (loc : bool) (h : heap) : outcome (list N) :=
  let* B := pose_at h b in let* A := pose_at h a in let diff_W := v3sub (fst B) (fst A) in
  let* x := value3_at h m in
  let res := if loc then v3sub (m3v (snd A) diff_W) x else v3sub diff_W x in
  Ok (v3list (v3scale w res)).
(** pose_between_factors.hpp:73-89 *)
Definition posbet_ref (a b m : addr) (w : N) (loc : bool) (h : heap) : outcome (list N) :=
  let* B := pose_at h b in let* A := pose_at h a in let* x := value3_at h m in
  if loc then Ok (v3list (v3scale w (v3sub (m3v (snd A) (v3sub (fst B) (fst A))) x)))
  else Ok (v3list (v3scale w (v3sub (v3sub (fst B) (fst A)) x))).
(** pose_between_factors.hpp:91-171 *)
Definition posbet_jac (a b m : addr) (w : N) (loc : bool) (h : heap) (J0 : list (mat N)) : jacs :=
  let J := sized 3 J0 in
  let mid :=
    if loc then
      withj J (let* B := pose_at h b in let* A := pose_at h a in Ok (A, B)) (fun AB => let '(A, B) := AB in
      let dcm := snd A in let diff_A := m3v dcm (v3sub (fst B) (fst A)) in
      setj 1 (blk h b (mat36 (m3scale w dcm) m3zero))
        (setj 0 (blk h a (mat36 (m3scale (- w) dcm) (m3scale (- w) (skew diff_A)))) (J, Ok tt)))
    else
      setj 1 (blk h b (mat36 (m3diag w) m3zero)) (setj 0 (blk h a (mat36 (m3diag (- w)) m3zero)) (J, Ok tt)) in
  setj 2 (blk h m (diagm 3 (- w))) mid.
(** pose_between_factors.hpp:36-51, 173 *)
Definition pose_position_between (id : Z) (a b m : addr) (sigma : N) (loc : bool) : factor :=
  let w := nunit / sigma in
  Factor id [Some a; Some b; Some m] 3 (posbet_res a b m w loc) (posbet_ref a b m w loc) (posbet_jac a b m w loc).

(** ** PoseOrientationBetweenFactor *)
(** error: pose_between_factors.hpp:250, 265, pose_between_factors.cpp:20 *)
Definition oribet_err (R1 R2 C : m3 N) : m3 N := m3mul (m3mul R2 (m3t R1)) C.
(** pose_between_factors.hpp:237-240, 256-269 *)
Definition oribet_res (a b c : addr) (w : N) (h : heap) : outcome (list N) :=
  let* A := pose_at h a in let* B := pose_at h b in let* C := rot_at h c in
  Ok (v3list (v3scale w (log_so3 (oribet_err (snd A) (snd B) C)))).
(** pose_between_factors.hpp:242-254 *)
Definition oribet_ref (a b c : addr) (w : N) (h : heap) : outcome (list N) :=
  let* A := pose_at h a in let* B := pose_at h b in let* C := rot_at h c in
  let res := log_so3 (oribet_err (snd A) (snd B) C) in Ok (v3list (v3scale w res)).
(** pose_between_factors.cpp:6-57 *)
Definition oribet_jac (a b c : addr) (w : N) (h : heap) (J0 : list (mat N)) : jacs :=
  let J := sized 3 J0 in
  withj J (let* A := pose_at h a in let* B := pose_at h b in let* C := rot_at h c in
           let E := oribet_err (snd A) (snd B) C in
           let* M := inv_right_jacobian (log_so3 E) in Ok (C, E, M)) (fun x => let '(C, E, M) := x in
  setj 2 (blk h c (mat33 (m3mul (m3scale w (m3t M)) (m3t C))))
    (setj 1 (blk h b (mat36 m3zero (m3scale w (m3mul (m3t M) (m3t E)))))
      (setj 0 (blk h a (mat36 m3zero (m3mul (m3scale (- w) (m3t M)) (m3t C)))) (J, Ok tt)))).
(** pose_between_factors.hpp:218-231, 273 *)
Definition pose_orientation_between (id : Z) (a b c : addr) (sigma : N) : factor :=
  let w := nunit / sigma in Factor id [Some a; Some b; Some c] 3 (oribet_res a b c w) (oribet_ref a b c w) (oribet_jac a b c w).

(** ** BearingObservationFactor *)
(** MIN_DISTANCE_FROM_CAMERA, MIN_INVERSE_RANGE, MIN_DISTANCE_FROM_POSE *)
Definition min_dist : N := nlit (1#1000000000).
(** bearing_observation_factor.hpp:52-62 *)
Definition bearing_res (p l : addr) (obs : v3 N) (w : N) (h : heap) : outcome (list N) :=
  let* x := landmark_at h l in let* P := pose_at h p in
  let delta_W := v3sub x (fst P) in let pred := v3normalized (m3v (snd P) delta_W) in
  Ok (v3list (v3scale w (v3sub pred obs))).
(** bearing_observation_factor.hpp:64-74 *)
Definition bearing_ref (p l : addr) (obs : v3 N) (w : N) (h : heap) : outcome (list N) :=
  let* x := landmark_at h l in let* P := pose_at h p in
  Ok (v3list (v3scale w (v3sub (v3normalized (m3v (snd P) (v3sub x (fst P)))) obs))).
(** bearing_observation_factor.cpp:7-59 *)
Definition bearing_jac (p l : addr) (w : N) (h : heap) (J0 : list (mat N)) : jacs :=
  let J := sized 2 J0 in
  withj J (let* P := pose_at h p in let* x := landmark_at h l in
           let pos := m3v (snd P) (v3sub x (fst P)) in
           if nltb (v3norm pos) min_dist then Throw EDegenerate else Ok (snd P, pos)) (fun y => let '(dcm, pos) := y in
  let n := v3norm pos in let bear := v3div pos n in
  let D := m3scale (w / n) (m3add (m3outer (v3neg bear) bear) m3id) in
  setj 1 (blk h l (mat33 (m3mul D dcm)))
    (setj 0 (blk h p (mat36 (m3mul (m3scale (- nunit) D) dcm) (m3mul D (m3neg (skew pos))))) (J, Ok tt))).
(** bearing_observation_factor.hpp:37-50, 80; the measurement is normalised *)
Definition bearing_observation (id : Z) (p l : addr) (obs : v3 N) (sigma : N) : factor :=
  let w := nunit / sigma in let o := v3normalized obs in
  Factor id [Some p; Some l] 3 (bearing_res p l o w) (bearing_ref p l o w) (bearing_jac p l w).

(** ** InverseRangeBearingFactor *)
(** inverse_range_bearing_factor.hpp:57-71 *)
Definition invbear_res (p l : addr) (obs : v3 N) (w : N) (h : heap) : outcome (list N) :=
  let* P := pose_at h p in let* iv := inv_at h l in
  let pos_C := m3v (snd P) (v3sub (fst (fst iv)) (fst P)) in let b := v3normalized pos_C in
  Ok (v3list (v3scale w (v3sub b obs))).
(** inverse_range_bearing_factor.hpp:73-85 *)
Definition invbear_ref (p l : addr) (obs : v3 N) (w : N) (h : heap) : outcome (list N) :=
  let* P := pose_at h p in let* iv := inv_at h l in
  Ok (v3list (v3scale w (v3sub (v3normalized (m3v (snd P) (v3sub (fst (fst iv)) (fst P)))) obs))).
(** inverse_range_bearing_factor.cpp:7-67; the pose block is written before the inverse range is checked *)
Definition invbear_jac (p l : addr) (w : N) (h : heap) (J0 : list (mat N)) : jacs :=
  let J := sized 2 J0 in
  withj J (let* P := pose_at h p in let* iv := inv_at h l in
           let pos := m3v (snd P) (v3sub (fst (fst iv)) (fst P)) in
           if nltb (v3norm pos) min_dist then Throw EDegenerate else Ok (snd P, pos, iv)) (fun y => let '(dcm, pos, iv) := y in
  let n := v3norm pos in let bear := v3div pos n in
  let D := m3map (fun x => x / n) (m3sub m3id (m3outer bear bear)) in
  let '(_, rho, dir) := iv in
  setj 1 (if nltb (nabs rho) min_dist then Throw EDegenerate
          else blk h l (col3 (m3v (m3scale w D) (m3v dcm (v3div (v3neg dir) (rho * rho))))))
    (setj 0 (blk h p (mat36 (m3mul (m3scale (- w) D) dcm) (m3mul (m3scale w D) (m3neg (skew pos))))) (J, Ok tt))).
(** inverse_range_bearing_factor.hpp:40-53, 55 *)
Definition inverse_range_bearing (id : Z) (p l : addr) (obs : v3 N) (sigma : N) : factor :=
  let w := nunit / sigma in let o := v3normalized obs in
  Factor id [Some p; Some l] 3 (invbear_res p l o w) (invbear_ref p l o w) (invbear_jac p l w).

(** ** BearingProjectionFactor2D *)
(** bearing_projection_factor_2d.cpp:6-33 compute_tangent_basis: the columns of T_ *)
Definition tangent_basis (k : v3 N) : v3 N * v3 N :=
  let ax := nabs (vx k) in let ay := nabs (vy k) in let az := nabs (vz k) in
  let u := if nleb ax ay && nleb ax az then V3 nunit nzero nzero
           else if nleb ay az then V3 nzero nunit nzero else V3 nzero nzero nunit in
  let t1 := v3normalized (v3sub u (v3scale (v3dot k u) k)) in (t1, v3cross k t1).
(** T^T v and T^T A *)
Definition tt_v (T : v3 N * v3 N) (v : v3 N) : v2 N := V2 (v3dot (fst T) v) (v3dot (snd T) v).
Definition row_m (r : v3 N) (A : m3 N) : v3 N := let B := m3t A in V3 (v3dot r (m3row0 B)) (v3dot r (m3row1 B)) (v3dot r (m3row2 B)).
(** bearing_projection_factor_2d.cpp:35-62 *)
Definition proj_res (p l : addr) (k : v3 N) (T : v3 N * v3 N) (w tol : N) (h : heap) : outcome (list N) :=
  let* x := landmark_at h l in let* P := pose_at h p in
  let bear := v3normalized (m3v (snd P) (v3sub x (fst P))) in
  let depth := v3dot k bear in
  if nleb depth tol then let large := V2 nunit nunit in Ok (v2list (v2scale w large))
  else let r := tt_v T bear in Ok (v2list (v2scale w r)).
(** bearing_projection_factor_2d.cpp:64-93 *)
Definition proj_ref (p l : addr) (k : v3 N) (T : v3 N * v3 N) (w tol : N) (h : heap) : outcome (list N) :=
  let* x := landmark_at h l in let* P := pose_at h p in
  let bear := v3normalized (m3v (snd P) (v3sub x (fst P))) in
  if nleb (v3dot k bear) tol then Ok (v2list (v2scale w (V2 nunit nunit)))
  else Ok (v2list (v2scale w (tt_v T bear))).
(** bearing_projection_factor_2d.cpp:95-178 *)
Definition proj_jac (p l : addr) (k : v3 N) (T : v3 N * v3 N) (w tol : N) (h : heap) (J0 : list (mat N)) : jacs :=
  let J := sized 2 J0 in
  withj J (let* x := landmark_at h l in let* P := pose_at h p in Ok (snd P, m3v (snd P) (v3sub x (fst P)))) (fun y => let '(dcm, pos) := y in
  let n := v3norm pos in let bear := v3div pos n in
  if nleb (v3dot k bear) tol then setj 1 (blk h l (mzero 2 3)) (setj 0 (blk h p (mzero 2 6)) (J, Ok tt))
  else
    let D := m3map (fun x => x / n) (m3sub m3id (m3outer bear bear)) in
    let A := m3mul (m3scale (- w) D) dcm in let B := m3mul (m3scale w D) (m3neg (skew pos)) in
    let C := m3mul (m3scale w D) dcm in
    setj 1 (blk h l (rows_mat 2 3 [v3list (row_m (fst T) C); v3list (row_m (snd T) C)]))
      (setj 0 (blk h p (rows_mat 2 6 [v3list (row_m (fst T) A) ++ v3list (row_m (fst T) B);
                                      v3list (row_m (snd T) A) ++ v3list (row_m (snd T) B)])) (J, Ok tt))).
(** bearing_projection_factor_2d.hpp:35-50, 66 *)
Definition bearing_projection (id : Z) (p l : addr) (obs : v3 N) (sigma tol : N) : factor :=
  let w := nunit / sigma in let k := v3normalized obs in let T := tangent_basis k in
  Factor id [Some p; Some l] 2 (proj_res p l k T w tol) (proj_ref p l k T w tol) (proj_jac p l k T w tol).

(** ** BearingObservationFactor2D, RangeBearingFactor2D *)
(** delta_local: bearing_observation_factor_2d.cpp:24-34, 51-61, 85-96, range_bearing_factor_2d.cpp:29-39, 58-71, 100-111 *)
Definition local2 (h : heap) (p l : addr) : outcome (v2 N * N) :=
  let* P := pose2_at h p in let* x := value2_at h l in
  let delta_world := v2sub x (fst P) in Ok (m2v (m2t (dcm2 (snd P))) delta_world, snd P).
(** bearing_observation_factor_2d.cpp:21-46 *)
Definition bear2_res (p l : addr) (obs w : N) (h : heap) : outcome (list N) :=
  let* d := local2 h p l in let pred := natan2 (v2y (fst d)) (v2x (fst d)) in
  let err := pred - obs in let err := wrap_angle err in Ok [w * err].
(** bearing_observation_factor_2d.cpp:48-72 *)
Definition bear2_ref (p l : addr) (obs w : N) (h : heap) : outcome (list N) :=
  let* d := local2 h p l in Ok [w * wrap_angle (natan2 (v2y (fst d)) (v2x (fst d)) - obs)].
(** bearing_observation_factor_2d.cpp:74-140 *)
Definition bear2_jac (p l : addr) (w : N) (h : heap) (J0 : list (mat N)) : jacs :=
  let J := sized 2 J0 in
  withj J (let* d := local2 h p l in
           let dx := v2x (fst d) in let dy := v2y (fst d) in let r2 := dx * dx + dy * dy in
           if nltb r2 (min_dist * min_dist) then Throw EDegenerate else Ok (dx, dy, r2, snd d)) (fun y => let '(dx, dy, r2, t) := y in
  let c := ncos t in let s := nsin t in
  setj 1 (blk h l (rows_mat 1 2 [[- w * (dy * c + dx * s) / r2; - w * (dy * s - dx * c) / r2]]))
    (setj 0 (blk h p (rows_mat 1 3 [[w * (dy * c + dx * s) / r2; w * (dy * s - dx * c) / r2; - w]])) (J, Ok tt))).
(** bearing_observation_factor_2d.cpp:7-19, bearing_observation_factor_2d.hpp *)
Definition bearing_observation_2d (id : Z) (p l : addr) (obs sigma : N) : factor :=
  let w := nunit / sigma in Factor id [Some p; Some l] 1 (bear2_res p l obs w) (bear2_ref p l obs w) (bear2_jac p l w).
(** range_bearing_factor_2d.cpp:26-56 *)
Definition range2_res (p l : addr) (robs obs wr wb : N) (h : heap) : outcome (list N) :=
  let* d := local2 h p l in let x := v2x (fst d) in let y := v2y (fst d) in
  let range := nsqrt (x * x + y * y) in let pred := natan2 y x in
  let re := range - robs in let be := pred - obs in let be := wrap_angle be in Ok [wr * re; wb * be].
(** range_bearing_factor_2d.cpp:58-87 *)
Definition range2_ref (p l : addr) (robs obs wr wb : N) (h : heap) : outcome (list N) :=
  let* d := local2 h p l in let x := v2x (fst d) in let y := v2y (fst d) in
  Ok [wr * (nsqrt (x * x + y * y) - robs); wb * wrap_angle (natan2 y x - obs)].
(** range_bearing_factor_2d.cpp:89-168 *)
Definition range2_jac (p l : addr) (wr wb : N) (h : heap) (J0 : list (mat N)) : jacs :=
  let J := sized 2 J0 in
  withj J (let* d := local2 h p l in
           let dx := v2x (fst d) in let dy := v2y (fst d) in let r2 := dx * dx + dy * dy in
           if nltb (nsqrt r2) min_dist then Throw EDegenerate else Ok (dx, dy, r2, snd d)) (fun y => let '(dx, dy, r2, t) := y in
  let c := ncos t in let s := nsin t in let r := nsqrt r2 in
  setj 1 (blk h l (rows_mat 2 2 [[wr * (dx * c - dy * s) / r; wr * (dx * s + dy * c) / r];
                                 [- wb * (dy * c + dx * s) / r2; - wb * (dy * s - dx * c) / r2]]))
    (setj 0 (blk h p (rows_mat 2 3 [[- wr * (dx * c - dy * s) / r; - wr * (dx * s + dy * c) / r; nzero];
                                    [wb * (dy * c + dx * s) / r2; wb * (dy * s - dx * c) / r2; - wb]])) (J, Ok tt))).
(** range_bearing_factor_2d.cpp:7-24 *)
Definition range_bearing_2d (id : Z) (p l : addr) (robs obs rsigma bsigma : N) : factor :=
  let wr := nunit / rsigma in let wb := nunit / bsigma in
  Factor id [Some p; Some l] 2 (range2_res p l robs obs wr wb) (range2_ref p l robs obs wr wb) (range2_jac p l wr wb).

(** ** Pose2DPriorFactor *)
(** pose_2d_prior_factor.cpp:19-33 *)
Definition pri2_res (p : addr) (prior : v3 N) (wp wa : N) (h : heap) : outcome (list N) :=
  let* P := pose2_at h p in let e := v2sub (fst P) (V2 (vx prior) (vy prior)) in
  let ae := snd P - vz prior in let ae := wrap_angle ae in Ok [wp * v2x e; wp * v2y e; wa * ae].
(** pose_2d_prior_factor.cpp:35-47 *)
Definition pri2_ref (p : addr) (prior : v3 N) (wp wa : N) (h : heap) : outcome (list N) :=
  let* P := pose2_at h p in
  Ok (v2list (v2scale wp (v2sub (fst P) (V2 (vx prior) (vy prior)))) ++ [wa * wrap_angle (snd P - vz prior)]).
(** diagonal position and angle weights *)
Definition diag2 (wp wa : N) : mat N := rows_mat 3 3 [[wp; nzero; nzero]; [nzero; wp; nzero]; [nzero; nzero; wa]].
(** pose_2d_prior_factor.cpp:49-73 *)
Definition pri2_jac (p : addr) (wp wa : N) (h : heap) (J0 : list (mat N)) : jacs :=
  setj 0 (blk h p (diag2 wp wa)) (sized 1 J0, Ok tt).
(** pose_2d_prior_factor.cpp:6-17 *)
Definition pose2_prior (id : Z) (p : addr) (prior : v3 N) (psigma asigma : N) : factor :=
  let wp := nunit / psigma in let wa := nunit / asigma in
  Factor id [Some p] 3 (pri2_res p prior wp wa) (pri2_ref p prior wp wa) (pri2_jac p wp wa).

(** ** Pose2DBetweenFactor *)
(** pose_2d_between_factor.cpp:26-54 *)
Definition bet2_res (a b m : addr) (wp wa : N) (loc : bool) (h : heap) : outcome (list N) :=
  let* B := pose2_at h b in let* A := pose2_at h a in let* mp := value2_at h m in
  let rel := v2sub (fst B) (fst A) in
  let pe := if loc then v2sub (m2v (dcm2 (snd A)) rel) mp else v2sub rel mp in
  let* mv := value_at h m in
  match nth_error mv 2 with
  | None => UB UBIndex
  | Some ma => let ae := snd B - snd A - ma in let ae := wrap_angle ae in Ok [wp * v2x pe; wp * v2y pe; wa * ae]
  end.
(** pose_2d_between_factor.cpp:56-82 *)
Definition bet2_ref (a b m : addr) (wp wa : N) (loc : bool) (h : heap) : outcome (list N) :=
  let* B := pose2_at h b in let* A := pose2_at h a in let* mp := value2_at h m in let* mv := value_at h m in
  match nth_error mv 2 with
  | None => UB UBIndex
  | Some ma =>
    let pe := if loc then v2sub (m2v (dcm2 (snd A)) (v2sub (fst B) (fst A))) mp else v2sub (v2sub (fst B) (fst A)) mp in
    Ok (v2list (v2scale wp pe) ++ [wa * wrap_angle (snd B - snd A - ma)])
  end.
(** pose_2d_between_factor.cpp:84-191; J_perp * dcm_AW * relative_pos_W is (J_perp * dcm_AW) * relative_pos_W *)
Definition bet2_jac (a b m : addr) (wp wa : N) (loc : bool) (h : heap) (J0 : list (mat N)) : jacs :=
  let J := sized 3 J0 in
  let mid :=
    if loc then
      withj J (let* B := pose2_at h b in let* A := pose2_at h a in Ok (A, B)) (fun AB => let '(A, B) := AB in
      let rel := v2sub (fst B) (fst A) in let D := dcm2 (snd A) in
      let JD := M2 (nzero * a00 D + - nunit * a10 D) (nzero * a01 D + - nunit * a11 D) (nunit * a00 D + nzero * a10 D) (nunit * a01 D + nzero * a11 D) in
      let dr := m2v JD rel in
      setj 1 (blk h b (rows_mat 3 3 [[wp * a00 D; wp * a01 D; nzero]; [wp * a10 D; wp * a11 D; nzero]; [nzero; nzero; wa]]))
        (setj 0 (blk h a (rows_mat 3 3 [[- wp * a00 D; - wp * a01 D; wp * v2x dr]; [- wp * a10 D; - wp * a11 D; wp * v2y dr]; [nzero; nzero; - wa]]))
          (J, Ok tt)))
    else setj 1 (blk h b (diag2 wp wa)) (setj 0 (blk h a (diag2 (- wp) (- wa))) (J, Ok tt)) in
  setj 2 (blk h m (diag2 (- wp) (- wa))) mid.
(** pose_2d_between_factor.cpp:6-24 *)
Definition pose2_between (id : Z) (a b m : addr) (psigma asigma : N) (loc : bool) : factor :=
  let wp := nunit / psigma in let wa := nunit / asigma in
  Factor id [Some a; Some b; Some m] 3 (bet2_res a b m wp wa loc) (bet2_ref a b m wp wa loc) (bet2_jac a b m wp wa loc).

(** ** PlaneFactor; [sc] is None without distance scaling, otherwise (r0, p0) *)
(** plane_factor.cpp:40-72 *)
Definition plane_res (q m : addr) (w : N) (sc : option (N * v3 N)) (h : heap) : outcome (list N) :=
  let* p := value3_at h q in let* P := plane_at h m in let '(n, d) := P in
  match sc with
  | None => Ok [w * plane_distance n d p]
  | Some (r0, p0) =>
    let r := v3norm (v3sub p p0) in let scale := nunit + r / r0 in let dist := v3dot n p - d in Ok [w * (dist / scale)]
  end.
(** plane_factor.cpp:74-97 *)
Definition plane_ref (q m : addr) (w : N) (sc : option (N * v3 N)) (h : heap) : outcome (list N) :=
  let* p := value3_at h q in let* P := plane_at h m in
  match sc with
  | None => Ok [w * plane_distance (fst P) (snd P) p]
  | Some (r0, p0) => Ok [w * ((v3dot (fst P) p - snd P) / (nunit + v3norm (v3sub p p0) / r0))]
  end.
(** plane_factor.cpp:99-213 *)
Definition plane_jac (q m : addr) (w : N) (sc : option (N * v3 N)) (h : heap) (J0 : list (mat N)) : jacs :=
  let J := sized 2 J0 in
  withj J (let* p := value3_at h q in let* P := plane_at h m in Ok (p, P)) (fun y => let '(p, (n, d)) := y in
  let pt := v3sub p (v3scale (v3dot p n) n) in
  match sc with
  | None =>
    setj 1 (blk h m (rows_mat 1 4 [v3list (v3scale w pt) ++ [w]])) (setj 0 (blk h q (rows_mat 1 3 [v3list (v3scale w n)])) (J, Ok tt))
  | Some (r0, p0) =>
    let diff := v3sub p p0 in let r := v3norm diff in let scale := nunit + r / r0 in let dist := v3dot n p - d in
    let ds := if nltb (nlit (1#1000000000000)) r then v3scale (nunit / r0) (v3div diff r) else v3zero in
    let dp := v3div (v3sub (v3scale scale n) (v3scale dist ds)) (scale * scale) in
    setj 1 (blk h m (rows_mat 1 4 [v3list (v3scale w (v3div pt scale)) ++ [w * (- nunit / scale)]]))
      (setj 0 (blk h q (rows_mat 1 3 [v3list (v3scale w dp)])) (J, Ok tt))
  end).
(** plane_factor.cpp:7-38, 215-218 *)
Definition plane_factor (id : Z) (q m : addr) (sigma : N) (sc : option (N * v3 N)) : factor :=
  let w := nunit / sigma in Factor id [Some q; Some m] 1 (plane_res q m w sc) (plane_ref q m w sc) (plane_jac q m w sc).

(** ** PlanePriorFactor *)
(** plane_prior_factor.cpp:22-40 *)
Definition planepri_res (m : addr) (np : v3 N) (dp wn wd : N) (h : heap) : outcome (list N) :=
  let* P := plane_at h m in let '(n, d) := P in
  let diff := v3sub n np in let T := m3sub m3id (m3outer n n) in
  Ok (v3list (m3v (m3scale wn T) diff) ++ [wd * (d - dp)]).
(** plane_prior_factor.cpp:42-58 *)
Definition planepri_ref (m : addr) (np : v3 N) (dp wn wd : N) (h : heap) : outcome (list N) :=
  let* P := plane_at h m in
  Ok (v3list (m3v (m3scale wn (m3sub m3id (m3outer (fst P) (fst P)))) (v3sub (fst P) np)) ++ [wd * (snd P - dp)]).
(** plane_prior_factor.cpp:60-103 *)
Definition planepri_jac (m : addr) (np : v3 N) (wn wd : N) (h : heap) (J0 : list (mat N)) : jacs :=
  let J := sized 1 J0 in
  withj J (hget h m) (fun v =>
  if l_const v then setj 0 (Ok mempty) (J, Ok tt)
  else setj 0 (let* P := plane_at h m in let n := fst P in
               let c := v3dot n np in
               let A := m3scale wn (m3sub (m3add (m3scale c m3id) (m3outer n np)) (m3scale (nlit 2 * c) (m3outer n n))) in
               Ok (rows_mat 4 4 [v3list (m3row0 A) ++ [nzero]; v3list (m3row1 A) ++ [nzero]; v3list (m3row2 A) ++ [nzero]; [nzero; nzero; nzero; wd]]))
         (setj 0 (Ok (mzero 4 4)) (J, Ok tt))).
(** plane_prior_factor.cpp:7-20, 105-108 *)
Definition plane_prior (id : Z) (m : addr) (np : v3 N) (dp nsigma dsigma : N) : factor :=
  let wn := nunit / nsigma in let wd := nunit / dsigma in let n := v3normalized np in
  Factor id [Some m] 4 (planepri_res m n dp wn wd) (planepri_ref m n dp wn wd) (planepri_jac m n wn wd).

(** ** CoordinateTransformFactor *)
(** coordinate_transform_factor.hpp:73-87; scale * dcm_AB * lm_B is (scale * dcm_AB) * lm_B *)
Definition ctrans_ref (r o s la lb : addr) (w : N) (h : heap) : outcome (list N) :=
  let* R := rot_at h r in
  let* sv := generic_at h s in let* k := (match sv with x :: _ => Ok x | [] => UB UBIndex end) in
  let* b := landmark_at h lb in let* ov := generic_at h o in let* org := to_v3 ov in let* a := landmark_at h la in
  let pred := v3sub (m3v (m3scale k R) b) org in Ok (v3list (v3scale w (v3sub a pred))).
(** coordinate_transform_factor.hpp:66-71 *)
Definition ctrans_res (r o s la lb : addr) (w : N) (h : heap) : outcome (list N) := ctrans_ref r o s la lb w h.
(** coordinate_transform_factor.hpp:89-98, 105-156; a vector that has neither 0 nor 5 elements is resized to 2 *)
Definition ctrans_sized (J0 : list (mat N)) : list (mat N) :=
  if (length J0 =? 0)%nat then repeat mempty 5 else if (length J0 =? 5)%nat then J0 else repeat mempty 2.
Definition ctrans_jac (r o s la lb : addr) (w : N) (h : heap) (J0 : list (mat N)) : jacs :=
  withj J0 (let* R := rot_at h r in
            let* sv := generic_at h s in let* k := (match sv with x :: _ => Ok x | [] => UB UBIndex end) in
            let* b := landmark_at h lb in Ok (R, k, b)) (fun y => let '(R, k, b) := y in
  let J := ctrans_sized J0 in
  setj 4 (blk h lb (mat33 (m3scale (- w * k) R)))
    (setj 3 (blk h la (mat33 (m3scale w m3id)))
      (setj 2 (blk h s (col3 (m3v (m3scale (- w) R) b)))
        (setj 1 (blk h o (mat33 (m3scale w m3id)))
          (setj 0 (blk h r (mat33 (m3scale (w * k) (skew (m3v R b))))) (J, Ok tt)))))).
(** coordinate_transform_factor.hpp:40-60, 158 *)
Definition coordinate_transform (id : Z) (r o s la lb : addr) (sigma : N) : factor :=
  let w := nunit / sigma in
  Factor id [Some r; Some o; Some s; Some la; Some lb] 3 (ctrans_res r o s la lb w) (ctrans_ref r o s la lb w) (ctrans_jac r o s la lb w).
End FactorsGeo.
