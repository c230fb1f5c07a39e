(** Three-dimensional geometry: /repo/src/factorama/random_utils.hpp, random_utils.cpp and the Eigen functions used by it.
    Eigen's fixed-size sums are modelled left to right. *)
From Coq Require Import List Arith ZArith QArith Bool.
From Verif Require Import Base.
Import ListNotations.
Local Open Scope num_scope.

Section Geom.
Context {N : num}.

(** Eigen::Vector3d, Eigen::Matrix3d, Eigen::Vector2d, Eigen::Matrix2d *)
Record v3 : Type := V3 { vx : N; vy : N; vz : N }.
Record m3 : Type := M3 { m00 : N; m01 : N; m02 : N; m10 : N; m11 : N; m12 : N; m20 : N; m21 : N; m22 : N }.
Record v2 : Type := V2 { v2x : N; v2y : N }.
Record m2 : Type := M2 { a00 : N; a01 : N; a10 : N; a11 : N }.

Definition v3zero : v3 := V3 nzero nzero nzero.
Definition v3add (a b : v3) : v3 := V3 (vx a + vx b) (vy a + vy b) (vz a + vz b).
Definition v3sub (a b : v3) : v3 := V3 (vx a - vx b) (vy a - vy b) (vz a - vz b).
Definition v3neg (a : v3) : v3 := V3 (- vx a) (- vy a) (- vz a).
Definition v3scale (s : N) (a : v3) : v3 := V3 (s * vx a) (s * vy a) (s * vz a).
Definition v3div (a : v3) (s : N) : v3 := V3 (vx a / s) (vy a / s) (vz a / s).
Definition v3dot (a b : v3) : N := vx a * vx b + vy a * vy b + vz a * vz b.
Definition v3cross (a b : v3) : v3 :=
  V3 (vy a * vz b - vz a * vy b) (vz a * vx b - vx a * vz b) (vx a * vy b - vy a * vx b).
Definition v3sq (a : v3) : N := v3dot a a.
Definition v3norm (a : v3) : N := nsqrt (v3sq a).
(** Eigen normalized()/normalize(): divides by the norm if squaredNorm() > 0, otherwise leaves the vector *)
Definition v3normalized (a : v3) : v3 := if nltb nzero (v3sq a) then v3div a (nsqrt (v3sq a)) else a.
Definition v3list (a : v3) : list N := [vx a; vy a; vz a].

Definition m3id : m3 := M3 nunit nzero nzero nzero nunit nzero nzero nzero nunit.
Definition m3zero : m3 := M3 nzero nzero nzero nzero nzero nzero nzero nzero nzero.
Definition m3map2 (f : N -> N -> N) (a b : m3) : m3 :=
  M3 (f (m00 a) (m00 b)) (f (m01 a) (m01 b)) (f (m02 a) (m02 b))
     (f (m10 a) (m10 b)) (f (m11 a) (m11 b)) (f (m12 a) (m12 b))
     (f (m20 a) (m20 b)) (f (m21 a) (m21 b)) (f (m22 a) (m22 b)).
Definition m3add := m3map2 nadd.
Definition m3sub := m3map2 nsub.
Definition m3map (f : N -> N) (a : m3) : m3 :=
  M3 (f (m00 a)) (f (m01 a)) (f (m02 a)) (f (m10 a)) (f (m11 a)) (f (m12 a)) (f (m20 a)) (f (m21 a)) (f (m22 a)).
Definition m3scale (s : N) := m3map (fun x => s * x).
Definition m3neg := m3map nneg.
Definition m3t (a : m3) : m3 := M3 (m00 a) (m10 a) (m20 a) (m01 a) (m11 a) (m21 a) (m02 a) (m12 a) (m22 a).
Definition m3row0 (a : m3) := V3 (m00 a) (m01 a) (m02 a).
Definition m3row1 (a : m3) := V3 (m10 a) (m11 a) (m12 a).
Definition m3row2 (a : m3) := V3 (m20 a) (m21 a) (m22 a).
Definition m3v (a : m3) (v : v3) : v3 := V3 (v3dot (m3row0 a) v) (v3dot (m3row1 a) v) (v3dot (m3row2 a) v).
Definition m3mul (a b : m3) : m3 :=
  let t := m3t b in
  let r r0 := (v3dot r0 (m3row0 t), v3dot r0 (m3row1 t), v3dot r0 (m3row2 t)) in
  let '(x00, x01, x02) := r (m3row0 a) in
  let '(x10, x11, x12) := r (m3row1 a) in
  let '(x20, x21, x22) := r (m3row2 a) in
  M3 x00 x01 x02 x10 x11 x12 x20 x21 x22.
Definition m3trace (a : m3) : N := m00 a + m11 a + m22 a.
(** a * b^T *)
Definition m3outer (a b : v3) : m3 :=
  M3 (vx a * vx b) (vx a * vy b) (vx a * vz b) (vy a * vx b) (vy a * vy b) (vy a * vz b) (vz a * vx b) (vz a * vy b) (vz a * vz b).

Definition m2v (a : m2) (v : v2) : v2 := V2 (a00 a * v2x v + a01 a * v2y v) (a10 a * v2x v + a11 a * v2y v).
Definition m2t (a : m2) : m2 := M2 (a00 a) (a10 a) (a01 a) (a11 a).

(** random_utils.hpp:8; the literal has 21 significant digits *)
Definition npi : N := nlit (314159265358979323846 # 100000000000000000000).

(** random_utils.cpp:8-13 skew_symmetric *)
Definition skew (v : v3) : m3 := M3 nzero (- vz v) (vy v) (vz v) nzero (- vx v) (- vy v) (vx v) nzero.
(** random_utils.cpp:15-18 unskew *)
Definition unskew (m : m3) : v3 := v3scale (nlit (1#2)) (V3 (m21 m - m12 m) (m02 m - m20 m) (m10 m - m01 m)).

(** random_utils.cpp:20-33 ExpMapSO3; (1-cos)*K*K is ((1-cos)*K)*K *)
Definition exp_so3 (w : v3) : m3 :=
  let theta := v3norm w in
  if nltb theta (nlit (1#10000000000)) then m3add m3id (skew w)
  else
    let K := skew (v3div w theta) in
    m3add (m3add m3id (m3scale (nsin theta) K)) (m3mul (m3scale (nunit - ncos theta) K) K).

(** Eigen 3.4 Quaternion = Matrix3d (Quaternion.h, quaternionbase_assign_impl<Other,3,3>): (w, vec) *)
Definition quat_of_matrix (m : m3) : N * v3 :=
  let t := m3trace m in
  let half := nlit (1#2) in
  if nltb nzero t then
    let s := nsqrt (t + nunit) in
    let u := half / s in
    (half * s, V3 ((m21 m - m12 m) * u) ((m02 m - m20 m) * u) ((m10 m - m01 m) * u))
  else
    let i := if nltb (m00 m) (m11 m) then (if nltb (m11 m) (m22 m) then 2 else 1)%nat
             else (if nltb (m00 m) (m22 m) then 2 else 0)%nat in
    match i with
    | O => let s := nsqrt (m00 m - m11 m - m22 m + nunit) in let u := half / s in
           ((m21 m - m12 m) * u, V3 (half * s) ((m10 m + m01 m) * u) ((m20 m + m02 m) * u))
    | S O => let s := nsqrt (m11 m - m22 m - m00 m + nunit) in let u := half / s in
           ((m02 m - m20 m) * u, V3 ((m01 m + m10 m) * u) (half * s) ((m21 m + m12 m) * u))
    | _ => let s := nsqrt (m22 m - m00 m - m11 m + nunit) in let u := half / s in
           ((m10 m - m01 m) * u, V3 ((m02 m + m20 m) * u) ((m12 m + m21 m) * u) (half * s))
    end.
(** Eigen 3.4 AngleAxis = Quaternion (AngleAxis.h operator=): angle and axis.  stableNorm() is modelled by norm(). *)
Definition angle_axis (m : m3) : N * v3 :=
  let '(w, v) := quat_of_matrix m in
  let n := v3norm v in
  if nltb n nzero || nltb nzero n then
    let ang := nlit 2 * natan2 n (nabs w) in
    (ang, v3div v (if nltb w nzero then - n else n))
  else (nzero, V3 nunit nzero nzero).
(** Eigen AngleAxis::toRotationMatrix (AngleAxis.h) *)
Definition aa_matrix (angle : N) (a : v3) : m3 :=
  let sa := v3scale (nsin angle) a in
  let c := ncos angle in
  let ca := v3scale (nunit - c) a in
  let xy := vx ca * vy a in
  let xz := vx ca * vz a in
  let yz := vy ca * vz a in
  M3 (vx ca * vx a + c) (xy - vz sa) (xz + vy sa)
     (xy + vz sa) (vy ca * vy a + c) (yz - vx sa)
     (xz - vy sa) (yz + vx sa) (vz ca * vz a + c).

(** random_utils.cpp:35-57 LogMapSO3 *)
Definition log_so3 (R : m3) : v3 :=
  let c0 := (m3trace R - nunit) * nlit (1#2) in
  let c := nmin (nmax c0 (nlit (-1))) nunit in
  let theta := nacos c in
  let Omega := m3scale (nlit (1#2)) (m3sub R (m3t R)) in
  if nltb theta (nlit (1#100000)) then unskew Omega
  else if nltb (nabs (theta - npi)) (nlit (1#1000)) then
    let '(ang, ax) := angle_axis R in v3scale ang ax
  else
    let scale := theta / (nlit 2 * nsin theta) in
    unskew (m3scale scale (m3sub R (m3t R))).

(** random_utils.cpp:81-104 compute_inverse_right_jacobian_so3 *)
Definition inv_right_jacobian (w : v3) : outcome m3 :=
  let theta := v3norm w in
  if nltb theta (nlit (1#100000000)) then Ok (m3sub m3id (m3scale (nlit (1#2)) (skew w)))
  else
    let axis := v3div w theta in
    let K := skew axis in
    let ht := nlit (1#2) * theta in
    let th := ntan ht in
    if nltb (nabs th) (nlit (1#1000000000000)) then Throw EDegenerate
    else
      let cot := nunit / th in
      Ok (m3sub (m3add (m3scale (ht * cot) m3id) (m3scale (nunit - ht * cot) (m3outer axis axis))) (m3scale ht K)).

(** matrices of dynamic size *)
Definition mat3 (m : m3) : mat N := Mat 3 3 (fun i j =>
  match i, j with
  | 0, 0 => m00 m | 0, 1 => m01 m | 0, _ => m02 m
  | 1, 0 => m10 m | 1, 1 => m11 m | 1, _ => m12 m
  | _, 0 => m20 m | _, 1 => m21 m | _, _ => m22 m
  end)%nat.
End Geom.
Arguments v3 : clear implicits.
Arguments m3 : clear implicits.
Arguments v2 : clear implicits.
Arguments m2 : clear implicits.
