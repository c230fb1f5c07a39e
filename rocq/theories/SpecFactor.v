(** What "exact Jacobian" means, without the factors' formulas.  A motion is a curve of object states; its velocity is measured
    in the coordinates of apply_increment: translations and plain vectors additively, rotation matrices by the angular velocity of
    the left perturbation, plane normals on the unit sphere, 2D headings modulo 2 pi. *)
From Coq Require Import List Arith ZArith Reals.
From Coquelicot Require Import Coquelicot.
From Verif Require Import Base Sparse Graph Geom Vars SpecGeom Real RSum.
Import ListNotations.
Local Open Scope R_scope.

(** elements off, off+1, off+2 of a vector *)
Definition dir3 (off : nat) (d : list R) : v3 RN := V3 (N:=RN) (nth off d 0) (nth (1 + off) d 0) (nth (2 + off) d 0).
Definition dot (a b : v3 RN) : R := vx a * vx b + vy a * vy b + vz a * vz b.
(** component of [d] orthogonal to the unit vector [n] *)
Definition across (n d : v3 RN) : v3 RN := V3 (N:=RN) (vx d - dot n d * vx n) (vy d - dot n d * vy n) (vz d - dot n d * vz n).

(** a curve of vectors through [x] with velocity [d] *)
Definition vec_moves (X : R -> list R) (x d : list R) : Prop :=
  X 0 = x /\ (forall s, length (X s) = length x) /\ forall i, (i < length x)%nat -> is_derive (fun s => nth i (X s) 0) 0 (nth i d 0).
(** a curve of states of one variable through [k], with velocity [d] in increment coordinates; the rotation vectors stored beside
    rotation matrices are left free *)
Definition kind_moves (K : R -> kind RN) (k : kind RN) (d : list R) : Prop :=
  match k with
  | KGeneric x => exists X, (forall s, K s = KGeneric (N:=RN) (X s)) /\ vec_moves X x d
  | KLandmark x => exists X, (forall s, K s = KLandmark (N:=RN) (X s)) /\ vec_moves X x d
  | KPose x A => exists X C, (forall s, K s = KPose (N:=RN) (X s) (C s)) /\ (forall s, length (X s) = 6%nat) /\
                 moving (fun s => dir3 0 (X s)) (dir3 0 x) (dir3 0 d) /\ turning C A (dir3 3 d)
  | KRot _ A => exists X C, (forall s, K s = KRot (N:=RN) (X s) (C s)) /\ turning C A (dir3 0 d)
  | KInv o b lo hi x => exists X, (forall s, K s = KInv (N:=RN) o b lo hi [X s]) /\ x = [X 0] /\ is_derive X 0 (nth 0 d 0)
  | KPlane n e => exists M E, (forall s, K s = KPlane (N:=RN) (M s) (E s)) /\ E 0 = e /\ is_derive E 0 (nth 3 d 0) /\
                  moving M n (across n (dir3 0 d))
  | KPose2 x => exists X Y T U, (forall s, K s = KPose2 (N:=RN) [X s; Y s; T s]) /\ x = [X 0; Y 0; T 0] /\
                is_derive X 0 (nth 0 d 0) /\ is_derive Y 0 (nth 1 d 0) /\
                U 0 = T 0 /\ is_derive U 0 (nth 2 d 0) /\ (forall s, cos (T s) = cos (U s) /\ sin (T s) = sin (U s))
  end.
(** a curve of memory states: constant variables stay, the variable at address [a] moves with velocity [D a] *)
Definition hmoves (H : R -> @heap (lvar RN)) (h : @heap (lvar RN)) (D : addr -> list R) : Prop :=
  forall a v, nth_error h a = Some v -> exists K, (forall s, nth_error (H s) a = Some (LVar (l_id v) (l_const v) (K s))) /\
    (if l_const v then forall s, K s = l_kind v else kind_moves K (l_kind v) (D a)).

(** sum over the variables of (Jacobian block) * (velocity); constant variables do not contribute *)
Definition term (h : @heap (lvar RN)) (D : addr -> list R) (a : addr) (M : mat RN) (i : nat) : R :=
  match nth_error h a with
  | Some v => if l_const v then 0 else rsum (vsize (lib RN) v) (fun c => mat_at M i c * nth c (D a) 0)
  | None => 0
  end.
Fixpoint response (h : @heap (lvar RN)) (D : addr -> list R) (vars : list (option addr)) (J : list (mat RN)) (i : nat) : R :=
  match vars, J with
  | Some a :: vs, M :: Js => term h D a M i + response h D vs Js i
  | _, _ => 0
  end.
(** one block per variable: empty for a constant one, otherwise residual_size() x size() *)
Definition shaped {N : num} (h : @heap (lvar N)) (rows : nat) (vars : list (option addr)) (J : list (mat N)) : Prop :=
  Forall2 (fun o M => exists a v, o = Some a /\ nth_error h a = Some v /\
    if l_const v then mrows M = 0%nat /\ mcols M = 0%nat else mrows M = rows /\ mcols M = vsize (lib N) v) vars J.
(** compute_jacobians succeeds, whatever the output vector held, with well-shaped blocks [J], and along every motion the residual
    is defined and changes at the rate J * velocity *)
Definition exact_jacobian (f : factor (N:=RN) (V:=lvar RN)) (h : @heap (lvar RN)) (J : list (mat RN)) : Prop :=
  (forall J0, f_jac f h J0 = (J, Ok tt)) /\ shaped h (f_rsize f) (f_vars f) J /\
  forall H D, hmoves H h D -> exists r : R -> list R,
    (forall s, f_res f (H s) = Ok (r s) /\ length (r s) = f_rsize f) /\
    forall i, (i < f_rsize f)%nat -> is_derive (fun s => nth i (r s) 0) 0 (response h D (f_vars f) J i).

(** ** What a factor sees at an address *)
Section Sees.
Context {N : num}.
Definition sees_pose (h : @heap (lvar N)) (a : addr) (p : v3 N) (C : m3 N) : Prop :=
  exists id c r, nth_error h a = Some (LVar id c (KPose [vx p; vy p; vz p; vx r; vy r; vz r] C)).
Definition sees_landmark (h : @heap (lvar N)) (a : addr) (p : v3 N) : Prop :=
  exists id c, nth_error h a = Some (LVar id c (KLandmark [vx p; vy p; vz p])).
Definition sees_rot (h : @heap (lvar N)) (a : addr) (C : m3 N) : Prop :=
  exists id c r, nth_error h a = Some (LVar id c (KRot r C)).
Definition sees_inv (h : @heap (lvar N)) (a : addr) (o b : v3 N) (rho : N) : Prop :=
  exists id c lo hi, nth_error h a = Some (LVar id c (KInv o b lo hi [rho])).
Definition sees_plane (h : @heap (lvar N)) (a : addr) (n : v3 N) (e : N) : Prop :=
  exists id c, nth_error h a = Some (LVar id c (KPlane n e)).
Definition sees_pose2 (h : @heap (lvar N)) (a : addr) (x y t : N) : Prop :=
  exists id c, nth_error h a = Some (LVar id c (KPose2 [x; y; t])).
(** a GenericVariable or a LandmarkVariable with value [x] *)
Definition sees_vector (h : @heap (lvar N)) (a : addr) (x : list N) : Prop :=
  exists id c, nth_error h a = Some (LVar id c (KGeneric x)) \/ (length x = 3%nat /\ nth_error h a = Some (LVar id c (KLandmark x))).
Definition sees_generic (h : @heap (lvar N)) (a : addr) (x : list N) : Prop :=
  exists id c, nth_error h a = Some (LVar id c (KGeneric x)).
(** how many leading elements of value() an increment changes by adding to them: all of a plain vector's, the position of a pose,
    the position of a 2D pose, the inverse range *)
Definition additive_part (k : kind N) : nat :=
  match k with
  | KGeneric x => length x | KLandmark x => length x | KPose _ _ => 3 | KPose2 _ => 2 | KInv _ _ _ _ _ => 1 | KRot _ _ => 0 | KPlane _ _ => 0
  end.
(** the variable at [a] has the value [x], of the size it should have, and its first [m] elements (m > 0) are additive *)
Definition sees_additive (h : @heap (lvar N)) (a : addr) (m : nat) (x : list N) : Prop :=
  (0 < m)%nat /\ exists v, nth_error h a = Some v /\ kval (l_kind v) = x /\ length x = ksize (l_kind v) /\ (m <= additive_part (l_kind v))%nat.
End Sees.

(** ** Steps of apply_increment *)
(** the variable's state is in the interior of the region in which apply_increment moves it as documented: a pose whose rotation
    vector is longer than 1e-5 and shorter than 3.14, an inverse range strictly between its limits, a unit normal, a wrapped heading *)
Definition regular (k : kind RN) : Prop :=
  match k with
  | KGeneric _ | KRot _ _ => True
  | KLandmark x => length x = 3%nat
  | KPose x A => length x = 6%nat /\ exists w, rotation_by w A /\ / 100000 < len w < 314 / 100
  | KInv _ _ lo hi x => exists r : R, x = [r] /\ lo < r < hi
  | KPlane n _ => length2 n = 1
  | KPose2 x => exists a b t : R, x = [a; b; t] /\ - PI < t <= PI
  end.
(** [H s] is the memory after apply_increment(s * D a) on the variable at every address [a], constant ones excepted *)
Definition nudges (H : R -> @heap (lvar RN)) (h : @heap (lvar RN)) (D : addr -> list R) : Prop :=
  forall a v, nth_error h a = Some v -> forall s,
    if l_const v then nth_error (H s) a = Some v
    else exists v', vinc (lib RN) v (map (Rmult s) (D a)) = Ok v' /\ nth_error (H s) a = Some v'.
(** every variable of the factor that is not constant is regular, and its direction has the right length *)
Definition steps_regularly (h : @heap (lvar RN)) (D : addr -> list R) : Prop :=
  forall a v, nth_error h a = Some v -> l_const v = false -> regular (l_kind v) /\ length (D a) = ksize (l_kind v).
(** the same requirement as [exact_jacobian], along apply_increment's own curves *)
Definition exact_along_increments (f : factor (N:=RN) (V:=lvar RN)) (h : @heap (lvar RN)) (J : list (mat RN)) : Prop :=
  (forall J0, f_jac f h J0 = (J, Ok tt)) /\ shaped h (f_rsize f) (f_vars f) J /\
  forall H D, steps_regularly h D -> nudges H h D -> exists r : R -> list R,
    (forall s, f_res f (H s) = Ok (r s) /\ length (r s) = f_rsize f) /\
    forall i, (i < f_rsize f)%nat -> is_derive (fun s => nth i (r s) 0) 0 (response h D (f_vars f) J i).
(** a state that some sequence of correctly sized calls can produce *)
Definition well_formed (k : kind RN) : Prop :=
  match k with
  | KGeneric _ | KRot _ _ | KPlane _ _ => True
  | KLandmark x => length x = 3%nat
  | KPose x _ => length x = 6%nat
  | KInv _ _ _ _ x => length x = 1%nat
  | KPose2 x => length x = 3%nat
  end.

(** ** Plane geometry *)
(** from (x, y), heading t, the point (lx, ly) is seen in direction [a] relative to the heading *)
Definition points_at (x y t lx ly a : R) : Prop := exists r, 0 < r /\ lx - x = r * cos (t + a) /\ ly - y = r * sin (t + a).
(** angles that differ by an odd multiple of pi, and by a multiple of 2 pi *)
Definition opposite (a b : R) : Prop := exists k : Z, a - b = PI + 2 * IZR k * PI.
Definition congruent (a b : R) : Prop := exists k : Z, a - b = 2 * IZR k * PI.

(** ** Vanishing residuals *)
(** the residual at [h] is defined, has residual_size() elements, and all of them are zero exactly when [P] *)
Definition zero_when (f : factor (N:=RN) (V:=lvar RN)) (h : @heap (lvar RN)) (P : Prop) : Prop :=
  exists r : list R, f_res f h = Ok r /\ length r = f_rsize f /\ ((forall i, (i < f_rsize f)%nat -> nth i r 0 = 0) <-> P).
(** [C] maps [d] to a positive multiple of [o] *)
Definition seen_along (C : m3 RN) (d o : v3 RN) : Prop := exists r, 0 < r /\ image C d (V3 (N:=RN) (r * vx o) (r * vy o) (r * vz o)).
(** the variable at [a] has value() [x] *)
Definition has_value (h : @heap (lvar RN)) (a : addr) (x : list R) : Prop := exists v, nth_error h a = Some v /\ vval (lib RN) v = x.
(** [v] is [r] times [u] *)
Definition multiple (r : R) (u v : v3 RN) : Prop := vx v = r * vx u /\ vy v = r * vy u /\ vz v = r * vz u.
(** the point (px, py) has coordinates (qx, qy) in the frame at (x, y) with heading t *)
Definition in_frame (x y t px py qx qy : R) : Prop := px - x = cos t * qx - sin t * qy /\ py - y = sin t * qx + cos t * qy.
(** compute_jacobians throws, whatever the output vector held *)
Definition refuses (f : factor (N:=RN) (V:=lvar RN)) (h : @heap (lvar RN)) : Prop := forall J0, exists J, f_jac f h J0 = (J, Throw EDegenerate).
(** [x] lies at distance 1/rho from [o] along [b] *)
Definition inverse_range_point (o b : v3 RN) (rho : R) (x : v3 RN) : Prop :=
  rho * (vx x - vx o) = vx b /\ rho * (vy x - vy o) = vy b /\ rho * (vz x - vz o) = vz b.
