(** Specification: moving variables by similarities (turning, growing, translating), and which measurements do not notice. *)
From Coq Require Import List Arith ZArith Bool Reals.
From Verif Require Import Base Sparse Graph SpecGraph Geom Vars Real RSum FactorLib SpecGeom SpecShape SpecFactor.
Import ListNotations.
Local Open Scope R_scope.

(** velocity field x |-> turn x x + grow x + go, in space and in the plane *)
Record similarity := Similarity { turn : v3 RN; grow : R; go : v3 RN }.
Record planar := Planar { turn2 : R; grow2 : R; go_x : R; go_y : R }.
(** element [i] of the cross product, the velocity at [x] *)
Definition crossing (w x : v3 RN) (i : nat) : R := sum3 (fun k => crossm w i k * coord x k).
Definition swept (S : similarity) (x : v3 RN) (i : nat) : R := crossing (turn S) x i + grow S * coord x i + coord (go S) i.

(** A motion: to every address the rates of change of the elements of apply_increment.  Constant variables do not move. *)
Definition rate (h : @heap (lvar RN)) (u : addr -> nat -> R) (a : addr) (c : nat) : R :=
  match nth_error h a with Some v => if l_const v then 0 else u a c | None => 0 end.
Definition halts (h : @heap (lvar RN)) (u : addr -> nat -> R) (a : addr) : Prop := forall c, rate h u a c = 0.

Section Follows.
Variables (h : @heap (lvar RN)) (u : addr -> nat -> R).
(** a camera at [x] with world-to-camera rotation [C] is carried along: its axes turn with the world *)
Definition turns_along (w : v3 RN) (C : m3 RN) (p : addr) : Prop := forall i, (i < 3)%nat -> rate h u p (3 + i) = - sum3 (fun k => ent C i k * coord w k).
Definition pose_follows (S : similarity) (p : addr) : Prop :=
  exists x C, sees_pose h p x C /\ rotation C /\ (forall i, (i < 3)%nat -> rate h u p i = swept S x i) /\ turns_along (turn S) C p.
Definition point_follows (S : similarity) (l : addr) : Prop :=
  exists x, sees_vector h l [vx x; vy x; vz x] /\ forall i, (i < 3)%nat -> rate h u l i = swept S x i.
(** a point given by its inverse range: the origin of the ray and its direction stay *)
Definition ray_follows (S : similarity) (l : addr) : Prop :=
  exists o b rho, sees_inv h l o b rho /\ (forall i, (i < 3)%nat -> swept S o i = 0) /\ (forall i, (i < 3)%nat -> crossing (turn S) b i = 0) /\
    rate h u l 0 = - grow S * rho.
(** the plane n.x + e = 0 under a rigid motion *)
Definition plane_follows (S : similarity) (m : addr) : Prop :=
  exists n e, sees_plane h m n e /\ (forall i, (i < 3)%nat -> rate h u m i = crossing (turn S) n i) /\ rate h u m 3 = - sum3 (fun k => coord n k * coord (go S) k).
Definition pose2_follows (P : planar) (p : addr) : Prop :=
  exists x y t, sees_pose2 h p x y t /\ rate h u p 0 = - turn2 P * y + grow2 P * x + go_x P /\ rate h u p 1 = turn2 P * x + grow2 P * y + go_y P /\ rate h u p 2 = turn2 P.
Definition point2_follows (P : planar) (l : addr) : Prop :=
  exists x y, sees_vector h l [x; y] /\ rate h u l 0 = - turn2 P * y + grow2 P * x + go_x P /\ rate h u l 1 = turn2 P * x + grow2 P * y + go_y P.

(** to first order the measurement does not change when its variables move *)
Definition unseen (f : lib_factor RN) : Prop :=
  match f with
  | LGenericPrior _ a _ _ => halts h u a
  | LGenericBetween _ a b d n _ => forall i, (i < n)%nat -> rate h u b i - rate h u a i = rate h u d i
  | LLinearVelocity _ a b c n dt _ i0 => forall i, (i < n)%nat -> rate h u b (i0 + i) - rate h u a (i0 + i) = dt * rate h u c i
  | LPositionPrior _ p _ _ => forall i, (i < 3)%nat -> rate h u p i = 0
  | LOrientationPrior _ p _ _ => forall i, (i < 3)%nat -> rate h u p (3 + i) = 0
  | LRotationPrior _ p _ _ | LPose2Prior _ p _ _ _ | LPlanePrior _ p _ _ _ _ => halts h u p
  | LPositionBetween _ a b m _ true => exists S, grow S = 0 /\ pose_follows S a /\ pose_follows S b /\ halts h u m
  | LPositionBetween _ a b m _ false => forall i, (i < 3)%nat -> rate h u b i - rate h u a i = rate h u m i
  | LOrientationBetween _ a b c _ => exists w x C x' C', sees_pose h a x C /\ sees_pose h b x' C' /\ rotation C' /\ turns_along w C a /\ turns_along w C' b /\ halts h u c
  | LBearing _ p l _ _ | LProjection _ p l _ _ _ => exists S, pose_follows S p /\ point_follows S l
  | LInverseRange _ p l _ _ => exists S, pose_follows S p /\ ray_follows S l
  | LBearing2 _ p l _ _ => exists P, pose2_follows P p /\ point2_follows P l
  | LRangeBearing2 _ p l _ _ _ _ => exists P, grow2 P = 0 /\ pose2_follows P p /\ point2_follows P l
  | LPose2Between _ a b m _ _ loc => (forall i, (i < 3)%nat -> rate h u b i - rate h u a i = rate h u m i) /\ (loc = true -> halts h u m /\ rate h u a 2 = 0)
  | LPlane _ q m _ None => exists S, grow S = 0 /\ point_follows S q /\ plane_follows S m
  | LPlane _ q m _ (Some _) => halts h u q /\ halts h u m
  | LTransform _ r o s la lb _ =>
    exists S C k x, sees_rot h r C /\ rotation C /\ sees_generic h s [k] /\ sees_landmark h lb x /\
      (forall i, (i < 3)%nat -> rate h u lb i = swept S x i) /\ rate h u s 0 = - grow S * k /\
      (forall i, (i < 3)%nat -> rate h u r i = - sum3 (fun j => ent C i j * coord (turn S) j)) /\
      (forall i, (i < 3)%nat -> rate h u la i + rate h u o i = k * sum3 (fun j => ent C i j * coord (go S) j))
  end.
End Follows.
(** a factor of the library, correctly used, that does not notice the motion *)
Definition overlooked (h : @heap (lvar RN)) (u : addr -> nat -> R) (f : factor (N:=RN) (V:=lvar RN)) : Prop :=
  exists lf, f = build lf /\ well_used h lf /\ unseen h u lf.
(** some coordinate that is optimised moves *)
Definition in_motion (h : @heap (lvar RN)) (u : addr -> nat -> R) (vs : list addr) : Prop :=
  exists a c, In a vs /\ (c < width (lib RN) h a)%nat /\ rate h u a c <> 0.
