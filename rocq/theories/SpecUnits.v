(** Specification: one problem written down in two systems of units, with standard deviations that differ by a common factor. *)
From Coq Require Import List Arith ZArith Bool Reals.
From Verif Require Import Base Sparse Graph SpecGraph Geom Vars Real FactorLib.
Import ListNotations.
Local Open Scope R_scope.

(** [x'] is [x] with element [i] multiplied by [t i] *)
Definition times_vec (t : nat -> R) (x x' : list R) : Prop :=
  length x' = length x /\ forall i, (i < length x)%nat -> nth i x' 0 = t i * nth i x 0.
Definition times_v3 (t : R) (p p' : v3 RN) : Prop := vx p' = t * vx p /\ vy p' = t * vy p /\ vz p' = t * vz p.

Section Units.
(** number of new units in one old unit, for element [i] of value() of the variable at an address; common factor of all standard
    deviations beyond the change of units *)
Context (u : addr -> nat -> R) (k : R).
Definition unit_is (a : addr) (n : nat) (e : R) : Prop := forall i, (i < n)%nat -> u a i = e.

(** the variable at [a] in the two systems: same id and flag.  Rotations, headings and normals have no unit.  The value of an inverse range
    variable is an inverse length; inverse ranges and their limits are at least 1e-9 in both systems. *)
Definition rescaled_var (a : addr) (v v' : lvar RN) : Prop :=
  l_id v = l_id v' /\ l_const v = l_const v' /\
  match l_kind v, l_kind v' with
  | KGeneric x, KGeneric x' | KLandmark x, KLandmark x' => times_vec (u a) x x'
  | KPose x A, KPose x' A' => A = A' /\ times_vec (u a) x x' /\ forall i, (3 <= i)%nat -> u a i = 1
  | KPose2 x, KPose2 x' => length x = 3%nat /\ times_vec (u a) x x' /\ u a 2%nat = 1
  | KRot x A, KRot x' A' => A = A' /\ x = x' /\ forall i, u a i = 1
  | KPlane n d, KPlane n' d' => n = n' /\ d' = u a 3%nat * d /\ unit_is a 3 1
  | KInv o b lo hi x, KInv o' b' lo' hi' x' =>
    times_v3 (/ u a 0%nat) o o' /\ b = b' /\ lo' = u a 0%nat * lo /\ hi' = u a 0%nat * hi /\ times_vec (u a) x x' /\
    Forall (fun y => / 1000000000 <= y) (lo :: hi :: firstn 1 x) /\ Forall (fun y => / 1000000000 <= y) (lo' :: hi' :: firstn 1 x')
  | _, _ => False
  end.

(** the same measurement in the two systems; [e] is the unit of the length (or generic quantity) that it measures *)
Definition rescaled_factor (f f' : lib_factor RN) : Prop :=
  match f, f' with
  | LGenericPrior i a x s, LGenericPrior i' a' x' s' =>
    exists e, i = i' /\ a = a' /\ unit_is a (length x) e /\ times_vec (fun _ => e) x x' /\ s' = k * e * s
  | LGenericBetween i a b d n s, LGenericBetween i' a' b' d' n' s' =>
    exists e, (i, a, b, d, n) = (i', a', b', d', n') /\ unit_is a n e /\ unit_is b n e /\ unit_is d n e /\ s' = k * e * s
  | LLinearVelocity i a b c n dt s i0, LLinearVelocity i' a' b' c' n' dt' s' i0' =>
    exists e, (i, a, b, c, n, i0) = (i', a', b', c', n', i0') /\ (forall j, (j < n)%nat -> u a (i0 + j) = e /\ u b (i0 + j) = e /\ u c j * dt' = e * dt) /\ s' = k * e * s
  | LPositionPrior i p x s, LPositionPrior i' p' x' s' =>
    exists e, (i, p) = (i', p') /\ unit_is p 3 e /\ times_v3 e x x' /\ s' = k * e * s
  | LOrientationPrior i p x s, LOrientationPrior i' p' x' s' | LRotationPrior i p x s, LRotationPrior i' p' x' s' => (i, p, x) = (i', p', x') /\ s' = k * s
  | LPositionBetween i a b m s loc, LPositionBetween i' a' b' m' s' loc' =>
    exists e, (i, a, b, m, loc) = (i', a', b', m', loc') /\ unit_is a 3 e /\ unit_is b 3 e /\ unit_is m 3 e /\ s' = k * e * s
  | LOrientationBetween i a b c s, LOrientationBetween i' a' b' c' s' => (i, a, b, c) = (i', a', b', c') /\ s' = k * s
  | LBearing i p l obs s, LBearing i' p' l' obs' s' =>
    exists e, (i, p, l, obs) = (i', p', l', obs') /\ unit_is p 3 e /\ unit_is l 3 e /\ s' = k * s
  | LProjection i p l obs s tol, LProjection i' p' l' obs' s' tol' =>
    exists e, (i, p, l, obs, tol) = (i', p', l', obs', tol') /\ unit_is p 3 e /\ unit_is l 3 e /\ s' = k * s
  | LInverseRange i p l obs s, LInverseRange i' p' l' obs' s' =>
    exists e, (i, p, l, obs) = (i', p', l', obs') /\ unit_is p 3 e /\ u l 0%nat = / e /\ s' = k * s
  | LBearing2 i p l obs s, LBearing2 i' p' l' obs' s' =>
    exists e, (i, p, l, obs) = (i', p', l', obs') /\ unit_is p 2 e /\ unit_is l 2 e /\ s' = k * s
  | LRangeBearing2 i p l r obs rs bs, LRangeBearing2 i' p' l' r' obs' rs' bs' =>
    exists e, (i, p, l, obs) = (i', p', l', obs') /\ unit_is p 2 e /\ unit_is l 2 e /\ r' = e * r /\ rs' = k * e * rs /\ bs' = k * bs
  | LPose2Prior i p x s r, LPose2Prior i' p' x' s' r' =>
    exists e, (i, p) = (i', p') /\ unit_is p 2 e /\ u p 2%nat = 1 /\ vx x' = e * vx x /\ vy x' = e * vy x /\ vz x' = vz x /\ s' = k * e * s /\ r' = k * r
  | LPose2Between i a b m s r loc, LPose2Between i' a' b' m' s' r' loc' =>
    exists e, (i, a, b, m, loc) = (i', a', b', m', loc') /\ unit_is a 2 e /\ unit_is b 2 e /\ unit_is m 2 e /\ u a 2%nat = 1 /\ u b 2%nat = 1 /\ u m 2%nat = 1 /\
              s' = k * e * s /\ r' = k * r
  | LPlane i q m s sc, LPlane i' q' m' s' sc' =>
    exists e, (i, q, m, sc) = (i', q', m', sc') /\ unit_is q 3 e /\ u m 3%nat = e /\ s' = k * e * s /\ (sc <> None -> e = 1)
  | LPlanePrior i m np dp ns ds, LPlanePrior i' m' np' dp' ns' ds' =>
    (i, m, np) = (i', m', np') /\ dp' = u m 3%nat * dp /\ ns' = k * ns /\ ds' = k * u m 3%nat * ds
  | LTransform i r o s la lb sg, LTransform i' r' o' s' la' lb' sg' =>
    exists e f, (i, r, o, s, la, lb) = (i', r', o', s', la', lb') /\ unit_is la 3 e /\ unit_is o 3 e /\ unit_is lb 3 f /\ u s 0%nat * f = e /\ sg' = k * e * sg
  | _, _ => False
  end.
(** two factor objects of the library that state the same measurement *)
Definition same_measurement (f f' : factor (N:=RN) (V:=lvar RN)) : Prop :=
  exists lf lf', f = build lf /\ f' = build lf' /\ rescaled_factor lf lf'.
End Units.
