(** Specification: one problem written down in two places.  Every variable is displaced by an amount of its own, and the measurements that
    refer to absolute positions are displaced with it. *)
From Coq Require Import List Arith ZArith Bool Reals.
From Verif Require Import Base Sparse Graph Geom Vars Real FactorLib Optimizer SpecTwin.
Import ListNotations.
Local Open Scope R_scope.

(** [x'] is [x] with [t i] added to element [i] *)
Definition by_vec (t : nat -> R) (x x' : list R) : Prop :=
  length x' = length x /\ forall i, (i < length x)%nat -> nth i x' 0 = nth i x 0 + t i.
Definition by_v3 (t : nat -> R) (p p' : v3 RN) : Prop :=
  vx p' = vx p + t 0%nat /\ vy p' = vy p + t 1%nat /\ vz p' = vz p + t 2%nat.

Section Moved.
(** displacement of element [i] of value() of the variable at an address; displacement of the origin of an inverse range variable *)
Context (tr org : addr -> nat -> R).
(** the variable at [a] in the two sessions: same id and flag; positions and plain vectors are displaced; rotations, headings, planes and
    inverse ranges are the same.  An inverse range is at least 1e-9, as are its limits (the defaults are 1e-6 and 1000) *)
Definition moved_var (a : addr) (v v' : lvar RN) : Prop :=
  l_id v = l_id v' /\ l_const v = l_const v' /\
  match l_kind v, l_kind v' with
  | KGeneric x, KGeneric x' | KLandmark x, KLandmark x' => by_vec (tr a) x x'
  | KPose x A, KPose x' A' => A = A' /\ by_vec (tr a) x x' /\ forall i, (3 <= i)%nat -> tr a i = 0
  | KPose2 x, KPose2 x' => length x = 3%nat /\ by_vec (tr a) x x' /\ forall i, (2 <= i)%nat -> tr a i = 0
  | KRot x A, KRot x' A' => A = A' /\ x = x' /\ forall i, tr a i = 0
  | KPlane n d, KPlane n' d' => n = n' /\ d = d' /\ forall i, tr a i = 0
  | KInv o b lo hi x, KInv o' b' lo' hi' x' =>
    by_v3 (org a) o o' /\ b = b' /\ lo = lo' /\ hi = hi' /\ x = x' /\ (forall i, tr a i = 0) /\
    / 1000000000 <= lo /\ / 1000000000 <= hi /\ Forall (fun y => / 1000000000 <= y) (firstn 1 x)
  | _, _ => False
  end.
(** a measurement that the displacement leaves as it is *)
Definition unmoved (f : lib_factor RN) : Prop :=
  match f with
  | LGenericPrior _ a _ _ => forall i, tr a i = 0
  | LGenericBetween _ a b d _ _ => forall i, tr b i = tr a i + tr d i
  | LLinearVelocity _ a b c n dt _ i0 => forall i, tr b (i0 + i)%nat = tr a (i0 + i)%nat + dt * tr c i
  | LPositionPrior _ p _ _ => forall i, (i < 3)%nat -> tr p i = 0
  | LPose2Prior _ p _ _ _ => forall i, (i < 2)%nat -> tr p i = 0
  | LOrientationPrior _ _ _ _ | LRotationPrior _ _ _ _ | LOrientationBetween _ _ _ _ _ | LPlanePrior _ _ _ _ _ _ => True
  | LPositionBetween _ a b m _ loc =>
    (forall i, (i < 3)%nat -> tr b i = tr a i + tr m i) /\ (loc = true -> forall i, (i < 3)%nat -> tr m i = 0)
  | LPose2Between _ a b m _ _ loc =>
    (forall i, (i < 2)%nat -> tr b i = tr a i + tr m i) /\ tr m 2%nat = 0 /\ (loc = true -> forall i, (i < 2)%nat -> tr m i = 0)
  | LBearing _ p l _ _ | LProjection _ p l _ _ _ => forall i, (i < 3)%nat -> tr p i = tr l i
  | LInverseRange _ p l _ _ => forall i, (i < 3)%nat -> tr p i = org l i
  | LBearing2 _ p l _ _ | LRangeBearing2 _ p l _ _ _ _ => forall i, (i < 2)%nat -> tr p i = tr l i
  | LPlane _ q _ _ _ => forall i, (i < 3)%nat -> tr q i = 0
  | LTransform _ _ o s la lb _ => (forall i, (i < 3)%nat -> tr la i = - tr o i) /\ tr s 0%nat = 0 /\ forall i, (i < 3)%nat -> tr lb i = 0
  end.
(** priors on positions and plain vectors move with their variable; every other measurement is the same in both sessions *)
Definition moved_factor (f f' : lib_factor RN) : Prop :=
  match f, f' with
  | LGenericPrior i a x s, LGenericPrior i' a' x' s' => i = i' /\ a = a' /\ s = s' /\ by_vec (tr a) x x'
  | LPositionPrior i p x s, LPositionPrior i' p' x' s' => i = i' /\ p = p' /\ s = s' /\ by_v3 (tr p) x x'
  | LPose2Prior i p x s r, LPose2Prior i' p' x' s' r' =>
    i = i' /\ p = p' /\ s = s' /\ r = r' /\ vx x' = vx x + tr p 0%nat /\ vy x' = vy x + tr p 1%nat /\ vz x' = vz x
  | _, _ => f = f' /\ unmoved f
  end.
(** the calls of the two programs; [n] variable objects exist already *)
Definition moved_op (n : nat) (o o' : oop (N:=RN) (V:=lvar RN)) : Prop :=
  match o, o' with
  | OOp (ONew v), OOp (ONew v') => moved_var n v v'
  | OOp (OAddFactor (Some f)), OOp (OAddFactor (Some f')) => exists lf lf', f = build lf /\ f' = build lf' /\ moved_factor lf lf'
  | OOp (OSetVal a x), OOp (OSetVal a' x') => a = a' /\ by_vec (tr a) x x'
  | OOp (OSetVec _), _ | OOp (ONew _), _ | OOp (OAddFactor (Some _)), _ | OOp (OSetVal _ _), _ => False
  | _, _ => o = o'
  end.
Fixpoint moved_session (n : nat) (l l' : list (oop (N:=RN) (V:=lvar RN))) : Prop :=
  match l, l' with
  | [], [] => True
  | o :: t, o' :: t' => moved_op n o o' /\ moved_session (makes o + n) t t'
  | _, _ => False
  end.
Definition moved_heap (h h' : @heap (lvar RN)) : Prop :=
  length h' = length h /\ forall a v, nth_error h a = Some v -> exists v', nth_error h' a = Some v' /\ moved_var a v v'.
(** the two processes iterate over their hash maps in the same order *)
Definition moved_env (E E' : env (N:=RN) (V:=lvar RN)) : Prop := same_env moved_var E E'.
End Moved.
