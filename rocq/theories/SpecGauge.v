(** Specification: moving variables by translations, and which measurements do not notice. *)
From Coq Require Import List Arith ZArith Bool Reals.
From Verif Require Import Base Sparse Graph SpecGraph Geom Vars Real RSum FactorLib SpecShape SpecBlocks.
Import ListNotations.
Local Open Scope R_scope.

(** A translation: to every address a velocity, given by its coordinates.  Constant variables do not move. *)
Definition speed (h : @heap (lvar RN)) (tr : addr -> nat -> R) (a : addr) (c : nat) : R :=
  match nth_error h a with Some v => if l_const v then 0 else tr a c | None => 0 end.
(** rate of change of element [c] of the variable at [a], in the coordinates of apply_increment: positions and plain vectors move with
    the translation, rotations and headings stay, a plane n.x + e = 0 keeps its normal while e changes by -n.t, inverse ranges stay *)
Definition shift (h : @heap (lvar RN)) (tr : addr -> nat -> R) (a : addr) (c : nat) : R :=
  match nth_error h a with
  | Some v =>
    match l_kind v with
    | KGeneric _ | KLandmark _ => speed h tr a c
    | KPose _ _ => if (c <? 3)%nat then speed h tr a c else 0
    | KPose2 _ => if (c <? 2)%nat then speed h tr a c else 0
    | KPlane n _ => if (c =? 3)%nat then - (vx n * speed h tr a 0%nat + vy n * speed h tr a 1%nat + vz n * speed h tr a 2%nat) else 0
    | KRot _ _ | KInv _ _ _ _ _ => 0
    end
  | None => 0
  end.
(** the variable at [a] does not move; the first [n] elements of two variables move alike *)
Definition still (h : @heap (lvar RN)) (tr : addr -> nat -> R) (a : addr) : Prop := forall c, shift h tr a c = 0.
Definition together (h : @heap (lvar RN)) (tr : addr -> nat -> R) (n : nat) (a b : addr) : Prop :=
  forall c, (c < n)%nat -> shift h tr a c = shift h tr b c.
(** the measurement does not change when its variables are translated *)
Definition indifferent (h : @heap (lvar RN)) (tr : addr -> nat -> R) (f : lib_factor RN) : Prop :=
  match f with
  | LGenericPrior _ a _ _ => still h tr a
  | LGenericBetween _ a b d n _ => together h tr n a b /\ still h tr d
  | LLinearVelocity _ a b c n _ _ i0 => (forall i, (i < n)%nat -> shift h tr a (i0 + i) = shift h tr b (i0 + i)) /\ still h tr c
  | LPositionPrior _ p _ _ | LPose2Prior _ p _ _ _ | LPlanePrior _ p _ _ _ _ => still h tr p
  | LOrientationPrior _ _ _ _ | LRotationPrior _ _ _ _ | LOrientationBetween _ _ _ _ _ => True
  | LPositionBetween _ a b m _ _ => together h tr 3 a b /\ still h tr m
  | LBearing _ p l _ _ | LProjection _ p l _ _ _ => together h tr 3 p l
  | LInverseRange _ p _ _ _ => still h tr p
  | LBearing2 _ p l _ _ | LRangeBearing2 _ p l _ _ _ _ => together h tr 2 p l
  | LPose2Between _ a b m _ _ _ => together h tr 2 a b /\ still h tr m
  | LPlane _ q m _ None => forall c, (c < 3)%nat -> shift h tr q c = speed h tr m c
  | LPlane _ q m _ (Some _) => still h tr q /\ still h tr m
  | LTransform _ _ o s la lb _ => (forall c, (c < 3)%nat -> shift h tr la c = - shift h tr o c) /\ still h tr s /\ still h tr lb
  end.
(** a factor of the library, correctly used, that does not notice the translation *)
Definition untouched (h : @heap (lvar RN)) (tr : addr -> nat -> R) (f : factor (N:=RN) (V:=lvar RN)) : Prop :=
  exists lf, f = build lf /\ well_used h lf /\ indifferent h tr lf.
(** some coordinate that is optimised moves *)
Definition something_moves (h : @heap (lvar RN)) (tr : addr -> nat -> R) (vs : list addr) : Prop :=
  exists a c, In a vs /\ (c < width (lib RN) h a)%nat /\ shift h tr a c <> 0.
(** the coordinates of the variables at [vs] in [h'], summed with the velocities in [h] as weights; with velocity 1 along one axis for every
    position it is their number times that coordinate of their mean *)
Definition element (h : @heap (lvar RN)) (a : addr) (c : nat) : R := match nth_error h a with Some v => nth c (kval (l_kind v)) 0 | None => 0 end.
Definition centre (h : @heap (lvar RN)) (tr : addr -> nat -> R) (vs : list addr) (h' : @heap (lvar RN)) : R :=
  lsum vs (fun a => rsum (width (lib RN) h a) (fun c => shift h tr a c * element h' a c)).
(** planes do not move *)
Definition planes_stay (h : @heap (lvar RN)) (tr : addr -> nat -> R) : Prop :=
  forall a v n e, nth_error h a = Some v -> l_kind v = KPlane n e -> forall c, tr a c = 0.
