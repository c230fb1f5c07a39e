(** Specification: one planar problem written down in two frames.  The second frame is reached by turning by [phi] and then displacing by
    ([tx], [ty]). *)
From Coq Require Import List Arith ZArith Bool Reals.
From Verif Require Import Base Sparse Graph SpecGraph Geom Vars Real FactorLib.
Import ListNotations.
Local Open Scope R_scope.

(** what a variable stands for: a place in the plane (with a heading if it is a Pose2DVariable); a difference of places or a velocity
    (further elements keep their value); or something to which the frame does not matter *)
Inductive role : Type := Place | Difference | Still.
(** two angles that are the same up to full turns *)
Definition same_heading (a b : R) : Prop := cos a = cos b /\ sin a = sin b.

Section Frame.
Context (phi tx ty : R) (ro : addr -> role).
(** the first two elements of a vector in the other frame *)
Definition turned_to (dx dy : R) (x x' : list R) : Prop :=
  exists p q z, x = p :: q :: z /\ x' = (cos phi * p - sin phi * q + dx) :: (sin phi * p + cos phi * q + dy) :: z.
Definition displaced_to : list R -> list R -> Prop := turned_to tx ty.
Definition rotated_to : list R -> list R -> Prop := turned_to 0 0.

(** the variable at [a] in the two frames *)
Definition reframed_var (a : addr) (v v' : lvar RN) : Prop :=
  l_id v = l_id v' /\ l_const v = l_const v' /\
  match ro a with
  | Still => l_kind v = l_kind v'
  | Difference =>
    match l_kind v, l_kind v' with
    | KGeneric x, KGeneric x' | KLandmark x, KLandmark x' | KPose2 x, KPose2 x' => rotated_to x x'
    | _, _ => False
    end
  | Place =>
    match l_kind v, l_kind v' with
    | KGeneric x, KGeneric x' | KLandmark x, KLandmark x' => displaced_to x x'
    | KPose2 x, KPose2 x' => exists p q t p' q' t', x = [p; q; t] /\ x' = [p'; q'; t'] /\ displaced_to [p; q] [p'; q'] /\ same_heading t' (t + phi)
    | _, _ => False
    end
  end.

(** the same measurement in the two frames *)
Definition reframed_factor (f f' : lib_factor RN) : Prop :=
  f = f' /\ (forall a, In (Some a) (f_vars (build f)) -> ro a = Still) \/
  match f, f' with
  | LGenericPrior i a x s, LGenericPrior i' a' x' s' =>
    (i, a, s) = (i', a', s') /\ (ro a = Place /\ length x = 2%nat /\ displaced_to x x' \/ ro a = Difference /\ rotated_to x x')
  | LGenericBetween i a b d n s, LGenericBetween _ _ _ _ _ _ =>
    f = f' /\ ro d = Difference /\ (ro a = Place /\ ro b = Place /\ n = 2%nat \/ ro a = Difference /\ ro b = Difference /\ (2 <= n)%nat)
  | LLinearVelocity i a b c n dt s i0, LLinearVelocity _ _ _ _ _ _ _ _ =>
    f = f' /\ ro c = Difference /\ i0 = 0%nat /\ n = 2%nat /\ (ro a = Place /\ ro b = Place \/ ro a = Difference /\ ro b = Difference)
  | LBearing2 i p l o s, LBearing2 _ _ _ _ _ | LRangeBearing2 i p l _ o s _, LRangeBearing2 _ _ _ _ _ _ _ => f = f' /\ ro p = Place /\ ro l = Place
  | LPose2Prior i p x s r, LPose2Prior i' p' x' s' r' =>
    (i, p, s, r) = (i', p', s', r') /\ ro p = Place /\ displaced_to [vx x; vy x] [vx x'; vy x'] /\ same_heading (vz x') (vz x + phi)
  | LPose2Between i a b m s r loc, LPose2Between _ _ _ _ _ _ _ => f = f' /\ ro a = Place /\ ro b = Place /\ ro m = Difference /\ loc = false
  | _, _ => False
  end.
Definition same_in_frame (f f' : factor (N:=RN) (V:=lvar RN)) : Prop := exists lf lf', f = build lf /\ f' = build lf' /\ reframed_factor lf lf'.
(** matrix of the turn; elements from the third on are not affected *)
Definition turning (i j : nat) : R :=
  match i, j with
  | O, O | S O, S O => cos phi
  | O, S O => - sin phi
  | S O, O => sin phi
  | _, _ => if (i =? j)%nat then 1 else 0
  end.
Definition turning_of (a : addr) (i j : nat) : R := match ro a with Still => if (i =? j)%nat then 1 else 0 | _ => turning i j end.
End Frame.
