(** Specification: one spatial problem written down in two frames.  The second frame is reached by turning by the matrix [Q] and then
    displacing by [t]. *)
From Coq Require Import List Arith ZArith Bool Reals.
From Verif Require Import Base Sparse Graph SpecGraph SpecOpt Geom Vars Real RSum FactorLib SpecSteps SpecGeom.
Import ListNotations.
Local Open Scope R_scope.
Set Bullet Behavior "Strict Subproofs".

Section Usual.
Context {V : Type} (VC : vclass RN V) (usual : V -> list R -> Prop).
(** the increments that solve the normal equations at [h] are usual *)
Definition usual_step (vs : list addr) (fs : list (factor (N:=RN) (V:=V))) (rate : R) (h : @heap V) : Prop :=
  forall r J x, stacked h fs r -> jacobian_at VC h vs fs J -> damped_solution 0 J r x ->
  forall k a v, nth_error vs k = Some a -> nth_error h a = Some v -> vconst VC v = false ->
    usual v (slice (N:=RN) (col_start VC h vs k) (vsize VC v) (map (fun y => y * rate) x)).
(** so are those of the first [n] steps from [h0] *)
Definition usual_steps (vs : list addr) (fs : list (factor (N:=RN) (V:=V))) (rate : R) (n : nat) (h0 : @heap V) : Prop :=
  forall j h, (j < n)%nat -> moves (newton_step VC vs fs rate 0) j h0 h -> usual_step vs fs rate h.
End Usual.

(** Increments for which PoseVariable is exact: the rotation is turned by nothing or by at least 1e-10, and the new rotation is the
    identity or at least 1e-5 away from it. *)
Definition exact_turn (v : lvar RN) (d : list R) : Prop :=
  match l_kind v with
  | KPose _ A => let w := V3 (N:=RN) (nth 3 d 0) (nth 4 d 0) (nth 5 d 0) in
    (w = V3 (N:=RN) 0 0 0 \/ / 10000000000 <= len w) /\ forall B, product (exp_so3 w) A B -> B = m3id \/ / 100000 <= acos ((ent B 0 0 + ent B 1 1 + ent B 2 2 - 1) / 2)
  | _ => True
  end.

(** what a variable stands for: a point (or a pose); a difference of points or a velocity; a point given by an inverse range; or something
    to which the frame does not matter *)
Inductive role3 : Type := Place | Difference | Sight | Still.

Section Space.
Context (Q : m3 RN) (t : v3 RN) (ro : addr -> role3).
(** a point and a direction in the other frame *)
Definition point_to (p p' : v3 RN) : Prop := forall i, (i < 3)%nat -> coord p' i = sum3 (fun k => ent Q i k * coord p k) + coord t i.
Definition direction_to (p p' : v3 RN) : Prop := image Q p p'.
(** the first three elements of a vector *)
Definition first3 (x : list R) : v3 RN := V3 (N:=RN) (nth 0 x 0) (nth 1 x 0) (nth 2 x 0).
(** a rotation from the world: [A] = [A'] Q *)
Definition attitude_to (A A' : m3 RN) : Prop := rotation A /\ rotation A' /\ product A' Q A.

(** the variable at [a] in the two frames *)
Definition reframed3_var (a : addr) (v v' : lvar RN) : Prop :=
  l_id v = l_id v' /\ l_const v = l_const v' /\
  match ro a with
  | Still => l_kind v = l_kind v'
  | Difference =>
    match l_kind v, l_kind v' with
    | KGeneric x, KGeneric x' | KLandmark x, KLandmark x' => length x = 3%nat /\ length x' = 3%nat /\ direction_to (first3 x) (first3 x')
    | _, _ => False
    end
  | Place =>
    match l_kind v, l_kind v' with
    | KGeneric x, KGeneric x' | KLandmark x, KLandmark x' => length x = 3%nat /\ length x' = 3%nat /\ point_to (first3 x) (first3 x')
    | KPose x A, KPose x' A' => length x = 6%nat /\ length x' = 6%nat /\ point_to (first3 x) (first3 x') /\ attitude_to A A'
    | _, _ => False
    end
  | Sight =>
    match l_kind v, l_kind v' with
    | KInv o b lo hi x, KInv o' b' lo' hi' x' => point_to o o' /\ direction_to b b' /\ (lo, hi, x) = (lo', hi', x') /\ length x = 1%nat /\ Forall (fun y => / 1000000000 <= y) (lo :: hi :: x)
    | _, _ => False
    end
  end.

(** the same measurement in the two frames *)
Definition reframed3_factor (f f' : lib_factor RN) : Prop :=
  f = f' /\ (forall a, In (Some a) (f_vars (build f)) -> ro a = Still) \/
  match f, f' with
  | LGenericPrior i a x s, LGenericPrior i' a' x' s' =>
    (i, a, s) = (i', a', s') /\ length x = 3%nat /\ length x' = 3%nat /\
    (ro a = Place /\ point_to (first3 x) (first3 x') \/ ro a = Difference /\ direction_to (first3 x) (first3 x'))
  | LGenericBetween i a b d n s, LGenericBetween _ _ _ _ _ _ =>
    f = f' /\ ro d = Difference /\ n = 3%nat /\ (ro a = Place /\ ro b = Place \/ ro a = Difference /\ ro b = Difference)
  | LLinearVelocity i a b c n dt s i0, LLinearVelocity _ _ _ _ _ _ _ _ =>
    f = f' /\ ro c = Difference /\ i0 = 0%nat /\ n = 3%nat /\ (ro a = Place /\ ro b = Place \/ ro a = Difference /\ ro b = Difference)
  | LPositionPrior i p x s, LPositionPrior i' p' x' s' => (i, p, s) = (i', p', s') /\ ro p = Place /\ point_to x x'
  | LOrientationPrior i p x s, LOrientationPrior i' p' x' s' =>
    (i, p, s) = (i', p', s') /\ ro p = Place /\ attitude_to x x' /\
    / 100000 <= acos ((ent x 0 0 + ent x 1 1 + ent x 2 2 - 1) / 2) /\ / 100000 <= acos ((ent x' 0 0 + ent x' 1 1 + ent x' 2 2 - 1) / 2)
  | LPositionBetween i a b m s loc, LPositionBetween _ _ _ _ _ _ =>
    f = f' /\ ro a = Place /\ ro b = Place /\ ro m = if loc then Still else Difference
  | LOrientationBetween i a b c s, LOrientationBetween _ _ _ _ _ => f = f' /\ ro a = Place /\ ro b = Place /\ ro c = Still
  | LBearing i p l _ s, LBearing _ _ _ _ _ | LProjection i p l _ s _, LProjection _ _ _ _ _ _ | LInverseRange i p l _ s, LInverseRange _ _ _ _ _ =>
    f = f' /\ ro p = Place /\ ro l = match f with LInverseRange _ _ _ _ _ => Sight | _ => Place end
  | _, _ => False
  end.
Definition same_in_space (f f' : factor (N:=RN) (V:=lvar RN)) : Prop := exists lf lf', f = build lf /\ f' = build lf' /\ reframed3_factor lf lf'.
(** matrix of the turn; elements from the fourth on (rotations, whose increments are in the frame of the camera) are not affected *)
Definition turning3 (i j : nat) : R := if ((i <? 3) && (j <? 3))%bool%nat then ent Q i j else if (i =? j)%nat then 1 else 0.
Definition turning3_of (a : addr) (i j : nat) : R := match ro a with Place | Difference => turning3 i j | _ => if (i =? j)%nat then 1 else 0 end.
End Space.
