(** Correct use of the library's factor classes: the pointers handed to a constructor point to variables of the class, or at least of
    the size, that the constructor asks for (its parameter types and asserts). *)
From Coq Require Import List Arith ZArith.
From Verif Require Import Base Sparse Graph Geom Vars FactorLib.
Import ListNotations.

Section SpecShape.
Context {N : num}.
Notation heap := (@heap (lvar N)).
(** value() has size() elements *)
Definition in_shape (k : kind N) : Prop := length (kval k) = ksize k.
(** at [a] lives a variable, its value() of the right length, that satisfies [P] *)
Definition var_at (h : heap) (a : addr) (P : kind N -> Prop) : Prop := exists v, nth_error h a = Some v /\ in_shape (l_kind v) /\ P (l_kind v).
Definition is_generic (k : kind N) : Prop := match k with KGeneric _ => True | _ => False end.
Definition is_landmark (k : kind N) : Prop := match k with KLandmark _ => True | _ => False end.
Definition is_pose (k : kind N) : Prop := match k with KPose _ _ => True | _ => False end.
Definition is_rotation (k : kind N) : Prop := match k with KRot _ _ => True | _ => False end.
Definition is_inverse (k : kind N) : Prop := match k with KInv _ _ _ _ _ => True | _ => False end.
Definition is_plane (k : kind N) : Prop := match k with KPlane _ _ => True | _ => False end.
Definition is_pose2 (k : kind N) : Prop := match k with KPose2 _ => True | _ => False end.
Definition of_size (n : nat) (k : kind N) : Prop := ksize k = n.

Definition well_used (h : heap) (f : lib_factor N) : Prop :=
  match f with
  | LGenericPrior _ a prior _ => var_at h a (of_size (length prior))
  | LGenericBetween _ a b d n _ => var_at h a (of_size n) /\ var_at h b (of_size n) /\ var_at h d (of_size n)
  | LLinearVelocity _ a b c n _ _ i0 => var_at h a (fun k => i0 + n <= ksize k) /\ var_at h b (fun k => i0 + n <= ksize k) /\ var_at h c (of_size n)
  | LPositionPrior _ p _ _ | LOrientationPrior _ p _ _ => var_at h p is_pose
  | LRotationPrior _ p _ _ => var_at h p is_rotation
  | LPositionBetween _ a b m _ _ => var_at h a is_pose /\ var_at h b is_pose /\ var_at h m (of_size 3)
  | LOrientationBetween _ a b c _ => var_at h a is_pose /\ var_at h b is_pose /\ var_at h c is_rotation
  | LBearing _ p l _ _ | LProjection _ p l _ _ _ => var_at h p is_pose /\ var_at h l is_landmark
  | LInverseRange _ p l _ _ => var_at h p is_pose /\ var_at h l is_inverse
  | LBearing2 _ p l _ _ | LRangeBearing2 _ p l _ _ _ _ => var_at h p is_pose2 /\ var_at h l (of_size 2)
  | LPose2Prior _ p _ _ _ => var_at h p is_pose2
  | LPose2Between _ a b m _ _ _ => var_at h a is_pose2 /\ var_at h b is_pose2 /\ var_at h m (of_size 3)
  | LPlane _ q m _ _ => var_at h q (of_size 3) /\ var_at h m is_plane
  | LPlanePrior _ m _ _ _ _ => var_at h m is_plane
  | LTransform _ r o s la lb _ =>
    var_at h r is_rotation /\ (var_at h o (fun k => is_generic k /\ of_size 3 k)) /\ (var_at h s (fun k => is_generic k /\ of_size 1 k)) /\
    var_at h la is_landmark /\ var_at h lb is_landmark
  end.
(** the two ways in which the shape contract breaks *)
Definition constant_generic_prior (h : heap) (f : lib_factor N) : Prop :=
  match f with LGenericPrior _ a _ _ => exists v, nth_error h a = Some v /\ l_const v = true | _ => False end.
Definition odd_transform_buffer (f : lib_factor N) (J0 : list (mat N)) : Prop :=
  match f with LTransform _ _ _ _ _ _ _ => length J0 <> 0 /\ length J0 <> 5 | _ => False end.
(** classes whose Jacobian can be undefined; all others never throw *)
Definition may_refuse (f : lib_factor N) : Prop :=
  match f with
  | LOrientationPrior _ _ _ _ | LRotationPrior _ _ _ _ | LOrientationBetween _ _ _ _ _ | LBearing _ _ _ _ _ | LInverseRange _ _ _ _ _
  | LBearing2 _ _ _ _ _ | LRangeBearing2 _ _ _ _ _ _ _ => True
  | _ => False
  end.
(** same class and, for GenericVariable, the same number of elements *)
Definition same_class (k k' : kind N) : Prop :=
  match k, k' with
  | KGeneric x, KGeneric y => length x = length y
  | KLandmark _, KLandmark _ | KPose _ _, KPose _ _ | KRot _ _, KRot _ _ | KInv _ _ _ _ _, KInv _ _ _ _ _ | KPlane _ _, KPlane _ _
  | KPose2 _, KPose2 _ => True
  | _, _ => False
  end.
(** A program that uses library classes only and uses them correctly: objects are constructed in shape, factors get pointers to
    existing variables of the right classes and sizes, and set_value_from_vector gets vectors with size() elements.  Nothing is
    asked of apply_increment, of vectors passed to the graph, or of the order of calls. *)
Fixpoint careful (s : heap * graph (N:=N) (V:=lvar N)) (l : list (env (N:=N) (V:=lvar N) * op)) : Prop :=
  match l with
  | [] => True
  | (E, o) :: t =>
    match o with
    | ONew v => in_shape (l_kind v)
    | OAddFactor (Some f) => exists lf, f = build lf /\ well_used (fst s) lf
    | OSetVal a x => forall v, nth_error (fst s) a = Some v -> length x = ksize (l_kind v)
    | _ => True
    end /\ careful (fst (step (lib N) E s o)) t
  end.
End SpecShape.
