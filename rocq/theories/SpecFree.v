(** Specification: factor classes of the library whose Jacobians do not depend on the values of the variables. *)
From Verif Require Import Base Graph Geom Vars FactorLib Real.

Definition value_free (f : lib_factor RN) : Prop :=
  match f with
  | LGenericPrior _ _ _ _ | LGenericBetween _ _ _ _ _ _ | LLinearVelocity _ _ _ _ _ _ _ _ | LPositionPrior _ _ _ _ | LPose2Prior _ _ _ _ _
  | LPositionBetween _ _ _ _ _ false | LPose2Between _ _ _ _ _ _ false => True
  | _ => False
  end.
