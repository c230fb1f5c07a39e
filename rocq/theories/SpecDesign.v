(** Specification: the same measurements with other outcomes. *)
From Coq Require Import List ZArith Reals.
From Verif Require Import Base Graph Geom Vars FactorLib Real.
Import ListNotations.

(** two factors of the same class, one with Jacobians that do not depend on the values, of the same variables, with the same standard deviations and (where it is a parameter) time step; what was measured, and the ids of the factors, may differ.
    The outcome of a between factor is the value of a variable. *)
Definition same_design (f f' : lib_factor RN) : Prop :=
  match f, f' with
  | LGenericPrior _ a z s, LGenericPrior _ a' z' s' => (a', s') = (a, s) /\ length z' = length z
  | LGenericBetween _ a b d n s, LGenericBetween _ a' b' d' n' s' => (a', b', d', n', s') = (a, b, d, n, s)
  | LLinearVelocity _ a b c n dt s i0, LLinearVelocity _ a' b' c' n' dt' s' i0' => (a', b', c', n', dt', s', i0') = (a, b, c, n, dt, s, i0)
  | LPositionPrior _ p _ s, LPositionPrior _ p' _ s' => (p', s') = (p, s)
  | LPose2Prior _ p _ s t, LPose2Prior _ p' _ s' t' => (p', s', t') = (p, s, t)
  | LPositionBetween _ a b m s false, LPositionBetween _ a' b' m' s' false => (a', b', m', s') = (a, b, m, s)
  | LPose2Between _ a b m s t false, LPose2Between _ a' b' m' s' t' false => (a', b', m', s', t') = (a, b, m, s, t)
  | _, _ => False
  end.
