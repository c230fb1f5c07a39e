(** Specification: the same measurements made with better instruments. *)
From Coq Require Import List ZArith Reals.
From Verif Require Import Base Graph Geom Vars FactorLib Real.
Import ListNotations.

(** a standard deviation and one that is not larger *)
Definition no_worse (s s' : R) : Prop := (0 < s' <= s)%R.
(** a standard deviation and one that is at most m times as large *)
Definition at_most (m s s' : R) : Prop := (0 < s' <= m * s)%R.
(** two factors of the same class, one with Jacobians that do not depend on the values, of the same variables and (where it is a parameter) time step; the standard deviations are related as [rel] says.
    What was measured, and the ids of the factors, may differ. *)
Definition better_design (rel : R -> R -> Prop) (f f' : lib_factor RN) : Prop :=
  match f, f' with
  | LGenericPrior _ a z s, LGenericPrior _ a' z' s' => a' = a /\ length z' = length z /\ rel s s'
  | LGenericBetween _ a b d n s, LGenericBetween _ a' b' d' n' s' => (a', b', d', n') = (a, b, d, n) /\ rel s s'
  | LLinearVelocity _ a b c n dt s i0, LLinearVelocity _ a' b' c' n' dt' s' i0' => (a', b', c', n', dt', i0') = (a, b, c, n, dt, i0) /\ rel s s'
  | LPositionPrior _ p _ s, LPositionPrior _ p' _ s' => p' = p /\ rel s s'
  | LPose2Prior _ p _ s t, LPose2Prior _ p' _ s' t' => p' = p /\ rel s s' /\ rel t t'
  | LPositionBetween _ a b m s false, LPositionBetween _ a' b' m' s' false => (a', b', m') = (a, b, m) /\ rel s s'
  | LPose2Between _ a b m s t false, LPose2Between _ a' b' m' s' t' false => (a', b', m') = (a, b, m) /\ rel s s' /\ rel t t'
  | _, _ => False
  end.
