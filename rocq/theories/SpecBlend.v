(** Specification: one linear problem as a weighted mean of two others. *)
From Coq Require Import List Arith ZArith Bool Reals.
From Verif Require Import Base Graph Geom Vars FactorLib SpecShape Real.
Import ListNotations.
Local Open Scope nat_scope.

(** [z] is (1 - t) x + t y *)
Definition mixed (t : R) (x y z : list R) : Prop :=
  length y = length x /\ length z = length x /\ forall c, c < length x -> (nth c z 0 = (1 - t) * nth c x 0 + t * nth c y 0)%R.
(** the same objects in three versions; the values of the third are the mean of those of the first two *)
Definition mixed_heaps (t : R) (h1 h2 h3 : @heap (lvar RN)) : Prop :=
  length h2 = length h1 /\ length h3 = length h1 /\
  forall a u v w, nth_error h1 a = Some u -> nth_error h2 a = Some v -> nth_error h3 a = Some w ->
    (l_const v = l_const u /\ l_const w = l_const u) /\ (ksize (l_kind v) = ksize (l_kind u) /\ ksize (l_kind w) = ksize (l_kind u)) /\
    mixed t (kval (l_kind u)) (kval (l_kind v)) (kval (l_kind w)).
(** three factors of the same linear class, of the same variables and with the same standard deviation; the measurement of the third is the mean of those of the first two.
    The measurement of a between factor is a variable, that of a velocity factor is zero. *)
Definition mixed_factors (t : R) (f1 f2 f3 : lib_factor RN) : Prop :=
  match f1, f2, f3 with
  | LGenericPrior _ a1 z1 s1, LGenericPrior _ a2 z2 s2, LGenericPrior _ a3 z3 s3 => (a2, s2) = (a1, s1) /\ (a3, s3) = (a1, s1) /\ mixed t z1 z2 z3
  | LGenericBetween _ a1 b1 d1 n1 s1, LGenericBetween _ a2 b2 d2 n2 s2, LGenericBetween _ a3 b3 d3 n3 s3 =>
    (a2, b2, d2, n2, s2) = (a1, b1, d1, n1, s1) /\ (a3, b3, d3, n3, s3) = (a1, b1, d1, n1, s1)
  | LLinearVelocity _ a1 b1 c1 n1 dt1 s1 i1, LLinearVelocity _ a2 b2 c2 n2 dt2 s2 i2, LLinearVelocity _ a3 b3 c3 n3 dt3 s3 i3 =>
    (a2, b2, c2, n2, dt2, s2, i2) = (a1, b1, c1, n1, dt1, s1, i1) /\ (a3, b3, c3, n3, dt3, s3, i3) = (a1, b1, c1, n1, dt1, s1, i1)
  | _, _, _ => False
  end.
Inductive all3 {A : Type} (P : A -> A -> A -> Prop) : list A -> list A -> list A -> Prop :=
| all3_nil : all3 P [] [] []
| all3_cons x y z l m n : P x y z -> all3 P l m n -> all3 P (x :: l) (y :: m) (z :: n).
(** what is optimised are vectors and points *)
Definition plain (h : @heap (lvar RN)) (vs : list addr) : Prop :=
  forall a v, In a vs -> nth_error h a = Some v -> l_const v = false -> is_generic (l_kind v) \/ is_landmark (l_kind v).
