(** Rotations, stated without the library's formulas. *)
From Coq Require Import Reals Arith.
From Coquelicot Require Import Coquelicot.
From Verif Require Import Base Real Geom.
Local Open Scope R_scope.

(** entry (i,j) of a 3x3 matrix *)
Definition ent (a : m3 RN) (i j : nat) : R :=
  match i, j with
  | 0, 0 => m00 a | 0, 1 => m01 a | 0, _ => m02 a
  | 1, 0 => m10 a | 1, 1 => m11 a | 1, _ => m12 a
  | _, 0 => m20 a | _, 1 => m21 a | _, _ => m22 a
  end%nat.
Definition coord (v : v3 RN) (i : nat) : R := match i with 0 => vx v | 1 => vy v | _ => vz v end%nat.
Definition sum3 (f : nat -> R) : R := f 0%nat + f 1%nat + f 2%nat.
Definition delta (i j : nat) : R := if (i =? j)%nat then 1 else 0.

(** determinant, by the rule of Sarrus *)
Definition det (a : nat -> nat -> R) : R :=
  a 0%nat 0%nat * a 1%nat 1%nat * a 2%nat 2%nat + a 0%nat 1%nat * a 1%nat 2%nat * a 2%nat 0%nat + a 0%nat 2%nat * a 1%nat 0%nat * a 2%nat 1%nat
  - a 0%nat 2%nat * a 1%nat 1%nat * a 2%nat 0%nat - a 0%nat 0%nat * a 1%nat 2%nat * a 2%nat 1%nat - a 0%nat 1%nat * a 1%nat 0%nat * a 2%nat 2%nat.
(** proper orthogonal: the columns are orthonormal and the determinant is +1 *)
Definition rotation (a : m3 RN) : Prop :=
  (forall i j, (i < 3)%nat -> (j < 3)%nat -> sum3 (fun k => ent a k i * ent a k j) = delta i j) /\ det (ent a) = 1.
(** [c] is the product of [a] and [b]; [y] is the image of [x] *)
Definition product (a b c : m3 RN) : Prop :=
  forall i j, (i < 3)%nat -> (j < 3)%nat -> ent c i j = sum3 (fun k => ent a i k * ent b k j).
Definition image (a : m3 RN) (x y : v3 RN) : Prop :=
  forall i, (i < 3)%nat -> coord y i = sum3 (fun k => ent a i k * coord x k).
Definition length2 (v : v3 RN) : R := vx v * vx v + vy v * vy v + vz v * vz v.
Definition len (v : v3 RN) : R := sqrt (length2 v).

(** the matrix of x |-> w x x *)
Definition crossm (w : v3 RN) (i j : nat) : R :=
  match i, j with
  | 0, 1 => (- vz w)%R | 0, 2 => vy w | 1, 0 => vz w | 1, 2 => (- vx w)%R | 2, 0 => (- vy w)%R | 2, 1 => vx w
  | _, _ => 0%R
  end%nat.
(** [a] is the end point of the motion that starts at the identity and turns with constant angular velocity [w] for one
    unit of time: the solution of X' = [w]x X, X(0) = I at time 1.  [GeomExp.rotation_by_unique] shows that there is
    only one. *)
Definition motion (w : v3 RN) (X : R -> nat -> nat -> R) : Prop :=
  (forall i j, (i < 3)%nat -> (j < 3)%nat -> X 0 i j = delta i j) /\
  (forall t i j, (i < 3)%nat -> (j < 3)%nat ->
     is_derive (fun s => X s i j) t (sum3 (fun k => crossm w i k * X t k j))).
Definition rotation_by (w : v3 RN) (a : m3 RN) : Prop :=
  exists X, motion w X /\ forall i j, (i < 3)%nat -> (j < 3)%nat -> ent a i j = X 1 i j.

(** [C] is a curve of matrices through [a] that turns, at time 0, with angular velocity [d] (in the frame the matrix maps
    into): C(0) = a, C'(0) = [d]x a *)
Definition turning (C : R -> m3 RN) (a : m3 RN) (d : v3 RN) : Prop :=
  C 0 = a /\
  forall i j, (i < 3)%nat -> (j < 3)%nat -> is_derive (fun t => ent (C t) i j) 0 (sum3 (fun k => crossm d i k * ent a k j)).
(** a curve of vectors through [p] with velocity [d] at time 0 *)
Definition moving (P : R -> v3 RN) (p d : v3 RN) : Prop :=
  P 0 = p /\ forall i, (i < 3)%nat -> is_derive (fun t => coord (P t) i) 0 (coord d i).
(** [c] is, entry by entry, within [e] of [a] *)
Definition within (e : R) (a c : m3 RN) : Prop := forall i j, (i < 3)%nat -> (j < 3)%nat -> Rabs (ent c i j - ent a i j) <= e.
