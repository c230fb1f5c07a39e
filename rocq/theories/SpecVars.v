(** What a caller asks of one variable object, without the library's formulas. *)
From Coq Require Import List Reals.
From Verif Require Import Base Real Geom Vars VarOps.
Import ListNotations.
Local Open Scope R_scope.

(** the position and the (unwrapped) heading a caller has asked a 2D pose to have *)
Definition asked2 (s : R * R * R) (o : vop RN) : R * R * R :=
  let '(x, y, t) := s in
  match o with
  | OSet [x'; y'; t'] => (x', y', t')
  | OInc [dx; dy; dt] => (x + dx, y + dy, t + dt)
  | OPos2 p => (v2x p, v2y p, t)
  | OTheta t' => (x, y, t')
  | _ => s
  end.
(** [r] is the point of [lo, hi] nearest to [q] *)
Definition nearest (lo hi q r : R) : Prop := lo <= r <= hi /\ forall s, lo <= s <= hi -> Rabs (r - q) <= Rabs (s - q).
(** the normal a call asks a plane to point along, given the present one; [None] if the call does not concern it *)
Definition asked_normal (n : v3 RN) (o : vop RN) : option (R * R * R) :=
  match o with
  | OSet [x; y; z; _] => Some (x, y, z)
  | OInc [dx; dy; dz; _] => Some (vx n + dx, vy n + dy, vz n + dz)
  | _ => None
  end.
(** [n] is the unit vector in the direction (x, y, z) *)
Definition direction (x y z : R) (n : v3 RN) : Prop :=
  vx n * vx n + vy n * vy n + vz n * vz n = 1 /\ exists k, 0 < k /\ x = k * vx n /\ y = k * vy n /\ z = k * vz n.
(** the distance a caller has asked a plane to have *)
Definition asked_distance (d : R) (o : vop RN) : R :=
  match o with OSet [_; _; _; d'] => d' | OInc [_; _; _; dd] => d + dd | _ => d end.
(** the calls never ask for the zero vector as normal *)
Fixpoint never_zero (n : v3 RN) (l : list (vop RN)) : Prop :=
  match l with
  | [] => True
  | o :: t => match asked_normal n o with
              | None => never_zero n t
              | Some (x, y, z) => x * x + y * y + z * z <> 0 /\ forall n', direction x y z n' -> never_zero n' t
              end
  end.
