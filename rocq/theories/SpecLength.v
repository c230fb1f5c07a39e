(** Specification: the length of the increments and the iterations of the Levenberg-Marquardt method, in exact arithmetic. *)
From Coq Require Import List Arith ZArith Bool Reals.
From Verif Require Import Base Sparse Graph SpecGraph SpecOpt Real RSum SpecSolver SpecSteps.
Import ListNotations.
Local Open Scope nat_scope.

(** Euclidean length *)
Definition length_of (x : list R) : R := sqrt (rsum (length x) (fun i => nth i x 0 * nth i x 0)%R).
(** sum of squares *)
Definition cost_of (r : list R) : R := rsum (length r) (fun i => nth i r 0 * nth i r 0)%R.

Section Length.
Context {V : Type} (VC : vclass RN V) (vs : list addr) (fs : list (factor (N:=RN) (V:=V))).

(** every optimised variable moves by its part of an increment of length [n], which is [rate] times a solution of the normal equations
    with damping [l] at [h]; all other objects stay *)
Definition step_of_length (rate l n : R) (h h' : @heap V) : Prop :=
  exists r J x d, stacked h fs r /\ jacobian_at VC h vs fs J /\ damped_solution l J r x /\ d = map (fun y => y * rate)%R x /\
    updated VC h h' vs (fun k v => vinc VC v (slice (N:=RN) (col_start VC h vs k) (vsize VC v) d)) /\ n = length_of d.

(** the step from [h] with damping [l] does not make the cost smaller *)
Definition no_better (rate : R) (h : @heap V) (l : R) : Prop :=
  exists n h1 r r1, step_of_length rate l n h h1 /\ stacked h fs r /\ stacked h1 fs r1 /\ (cost_of r <= cost_of r1)%R.
(** an attempt at [h] with damping [l] after which another is made with a larger one: the system is ill-posed, or the cost does not
    become smaller and the damping stays below its limit *)
Inductive attempt (rate up top : R) (h : @heap V) : R -> R -> Prop :=
| at_unsolved l J : jacobian_at VC h vs fs J -> (l < 0)%R \/ ill_posed l J -> attempt rate up top h l (l * up)%R
| at_worse l : no_better rate h l -> (l * up < top)%R -> attempt rate up top h l (l * up)%R.

(** an iteration that moves the variables by an increment of length [n]: fewer than five attempts in vain, then one that is kept; or
    (length 0) five attempts in vain; or fewer, then one in vain by which the damping reaches its limit *)
Inductive iteration (rate up down top n : R) : @heap V * R -> @heap V * R -> Prop :=
| it_kept k h l l1 h' r r' : k < 5 -> moves (attempt rate up top h) k l l1 -> step_of_length rate l1 n h h' -> stacked h fs r -> stacked h' fs r' -> (cost_of r' < cost_of r)%R ->
    iteration rate up down top n (h, l) (h', Rmax (l1 * down) (1 / 1000000000000))
| it_none h l l1 : moves (attempt rate up top h) 5 l l1 -> n = 0%R -> iteration rate up down top n (h, l) (h, l1)
| it_stuck k h l l1 : k < 5 -> moves (attempt rate up top h) k l l1 -> no_better rate h l1 -> (top <= l1 * up)%R -> n = 0%R -> iteration rate up down top n (h, l) (h, top).
End Length.
