(** The logarithm on the unit sphere. *)
From Coq Require Import List ZArith QArith.
From Verif Require Import Base Geom.
Local Open Scope num_scope.

Section Sphere.
Context {N : num}.
Notation v3 := (v3 N).
(** random_utils.cpp:61-79 LogMapS2 (defined with external linkage, not declared in random_utils.hpp).  std::clamp(c, -1, 1) is -1 if
    c < -1, 1 if 1 < c and c otherwise. *)
Definition log_s2 (b u : v3) : v3 :=
  let c0 := v3dot b u in
  let c := if nltb c0 (nlit (-1)) then nlit (-1) else if nltb nunit c0 then nunit else c0 in
  let theta := nacos c in
  if nltb theta (nlit (1#10000000000)) then v3zero
  else
    let axis := v3cross b u in
    if nltb (v3norm axis) (nlit (1#10000000000)) then v3zero
    else v3scale theta (v3normalized axis).
End Sphere.
