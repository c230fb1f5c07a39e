(** Specification: the distance between two assignments. *)
From Coq Require Import List Arith ZArith Bool Reals.
From Verif Require Import Base Sparse Graph SpecGraph Real.
Import ListNotations.
Local Open Scope nat_scope.

Section Nearer.
Context {V : Type} (VC : vclass RN V).
(** the differences between the values of the non-constant variables, one after the other *)
Definition differences (h h' : @heap V) (vs : list addr) : list R :=
  flat_map (fun a => match nth_error h a, nth_error h' a with
    | Some v, Some v' => if vconst VC v then [] else map (fun c => nth c (vval VC v') 0 - nth c (vval VC v) 0)%R (seq 0 (vsize VC v))
    | _, _ => [] end) vs.
(** the square of the Euclidean distance *)
Definition distance_sq (h h' : @heap V) (vs : list addr) : R := fold_right (fun x s => x * x + s)%R 0%R (differences h h' vs).
End Nearer.
