(** Specification: graphs with further variables and measurements, and covariances that are not larger. *)
From Coq Require Import List Arith ZArith Bool Reals Permutation.
From Verif Require Import Base Sparse Graph SpecGraph Real RSum SpecBlocks SpecMarginal SpecSolver.
Import ListNotations.
Local Open Scope nat_scope.

Section Grown.
Context {V : Type} (VC : vclass RN V).
Notation factor := (factor (N:=RN) (V:=V)).
(** the objects of [h] are also there in [h'], with the same ids, sizes and constant flags; values may differ, and there may be more objects *)
Definition still_there (h h' : @heap V) : Prop :=
  forall a v, nth_error h a = Some v -> exists v', nth_error h' a = Some v' /\ vid VC v' = vid VC v /\ vsize VC v' = vsize VC v /\ vconst VC v' = vconst VC v.
(** all variables and factors of the first graph are in the second *)
Definition grown (vs vs' : list addr) (fs fs' : list factor) : Prop := incl vs vs' /\ exists more, Permutation fs' (fs ++ more).
(** some motion in which a variable of the second graph takes part that is not in the first goes unnoticed *)
Definition newcomer_adrift (h' : @heap V) (vs vs' : list addr) (fs' : list factor) : Prop :=
  exists d a c, unnoticed VC h' vs' fs' d /\ In a vs' /\ ~ In a vs /\ c < width VC h' a /\ d a c <> 0%R.
End Grown.

(** if the first answer is a covariance, then so is the second, and it is no larger: no linear combination of the elements has a larger variance *)
Definition no_larger (x y : outcome (option (mat RN))) : Prop :=
  forall P, x = Ok (Some P) -> exists Q, y = Ok (Some Q) /\ mrows Q = mrows P /\ mcols Q = mcols P /\ forall z : list R, (quad_form Q z <= quad_form P z)%R.
