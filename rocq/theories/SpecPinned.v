(** Specification: the same graph with some variables held constant. *)
From Coq Require Import List Arith ZArith Bool Reals Permutation.
From Verif Require Import Base Sparse Graph SpecGraph Real.
Import ListNotations.

Section Pinned.
Context {V : Type} (VC : vclass RN V).
Notation factor := (factor (N:=RN) (V:=V)).
(** the objects of [h] are also there in [h'], with the same ids and sizes; those that are constant in [h] are constant in [h'], where others may be as well.  Values may differ. *)
Definition pinned (h h' : @heap V) : Prop :=
  forall a v, nth_error h a = Some v -> exists v', nth_error h' a = Some v' /\ vid VC v' = vid VC v /\ vsize VC v' = vsize VC v /\ (vconst VC v = true -> vconst VC v' = true).
(** the same variables and the same factors, in any order *)
Definition same_graph (vs vs' : list addr) (fs fs' : list factor) : Prop := (forall a, In a vs <-> In a vs') /\ Permutation fs' fs.
End Pinned.
