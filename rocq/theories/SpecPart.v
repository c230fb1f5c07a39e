(** Specification: a part of a graph that no measurement connects to the rest. *)
From Coq Require Import List Arith ZArith Bool Reals Permutation.
From Verif Require Import Base Sparse Graph SpecGraph.
Import ListNotations.

Section Part.
Context {N : num} {V : Type} (VC : vclass N V).
Notation factor := (factor (N:=N) (V:=V)).
(** residual and Jacobian of [f] depend on the variables it lists and on nothing else *)
Definition reads_only (f : factor) : Prop :=
  forall h h', (forall a, In (Some a) (f_vars f) -> nth_error h a = nth_error h' a) ->
    f_res_ref f h = f_res_ref f h' /\ f_jac f h [] = f_jac f h' [].
(** the variables [vs'] and factors [fs'] belong to [vs] and [fs]; the other factors list none of [vs'] that is optimised *)
Definition part_of_graph (h : @heap V) (vs vs' : list addr) (fs fs' : list factor) : Prop :=
  incl vs' vs /\ exists rest, Permutation fs (fs' ++ rest) /\
    forall f a v, In f rest -> In (Some a) (f_vars f) -> In a vs' -> nth_error h a = Some v -> vconst VC v = true.
End Part.
