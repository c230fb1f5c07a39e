(** Specification: one problem written down in two systems of coordinates.  Increments of the variable at [a] are mapped by the matrix
    [T a]; the residual of every factor is mapped by a matrix of its own that multiplies all squared lengths by [mu]. *)
From Coq Require Import List Arith ZArith Bool Reals.
From Verif Require Import Base Sparse Graph SpecGraph Real RSum SpecBlocks.
Import ListNotations.
Local Open Scope nat_scope.

Section Change.
Context {V : Type} (VC : vclass RN V).
Notation factor := (factor (N:=RN) (V:=V)).
Context (T : addr -> nat -> nat -> R) (mu : R).
(** residual and derivative of [f'] at [h'], as far as both are defined, are those of [f] at [h] in the other coordinates *)
Definition changed (h h' : @heap V) (vs : list addr) (f f' : factor) : Prop :=
  f_rsize f' = f_rsize f /\ f_vars f' = f_vars f /\ exists U : nat -> nat -> R,
    (forall j k, j < f_rsize f -> k < f_rsize f -> rsum (f_rsize f) (fun i => U i j * U i k)%R = if j =? k then mu else 0%R) /\
    (forall x x' i, f_res_ref f h = Ok x -> f_res_ref f' h' = Ok x' -> i < f_rsize f ->
      nth i x' 0%R = rsum (f_rsize f) (fun j => U i j * nth j x 0)%R) /\
    (forall js js' a i c, f_jac f h [] = (js, Ok tt) -> f_jac f' h' [] = (js', Ok tt) -> In a vs -> i < f_rsize f -> c < width VC h a ->
      rsum (width VC h a) (fun c' => deriv h' f' a i c' * T a c' c)%R = rsum (f_rsize f) (fun j => U i j * deriv h f a j c)%R).
End Change.

Section Coordinates.
Context {V : Type} (VC : vclass RN V).
(** [RV a v v']: states of the object at [a] in the two systems.  Same size and flag; [T a] is invertible on the increments; an increment
    [x] in one system and its image in the other lead to related states *)
Record coordinates (RV : addr -> V -> V -> Prop) (T : addr -> nat -> nat -> R) : Prop := Coordinates {
  co_same : forall a v v', RV a v v' -> vsize VC v' = vsize VC v /\ vconst VC v' = vconst VC v;
  co_inverse : exists Ti : addr -> nat -> nat -> R, forall a v v' c c', RV a v v' -> c < vsize VC v -> c' < vsize VC v ->
    rsum (vsize VC v) (fun e => T a c e * Ti a e c')%R = if c =? c' then 1%R else 0%R;
  co_inc : forall a v v' x x' w w', RV a v v' -> length x = vsize VC v -> length x' = vsize VC v ->
    (forall c, c < vsize VC v -> nth c x' 0%R = rsum (vsize VC v) (fun e => T a c e * nth e x 0)%R) ->
    vinc VC v x = Ok w -> vinc VC v' x' = Ok w' -> RV a w w'
}.
End Coordinates.
