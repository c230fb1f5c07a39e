(** Specification: marginal covariances without coordinates.  Rows and columns are attached to variables and factors, so that neither the
    order of the variables and factors nor the place of a variable in the matrix occurs. *)
From Coq Require Import List Arith ZArith Bool Reals.
From Verif Require Import Base Sparse Graph SpecGraph Real RSum SpecBlocks.
Import ListNotations.
Local Open Scope nat_scope.

Section Marginal.
Context {V : Type} (VC : vclass RN V).
Notation factor := (factor (N:=RN) (V:=V)).
(** moving the variables by [d], which is not nothing, changes no residual to first order *)
Definition unnoticed (h : @heap V) (vs : list addr) (fs : list factor) (d : addr -> nat -> R) : Prop :=
  (exists a c, In a vs /\ c < width VC h a /\ d a c <> 0%R) /\ forall f i, In f fs -> i < f_rsize f -> first_order VC h vs d f i = 0%R.
(** J^T J [d] has entry 1 for element [e] of the variable at [b] and 0 elsewhere: [d] is a column of the joint covariance matrix *)
Definition covariance_column (h : @heap V) (vs : list addr) (fs : list factor) (b e : nat) (d : addr -> nat -> R) : Prop :=
  forall a c, In a vs -> c < width VC h a ->
    lsum fs (fun f => rsum (f_rsize f) (fun i => deriv h f a i c * first_order VC h vs d f i))%R = if (a =? b) && (c =? e) then 1%R else 0%R.
(** [P] is the covariance of the variable at [b] *)
Definition marginal (h : @heap V) (vs : list addr) (fs : list factor) (b : addr) (P : mat RN) : Prop :=
  mrows P = width VC h b /\ mcols P = width VC h b /\
  forall e, e < width VC h b -> (exists d, covariance_column h vs fs b e d) /\
    forall d, covariance_column h vs fs b e d -> forall i, i < width VC h b -> mat_at P i e = d b i.
(** [x] is the answer for a variable with [n] elements whose covariance is [P] *)
Definition answer (n : nat) (P : mat RN) (x : outcome (option (mat RN))) : Prop :=
  x = Ok (Some P) /\ (forall i, i < n -> (mat_at P i i <= 1000000000000)%R) \/ x = Ok None /\ exists i, i < n /\ (1000000000000 < mat_at P i i)%R.
(** [est a]: the answer of estimate_covariance() for the variable at [a] *)
Definition answers (h : @heap V) (vs : list addr) (fs : list factor) (est : addr -> outcome (option (mat RN))) : Prop :=
  (exists d, unnoticed h vs fs d) /\ (forall a, In a vs -> est a = Ok None) \/
  (forall d, ~ unnoticed h vs fs d) /\ forall b, In b vs -> 0 < width VC h b -> exists P, marginal h vs fs b P /\ answer (width VC h b) P (est b).
End Marginal.

(** the same covariance, or none in both cases *)
Definition same_answer (x y : outcome (option (mat RN))) : Prop :=
  x = Ok None /\ y = Ok None \/
  exists P Q, x = Ok (Some P) /\ y = Ok (Some Q) /\ mrows P = mrows Q /\ mcols P = mcols Q /\
    forall i j, i < mrows P -> j < mcols P -> mat_at P i j = mat_at Q i j.
