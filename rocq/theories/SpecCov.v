(** Specification: what covariances a Jacobian stands for. *)
From Coq Require Import List Arith ZArith Bool Reals.
From Verif Require Import Base Sparse Graph SpecGraph SpecOpt Real RSum SpecSolver.
Import ListNotations.
Local Open Scope nat_scope.

(** the [n] x [n] block of [W] that starts at [c] on the diagonal *)
Definition block_of (W : mat RN) (c n : nat) (P : mat RN) : Prop :=
  mrows P = n /\ mcols P = n /\ forall i j, i < n -> j < n -> mat_at P i j = mat_at W (c + i) (c + j).

Section Reports.
Context {V : Type} (VC : vclass RN V).
(** [est a]: the answer for the variable at [a] ([None]: covariance_valid is false).  If some change of the optimised variables has no
    first-order effect there is no covariance for anything.  Otherwise every optimised variable gets its block of the inverse of J^T J,
    except those with a variance above 10^12. *)
Definition reports (h : @heap V) (vs : list addr) (J : mat RN) (est : addr -> outcome (option (mat RN))) : Prop :=
  (exists x, unobservable J x) /\ (forall a v, nth_error h a = Some v -> est a = Ok None) \/
  (forall x, ~ unobservable J x) /\ exists H W, is_gram J H /\ left_inverse W H /\
    forall k a v, nth_error vs k = Some a -> nth_error h a = Some v -> vconst VC v = false -> 0 < vsize VC v ->
      (exists P, est a = Ok (Some P) /\ block_of W (col_start VC h vs k) (vsize VC v) P /\ symmetric_mat P /\ definite_mat P /\
         forall i, i < vsize VC v -> (mat_at P i i <= 1000000000000)%R) \/
      est a = Ok None /\ exists i, i < vsize VC v /\ (1000000000000 < mat_at W (col_start VC h vs k + i) (col_start VC h vs k + i))%R.
End Reports.
