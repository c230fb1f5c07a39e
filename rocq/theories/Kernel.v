(** HuberKernel and Factor::SetKernel: /repo/src/factorama/kernels.hpp and base_types.hpp. *)
From Coq Require Import List Arith QArith Bool.
From Verif Require Import Base Sparse Graph.
Import ListNotations.

Section Kernel.
Context {N : num}.
Local Open Scope num_scope.

(** kernels.hpp:41-48: apply_to_residual *)
Definition huber_residual (delta : N) (r : list N) : list N :=
  if vnorm r <=? delta then r else map (fun x => x * nsqrt (delta / vnorm r)) r.

(** kernels.hpp:61-63, one matrix: [w * jac + w_deriv * residual * (residual.transpose() * jac)].  The product of a
    row of length n with a matrix of other than n rows violates an eigen_assert, which release builds compile out. *)
Definition huber_block (w w_deriv : N) (r : list N) (J : mat N) : outcome (mat N) :=
  if (mrows J =? length r)%nat then
    Ok (Mat (mrows J) (mcols J) (fun i j => w * mat_at J i j +
      w_deriv * nth i r nzero * vsum (map (fun k => nth k r nzero * mat_at J k j) (seq 0 (length r)))))
  else UB UBSize.

Fixpoint huber_blocks (w w_deriv : N) (r : list N) (Js : list (mat N)) : outcome (list (mat N)) :=
  match Js with
  | [] => Ok []
  | J :: Js' => let* J' := huber_block w w_deriv r J in let* Js'' := huber_blocks w w_deriv r Js' in Ok (J' :: Js'')
  end.

(** kernels.hpp:50-64: apply_to_jacobians *)
Definition huber_jacobians (delta : N) (r : list N) (Js : list (mat N)) : outcome (list (mat N)) :=
  let n := vnorm r in
  if (n <=? delta) || (n <? nlit (1 # 1000000000000)) then Ok Js
  else huber_blocks (nsqrt (delta / n)) (nlit (- (1 # 2)) * delta / (n * n * n)) r Js.

(** kernels.hpp:10-25: the interface of a kernel object *)
Record kernel : Type := Kernel { k_residual : list N -> list N; k_jacobians : list N -> list (mat N) -> outcome (list (mat N)) }.
(** kernels.hpp:36-39 *)
Definition huber (delta : N) : kernel := Kernel (huber_residual delta) (huber_jacobians delta).

(** base_types.hpp:190-232: a factor object with its member kernel_.  compute_residual, compute_jacobians, residual_size and
    variables of all factor classes, and every function of FactorGraph and SparseOptimizer, read the object without kernel_: the
    member is written by SetKernel (base_types.hpp:195) and read nowhere in /repo/src. *)
Record kfactor (V : Type) : Type := KFactor { kf_factor : factor (N:=N) (V:=V); kf_kernel : option kernel }.
Arguments KFactor {V} _ _.
Arguments kf_factor {V} _.
Arguments kf_kernel {V} _.
Definition set_kernel {V} (k : option kernel) (f : kfactor V) : kfactor V := KFactor (kf_factor f) k.
(** what the graph stores and evaluates *)
Definition in_graph {V} (f : kfactor V) : factor (N:=N) (V:=V) := kf_factor f.
End Kernel.
Arguments KFactor {N V} _ _.
Arguments kf_factor {N V} _.
Arguments kf_kernel {N V} _.
