(** Specification vocabulary for the optimiser.  Nothing here calls optimiser functions. *)
From Coq Require Import List Arith ZArith QArith Bool.
From Verif Require Import Base Sparse Graph SpecGraph.
Import ListNotations.

Section SpecOpt.
Context {N : num} {V : Type} (VC : vclass N V).

(** [r] is the residual vector at heap [h]: the stack of the factors' residuals *)
Definition stacked (h : @heap V) (fs : list (factor (N:=N) (V:=V))) (r : list N) : Prop :=
  exists rs, Forall2 (fun f x => f_res_ref f h = Ok x /\ length x = f_rsize f) fs rs /\ r = concat rs.

(** Variable states satisfying [I] (an invariant of the class) can be restored exactly through set_value_from_vector, both
    in place and after an increment. *)
Record undoable (I : V -> Prop) : Prop := Undoable {
  un_inc : forall v x v', I v -> vinc VC v x = Ok v' -> I v' /\ vset VC v' (vval VC v) = Ok v;
  un_self : forall v, I v -> vset VC v (vval VC v) = Ok v
}.

(** Comparison laws; they hold for the reals and for IEEE doubles (also with NaN, where comparisons are false). *)
Record cost_order : Prop := CostOrder {
  co_trans : forall a b c : N, nltb a b = true -> nltb b c = true -> nltb a c = true;
  co_half : forall a b : N, nltb (nmul (nlit (1#2)) a) (nmul (nlit (1#2)) b) = true -> nltb a b = true;
  co_irr : forall c : N, nltb (nmul (nlit (1#2)) c) (nmul c (nlit (1#2))) = false
}.
End SpecOpt.

(** Comparison facts used for the guard on covariances; [cov_limit] is 1e12.  They hold for the reals and for doubles. *)
Definition cov_limit {N : num} : N := nlit 1000000000000.
Record cov_order (N : num) : Prop := CovOrder {
  cv_lt : forall x y : N, nltb cov_limit x = true -> nltb x y = true -> nltb cov_limit y = true;
  cv_trans : forall m y : N, nfinite m = true -> nfinite y = true -> nltb cov_limit m = false -> nltb m y = false -> nltb cov_limit y = false;
  cv_half : forall x : N, nfinite x = true -> nltb cov_limit x = false -> nltb cov_limit (nmul (nlit (1#2)) (nadd x x)) = false
}.

Arguments cv_lt {N} _ _ _ _ _.
Arguments cv_trans {N} _ _ _ _ _ _ _.
Arguments cv_half {N} _ _ _ _.

(** What an exact linear solver does, relative to what its interface promises: if info() reports success after a solve, the
    solution solves the system of the last factorised matrix. *)
Local Open Scope nat_scope.
Definition solves {N : num} (H : mat N) (b x : list N) : Prop :=
  length x = mcols H /\ forall i, i < mrows H -> vsum (map (fun k => nmul (mat_at H i k) (nth k x nzero)) (seq 0 (mcols H))) = nth i b nzero.
Definition solves_mat {N : num} (H B X : mat N) : Prop :=
  mrows X = mcols H /\ mcols X = mcols B /\
  forall i j, i < mrows H -> j < mcols B -> vsum (map (fun k => nmul (mat_at H i k) (mat_at X k j)) (seq 0 (mcols H))) = mat_at B i j.
(** [W] is a left inverse of [H] *)
Definition left_inverse {N : num} (W H : mat N) : Prop :=
  mcols W = mrows H /\ mrows W = mcols H /\
  forall i j, i < mrows W -> j < mcols H ->
    vsum (map (fun k => nmul (mat_at W i k) (mat_at H k j)) (seq 0 (mcols W))) = if (i =? j)%nat then nlit 1 else nzero.
(** J^T J *)
Definition is_gram {N : num} (J H : mat N) : Prop :=
  mrows H = mcols J /\ mcols H = mcols J /\
  forall i j, i < mcols J -> j < mcols J ->
    mat_at H i j = vsum (map (fun k => nmul (mat_at J k i) (mat_at J k j)) (seq 0 (mrows J))).
