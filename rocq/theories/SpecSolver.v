(** Specification of an exact linear solver and of affine problems. *)
From Coq Require Import List Arith ZArith Bool Reals.
From Verif Require Import Base Sparse Graph SpecGraph SpecOpt Optimizer Real RSum.
Import ListNotations.
Local Open Scope nat_scope.

(** a symmetric matrix *)
Definition symmetric_mat (H : mat RN) : Prop :=
  mcols H = mrows H /\ forall i j, i < mrows H -> j < mrows H -> mat_at H i j = mat_at H j i.
(** x^T H x *)
Definition quad_form (H : mat RN) (x : list R) : R := rsum (mrows H) (fun i => rsum (mrows H) (fun j => nth i x 0 * mat_at H i j * nth j x 0)%R).

(** The linear solver is exact on symmetric matrices: there is a relation [holds s H] (the solver state [s] contains a factorisation of [H])
    such that a solve that reports success returns a solution of that system. *)
Definition exact_solver {S : Type} (SV : solver RN S) : Prop :=
  exists holds : S -> mat RN -> Prop,
    (forall s H, symmetric_mat H -> holds (sv_compute SV s H) H) /\
    (forall s H b s' x, holds s H -> sv_solve SV s b = (s', x) -> holds s' H /\ (sv_ok SV s' = true -> solves H b x)) /\
    (forall s H B s' X, holds s H -> mrows B = mrows H -> sv_solve_mat SV s B = (s', X) -> holds s' H /\ (sv_ok SV s' = true -> solves_mat H B X)).

(** x^T H x >= 0, and > 0 unless x = 0 *)
Definition semidefinite_mat (H : mat RN) : Prop := forall x, length x = mrows H -> (0 <= quad_form H x)%R.
Definition definite_mat (H : mat RN) : Prop :=
  forall x, length x = mrows H -> (exists i, i < mrows H /\ nth i x 0%R <> 0%R) -> (0 < quad_form H x)%R.
(** An LDL^T factorisation in exact arithmetic.  As [exact_solver]; solving does not change info(); a positive semidefinite matrix is
    accepted if and only if it is positive definite (if not, x^T H x = 0 for some x with a coordinate 1); then there is one pivot per row, each is positive, equals x^T H x for some
    x with a coordinate 1, and is at most some diagonal entry. *)
Definition factorising_solver {S : Type} (SV : solver RN S) : Prop :=
  exists holds : S -> mat RN -> Prop,
    (forall s H, symmetric_mat H -> holds (sv_compute SV s H) H) /\
    (forall s H b s' x, holds s H -> sv_solve SV s b = (s', x) -> holds s' H /\ sv_ok SV s' = sv_ok SV s /\ (sv_ok SV s = true -> solves H b x)) /\
    (forall s H B s' X, holds s H -> mrows B = mrows H -> sv_solve_mat SV s B = (s', X) ->
       holds s' H /\ sv_ok SV s' = sv_ok SV s /\ (sv_ok SV s = true -> solves_mat H B X)) /\
    (forall s H, holds s H -> semidefinite_mat H ->
       if sv_ok SV s then definite_mat H
       else exists x a, length x = mrows H /\ a < mrows H /\ nth a x 0%R = 1%R /\ quad_form H x = 0%R) /\
    (forall s H, holds s H -> semidefinite_mat H -> sv_ok SV s = true ->
       length (sv_D SV s) = mrows H /\
       forall d, In d (sv_D SV s) -> (0 < d)%R /\
         (exists x a, length x = mrows H /\ a < mrows H /\ nth a x 0%R = 1%R /\ quad_form H x = d) /\
         exists a, a < mrows H /\ (d <= mat_at H a a)%R).

(** |J x|^2, |J e_c|^2, |J x|^2 + l |x|^2 *)
Definition image_sq (J : mat RN) (x : list R) : R :=
  rsum (mrows J) (fun k => rsum (mcols J) (fun j => mat_at J k j * nth j x 0) * rsum (mcols J) (fun j => mat_at J k j * nth j x 0))%R.
Definition column_sq (J : mat RN) (c : nat) : R := rsum (mrows J) (fun k => mat_at J k c * mat_at J k c)%R.
Definition damped_sq (l : R) (J : mat RN) (x : list R) : R := (image_sq J x + l * rsum (mcols J) (fun j => nth j x 0 * nth j x 0))%R.
(** a direction the residuals do not depend on, to first order *)
Definition unobservable (J : mat RN) (x : list R) : Prop :=
  length x = mcols J /\ (exists i, i < mcols J /\ nth i x 0%R <> 0%R) /\
  forall k, k < mrows J -> rsum (mcols J) (fun j => mat_at J k j * nth j x 0)%R = 0%R.
(** a direction along which |J x|^2 + l |x|^2 is tiny, or tiny compared with a column; [l = 0] for Gauss-Newton *)
Definition ill_posed (l : R) (J : mat RN) : Prop :=
  exists x i, length x = mcols J /\ i < mcols J /\ nth i x 0%R = 1%R /\
    (damped_sq l J x < 1 / 100000000000000 \/ exists c, (c < mcols J)%nat /\ 1000000000000 * damped_sq l J x < column_sq J c + l)%R.

Section Affine.
Context {V : Type} (VC : vclass RN V).
(** apply_increment adds the increment to the value *)
Definition additive (v : V) : Prop :=
  length (vval VC v) = vsize VC v /\
  forall x, length x = vsize VC v -> exists v', vinc VC v x = Ok v' /\ length (vval VC v') = vsize VC v /\
    forall c, c < vsize VC v -> nth c (vval VC v') 0%R = (nth c (vval VC v) 0 + nth c x 0)%R.
(** [h'] assigns other values to the non-constant variables of [vs]; nothing else differs *)
Definition reassigned (h h' : @heap V) (vs : list addr) : Prop :=
  length h' = length h /\
  (forall a v, nth_error h a = Some v -> exists v', nth_error h' a = Some v' /\
     vid VC v' = vid VC v /\ vsize VC v' = vsize VC v /\ vconst VC v' = vconst VC v /\
     (vconst VC v = true \/ ~ In a vs -> v' = v) /\ (vconst VC v = false -> In a vs -> length (vval VC v') = vsize VC v)).
(** contribution of the variable at position [q] of a factor to row [i] of its residual *)
Definition block_term (h h' : @heap V) (vars : list (option addr)) (js : list (mat RN)) (i q : nat) : R :=
  match nth_error vars q with
  | Some (Some a) =>
    match nth_error h a, nth_error h' a, nth_error js q with
    | Some v, Some v', Some B =>
      if vconst VC v then 0%R
      else rsum (vsize VC v) (fun c => mat_at B i c * (nth c (vval VC v') 0 - nth c (vval VC v) 0))%R
    | _, _, _ => 0%R
    end
  | _ => 0%R
  end.
(** the residual of [f] is affine in the variables, with Jacobian blocks [js] *)
Definition affine_at (h : @heap V) (vs : list addr) (f : factor (N:=RN) (V:=V)) (js : list (mat RN)) : Prop :=
  forall h', reassigned h h' vs -> exists r r', f_res_ref f h = Ok r /\ f_res_ref f h' = Ok r' /\
    length r = f_rsize f /\ length r' = f_rsize f /\
    forall i, i < f_rsize f -> nth i r' 0%R = (nth i r 0 + rsum (length (f_vars f)) (block_term h h' (f_vars f) js i))%R.
End Affine.
