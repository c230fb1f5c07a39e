(** Specification of optimisation steps in exact arithmetic: the (damped) normal equations and the moves of the two methods.
    Nothing here calls optimiser or assembly functions. *)
From Coq Require Import List Arith ZArith Bool Reals.
From Verif Require Import Base Sparse Graph SpecGraph SpecOpt Real RSum Optimizer SpecSolver.
Import ListNotations.
Local Open Scope nat_scope.

(** [x] solves (J^T J + l I) x = - J^T r *)
Definition damped_solution (l : R) (J : mat RN) (r x : list R) : Prop :=
  length x = mcols J /\
  forall i, i < mcols J ->
    (rsum (mcols J) (fun j => rsum (mrows J) (fun k => mat_at J k i * mat_at J k j) * nth j x 0) + l * nth i x 0 =
     - rsum (mrows J) (fun k => mat_at J k i * nth k r 0))%R.

(** [n] successive moves *)
Inductive moves {A : Type} (step : A -> A -> Prop) : nat -> A -> A -> Prop :=
| moves_0 a : moves step 0 a a
| moves_S n a b c : moves step n a b -> step b c -> moves step (S n) a c.

Section Steps.
Context {V : Type} (VC : vclass RN V).
Notation factor := (factor (N:=RN) (V:=V)).

(** [h'] comes from [h] by increments of single variables *)
Inductive revalued (h : @heap V) : @heap V -> Prop :=
| rv_same : revalued h h
| rv_moved h1 h2 a v v' d : revalued h h1 -> nth_error h1 a = Some v -> vinc VC v d = Ok v' ->
    nth_error h2 a = Some v' -> length h2 = length h1 -> (forall b, b <> a -> nth_error h2 b = nth_error h1 b) -> revalued h h2.
(** wherever the variables move: Jacobian blocks that a factor delivers have the promised shapes *)
Definition shape_contract (h : @heap V) (fs : list factor) : Prop :=
  forall h' f js, revalued h h' -> In f fs -> f_jac f h' [] = (js, Ok tt) -> blocks_ok VC h' (f_rsize f) (f_vars f) js.

(** [J] is the Jacobian at [h] *)
Definition jacobian_at (h : @heap V) (vs : list addr) (fs : list factor) (J : mat RN) : Prop :=
  exists jss, Forall2 (fun f js => f_jac f h [] = (js, Ok tt)) fs jss /\ assembled VC h vs fs jss J.

(** every optimised variable moves by its part of [rate] times a solution of the normal equations with damping [l] at [h];
    all other objects stay *)
Definition newton_step (vs : list addr) (fs : list factor) (rate l : R) (h h' : @heap V) : Prop :=
  exists r J x, stacked h fs r /\ jacobian_at h vs fs J /\ damped_solution l J r x /\
    updated VC h h' vs (fun k v => vinc VC v (slice (N:=RN) (col_start VC h vs k) (vsize VC v) (map (fun y => y * rate)%R x))).

(** as [newton_step], but only some of the variables have been moved *)
Definition broken_off_step (vs : list addr) (fs : list factor) (rate l : R) (h h' : @heap V) : Prop :=
  exists r J x, stacked h fs r /\ jacobian_at h vs fs J /\ damped_solution l J r x /\ length h' = length h /\
    forall a v, nth_error h a = Some v -> nth_error h' a = Some v \/
      exists k v', nth_error vs k = Some a /\ vconst VC v = false /\ nth_error h' a = Some v' /\
        vinc VC v (slice (N:=RN) (col_start VC h vs k) (vsize VC v) (map (fun y => y * rate)%R x)) = Ok v'.

(** What the failure codes of a Gauss-Newton run say about the Jacobian: a direction without effect; none, but a direction of length
    at least 1 with |J x|^2 below 10^-14; none, but a direction along which |J x|^2 is more than 10^12 times below some column. *)
Definition verdict (st : status) (J : mat RN) : Prop :=
  match st with
  | FAILED => exists x, unobservable J x
  | SINGULAR_HESSIAN => (forall x, ~ unobservable J x) /\
      exists x i, length x = mcols J /\ i < mcols J /\ nth i x 0%R = 1%R /\ (image_sq J x < 1 / 100000000000000)%R
  | ILL_CONDITIONED => (forall x, ~ unobservable J x) /\
      exists x i c, length x = mcols J /\ i < mcols J /\ nth i x 0%R = 1%R /\ c < mcols J /\ (1000000000000 * image_sq J x < column_sq J c)%R
  | _ => True
  end.

(** A move of the Levenberg-Marquardt method on the variables and the damping parameter: a system that is ill-posed
    (more damping), a step that lowers the cost (kept, less damping) or one that does not (taken back, more damping). *)
Inductive lm_move (vs : list addr) (fs : list factor) (rate up down top : R) : @heap V * R -> @heap V * R -> Prop :=
| lm_unsolved h l J : jacobian_at h vs fs J -> (l < 0)%R \/ ill_posed l J -> lm_move vs fs rate up down top (h, l) (h, (l * up)%R)
| lm_kept h h' l r r' : newton_step vs fs rate l h h' -> stacked h fs r -> stacked h' fs r' ->
    (rsum (length r') (fun i => nth i r' 0 * nth i r' 0) < rsum (length r) (fun i => nth i r 0 * nth i r 0))%R ->
    lm_move vs fs rate up down top (h, l) (h', Rmax (l * down) (1 / 1000000000000))
| lm_undone h h1 l r r1 : newton_step vs fs rate l h h1 -> stacked h fs r -> stacked h1 fs r1 ->
    (rsum (length r) (fun i => nth i r 0 * nth i r 0) <= rsum (length r1) (fun i => nth i r1 0 * nth i r1 0))%R ->
    lm_move vs fs rate up down top (h, l) (h, Rmin (l * up) top).
End Steps.
