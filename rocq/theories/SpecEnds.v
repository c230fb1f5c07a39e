(** Specification of the end of an optimisation, in terms of the reported statistics only. *)
From Coq Require Import QArith Bool.
From Verif Require Import Base Optimizer.

Section Ends.
Context {N : num}.
Notation stats := (stats (N:=N)).
(** decrease of the residual norm from one iteration to the next *)
Definition decrease (prev cur : stats) : N := nsub (ss_resnorm prev) (ss_resnorm cur).

(** [prev], [cur]: statistics after two successive iterations; [init]: before the first *)
Definition goes_on (step_tol res_tol : N) (init prev cur : stats) : Prop :=
  nltb (ss_delta cur) step_tol = false /\ nltb (decrease prev cur) nzero = false /\ nltb (decrease prev cur) res_tol = false /\
  nltb (nmul (nlit 10) (ss_resnorm init)) (ss_resnorm cur) = false.

(** reasons to stop with a verdict *)
Inductive stops (step_tol res_tol : N) (init prev cur : stats) : status -> Prop :=
| stop_step : nltb (ss_delta cur) step_tol = true -> stops step_tol res_tol init prev cur SUCCESS
| stop_flat : nltb (decrease prev cur) nzero = false -> nltb (decrease prev cur) res_tol = true -> stops step_tol res_tol init prev cur SUCCESS
| stop_rose : nltb (decrease prev cur) nzero = true -> nleb (ss_resnorm init) (ss_resnorm cur) = false -> stops step_tol res_tol init prev cur SUCCESS
| stop_above : nltb (decrease prev cur) nzero = true -> nleb (ss_resnorm init) (ss_resnorm cur) = true -> stops step_tol res_tol init prev cur DIVERGED
| stop_far : nltb (nmul (nlit 10) (ss_resnorm init)) (ss_resnorm cur) = true -> stops step_tol res_tol init prev cur DIVERGED.
End Ends.
