(** Properties C50 (Huber kernel), C51 (kernels of factors), C52 (stopwatch) and C60 (Huber loss).  Proofs are in KernelFacts,
    StopwatchFacts and StopwatchFloat. *)
From Coq Require Import List Arith ZArith QArith Reals Lra Lia Bool.
From Coquelicot Require Import Coquelicot.
From Flocq.IEEE754 Require Import BinarySingleNaN.
From Verif Require Import Base Sparse Graph Geom Vars SpecOpt Real RSum Float FactorsLin Kernel Stopwatch SpecTools KernelFacts StopwatchFacts StopwatchFloat.
Import ListNotations.
Local Open Scope R_scope.

(** C50 in four parts: small residuals, large residuals, continuity, derivative.  The derivative holds below the threshold and, above it,
    in exactly the directions that do not change the length of the residual to first order. *)
Theorem C50_inlier : forall delta (r : list R) Js, rlength r <= delta ->
  huber_residual (N:=RN) delta r = r /\ huber_jacobians (N:=RN) delta r Js = Ok Js.
Proof. exact inlier_keeps. Qed.
Theorem C50_outlier : forall delta (r : list R), 0 < delta < rlength r ->
  (exists c, 0 < c < 1 /\ huber_residual (N:=RN) delta r = map (fun x => x * c) r) /\
  rlength (huber_residual (N:=RN) delta r) * rlength (huber_residual (N:=RN) delta r) = delta * rlength r.
Proof. exact outlier_shrinks. Qed.
Theorem C50_continuous : forall delta (rho : R -> list R) n x, 0 < delta -> (forall s, length (rho s) = n) ->
  (forall i, (i < n)%nat -> continuous (fun s => nth i (rho s) 0) x) ->
  forall i, (i < n)%nat -> continuous (fun s => nth i (huber_residual (N:=RN) delta (rho s)) 0) x.
Proof. exact huber_continuous. Qed.
Theorem C50_derivative_partial : forall delta (r : list R) J d rho, rlength r < delta -> residual_moves rho r J d ->
  exists J', huber_jacobians (N:=RN) delta r [J] = Ok [J'] /\ forall i, (i < length r)%nat ->
  is_derive (fun s => nth i (huber_residual (N:=RN) delta (rho s)) 0) 0 (times J' d i).
Proof. exact derivative_inlier. Qed.
(** refuted for every residual above the threshold and every direction in which its length changes *)
Theorem C50_derivative_refuted : forall delta (r : list R) J d rho, 0 < delta < rlength r -> / 10 ^ 12 <= rlength r -> residual_moves rho r J d ->
  exists J', huber_jacobians (N:=RN) delta r [J] = Ok [J'] /\
  ((forall i, (i < length r)%nat -> is_derive (fun s => nth i (huber_residual (N:=RN) delta (rho s)) 0) 0 (times J' d i)) <->
   rsum (length r) (fun k => nth k r 0 * times J d k) = 0).
Proof. exact derivative_outlier. Qed.
(** the empty matrix of a constant variable is not handled *)
Theorem C50_constant_refuted : forall delta (r : list R) Js, 0 < delta < rlength r -> / 10 ^ 12 <= rlength r -> In (mempty (N:=RN)) Js ->
  List.Forall (fun J : mat RN => mrows J = length r \/ J = mempty (N:=RN)) Js -> huber_jacobians (N:=RN) delta r Js = UB UBSize.
Proof. exact empty_block_undefined. Qed.
(** C51 *)
Theorem C51_refuted : finalize_structure (lib RN) kheap kgraph = (kfinal, Ok tt) /\
  exists g r, compute_residual kenv kheap kfinal = (g, Ok r) /\ ~ kernel_applied kheap kprior r.
Proof. exact (conj kernel_final kernel_ignored). Qed.
(** C52 over exact seconds: [tick] is the length of a clock tick, t0 any time before the first call *)
Theorem C52_total : forall tick t0 cs t1, nondecreasing t0 (cs ++ [(WElapsed, t1)]) ->
  w_elapsed (N:=RN) (exact_secs tick) t1 (w_run (N:=RN) (exact_secs tick) cs) = IZR (ticks_running (since_reset cs) t0 t1) * tick.
Proof. exact stopwatch_total. Qed.
(** and in doubles: readings never decrease between resets *)
Theorem C52_never_decreases : forall L t0 cs t cs' t', nondecreasing t0 (cs ++ [(WElapsed, t)] ++ cs' ++ [(WElapsed, t')]) -> existsb is_reset cs' = false ->
  Bleb (w_elapsed (N:=BN L) (ns_secs L) t (w_run (ns_secs L) cs)) (w_elapsed (N:=BN L) (ns_secs L) t' (w_run (ns_secs L) (cs ++ (WElapsed, t) :: cs'))) = true.
Proof. exact watch_mono_double. Qed.
(** C60: half the squared length is the documented loss exactly for the small residuals *)
Theorem C60_loss_refuted : forall delta (r : list R), 0 < delta ->
  (rlength (huber_residual (N:=RN) delta r) * rlength (huber_residual (N:=RN) delta r) / 2 = documented_loss delta (rlength r) <-> rlength r <= delta).
Proof. exact loss_gap. Qed.
Print Assumptions C50_inlier.
Print Assumptions C50_outlier.
Print Assumptions C50_continuous.
Print Assumptions C50_derivative_partial.
Print Assumptions C50_derivative_refuted.
Print Assumptions C50_constant_refuted.
Print Assumptions C51_refuted.
Print Assumptions C52_total.
Print Assumptions C52_never_decreases.
Print Assumptions C60_loss_refuted.

(** A residual of length 5 on both sides of the threshold, moving along itself and across. *)
Example three_four_five : rlength [3; 4] = 5.
Proof. unfold rlength. cbn. replace (0 + 3 * 3 + 4 * 4) with (5 * 5) by ring. apply sqrt_square. lra. Qed.
Example C50_moves (d : list R) : residual_moves (fun s => [3 + s * nth 0 d 0; 4 + s * nth 1 d 0]) [3; 4] (Mat (N:=RN) 2 2 (fun i j => if (i =? j)%nat then 1 else 0)) d.
Proof.
  split; [cbn; rewrite !Rmult_0_l, !Rplus_0_r; reflexivity|]. split; [reflexivity|]. split; [reflexivity|]. intros i Hi. unfold times. cbn in Hi.
  destruct i as [|[|]]; cbn [nth mcols mat_at rsum Nat.eqb]; [| |lia]; auto_derive; auto; ring.
Qed.
Example C50_cases : rlength [3; 4] <= 7 /\ 0 < 2 < rlength [3; 4] /\ / 10 ^ 12 <= rlength [3; 4] /\
  rsum 2 (fun k => nth k [3; 4] 0 * times (Mat (N:=RN) 2 2 (fun i j => if (i =? j)%nat then 1 else 0)) [1; 0] k) = 3 /\
  rsum 2 (fun k => nth k [3; 4] 0 * times (Mat (N:=RN) 2 2 (fun i j => if (i =? j)%nat then 1 else 0)) [4; -3] k) = 0.
Proof. rewrite three_four_five. unfold times. cbn. repeat split; lra. Qed.
(** start at 3, again at 5, stop at 10, again at 11, start at 20; read at 24: 7 + 4 ticks; a reset at 26 *)
Definition calls : list (wop * Z) := [(WStart, 3); (WStart, 5); (WElapsed, 6); (WStop, 10); (WStop, 11); (WStart, 20)]%Z.
Example C52_case : nondecreasing 0 (calls ++ [(WElapsed, 24%Z)]) /\ ticks_running (since_reset calls) 0 24 = 11%Z /\
  ticks_running (since_reset (calls ++ [(WReset, 26); (WStart, 27)]%Z)) 0 30 = 3%Z.
Proof. cbn [calls app nondecreasing snd]. repeat split; try lia; reflexivity. Qed.
Example C52_order_case : nondecreasing 0 (calls ++ [(WElapsed, 24%Z)] ++ [(WStop, 25); (WStart, 30)]%Z ++ [(WElapsed, 31%Z)]) /\ existsb is_reset [(WStop, 25); (WStart, 30)]%Z = false.
Proof. cbn [calls app nondecreasing snd]. repeat split; try lia. Qed.
