(** Covariances in other units. *)
From Coq Require Import List Arith ZArith QArith Bool Reals Lra Lia.
From Verif Require Import Base Sparse Graph SpecGraph SpecOpt ListLemmas GraphFin Geom Vars VarsLemmas FactorLib SpecShape Real RSum SpecSolver Gram Optimizer OptWork OptMore SpecSteps OptSteps OptStepsLib SpecTwin TwinGraph SpecBlocks SpecChange Change ChangeRun
  SpecUnits UnitsVars UnitsRead UnitsFactors UnitsRun SpecMarginal Marginal MarginalMore MarginalRun.
Import ListNotations.
Local Open Scope nat_scope.
Set Bullet Behavior "Strict Subproofs".

Section Run.
Context (u : addr -> nat -> R) (k : R).
Hypothesis Hu : forall a i, (0 < u a i)%R.
Hypothesis Hk : (0 < k)%R.
Notation RV := (rescaled_var u).
Context {S S' : Type} (SV : solver RN S) (SV' : solver RN S') (EV EV' : nat -> env (N:=RN) (V:=lvar RN)).
Hypothesis HE : forall n, env_ok (EV n).
Hypothesis HE' : forall n, env_ok (EV' n).
Hypothesis HF : factorising_solver SV.
Hypothesis HF' : factorising_solver SV'.
Theorem units_covariances l1 l1' l2 l2' h1 h1' g1 g1' (p p' : pstate (S:=S)) (q q' : pstate (S:=S')) :
  finalized_history (lib RN) l1 l2 h1 (p_heap p) g1 (p_graph p) -> unfinalized (lib RN) ([], empty_graph) l1 -> careful ([], empty_graph) l1 -> careful (h1, g1) l2 ->
  finalized_history (lib RN) l1' l2' h1' (p_heap q) g1' (p_graph q) -> unfinalized (lib RN) ([], empty_graph) l1' -> careful ([], empty_graph) l1' -> careful (h1', g1') l2' ->
  let vs := get_all_variables (p_graph p) in let fs := get_all_factors (p_graph p) in let fs' := get_all_factors (p_graph q) in
  heaps RV (p_heap p) (p_heap q) -> get_all_variables (p_graph q) = vs -> Forall2 (same_measurement u k) fs fs' ->
  Forall (factor_wf (lib RN) (p_heap p) vs) fs -> some_active (lib RN) (p_heap p) fs ->
  st_method (p_set p) = GaussNewton -> st_method (p_set q) = GaussNewton -> st_rate (p_set p) = st_rate (p_set q) ->
  1 <= st_max_iter (p_set p) -> 1 <= st_max_iter (p_set q) -> p_hvalid p = false -> p_hvalid q = false ->
  optimize (lib RN) SV EV p = (p', Ok tt) -> optimize (lib RN) SV' EV' q = (q', Ok tt) -> ~ failure (ss_status (p_cur p')) -> ~ failure (ss_status (p_cur q')) ->
  ss_iter (p_cur p') = ss_iter (p_cur q') ->
  exists p1 q1, prepare SV p' = (p1, Ok tt) /\ prepare SV' q' = (q1, Ok tt) /\
    forall b, In b vs -> 0 < width (lib RN) (p_heap p) b -> exists P Q, let n := width (lib RN) (p_heap p) b in
      mrows P = n /\ mcols P = n /\ mrows Q = n /\ mcols Q = n /\
      (forall i j, i < n -> j < n -> mat_at Q i j = (k * k * (u b i * u b j) * mat_at P i j)%R) /\
      answer n P (snd (estimate_covariance (lib RN) SV (Some b) p1)) /\ answer n Q (snd (estimate_covariance (lib RN) SV' (Some b) q1)).
Proof.
  intros A B C C2 A' B' C' C2' vs fs fs' Hh Ev M W Ac Hm Hm' Er Hn Hn' Hv Hv' E E' Nf Nf' Hi.
  destruct (lib_history _ _ _ _ _ _ A C C2) as (G1 & G2). destruct (lib_history _ _ _ _ _ _ A' C' C2') as (G1' & G2').
  assert (W' : Forall (factor_wf (lib RN) (p_heap q) (get_all_variables (p_graph q))) fs').
  { rewrite Ev. clear -M W Hh Hu Hk. induction M as [|f f' fs0 fs0' Mf M IH]; constructor; inversion W; subst; auto. eapply (wf_units u k); eauto. }
  assert (Ac' := active_units u k Hu Hk _ _ _ _ Hh M Ac).
  destruct (run_answers (lib RN) SV EV lib_ok HE HF l1 l2 h1 g1 p p' A B W Ac G1 G2 Hm Hn Hv E Nf) as (j & r & p1 & J1 & J2 & J3 & J4 & J5 & J6 & J7 & Jn & J8 & J9).
  destruct (run_answers (lib RN) SV' EV' lib_ok HE' HF' l1' l2' h1' g1' q q' A' B' W' Ac' G1' G2' Hm' Hn' Hv' E' Nf') as (j' & r' & q1 & K1 & K2 & K3 & K4 & K5 & K6 & K7 & Kn & K8 & K9).
  fold fs' in K7, Kn, K9. rewrite Ev in Kn, K8, K9. fold vs fs in J7, Jn, J8, J9.
  destruct (other_units u k Hu Hk SV SV' EV EV' HE HE' (factorising_exact SV HF) HF' l1 l1' l2 l2' h1 h1' g1 g1' (limit j p) r (limit j' q) r' A B C C2 A' B' C' C2' Hh Ev M W Ac Hm Hm' Er J2 K2 J3 K3 ltac:(lia)) as (Hr & _).
  exists p1, q1. split; [exact J6|]. split; [exact K6|]. intros b Hb Wb.
  destruct J9 as [((d & Hd) & _)|(_ & J9)]; [exfalso; exact (Jn d Hd)|]. destruct K9 as [((d & Hd) & _)|(_ & K9)]; [exfalso; exact (Kn d Hd)|].
  assert (Wh : forall a, width (lib RN) (p_heap r') a = width (lib RN) (p_heap r) a) by (intros a; exact (heaps_wide u _ _ a Hr)).
  destruct (J9 b Hb ltac:(rewrite (J8 b Hb); exact Wb)) as (P & MP & AP). destruct (K9 b Hb ltac:(rewrite Wh, (J8 b Hb); exact Wb)) as (Q & MQ & AQ).
  rewrite (J8 b Hb) in AP. rewrite Wh, (J8 b Hb) in AQ.
  exists P, Q. cbn zeta. pose proof MP as (P1 & P2 & _). pose proof MQ as (Q1 & Q2 & _). rewrite Wh, (J8 b Hb) in Q1, Q2. rewrite (J8 b Hb) in P1, P2.
  split; [exact P1|]. split; [exact P2|]. split; [exact Q1|]. split; [exact Q2|]. split; [|split; [exact AP|exact AQ]].
  assert (CH : Forall2 (changed (lib RN) (stretch u) (/ (k * k)) (p_heap r) (p_heap r') vs) fs fs').
  { clear -M Hr Hu Hk. induction M as [|f f' fs0 fs0' Mf M IH]; constructor; auto. apply (scaled_changed u k f f' _ _ vs Hk); [apply (measurements_scaled u k Hu Hk); exact Mf|exact Hr]. }
  assert (Km : (0 < / (k * k))%R) by (apply Rinv_0_lt_compat; nra).
  destruct (marginal_changed (lib RN) (stretch u) (fun a e c => if e =? c then / u a c else 0)%R (/ (k * k))%R (p_heap r) (p_heap r') vs fs fs' Km) with (b := b) (P := P) (P' := Q) as (_ & _ & X); auto.
  - intros a c c' _ Hc Hc'. rewrite (stretch_sum u) by exact Hc. destruct (Nat.eqb_spec c c') as [->|]; [apply Rinv_r; pose proof (Hu a c'); lra|apply Rmult_0_r].
  - intros i j0 Hi' Hj. rewrite (X i j0); [|rewrite P1; exact Hi'|rewrite P2; exact Hj]. rewrite P1, P2, Rinv_inv. rewrite (rsum_ext _ _ (fun c => stretch u b i c * (u b j0 * mat_at P c j0))%R).
    + rewrite (stretch_sum u b _ i (fun c => u b j0 * mat_at P c j0)%R) by exact Hi'. match goal with |- ?a = ?b => change (@eq R a b) end. ring.
    + intros c Hc. rewrite <- (stretch_sum u b _ j0 (fun c' => mat_at P c c')) by exact Hj. rewrite <- rsum_scal. apply rsum_ext. intros c' _. match goal with |- ?a = ?b => change (@eq R a b) end. ring.
Qed.
End Run.
