(** C100: on linear problems the estimate is an affine function of the measurements and the start (exact arithmetic). *)
From Coq Require Import List Arith ZArith QArith Bool Reals Lra Lia.
From Verif Require Import Base Sparse Graph SpecGraph SpecOpt Geom Vars VarsLemmas FactorLib SpecShape Optimizer OptWork OptMore Real RSum SpecSolver SpecSteps OptStepsLib SpecBlend Blend.
From Verif Require Import OptToy Ldlt LdltSolver OptReal LdltCase OrderCase ContractCase BlendCase.
Import ListNotations.
Local Open Scope nat_scope.
Set Bullet Behavior "Strict Subproofs".

(** three graphs of the same make; measurements, values of constant variables and start values of [s] are 1 - t times those of [p] plus t times those of [q], for any t.
    If the three runs of Gauss-Newton make the same number of iterations, or each at least one with a learning rate of 1, then the same is true of the results *)
Theorem C100_superposition : forall {S1 S2 S3 : Type} (SV1 : solver RN S1) (SV2 : solver RN S2) (SV3 : solver RN S3) (EV1 EV2 EV3 : nat -> env (N:=RN) (V:=lvar RN)),
  (forall n, env_ok (EV1 n)) -> (forall n, env_ok (EV2 n)) -> (forall n, env_ok (EV3 n)) -> factorising_solver SV1 -> factorising_solver SV2 -> factorising_solver SV3 ->
  forall t a1 b1 c1 d1 a2 b2 c2 d2 a3 b3 c3 d3 (p p' : pstate (N:=RN) (V:=lvar RN) (S:=S1)) (q q' : pstate (N:=RN) (V:=lvar RN) (S:=S2)) (s s' : pstate (N:=RN) (V:=lvar RN) (S:=S3)) fs1 fs2 fs3,
  finalized_history (lib RN) a1 b1 c1 (p_heap p) d1 (p_graph p) -> unfinalized (lib RN) ([], empty_graph) a1 -> careful ([], empty_graph) a1 -> careful (c1, d1) b1 ->
  finalized_history (lib RN) a2 b2 c2 (p_heap q) d2 (p_graph q) -> unfinalized (lib RN) ([], empty_graph) a2 -> careful ([], empty_graph) a2 -> careful (c2, d2) b2 ->
  finalized_history (lib RN) a3 b3 c3 (p_heap s) d3 (p_graph s) -> unfinalized (lib RN) ([], empty_graph) a3 -> careful ([], empty_graph) a3 -> careful (c3, d3) b3 ->
  let vs := get_all_variables (p_graph p) in
  get_all_variables (p_graph q) = vs -> get_all_variables (p_graph s) = vs ->
  get_all_factors (p_graph p) = map build fs1 -> get_all_factors (p_graph q) = map build fs2 -> get_all_factors (p_graph s) = map build fs3 ->
  all3 (mixed_factors t) fs1 fs2 fs3 -> mixed_heaps t (p_heap p) (p_heap q) (p_heap s) ->
  Forall (well_used (p_heap p)) fs1 -> Forall (well_used (p_heap q)) fs2 -> Forall (well_used (p_heap s)) fs3 ->
  plain (p_heap p) vs -> plain (p_heap q) vs -> plain (p_heap s) vs ->
  Forall (factor_wf (lib RN) (p_heap p) vs) (map build fs1) -> some_active (lib RN) (p_heap p) (map build fs1) ->
  Forall (factor_wf (lib RN) (p_heap q) vs) (map build fs2) -> some_active (lib RN) (p_heap q) (map build fs2) ->
  Forall (factor_wf (lib RN) (p_heap s) vs) (map build fs3) -> some_active (lib RN) (p_heap s) (map build fs3) ->
  st_method (p_set p) = GaussNewton -> st_method (p_set q) = GaussNewton -> st_method (p_set s) = GaussNewton -> st_rate (p_set q) = st_rate (p_set p) -> st_rate (p_set s) = st_rate (p_set p) ->
  optimize (lib RN) SV1 EV1 p = (p', Ok tt) -> optimize (lib RN) SV2 EV2 q = (q', Ok tt) -> optimize (lib RN) SV3 EV3 s = (s', Ok tt) -> p_caught p' = false -> p_caught q' = false -> p_caught s' = false ->
  ss_iter (p_cur q') = ss_iter (p_cur p') /\ ss_iter (p_cur s') = ss_iter (p_cur p') \/
    st_rate (p_set p) = 1%R /\ 0 < ss_iter (p_cur p') /\ 0 < ss_iter (p_cur q') /\ 0 < ss_iter (p_cur s') ->
  mixed_heaps t (p_heap p') (p_heap q') (p_heap s').
Proof. exact @superposed. Qed.

(** x measured as 3, y - x as 2, started at 0 and 0; 7, 6, 2, 4; and the mean of these, 5, 4, 1, 2; one iteration with a learning rate of 1/2 *)
Example C100_case : exists p' q' s', optimize (lib RN) LS EV0 (wstart 3 0 0 2) = (p', Ok tt) /\ optimize (lib RN) LS EV0 (wstart 7 2 4 6) = (q', Ok tt) /\ optimize (lib RN) LS EV0 (wstart 5 1 2 4) = (s', Ok tt) /\
  ss_iter (p_cur p') = 1 /\ mixed_heaps (1/2) (p_heap p') (p_heap q') (p_heap s').
Proof.
  destruct (w_run 3 0 0 2) as (p' & E1 & Hc1 & I1). destruct (w_run 7 2 4 6) as (q' & E2 & Hc2 & I2). destruct (w_run 5 1 2 4) as (s' & E3 & Hc3 & I3).
  exists p', q', s'. split; [exact E1|]. split; [exact E2|]. split; [exact E3|]. split; [exact I1|].
  destruct (wstart_hist 3 0 0 2) as (A1 & B1 & C1 & D1 & F1). destruct (wstart_hist 7 2 4 6) as (A2 & B2 & C2 & D2 & F2). destruct (wstart_hist 5 1 2 4) as (A3 & B3 & C3 & D3 & F3).
  refine (C100_superposition LS LS LS EV0 EV0 EV0 EV0_ok EV0_ok EV0_ok LS_factorising LS_factorising LS_factorising (1/2)%R _ _ _ _ _ _ _ _ _ _ _ _ (wstart 3 0 0 2) p' (wstart 7 2 4 6) q' (wstart 5 1 2 4) s' (wl 3) (wl 7) (wl 5)
    A1 B1 C1 I A2 B2 C2 I A3 B3 C3 I eq_refl eq_refl eq_refl eq_refl eq_refl w_mixed w_heaps (w_used _ _ _ _) (w_used _ _ _ _) (w_used _ _ _ _) (w_plain _ _ _) (w_plain _ _ _) (w_plain _ _ _) D1 F1 D2 F2 D3 F3
    eq_refl eq_refl eq_refl eq_refl eq_refl E1 E2 E3 Hc1 Hc2 Hc3 (or_introl (conj _ _))); congruence.
Qed.
Print Assumptions C100_superposition.
