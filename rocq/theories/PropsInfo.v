(** C91: repeated measurements and measurements of constants; only the information matters to Gauss-Newton and the covariances (exact arithmetic). *)
From Coq Require Import List Arith ZArith QArith Bool Reals Lra Lia Permutation.
From Verif Require Import Base Sparse Graph SpecGraph SpecOpt Geom Vars VarsLemmas FactorsLin FactorLib SpecShape Optimizer OptWork Real SpecSolver SpecSteps OptMore OptStepsLib SpecBlocks SpecMarginal Change SpecInfo InfoRun InfoLib.
From Verif Require Import OptToy Ldlt LdltSolver OptReal LdltCase OptDefined Gram OrderCase PartCase InfoCase.
Import ListNotations.
Local Open Scope nat_scope.
Set Bullet Behavior "Strict Subproofs".

Theorem C91_restated : forall {S S' : Type} (SV : solver RN S) (SV' : solver RN S') (EV EV' : nat -> env (N:=RN) (V:=lvar RN)),
  (forall n, env_ok (EV n)) -> (forall n, env_ok (EV' n)) -> factorising_solver SV -> factorising_solver SV' ->
  forall l1 l1' l2 l2' h1 h1' g1 g1' (p p' : pstate (N:=RN) (V:=lvar RN) (S:=S)) (q q' : pstate (N:=RN) (V:=lvar RN) (S:=S')),
  finalized_history (lib RN) l1 l2 h1 (p_heap p) g1 (p_graph p) -> unfinalized (lib RN) ([], empty_graph) l1 -> careful ([], empty_graph) l1 -> careful (h1, g1) l2 ->
  finalized_history (lib RN) l1' l2' h1' (p_heap q) g1' (p_graph q) -> unfinalized (lib RN) ([], empty_graph) l1' -> careful ([], empty_graph) l1' -> careful (h1', g1') l2' ->
  let vs := get_all_variables (p_graph p) in let fs := get_all_factors (p_graph p) in let vs' := get_all_variables (p_graph q) in let fs' := get_all_factors (p_graph q) in
  p_heap p = p_heap q -> Permutation (free (lib RN) (p_heap p) vs) (free (lib RN) (p_heap p) vs') -> restated (p_heap p) fs fs' -> sane_ranges (p_heap p) ->
  Forall (factor_wf (lib RN) (p_heap p) vs) fs -> Forall (factor_wf (lib RN) (p_heap p) vs') fs' -> some_active (lib RN) (p_heap p) fs -> some_active (lib RN) (p_heap p) fs' ->
  st_method (p_set p) = GaussNewton -> st_method (p_set q) = GaussNewton -> st_rate (p_set p) = st_rate (p_set q) ->
  optimize (lib RN) SV EV p = (p', Ok tt) -> optimize (lib RN) SV' EV' q = (q', Ok tt) -> p_caught p' = false -> p_caught q' = false ->
  ss_iter (p_cur p') = ss_iter (p_cur q') ->
  p_heap p' = p_heap q' /\
  (forall r0 r0' r r', stacked (p_heap p) fs r0 -> stacked (p_heap p) fs' r0' -> stacked (p_heap p') fs r -> stacked (p_heap p') fs' r' ->
    sqnorm (N:=RN) r' - sqnorm (N:=RN) r = sqnorm (N:=RN) r0' - sqnorm (N:=RN) r0)%R /\
  (1 <= st_max_iter (p_set p) -> 1 <= st_max_iter (p_set q) -> p_hvalid p = false -> p_hvalid q = false ->
   ~ failure (ss_status (p_cur p')) -> ~ failure (ss_status (p_cur q')) ->
   exists p1 q1, prepare SV p' = (p1, Ok tt) /\ prepare SV' q' = (q1, Ok tt) /\
    forall b, In b vs -> 0 < width (lib RN) (p_heap p) b -> same_answer (snd (estimate_covariance (lib RN) SV (Some b) p1)) (snd (estimate_covariance (lib RN) SV' (Some b) q1))).
Proof. exact @restated_runs. Qed.

(** any factors and variables: runs with the same J^T J and J^T r wherever the variables move *)
Theorem C91_information : forall {V : Type} (VC : vclass RN V) {S S' : Type} (SV : solver RN S) (SV' : solver RN S') (EV EV' : nat -> env (N:=RN) (V:=V)),
  vclass_ok VC -> (forall n, env_ok (EV n)) -> (forall n, env_ok (EV' n)) -> factorising_solver SV -> factorising_solver SV' ->
  forall l1 l1' l2 l2' h1 h1' g1 g1' (p : pstate (N:=RN) (V:=V) (S:=S)) (q : pstate (N:=RN) (V:=V) (S:=S')),
  finalized_history VC l1 l2 h1 (p_heap p) g1 (p_graph p) -> unfinalized VC ([], empty_graph) l1 ->
  finalized_history VC l1' l2' h1' (p_heap q) g1' (p_graph q) -> unfinalized VC ([], empty_graph) l1' ->
  let vs := get_all_variables (p_graph p) in let fs := get_all_factors (p_graph p) in let vs' := get_all_variables (p_graph q) in let fs' := get_all_factors (p_graph q) in
  p_heap p = p_heap q -> Permutation (free VC (p_heap p) vs) (free VC (p_heap p) vs') ->
  (forall h, revalued VC (p_heap p) h -> evaluated h fs -> evaluated h fs' -> same_information VC h vs fs fs') ->
  Forall (factor_wf VC (p_heap p) vs) fs -> Forall (factor_wf VC (p_heap p) vs') fs' -> some_active VC (p_heap p) fs -> some_active VC (p_heap p) fs' ->
  Forall buf_indep fs -> Forall buf_indep fs' -> shape_contract VC (p_heap p) fs -> shape_contract VC (p_heap p) fs' ->
  st_method (p_set p) = GaussNewton -> st_method (p_set q) = GaussNewton -> st_rate (p_set p) = st_rate (p_set q) ->
  forall i j p' q', optimize VC SV EV (limit i p) = (p', Ok tt) -> optimize VC SV' EV' (limit j q) = (q', Ok tt) -> p_caught p' = false -> p_caught q' = false ->
  ss_iter (p_cur p') = ss_iter (p_cur q') -> p_heap p' = p_heap q' /\ revalued VC (p_heap p) (p_heap p').
Proof. exact @info_heaps. Qed.

(** x = 7 and y = 1, x measured as 3 and y - x as 2 with standard deviation 1.  In the second graph x is measured as 3 twice, with standard deviations 5/3 and
    5/4; the variable that holds the 2 is not in the graph, and it is measured as 9 *)
Example C91_case : exists p' q' p1 q1, optimize (lib RN) RS EV0 ostart = (p', Ok tt) /\ optimize (lib RN) LS EV0 nstart = (q', Ok tt) /\
  ss_iter (p_cur p') = 1 /\ ss_iter (p_cur q') = 1 /\ p_heap p' = p_heap q' /\
  prepare RS p' = (p1, Ok tt) /\ prepare LS q' = (q1, Ok tt) /\
  forall b, b < 2 -> same_answer (snd (estimate_covariance (lib RN) RS (Some b) p1)) (snd (estimate_covariance (lib RN) LS (Some b) q1)).
Proof.
  destruct ostart_run as (p' & E & Hc & Nf). destruct nstart_run as (q' & E' & Hc' & Hi' & Nf').
  pose proof (one_iteration RS EV0 EV0_ok ostart p' E Hc Nf eq_refl) as Hi.
  destruct ostart_hist as (A & B & C & D & F). destruct nstart_hist as (A' & B' & C' & D' & F').
  destruct (C91_restated RS LS EV0 EV0 EV0_ok EV0_ok RS_factorising LS_factorising _ _ _ _ _ _ _ _ ostart p' nstart q' A B C I A' B' C' I) as (X1 & _ & X3); try assumption; try reflexivity.
  - change (Permutation [0; 1] [1; 0]). apply perm_swap.
  - exact n_restated.
  - change (sane_ranges oheap). intros a v o b lo hi x Ev K. destruct a as [|[|[|a]]]; cbn in Ev; [..|destruct a; discriminate Ev]; injection Ev as <-; discriminate K.
  - exact (eq_trans Hi (eq_sym Hi')).
  - destruct (X3 (le_n 1) (le_n 1) eq_refl eq_refl Nf Nf') as (p1 & q1 & Y1 & Y2 & Y3). exists p', q', p1, q1. repeat (split; [assumption|]).
    intros b Hb. apply Y3; [change (In b [0; 1; 2])|change (0 < width (lib RN) oheap b)]; destruct b as [|[|b]]; cbn; auto; lia.
Qed.

Print Assumptions C91_restated.
Print Assumptions C91_information.
