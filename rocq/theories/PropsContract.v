(** C93: on linear problems Gauss-Newton leaves a fixed fraction of the distance to the optimum (exact arithmetic). *)
From Coq Require Import List Arith ZArith QArith Bool Reals Lra Lia.
From Verif Require Import Base Sparse Graph SpecGraph SpecOpt Geom Vars VarsLemmas FactorLib SpecShape Optimizer OptWork OptMore Real RSum SpecSolver SpecSteps OptStepsLib SpecRest SpecContract ContractRun ContractLib.
From Verif Require Import OptToy Ldlt LdltSolver OptReal LdltCase OrderCase RestCase ResumeCase ContractCase.
Import ListNotations.
Local Open Scope nat_scope.
Set Bullet Behavior "Strict Subproofs".

(** vectors and points with generic priors, generic differences and linear velocities; [hs] holds values at which the gradient vanishes *)
Theorem C93_contracts : forall {S : Type} (SV : solver RN S) (EV : nat -> env (N:=RN) (V:=lvar RN)), (forall n, env_ok (EV n)) -> factorising_solver SV ->
  forall l1 l2 h1 g1 (p p' : pstate (N:=RN) (V:=lvar RN) (S:=S)) hs,
  finalized_history (lib RN) l1 l2 h1 (p_heap p) g1 (p_graph p) -> unfinalized (lib RN) ([], empty_graph) l1 -> careful ([], empty_graph) l1 -> careful (h1, g1) l2 ->
  let vs := get_all_variables (p_graph p) in let fs := get_all_factors (p_graph p) in
  Forall (factor_wf (lib RN) (p_heap p) vs) fs -> some_active (lib RN) (p_heap p) fs ->
  vector_problem (p_heap p) vs fs -> revalued (lib RN) (p_heap p) hs -> reassigned (lib RN) (p_heap p) hs vs -> stationary (lib RN) hs vs fs ->
  st_method (p_set p) = GaussNewton -> optimize (lib RN) SV EV p = (p', Ok tt) -> p_caught p' = false ->
  let q := ((1 - st_rate (p_set p)) ^ ss_iter (p_cur p'))%R in
  distance_scaled (lib RN) q vs hs (p_heap p) (p_heap p') /\
  forall rs, stacked hs fs rs ->
    (ss_chi2 (p_cur p') - sqnorm (N:=RN) rs = q * q * (ss_chi2 (p_init p') - sqnorm (N:=RN) rs))%R /\
    (0 < ss_iter (p_cur p') -> forall h r, reassigned (lib RN) (p_heap p) h vs -> stacked h fs r -> (sqnorm (N:=RN) rs <= sqnorm (N:=RN) r)%R).
Proof. exact @contracts_lib. Qed.

(** any variables to which increments are added, and any factors with residuals affine in them *)
Theorem C93_contracts_any : forall {V : Type} (VC : vclass RN V) {S : Type} (SV : solver RN S) (EV : nat -> env (N:=RN) (V:=V)), vclass_ok VC -> (forall n, env_ok (EV n)) -> factorising_solver SV ->
  forall l1 l2 h1 g1 (p p' : pstate (N:=RN) (V:=V) (S:=S)) hs,
  finalized_history VC l1 l2 h1 (p_heap p) g1 (p_graph p) -> unfinalized VC ([], empty_graph) l1 ->
  let vs := get_all_variables (p_graph p) in let fs := get_all_factors (p_graph p) in
  Forall (factor_wf VC (p_heap p) vs) fs -> some_active VC (p_heap p) fs -> Forall buf_indep fs -> shape_contract VC (p_heap p) fs ->
  linear_problem VC (p_heap p) vs fs -> revalued VC (p_heap p) hs -> reassigned VC (p_heap p) hs vs -> stationary VC hs vs fs ->
  st_method (p_set p) = GaussNewton -> optimize VC SV EV p = (p', Ok tt) -> p_caught p' = false ->
  let q := ((1 - st_rate (p_set p)) ^ ss_iter (p_cur p'))%R in
  distance_scaled VC q vs hs (p_heap p) (p_heap p') /\
  forall rs, stacked hs fs rs ->
    (ss_chi2 (p_cur p') - sqnorm (N:=RN) rs = q * q * (ss_chi2 (p_init p') - sqnorm (N:=RN) rs))%R /\
    (0 < ss_iter (p_cur p') -> forall h r, reassigned VC (p_heap p) h vs -> stacked h fs r -> (sqnorm (N:=RN) rs <= sqnorm (N:=RN) r)%R).
Proof. exact @contracts. Qed.

(** the variable at 7 with priors 3 and 5, optimum at 4: with a learning rate of 1/2 one iteration ends half way, at 5.5; the cost falls from 20 to 6.5, its least value is 2 *)
Example C93_case : exists p', optimize (lib RN) LS EV0 bstart = (p', Ok tt) /\ ss_iter (p_cur p') = 1 /\ p_heap bstart = at_ 7 /\ p_heap p' = at_ (11/2) /\
  distance_scaled (lib RN) ((1 - 1/2) ^ 1) [0] (at_ 4) (p_heap bstart) (p_heap p') /\ (ss_chi2 (p_cur p') - 2 = 1/4 * (ss_chi2 (p_init p') - 2))%R.
Proof.
  destruct b_once as (p' & E & Hc & Hi & z & Hz). exists p'. split; [exact E|]. split; [exact Hi|]. split; [reflexivity|]. destruct bstart_hist as (A & B & C & D & F).
  destruct (C93_contracts LS EV0 EV0_ok LS_factorising _ _ _ _ bstart p' (at_ 4) A B C I D F b_vector b_revalued b_reassigned b_stationary eq_refl E Hc) as (G1 & G2).
  rewrite Hi in G1, G2. change (st_rate (p_set bstart)) with (1/2)%R in G1, G2. change (get_all_variables (p_graph bstart)) with [0] in G1.
  assert (z = 11/2)%R.
  { pose proof (G1 0 (LVar (N:=RN) 1 false (KGeneric [7%R])) (LVar (N:=RN) 1 false (KGeneric [z])) (LVar (N:=RN) 1 false (KGeneric [4%R])) (or_introl eq_refl) eq_refl ltac:(rewrite Hz; reflexivity) eq_refl eq_refl 0 ltac:(cbn; lia)) as X.
    cbn in X. lra. }
  subst z. split; [exact Hz|]. split; [exact G1|]. destruct (G2 _ (a_residual 4)) as (G3 & _). cbn -[ow ss_chi2] in G3. rewrite ?q0, ?ow1 in G3. change (car RN) with R in *. lra.
Qed.

Print Assumptions C93_contracts.
Print Assumptions C93_contracts_any.
