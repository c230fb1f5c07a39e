(** C95: on linear problems Gauss-Newton forgets where it started (exact arithmetic). *)
From Coq Require Import List Arith ZArith QArith Bool Reals Lra Lia.
From Verif Require Import Base Sparse Graph SpecGraph SpecOpt Geom Vars VarsLemmas FactorLib SpecShape Optimizer OptWork OptMore Real RSum SpecSolver SpecSteps OptStepsLib SpecContract SpecNearer Contract Forget.
From Verif Require Import OptToy Ldlt LdltSolver OptReal LdltCase OrderCase RestCase ResumeCase ContractCase ForgetCase.
Import ListNotations.
Local Open Scope nat_scope.
Set Bullet Behavior "Strict Subproofs".

(** vectors and points with generic priors, generic differences and linear velocities; [p] and [q] have the same variables and factors and differ in the values the variables start from *)
Theorem C95_forgets : forall {S S2 : Type} (SV : solver RN S) (SV2 : solver RN S2) (EV EV2 : nat -> env (N:=RN) (V:=lvar RN)), (forall n, env_ok (EV n)) -> (forall n, env_ok (EV2 n)) -> factorising_solver SV -> factorising_solver SV2 ->
  forall l1 l2 h1 g1 k1 k2 a1 b1 (p p' : pstate (N:=RN) (V:=lvar RN) (S:=S)) (q q' : pstate (N:=RN) (V:=lvar RN) (S:=S2)),
  finalized_history (lib RN) l1 l2 h1 (p_heap p) g1 (p_graph p) -> unfinalized (lib RN) ([], empty_graph) l1 -> careful ([], empty_graph) l1 -> careful (h1, g1) l2 ->
  finalized_history (lib RN) k1 k2 a1 (p_heap q) b1 (p_graph q) -> unfinalized (lib RN) ([], empty_graph) k1 ->
  let vs := get_all_variables (p_graph p) in let fs := get_all_factors (p_graph p) in
  get_all_variables (p_graph q) = vs -> get_all_factors (p_graph q) = fs -> revalued (lib RN) (p_heap p) (p_heap q) -> reassigned (lib RN) (p_heap p) (p_heap q) vs ->
  Forall (factor_wf (lib RN) (p_heap p) vs) fs -> some_active (lib RN) (p_heap p) fs -> vector_problem (p_heap p) vs fs ->
  st_method (p_set p) = GaussNewton -> st_method (p_set q) = GaussNewton -> st_rate (p_set q) = st_rate (p_set p) ->
  optimize (lib RN) SV EV p = (p', Ok tt) -> optimize (lib RN) SV2 EV2 q = (q', Ok tt) -> p_caught p' = false -> p_caught q' = false ->
  (ss_iter (p_cur p') = ss_iter (p_cur q') ->
    differences (lib RN) (p_heap p') (p_heap q') vs = map (Rmult ((1 - st_rate (p_set p)) ^ ss_iter (p_cur p'))) (differences (lib RN) (p_heap p) (p_heap q) vs)) /\
  (st_rate (p_set p) = 1%R -> 0 < ss_iter (p_cur p') -> 0 < ss_iter (p_cur q') -> p_heap q' = p_heap p').
Proof. exact @forgets_lib. Qed.

(** any variables to which increments are added, and any factors with residuals affine in them; with a learning rate of 1 the factor is 0 however many iterations the second run makes *)
Theorem C95_forgets_any : forall {V : Type} (VC : vclass RN V) {S S2 : Type} (SV : solver RN S) (SV2 : solver RN S2) (EV EV2 : nat -> env (N:=RN) (V:=V)), vclass_ok VC -> (forall n, env_ok (EV n)) -> (forall n, env_ok (EV2 n)) -> factorising_solver SV -> factorising_solver SV2 ->
  forall l1 l2 h1 g1 k1 k2 a1 b1 (p p' : pstate (N:=RN) (V:=V) (S:=S)) (q q' : pstate (N:=RN) (V:=V) (S:=S2)),
  finalized_history VC l1 l2 h1 (p_heap p) g1 (p_graph p) -> unfinalized VC ([], empty_graph) l1 ->
  finalized_history VC k1 k2 a1 (p_heap q) b1 (p_graph q) -> unfinalized VC ([], empty_graph) k1 ->
  let vs := get_all_variables (p_graph p) in let fs := get_all_factors (p_graph p) in
  get_all_variables (p_graph q) = vs -> get_all_factors (p_graph q) = fs -> revalued VC (p_heap p) (p_heap q) -> reassigned VC (p_heap p) (p_heap q) vs ->
  Forall (factor_wf VC (p_heap p) vs) fs -> some_active VC (p_heap p) fs -> Forall buf_indep fs -> shape_contract VC (p_heap p) fs -> linear_problem VC (p_heap p) vs fs ->
  st_method (p_set p) = GaussNewton -> st_method (p_set q) = GaussNewton -> st_rate (p_set q) = st_rate (p_set p) ->
  optimize VC SV EV p = (p', Ok tt) -> optimize VC SV2 EV2 q = (q', Ok tt) -> p_caught p' = false -> p_caught q' = false ->
  ss_iter (p_cur p') = ss_iter (p_cur q') \/ st_rate (p_set p) = 1%R /\ 0 < ss_iter (p_cur p') /\ 0 < ss_iter (p_cur q') ->
  differences VC (p_heap p') (p_heap q') vs = map (Rmult ((1 - st_rate (p_set p)) ^ ss_iter (p_cur p'))) (differences VC (p_heap p) (p_heap q) vs).
Proof. exact @forgets_any. Qed.

(** priors 3 and 5, started at 7 and at 9: with a learning rate of 1/2 the two results are 1 apart *)
Example C95_case_half : exists p' q', optimize (lib RN) LS EV0 (seven half_set) = (p', Ok tt) /\ optimize (lib RN) LS EV0 (nine half_set) = (q', Ok tt) /\
  p_heap (seven half_set) = at_ 7 /\ p_heap (nine half_set) = at_ 9 /\ exists x, p_heap p' = at_ x /\ p_heap q' = at_ (x + 1).
Proof.
  destruct (once aops 7 (seven half_set) (seven_hist _) eq_refl eq_refl eq_refl eq_refl eq_refl eq_refl eq_refl) as (p' & E & Hc & Hi & x & Hx).
  destruct (once nops 9 (nine half_set) (nine_hist _) eq_refl eq_refl eq_refl eq_refl eq_refl eq_refl eq_refl) as (q' & E2 & Hc2 & Hi2 & y & Hy).
  exists p', q'. split; [exact E|]. split; [exact E2|]. split; [reflexivity|]. split; [reflexivity|]. exists x. split; [exact Hx|].
  destruct (seven_hist half_set) as (A & B & C & D & F). destruct (nine_hist half_set) as (A2 & B2 & _).
  destruct (C95_forgets LS LS EV0 EV0 EV0_ok EV0_ok LS_factorising LS_factorising _ _ _ _ _ _ _ _ (seven half_set) p' (nine half_set) q' A B C I A2 B2 eq_refl eq_refl n_revalued n_reassigned D F b_vector
    eq_refl eq_refl eq_refl E E2 Hc Hc2) as (G & _).
  rewrite Hi, Hi2, Hx, Hy in G. specialize (G eq_refl). change (get_all_variables (p_graph (seven half_set))) with [0%nat] in G. change (p_heap (seven half_set)) with (at_ 7) in G. change (p_heap (nine half_set)) with (at_ 9) in G.
  change (st_rate (p_set (seven half_set))) with (1/2)%R in G. cbn in G. injection G as G. rewrite Hy. unfold at_. do 4 f_equal. change (@eq R y (x + 1)%R). change (car RN) with R in *. lra.
Qed.
(** with a learning rate of 1 they are the same *)
Example C95_case_full : exists p' q', optimize (lib RN) LS EV0 (seven (lset GaussNewton 1)) = (p', Ok tt) /\ optimize (lib RN) LS EV0 (nine (lset GaussNewton 1)) = (q', Ok tt) /\ p_heap q' = p_heap p'.
Proof.
  destruct (once aops 7 (seven (lset GaussNewton 1)) (seven_hist _) eq_refl eq_refl eq_refl eq_refl eq_refl eq_refl eq_refl) as (p' & E & Hc & Hi & _).
  destruct (once nops 9 (nine (lset GaussNewton 1)) (nine_hist _) eq_refl eq_refl eq_refl eq_refl eq_refl eq_refl eq_refl) as (q' & E2 & Hc2 & Hi2 & _).
  exists p', q'. split; [exact E|]. split; [exact E2|].
  destruct (seven_hist (lset GaussNewton 1)) as (A & B & C & D & F). destruct (nine_hist (lset GaussNewton 1)) as (A2 & B2 & _).
  destruct (C95_forgets LS LS EV0 EV0 EV0_ok EV0_ok LS_factorising LS_factorising _ _ _ _ _ _ _ _ (seven (lset GaussNewton 1)) p' (nine (lset GaussNewton 1)) q' A B C I A2 B2 eq_refl eq_refl n_revalued n_reassigned D F b_vector
    eq_refl eq_refl eq_refl E E2 Hc Hc2) as (_ & G). apply G; [reflexivity|lia|lia].
Qed.

Print Assumptions C95_forgets.
Print Assumptions C95_forgets_any.
