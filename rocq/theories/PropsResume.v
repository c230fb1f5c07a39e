(** C92: Gauss-Newton can be interrupted and resumed (exact arithmetic). *)
From Coq Require Import List Arith ZArith QArith Bool Reals Lra Lia.
From Verif Require Import Base Sparse Graph SpecGraph SpecOpt Geom Vars VarsLemmas FactorLib SpecShape Optimizer OptWork OptMore Real SpecSolver SpecSteps OptStepsLib ResumeRun.
From Verif Require Import OptToy Ldlt LdltSolver OptReal LdltCase OrderCase RestCase ResumeCase.
Import ListNotations.
Local Open Scope nat_scope.
Set Bullet Behavior "Strict Subproofs".

(** one optimiser object: a run, setup with other settings and a second run; or one run with as many iterations as both *)
Theorem C92_resumed : forall {S : Type} (SV : solver RN S) (EV : nat -> env (N:=RN) (V:=lvar RN)), (forall n, env_ok (EV n)) -> factorising_solver SV ->
  forall l1 l2 h1 g1 (p p' q' w' : pstate (N:=RN) (V:=lvar RN) (S:=S)) st2 st3,
  finalized_history (lib RN) l1 l2 h1 (p_heap p) g1 (p_graph p) -> unfinalized (lib RN) ([], empty_graph) l1 -> careful ([], empty_graph) l1 -> careful (h1, g1) l2 ->
  let vs := get_all_variables (p_graph p) in let fs := get_all_factors (p_graph p) in
  Forall (factor_wf (lib RN) (p_heap p) vs) fs -> some_active (lib RN) (p_heap p) fs ->
  st_method (p_set p) = GaussNewton -> st_method st2 = GaussNewton -> st_method st3 = GaussNewton ->
  st_rate st2 = st_rate (p_set p) -> st_rate st3 = st_rate (p_set p) ->
  optimize (lib RN) SV EV p = (p', Ok tt) -> optimize (lib RN) SV EV (fst (setup true st2 p')) = (q', Ok tt) -> optimize (lib RN) SV EV (fst (setup true st3 p)) = (w', Ok tt) ->
  p_caught p' = false -> p_caught q' = false -> p_caught w' = false ->
  ss_iter (p_cur w') = ss_iter (p_cur p') + ss_iter (p_cur q') -> p_heap w' = p_heap q'.
Proof. exact @resumed_lib. Qed.

(** any variables and factors, and three optimisers with their own solvers, settings and histories *)
Theorem C92_resumed_elsewhere : forall {V : Type} (VC : vclass RN V) {S S2 S3 : Type} (SV : solver RN S) (SV2 : solver RN S2) (SV3 : solver RN S3)
  (EV EV2 EV3 : nat -> env (N:=RN) (V:=V)), vclass_ok VC -> (forall n, env_ok (EV n)) -> (forall n, env_ok (EV2 n)) -> (forall n, env_ok (EV3 n)) ->
  factorising_solver SV -> factorising_solver SV2 -> factorising_solver SV3 ->
  forall l1 l2 h1 g1 (p p' : pstate (N:=RN) (V:=V) (S:=S)) (q q' : pstate (N:=RN) (V:=V) (S:=S2)) (w w' : pstate (N:=RN) (V:=V) (S:=S3)),
  finalized_history VC l1 l2 h1 (p_heap p) g1 (p_graph p) -> unfinalized VC ([], empty_graph) l1 ->
  let vs := get_all_variables (p_graph p) in let fs := get_all_factors (p_graph p) in
  Forall (factor_wf VC (p_heap p) vs) fs -> some_active VC (p_heap p) fs -> Forall buf_indep fs -> shape_contract VC (p_heap p) fs ->
  p_heap q = p_heap p' -> p_graph q = p_graph p' -> p_heap w = p_heap p -> p_graph w = p_graph p ->
  st_method (p_set p) = GaussNewton -> st_method (p_set q) = GaussNewton -> st_method (p_set w) = GaussNewton ->
  st_rate (p_set q) = st_rate (p_set p) -> st_rate (p_set w) = st_rate (p_set p) ->
  optimize VC SV EV p = (p', Ok tt) -> optimize VC SV2 EV2 q = (q', Ok tt) -> optimize VC SV3 EV3 w = (w', Ok tt) ->
  p_caught p' = false -> p_caught q' = false -> p_caught w' = false ->
  ss_iter (p_cur w') = ss_iter (p_cur p') + ss_iter (p_cur q') -> p_heap w' = p_heap q'.
Proof. exact @resumed. Qed.

(** solver, tolerances and iteration limit matter only through the number of iterations *)
Theorem C92_number_of_iterations : forall {V : Type} (VC : vclass RN V) {S S3 : Type} (SV : solver RN S) (SV3 : solver RN S3)
  (EV EV3 : nat -> env (N:=RN) (V:=V)), vclass_ok VC -> (forall n, env_ok (EV n)) -> (forall n, env_ok (EV3 n)) -> factorising_solver SV -> factorising_solver SV3 ->
  forall l1 l2 h1 g1 (p p' : pstate (N:=RN) (V:=V) (S:=S)) (w w' : pstate (N:=RN) (V:=V) (S:=S3)),
  finalized_history VC l1 l2 h1 (p_heap p) g1 (p_graph p) -> unfinalized VC ([], empty_graph) l1 ->
  let vs := get_all_variables (p_graph p) in let fs := get_all_factors (p_graph p) in
  Forall (factor_wf VC (p_heap p) vs) fs -> some_active VC (p_heap p) fs -> Forall buf_indep fs -> shape_contract VC (p_heap p) fs ->
  p_heap w = p_heap p -> p_graph w = p_graph p ->
  st_method (p_set p) = GaussNewton -> st_method (p_set w) = GaussNewton -> st_rate (p_set w) = st_rate (p_set p) ->
  optimize VC SV EV p = (p', Ok tt) -> optimize VC SV3 EV3 w = (w', Ok tt) -> p_caught p' = false -> p_caught w' = false ->
  ss_iter (p_cur w') = ss_iter (p_cur p') -> p_heap w' = p_heap p'.
Proof. exact @same_count. Qed.

(** the variable at 7 with priors 3 and 5: one iteration and, after setup, another; two iterations at once.  Both end at 4 *)
Example C92_case : exists p' q' w', optimize (lib RN) LS EV0 astart = (p', Ok tt) /\ optimize (lib RN) LS EV0 (fst (setup true (lset GaussNewton 1) p')) = (q', Ok tt) /\
  optimize (lib RN) LS EV0 (fst (setup true (lset GaussNewton 2) astart)) = (w', Ok tt) /\
  ss_iter (p_cur p') = 1 /\ ss_iter (p_cur q') = 1 /\ ss_iter (p_cur w') = 2 /\ p_heap w' = p_heap q' /\ p_heap q' = at_ 4 /\ p_heap astart = at_ 7.
Proof.
  destruct a_once as (p' & E & Hc & Hi). destruct (a_again p' E Hc) as (q' & E2 & Hc2 & Hi2 & H4). destruct a_two as (w' & E3 & Hc3 & Hi3 & _).
  destruct astart_hist as (A & B & C & D & F).
  exists p', q', w'. split; [exact E|]. split; [exact E2|]. split; [exact E3|]. split; [exact Hi|]. split; [exact Hi2|]. split; [exact Hi3|]. split; [|split; [exact H4|reflexivity]].
  refine (C92_resumed LS EV0 EV0_ok LS_factorising _ _ _ _ astart p' q' w' (lset GaussNewton 1) (lset GaussNewton 2) A B C I D F eq_refl eq_refl eq_refl eq_refl eq_refl E E2 E3 Hc Hc2 Hc3 _).
  rewrite Hi, Hi2, Hi3. reflexivity.
Qed.

Print Assumptions C92_resumed.
Print Assumptions C92_resumed_elsewhere.
Print Assumptions C92_number_of_iterations.
