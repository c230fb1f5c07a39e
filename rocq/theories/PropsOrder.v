(** C68: the order in which variables and factors were added does not matter (exact arithmetic, Gauss-Newton).
    SimplicialLDLT may permute the unknowns differently in the two runs. *)
From Coq Require Import List Arith ZArith QArith Bool Permutation Reals Lra Lia.
From Verif Require Import Base Sparse Graph SpecGraph SpecOpt Geom Vars VarsLemmas FactorsLin FactorLib SpecShape Optimizer Real SpecSolver SpecSteps OptStepsLib OptOrderRun.
From Verif Require Import OptToy Ldlt LdltSolver OptReal LdltCase OptDefined OrderCase.
Import ListNotations.
Local Open Scope nat_scope.
Set Bullet Behavior "Strict Subproofs".

Theorem C68_insertion_order : forall {V : Type} (VC : vclass RN V) {S S' : Type} (SV : solver RN S) (SV' : solver RN S') (EV EV' : nat -> env (N:=RN) (V:=V)),
  vclass_ok VC -> (forall n, env_ok (EV n)) -> (forall n, env_ok (EV' n)) -> factorising_solver SV -> factorising_solver SV' ->
  forall l1 l1' l2 l2' h1 h1' g1 g1' (p p' : pstate (N:=RN) (V:=V) (S:=S)) (q q' : pstate (N:=RN) (V:=V) (S:=S')),
  finalized_history VC l1 l2 h1 (p_heap p) g1 (p_graph p) -> unfinalized VC ([], empty_graph) l1 ->
  finalized_history VC l1' l2' h1' (p_heap q) g1' (p_graph q) -> unfinalized VC ([], empty_graph) l1' ->
  let vs := get_all_variables (p_graph p) in let fs := get_all_factors (p_graph p) in
  Permutation vs (get_all_variables (p_graph q)) -> Permutation fs (get_all_factors (p_graph q)) -> p_heap p = p_heap q -> p_set p = p_set q ->
  Forall (factor_wf VC (p_heap p) vs) fs -> some_active VC (p_heap p) fs -> Forall buf_indep fs -> shape_contract VC (p_heap p) fs ->
  st_method (p_set p) = GaussNewton -> optimize VC SV EV p = (p', Ok tt) -> optimize VC SV' EV' q = (q', Ok tt) ->
  ~ (ss_status (p_cur p') = FAILED \/ ss_status (p_cur p') = SINGULAR_HESSIAN \/ ss_status (p_cur p') = ILL_CONDITIONED) ->
  ~ (ss_status (p_cur q') = FAILED \/ ss_status (p_cur q') = SINGULAR_HESSIAN \/ ss_status (p_cur q') = ILL_CONDITIONED) ->
  p_heap p' = p_heap q' /\ p_cur p' = p_cur q' /\ p_init p' = p_init q'.
Proof. exact @order_free. Qed.

(** x = 7 and y = 1, x measured as 3 and y - x as 2; the second graph was filled in the opposite order and its unknowns are eliminated in the opposite order *)
Example C68_case : exists p' q', optimize (lib RN) RS EV0 ostart = (p', Ok tt) /\ optimize (lib RN) LS EV0 ostart' = (q', Ok tt) /\
  get_all_variables (p_graph ostart) = [0; 1; 2] /\ get_all_variables (p_graph ostart') = [2; 1; 0] /\
  p_heap p' = p_heap q' /\ p_cur p' = p_cur q' /\ p_init p' = p_init q'.
Proof.
  destruct ostart_run as (p' & E & _ & Nf). destruct ostart_run' as (q' & E' & _ & Nf'). destruct o_lists as (V1 & V2 & F1 & F2 & Eh & Es & Em).
  exists p', q'. split; [exact E|]. split; [exact E'|]. split; [exact V1|]. split; [exact V2|].
  destruct ostart_hist as (A & B & C & D & F). destruct ostart_hist' as (A' & B' & _). destruct (lib_history _ _ _ _ _ _ A C I) as (G1 & G2).
  refine (C68_insertion_order (lib RN) RS LS EV0 EV0 lib_ok EV0_ok EV0_ok RS_factorising LS_factorising _ _ _ _ _ _ _ _ ostart p' ostart' q' A B A' B' _ _ Eh Es D F G1 G2 Em E E' Nf Nf').
  - rewrite V1, V2. exact (Permutation_rev [0; 1; 2]).
  - rewrite F1, F2. exact (Permutation_rev [of1; of2]).
Qed.

Print Assumptions C68_insertion_order.
