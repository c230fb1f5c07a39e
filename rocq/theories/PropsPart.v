(** C75: a part of a graph that no measurement connects to the rest is optimised as if the rest were not there (exact arithmetic, Gauss-Newton). *)
From Coq Require Import List Arith ZArith QArith Bool Permutation Reals Lra Lia.
From Verif Require Import Base Sparse Graph SpecGraph SpecOpt Geom Vars VarsLemmas FactorsLin FactorLib SpecShape Optimizer Real SpecSolver SpecSteps OptStepsLib SpecPart OptPart PartLib.
From Verif Require Import OptToy Ldlt LdltSolver OptReal LdltCase OptDefined Gram OrderCase PartCase.
Import ListNotations.
Local Open Scope nat_scope.
Set Bullet Behavior "Strict Subproofs".

Theorem C75_unconnected_part : forall {V : Type} (VC : vclass RN V) {S S' : Type} (SV : solver RN S) (SV' : solver RN S') (EV EV' : nat -> env (N:=RN) (V:=V)),
  vclass_ok VC -> (forall n, env_ok (EV n)) -> (forall n, env_ok (EV' n)) -> exact_solver SV -> factorising_solver SV' ->
  forall l1 l1' l2 l2' h1 h1' g1 g1' (p p' : pstate (N:=RN) (V:=V) (S:=S)) (q q' : pstate (N:=RN) (V:=V) (S:=S')),
  finalized_history VC l1 l2 h1 (p_heap p) g1 (p_graph p) -> unfinalized VC ([], empty_graph) l1 ->
  finalized_history VC l1' l2' h1' (p_heap q) g1' (p_graph q) -> unfinalized VC ([], empty_graph) l1' ->
  let vs := get_all_variables (p_graph p) in let fs := get_all_factors (p_graph p) in
  let vs' := get_all_variables (p_graph q) in let fs' := get_all_factors (p_graph q) in
  p_heap p = p_heap q -> part_of_graph VC (p_heap p) vs vs' fs fs' ->
  Forall (factor_wf VC (p_heap p) vs) fs -> Forall (factor_wf VC (p_heap p) vs') fs' -> some_active VC (p_heap p) fs' ->
  Forall buf_indep fs -> shape_contract VC (p_heap p) fs -> Forall reads_only fs' ->
  st_method (p_set p) = GaussNewton -> st_method (p_set q) = GaussNewton -> st_rate (p_set p) = st_rate (p_set q) ->
  optimize VC SV EV p = (p', Ok tt) -> optimize VC SV' EV' q = (q', Ok tt) -> p_caught p' = false -> p_caught q' = false ->
  ss_iter (p_cur p') = ss_iter (p_cur q') ->
  forall a, In a vs' -> nth_error (p_heap p') a = nth_error (p_heap q') a.
Proof. exact @part_alone. Qed.

(** C75, the factors of the library *)
Theorem C75_library_reads_only : forall {N : num} (f : lib_factor N), reads_only (build f).
Proof. exact @lib_reads_only. Qed.

(** x = 7 and y = 1 are both measured against the constant 2; y and its measurement are missing from the second graph *)
Example C75_case : exists p' q', optimize (lib RN) RS EV0 whole = (p', Ok tt) /\ optimize (lib RN) LS EV0 alone = (q', Ok tt) /\
  get_all_variables (p_graph whole) = [0; 1; 2] /\ get_all_variables (p_graph alone) = [2; 0] /\
  ss_iter (p_cur p') = 1 /\ ss_iter (p_cur q') = 1 /\ nth_error (p_heap p') 0 = nth_error (p_heap q') 0.
Proof.
  destruct whole_run as (p' & E & Hc & Hi). destruct alone_run as (q' & E' & Hc' & Hi').
  exists p', q'. split; [exact E|]. split; [exact E'|]. split; [reflexivity|]. split; [reflexivity|]. split; [exact Hi|]. split; [exact Hi'|].
  destruct whole_hist as (A & B & C & D & F). destruct alone_hist as (A' & B' & C' & D' & F'). destruct (lib_history _ _ _ _ _ _ A C I) as (G1 & G2).
  refine (C75_unconnected_part (lib RN) RS LS EV0 EV0 lib_ok EV0_ok EV0_ok (factorising_exact RS RS_factorising) LS_factorising _ _ _ _ _ _ _ _ whole p' alone q' A B A' B' _ _ D _ _ G1 G2 _ _ _ _ E E' Hc Hc' (eq_trans Hi (eq_sym Hi')) 0 _).
  - exact (eq_trans (y:=oheap) eq_refl eq_refl).
  - exact p_part.
  - exact D'.
  - exact F'.
  - change (get_all_factors (p_graph alone)) with [pf1]. constructor; [|constructor]. exact (C75_library_reads_only (LGenericBetween (N:=RN) 10 2 0 2 1 1%R)).
  - reflexivity.
  - reflexivity.
  - transitivity (st_rate (lset GaussNewton 1)); reflexivity.
  - change (get_all_variables (p_graph alone)) with [2; 0]. cbn; auto.
Qed.

Print Assumptions C75_unconnected_part.
Print Assumptions C75_library_reads_only.
