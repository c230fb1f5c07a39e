(** Gauss-Newton runs on two sets of measurements with the same information. *)
From Coq Require Import List Arith ZArith QArith Bool Lia Permutation Reals Lra.
From Verif Require Import Base Sparse Graph SpecGraph SpecOpt ListLemmas GraphLayout GraphFin GraphBasic GraphVec GraphDense Optimizer OptLemmas OptWork OptLM OptRun OptMore Real RSum SpecSolver Gram SpecSteps OptSteps SpecBlocks OptVerdict OptOrder OptOrderRun
  SpecPart OptPart OptCov SpecCov OptLastReal CovRun SpecMarginal Marginal MarginalMore MarginalRun Change SpecInfo Info.
Import ListNotations.
Local Open Scope nat_scope.
Set Bullet Behavior "Strict Subproofs".

Section One.
Context {V : Type} (VC : vclass RN V) {S : Type} (SV : solver RN S) (EV : nat -> env (N:=RN) (V:=V)).
Hypothesis Hok : vclass_ok VC.
Hypothesis HE : forall n, env_ok (EV n).
Hypothesis HF : factorising_solver SV.
(** all factors could be evaluated before the last step *)
Lemma run_evaluated l1 l2 h1 g1 (p p' q : pstate (N:=RN) (V:=V) (S:=S)) j :
  finalized_history VC l1 l2 h1 (p_heap p) g1 (p_graph p) -> unfinalized VC ([], empty_graph) l1 ->
  let vs := get_all_variables (p_graph p) in let fs := get_all_factors (p_graph p) in
  Forall (factor_wf VC (p_heap p) vs) fs -> some_active VC (p_heap p) fs -> Forall buf_indep fs -> shape_contract VC (p_heap p) fs ->
  st_method (p_set p) = GaussNewton -> optimize VC SV EV p = (p', Ok tt) -> p_caught p' = false -> ss_iter (p_cur p') = Datatypes.S j ->
  optimize VC SV EV (limit j p) = (q, Ok tt) -> p_caught q = false -> ss_iter (p_cur q) = j -> evaluated (p_heap q) fs.
Proof.
  intros A B vs fs W Ac Bf Sh Hm E Hc Ei J2 J3 J5.
  assert (Nd : NoDup vs) by (destruct (finalized_facts VC Hok _ _ _ _ _ _ A) as (_ & Hf & _); exact (vars_nodup VC _ _ Hf)).
  pose proof (gn_firm VC SV EV Hok HE HF l1 l2 h1 g1 p p' A B W Ac Bf Sh Hm E Hc) as M. rewrite Ei in M.
  pose proof (gn_firm VC SV EV Hok HE HF l1 l2 h1 g1 (limit j p) q A B W Ac Bf Sh Hm J2 J3) as M'. rewrite J5 in M'. cbn in M'. fold vs fs in M, M'.
  inversion M as [|k0 a0 b0 c0 Y Z]; subst. pose proof (moves_same VC _ _ _ _ Nd _ _ _ Y M') as Q. subst b0.
  destruct Z as (s & s1 & r & J' & x' & r2 & B1 & B2 & _). exact (evaluated_at VC _ _ _ _ _ B1 B2).
Qed.
End One.

Section Two.
Context {V : Type} (VC : vclass RN V) {S S' : Type} (SV : solver RN S) (SV' : solver RN S').
Context (EV EV' : nat -> env (N:=RN) (V:=V)).
Hypothesis Hok : vclass_ok VC.
Hypothesis HE : forall n, env_ok (EV n).
Hypothesis HE' : forall n, env_ok (EV' n).
Hypothesis HF : factorising_solver SV.
Hypothesis HF' : factorising_solver SV'.

Section Runs.
Context (l1 l1' l2 l2' : list (env (N:=RN) (V:=V) * op (N:=RN) (V:=V))) (h1 h1' : @heap V) (g1 g1' : graph (N:=RN) (V:=V)) (p : pstate (N:=RN) (V:=V) (S:=S)) (q : pstate (N:=RN) (V:=V) (S:=S')).
Hypothesis A : finalized_history VC l1 l2 h1 (p_heap p) g1 (p_graph p).
Hypothesis B : unfinalized VC ([], empty_graph) l1.
Hypothesis A' : finalized_history VC l1' l2' h1' (p_heap q) g1' (p_graph q).
Hypothesis B' : unfinalized VC ([], empty_graph) l1'.
Let vs := get_all_variables (p_graph p).
Let fs := get_all_factors (p_graph p).
Let vs' := get_all_variables (p_graph q).
Let fs' := get_all_factors (p_graph q).
Hypothesis Eh : p_heap p = p_heap q.
Hypothesis HP : Permutation (free VC (p_heap p) vs) (free VC (p_heap p) vs').
Hypothesis HI : forall h, revalued VC (p_heap p) h -> evaluated h fs -> evaluated h fs' -> same_information VC h vs fs fs'.
Hypothesis W : Forall (factor_wf VC (p_heap p) vs) fs.
Hypothesis W' : Forall (factor_wf VC (p_heap p) vs') fs'.
Hypothesis Ac : some_active VC (p_heap p) fs.
Hypothesis Ac' : some_active VC (p_heap p) fs'.
Hypothesis Bf : Forall buf_indep fs.
Hypothesis Bf' : Forall buf_indep fs'.
Hypothesis Sh : shape_contract VC (p_heap p) fs.
Hypothesis Sh' : shape_contract VC (p_heap p) fs'.
Hypothesis Hm : st_method (p_set p) = GaussNewton.
Hypothesis Hm' : st_method (p_set q) = GaussNewton.
Hypothesis Er : st_rate (p_set p) = st_rate (p_set q).

Lemma info_facts : NoDup vs /\ Forall (fun a => a < length (p_heap p)) vs /\ Forall (fun a => a < length (p_heap p)) vs'.
Proof.
  destruct (finalized_facts VC Hok _ _ _ _ _ _ A) as (_ & Fp & _). destruct (finalized_facts VC Hok _ _ _ _ _ _ A') as (_ & Fq & _).
  split; [exact (vars_nodup VC _ _ Fp)|]. split; [exact (ri_live _ _ _ (fin_reg _ _ _ Fp))|]. rewrite Eh. exact (ri_live _ _ _ (fin_reg _ _ _ Fq)).
Qed.
Theorem info_heaps i j p' q' : optimize VC SV EV (limit i p) = (p', Ok tt) -> optimize VC SV' EV' (limit j q) = (q', Ok tt) -> p_caught p' = false -> p_caught q' = false ->
  ss_iter (p_cur p') = ss_iter (p_cur q') -> p_heap p' = p_heap q' /\ revalued VC (p_heap p) (p_heap p').
Proof.
  intros E E' Hc Hc' Hi. destruct info_facts as (Nd & L & L').
  pose proof (gn_firm VC SV EV Hok HE HF l1 l2 h1 g1 (limit i p) p' A B W Ac Bf Sh Hm E Hc) as M.
  pose proof (gn_firm VC SV' EV' Hok HE' HF' l1' l2' h1' g1' (limit j q) q' A' B') as M'. cbn in M, M'. fold vs fs vs' fs' in M, M'. rewrite <- Eh, <- Er in M'. specialize (M' W' Ac' Bf' Sh' Hm' E' Hc').
  split; [|exact (moves_revalued VC _ _ _ _ _ _ M)]. rewrite <- Hi in M'. exact (moves_info VC Hok _ vs vs' fs fs' _ _ Nd L L' HP HI _ _ M M').
Qed.
Theorem info_covariances p' q' : 1 <= st_max_iter (p_set p) -> 1 <= st_max_iter (p_set q) -> p_hvalid p = false -> p_hvalid q = false ->
  optimize VC SV EV p = (p', Ok tt) -> optimize VC SV' EV' q = (q', Ok tt) -> ~ failure (ss_status (p_cur p')) -> ~ failure (ss_status (p_cur q')) ->
  ss_iter (p_cur p') = ss_iter (p_cur q') ->
  exists p1 q1, prepare SV p' = (p1, Ok tt) /\ prepare SV' q' = (q1, Ok tt) /\
    forall b, In b vs -> 0 < width VC (p_heap p) b -> same_answer (snd (estimate_covariance VC SV (Some b) p1)) (snd (estimate_covariance VC SV' (Some b) q1)).
Proof.
  intros Hn Hn' Hv Hv' E E' Nf Nf' Hi. destruct info_facts as (Nd & L & L').
  destruct (run_answers VC SV EV Hok HE HF l1 l2 h1 g1 p p' A B W Ac Bf Sh Hm Hn Hv E Nf) as (j & r & p1 & J1 & J2 & J3 & J4 & J5 & J6 & J7 & Jn & J8 & J9).
  assert (Wq : Forall (factor_wf VC (p_heap q) vs') fs') by (rewrite <- Eh; exact W').
  assert (Aq : some_active VC (p_heap q) fs') by (rewrite <- Eh; exact Ac').
  assert (Sq : shape_contract VC (p_heap q) fs') by (rewrite <- Eh; exact Sh').
  destruct (run_answers VC SV' EV' Hok HE' HF' l1' l2' h1' g1' q q' A' B' Wq Aq Bf' Sq Hm' Hn' Hv' E' Nf') as (j' & r' & q1 & K1 & K2 & K3 & K4 & K5 & K6 & K7 & Kn & K8 & K9).
  fold vs' fs' in K7, K8, K9. fold vs fs in J7, J8, J9.
  pose proof (run_evaluated VC SV EV Hok HE HF l1 l2 h1 g1 p p' r j A B W Ac Bf Sh Hm E (sound_uncaught VC SV EV HE p p' E Nf) J1 J2 J3 J5) as X.
  pose proof (run_evaluated VC SV' EV' Hok HE' HF' l1' l2' h1' g1' q q' r' j' A' B' Wq Aq Bf' Sq Hm' E' (sound_uncaught VC SV' EV' HE' q q' E' Nf') K1 K2 K3 K5) as X'. fold vs fs in X. fold vs' fs' in X'.
  destruct (info_heaps j j' r r' J2 K2 J3 K3 ltac:(lia)) as (Q & Rv). rewrite <- Q in *.
  exists p1, q1. split; [exact J6|]. split; [exact K6|]. intros b Hb Wb. rewrite <- (J8 b Hb) in Wb.
  assert (P : Permutation (free VC (p_heap r) vs) (free VC (p_heap r) vs')) by (rewrite !(free_revalued VC Hok _ _ _ Rv) by assumption; exact HP).
  refine (answers_info VC (p_heap r) vs vs' fs fs' _ _ P _ J9 K9 b Hb Wb). apply HI; [exact Rv|exact X|exact X'].
Qed.
End Runs.
End Two.
