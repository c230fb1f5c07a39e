(** Two Gauss-Newton runs one after the other and one run over both (exact arithmetic). *)
From Coq Require Import List Arith ZArith QArith Bool Reals Lra Lia Permutation.
From Verif Require Import Base Sparse Graph SpecGraph SpecOpt ListLemmas GraphLayout GraphFin GraphBasic GraphVec GraphDense Optimizer OptLemmas OptWork OptRun OptMore Real SpecSolver SpecSteps OptSteps SpecBlocks OptOrder OptOrderRun MarginalRun Change Info InfoRun.
Import ListNotations.
Local Open Scope nat_scope.
Set Bullet Behavior "Strict Subproofs".

Section Resume.
Context {V : Type} (VC : vclass RN V) {S S2 S3 : Type} (SV : solver RN S) (SV2 : solver RN S2) (SV3 : solver RN S3).
Context (EV EV2 EV3 : nat -> env (N:=RN) (V:=V)).
Hypothesis Hok : vclass_ok VC.
Hypothesis HE : forall n, env_ok (EV n).
Hypothesis HE2 : forall n, env_ok (EV2 n).
Hypothesis HE3 : forall n, env_ok (EV3 n).
Hypothesis HF : factorising_solver SV.
Hypothesis HF2 : factorising_solver SV2.
Hypothesis HF3 : factorising_solver SV3.

Lemma same_count l1 l2 h1 g1 (p p' : pstate (N:=RN) (V:=V) (S:=S)) (w w' : pstate (N:=RN) (V:=V) (S:=S3)) :
  finalized_history VC l1 l2 h1 (p_heap p) g1 (p_graph p) -> unfinalized VC ([], empty_graph) l1 ->
  let vs := get_all_variables (p_graph p) in let fs := get_all_factors (p_graph p) in
  Forall (factor_wf VC (p_heap p) vs) fs -> some_active VC (p_heap p) fs -> Forall buf_indep fs -> shape_contract VC (p_heap p) fs ->
  p_heap w = p_heap p -> p_graph w = p_graph p ->
  st_method (p_set p) = GaussNewton -> st_method (p_set w) = GaussNewton -> st_rate (p_set w) = st_rate (p_set p) ->
  optimize VC SV EV p = (p', Ok tt) -> optimize VC SV3 EV3 w = (w', Ok tt) -> p_caught p' = false -> p_caught w' = false ->
  ss_iter (p_cur w') = ss_iter (p_cur p') -> p_heap w' = p_heap p'.
Proof.
  intros A B vs fs W Ac Bf Sh Eh Eg Hm Hm3 Er E E3 Hc Hc3 Ei.
  assert (Nd : NoDup vs) by (destruct (finalized_facts VC Hok _ _ _ _ _ _ A) as (_ & Hf & _); exact (vars_nodup VC _ _ Hf)).
  pose proof (gn_firm VC SV EV Hok HE HF l1 l2 h1 g1 p p' A B W Ac Bf Sh Hm E Hc) as M.
  assert (M3 : moves (OptPart.firm VC (st_rate (p_set w)) (get_all_variables (p_graph w)) (get_all_factors (p_graph w))) (ss_iter (p_cur w')) (p_heap w) (p_heap w')).
  { apply (gn_firm VC SV3 EV3 Hok HE3 HF3 l1 l2 h1 g1 w w'); rewrite ?Eh, ?Eg; auto. }
  rewrite Eg, Eh, Er, Ei in M3. exact (moves_same VC _ _ _ _ Nd _ _ _ M3 M).
Qed.
Lemma resumed l1 l2 h1 g1 (p p' : pstate (N:=RN) (V:=V) (S:=S)) (q q' : pstate (N:=RN) (V:=V) (S:=S2)) (w w' : pstate (N:=RN) (V:=V) (S:=S3)) :
  finalized_history VC l1 l2 h1 (p_heap p) g1 (p_graph p) -> unfinalized VC ([], empty_graph) l1 ->
  let vs := get_all_variables (p_graph p) in let fs := get_all_factors (p_graph p) in
  Forall (factor_wf VC (p_heap p) vs) fs -> some_active VC (p_heap p) fs -> Forall buf_indep fs -> shape_contract VC (p_heap p) fs ->
  p_heap q = p_heap p' -> p_graph q = p_graph p' -> p_heap w = p_heap p -> p_graph w = p_graph p ->
  st_method (p_set p) = GaussNewton -> st_method (p_set q) = GaussNewton -> st_method (p_set w) = GaussNewton ->
  st_rate (p_set q) = st_rate (p_set p) -> st_rate (p_set w) = st_rate (p_set p) ->
  optimize VC SV EV p = (p', Ok tt) -> optimize VC SV2 EV2 q = (q', Ok tt) -> optimize VC SV3 EV3 w = (w', Ok tt) ->
  p_caught p' = false -> p_caught q' = false -> p_caught w' = false ->
  ss_iter (p_cur w') = ss_iter (p_cur p') + ss_iter (p_cur q') -> p_heap w' = p_heap q'.
Proof.
  intros A B vs fs W Ac Bf Sh Eh2 Eg2 Eh Eg Hm Hm2 Hm3 Er2 Er E E2 E3 Hc Hc2 Hc3 Ei.
  destruct (finalized_facts VC Hok _ _ _ _ _ _ A) as (_ & Hf & _ & R1 & _). assert (Nd : NoDup vs) by exact (vars_nodup VC _ _ Hf).
  pose proof (ri_live _ _ _ (fin_reg _ _ _ Hf)) as Hl.
  pose proof (gn_firm VC SV EV Hok HE HF l1 l2 h1 g1 p p' A B W Ac Bf Sh Hm E Hc) as M. fold vs fs in M.
  pose proof (moves_revalued VC _ _ _ _ _ _ M) as Rv.
  destruct (optimize_history VC SV EV HE _ _ _ _ _ _ _ A E) as (l2' & A2).
  destruct (finalized_facts VC Hok _ _ _ _ _ _ A2) as (_ & _ & _ & R2 & _).
  assert (Ev : get_all_variables (p_graph q) = vs) by (unfold vs, get_all_variables; rewrite Eg2, R2, R1; reflexivity).
  assert (Ef : get_all_factors (p_graph q) = fs) by (unfold fs, get_all_factors; rewrite Eg2, R2, R1; reflexivity).
  assert (M2 : moves (OptPart.firm VC (st_rate (p_set q)) (get_all_variables (p_graph q)) (get_all_factors (p_graph q))) (ss_iter (p_cur q')) (p_heap q) (p_heap q')).
  { apply (gn_firm VC SV2 EV2 Hok HE2 HF2 l1 l2' h1 g1 q q'); rewrite ?Ev, ?Ef; auto; rewrite ?Eh2, ?Eg2; auto.
    - eapply Forall_impl; [|exact W]. intros f. apply wf_pres; [apply (revalued_hpres VC Hok); exact Rv|exact Hl].
    - exact (active_revalued VC Hok _ _ _ Rv Ac).
    - exact (contract_revalued VC _ _ _ Rv Sh). }
  rewrite Ev, Ef, Eh2, Er2 in M2.
  assert (M3 : moves (OptPart.firm VC (st_rate (p_set w)) (get_all_variables (p_graph w)) (get_all_factors (p_graph w))) (ss_iter (p_cur w')) (p_heap w) (p_heap w')).
  { apply (gn_firm VC SV3 EV3 Hok HE3 HF3 l1 l2 h1 g1 w w'); rewrite ?Eh, ?Eg; auto. }
  rewrite Eg, Eh, Er, Ei in M3. exact (moves_same VC _ _ _ _ Nd _ _ _ M3 (moves_app _ _ _ _ _ _ M M2)).
Qed.
End Resume.

(** one optimiser object, set up again between the runs *)
From Verif Require Import Vars VarsLemmas FactorLib SpecShape OptStepsLib.
Lemma resumed_lib {S : Type} (SV : solver RN S) (EV : nat -> env (N:=RN) (V:=lvar RN)) (HE : forall n, env_ok (EV n)) (HF : factorising_solver SV)
  l1 l2 h1 g1 (p p' q' w' : pstate (N:=RN) (V:=lvar RN) (S:=S)) st2 st3 :
  finalized_history (lib RN) l1 l2 h1 (p_heap p) g1 (p_graph p) -> unfinalized (lib RN) ([], empty_graph) l1 -> careful ([], empty_graph) l1 -> careful (h1, g1) l2 ->
  let vs := get_all_variables (p_graph p) in let fs := get_all_factors (p_graph p) in
  Forall (factor_wf (lib RN) (p_heap p) vs) fs -> some_active (lib RN) (p_heap p) fs ->
  st_method (p_set p) = GaussNewton -> st_method st2 = GaussNewton -> st_method st3 = GaussNewton ->
  st_rate st2 = st_rate (p_set p) -> st_rate st3 = st_rate (p_set p) ->
  optimize (lib RN) SV EV p = (p', Ok tt) -> optimize (lib RN) SV EV (fst (setup true st2 p')) = (q', Ok tt) -> optimize (lib RN) SV EV (fst (setup true st3 p)) = (w', Ok tt) ->
  p_caught p' = false -> p_caught q' = false -> p_caught w' = false ->
  ss_iter (p_cur w') = ss_iter (p_cur p') + ss_iter (p_cur q') -> p_heap w' = p_heap q'.
Proof.
  intros A B C1 C2 vs fs W Ac Hm Hm2 Hm3 R2 R3 E E2 E3 Hc Hc2 Hc3 Ei. destruct (lib_history _ _ _ _ _ _ A C1 C2) as (G1 & G2).
  exact (resumed (lib RN) SV SV SV EV EV EV lib_ok HE HE HE HF HF HF l1 l2 h1 g1 p p' (fst (setup true st2 p')) q' (fst (setup true st3 p)) w' A B W Ac G1 G2
    eq_refl eq_refl eq_refl eq_refl Hm Hm2 Hm3 R2 R3 E E2 E3 Hc Hc2 Hc3 Ei).
Qed.
