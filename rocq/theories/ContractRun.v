(** Gauss-Newton runs on linear problems. *)
From Coq Require Import List Arith ZArith QArith Bool Reals Lra Lia Permutation.
From Verif Require Import Base Sparse Graph SpecGraph SpecOpt ListLemmas GraphLayout GraphFin GraphBasic GraphVec GraphDense Optimizer OptLemmas OptWork OptRun OptMore Real RSum SpecSolver SpecSteps OptSteps OptLinear SpecBlocks OptOrder OptOrderRun OptVerdict OptFacts SpecRest MarginalRun CovRun Info SpecContract Contract.
Import ListNotations.
Local Open Scope nat_scope.
Set Bullet Behavior "Strict Subproofs".

Lemma moves_first {A : Type} (st : A -> A -> Prop) k a c : moves st (S k) a c -> exists b, st a b.
Proof.
  revert c. induction k; intros c M; inversion M as [|k0 x b y M1 F]; subst; [inversion M1; subst; eauto|]. exact (IHk _ M1).
Qed.

Section Run.
Context {V : Type} (VC : vclass RN V) {S : Type} (SV : solver RN S) (EV : nat -> env (N:=RN) (V:=V)).
Hypothesis Hok : vclass_ok VC.
Hypothesis HE : forall n, env_ok (EV n).
Hypothesis HF : factorising_solver SV.

Lemma contracts l1 l2 h1 g1 (p p' : pstate (N:=RN) (V:=V) (S:=S)) hs :
  finalized_history VC l1 l2 h1 (p_heap p) g1 (p_graph p) -> unfinalized VC ([], empty_graph) l1 ->
  let vs := get_all_variables (p_graph p) in let fs := get_all_factors (p_graph p) in
  Forall (factor_wf VC (p_heap p) vs) fs -> some_active VC (p_heap p) fs -> Forall buf_indep fs -> shape_contract VC (p_heap p) fs ->
  linear_problem VC (p_heap p) vs fs -> revalued VC (p_heap p) hs -> reassigned VC (p_heap p) hs vs -> stationary VC hs vs fs ->
  st_method (p_set p) = GaussNewton -> optimize VC SV EV p = (p', Ok tt) -> p_caught p' = false ->
  let q := ((1 - st_rate (p_set p)) ^ ss_iter (p_cur p'))%R in
  distance_scaled VC q vs hs (p_heap p) (p_heap p') /\
  forall rs, stacked hs fs rs ->
    (ss_chi2 (p_cur p') - sqnorm (N:=RN) rs = q * q * (ss_chi2 (p_init p') - sqnorm (N:=RN) rs))%R /\
    (0 < ss_iter (p_cur p') -> forall h r, reassigned VC (p_heap p) h vs -> stacked h fs r -> (sqnorm (N:=RN) rs <= sqnorm (N:=RN) r)%R).
Proof.
  intros A B vs fs W Ac Bf Sh L Rv Ra St Hm E Hc q.
  destruct (finalized_facts VC Hok _ _ _ _ _ _ A) as (_ & Hf & _). assert (Nd : NoDup vs) by exact (vars_nodup VC _ _ Hf).
  pose proof (ri_live _ _ _ (fin_reg _ _ _ Hf)) as Hl.
  pose proof (gn_firm VC SV EV Hok HE HF l1 l2 h1 g1 p p' A B W Ac Bf Sh Hm E Hc) as M. fold vs fs in M.
  destruct (stats_gn VC SV EV Hok HE l1 l2 h1 g1 p p' A Hm E Hc) as (r0 & r1 & S0 & S1 & N0 & _ & N1 & _). fold fs in S0, S1.
  destruct (ss_iter (p_cur p')) as [|k] eqn:Ek.
  - assert (Eh : p_heap p' = p_heap p) by (inversion M; congruence). unfold q. cbn [pow]. split.
    + rewrite Eh. intros a' v v' w _ H1 H2 _ _ c _. assert (v' = v) by congruence. subst v'. ring.
    + intros rs Hs. split; [|lia]. rewrite N0, N1. rewrite Eh in S1. rewrite (stacked_fun _ _ _ _ S1 S0). match goal with |- ?a = ?b => change (@eq R a b) end. ring.
  - destruct (moves_first _ _ _ _ M) as (b & s & s1 & r & J & x & r2 & _ & HJ & _).
    destruct St as (rs & Js & Ss & HJs & St). destruct (same_jacobian VC Hok _ vs fs Hl L hs J Js (conj Rv Ra) HJ HJs) as (E1 & E2 & E3).
    assert (St' : forall i, i < mcols J -> rsum (mrows J) (fun k => mat_at J k i * nth k rs 0)%R = 0%R).
    { intros i Hi. rewrite <- E2 in Hi. etransitivity; [|exact (St i Hi)]. rewrite E1. apply rsum_ext. intros c Hc'. rewrite E3 by lia. reflexivity. }
    split; [exact (steps_scaled VC Hok _ vs fs _ Nd Hl W L hs J r0 rs (conj Rv Ra) HJ S0 Ss St' _ _ M)|].
    intros rs' Hs'. pose proof (stacked_fun _ _ _ _ Hs' Ss) as ->. split.
    + rewrite N0, N1. exact (steps_cost VC Hok _ vs fs _ Nd Hl W L hs J r0 rs (conj Rv Ra) HJ S0 Ss St' _ _ r1 M S1).
    + intros _ h y Rh Hr. exact (optimum_least VC _ vs fs Nd W L hs J r0 rs (conj Rv Ra) HJ S0 Ss St' h y Rh Hr).
Qed.
End Run.
