(** Run-level facts in the form used by PropsOptimizer. *)
From Coq Require Import List Arith ZArith QArith Bool Reals Lia Lra Qreals.
From Verif Require Import Base Sparse Graph SpecGraph GraphLayout GraphFin GraphBasic Optimizer SpecOpt OptLemmas OptWork OptLM OptRun Real SpecSolver
  OptMore OptLambda OptCov OptExact OptLinear.
Import ListNotations.
Local Open Scope nat_scope.

Section Facts.
Context {N : num} {V : Type} (VC : vclass N V) {S : Type} (SV : solver N S) (EV : nat -> env (N:=N) (V:=V)).
Notation pstate := (pstate (N:=N) (V:=V) (S:=S)).

Lemma status_facts (p p' : pstate) : optimize VC SV EV p = (p', Ok tt) ->
  let s := ss_status (p_cur p') in let valid := ss_valid (p_cur p') in
  s <> RUNNING /\ (s = SUCCESS -> valid = true) /\
  (s = FAILED \/ s = SINGULAR_HESSIAN \/ s = ILL_CONDITIONED -> valid = false) /\
  (valid = false -> s = FAILED \/ s = SINGULAR_HESSIAN \/ s = ILL_CONDITIONED \/ s = DIVERGED).
Proof.
  intros E. destruct (optimize_status VC SV EV p p' E) as (A & B & C & D). simpl. split; auto. split; auto. split; auto.
  intros H. destruct (D H) as [[X|[X|X]]|X]; auto.
Qed.

Hypothesis Hok : vclass_ok VC.
Hypothesis HE : forall n, env_ok (EV n).

Lemma pfin_of l1 l2 h1 g1 (p : pstate) : finalized_history VC l1 l2 h1 (p_heap p) g1 (p_graph p) -> pfin VC p.
Proof. intros H. destruct (finalized_facts VC Hok _ _ _ _ _ _ H) as (_ & F & _). exact F. Qed.
Lemma facs_of l1 l2 h1 g1 (p p' : pstate) r : finalized_history VC l1 l2 h1 (p_heap p) g1 (p_graph p) ->
  optimize VC SV EV p = (p', r) -> get_all_factors (p_graph p') = get_all_factors (p_graph p).
Proof.
  intros H E. destruct (optimize_history VC SV EV HE _ _ _ _ _ _ _ H E) as (l2' & H').
  destruct (finalized_facts VC Hok _ _ _ _ _ _ H) as (_ & _ & _ & R1 & _).
  destruct (finalized_facts VC Hok _ _ _ _ _ _ H') as (_ & _ & _ & R2 & _).
  unfold get_all_factors. rewrite R1, R2. reflexivity.
Qed.

Lemma stats_lm (I : V -> Prop) l1 l2 h1 g1 (p p' : pstate) :
  undoable VC I -> cost_order (N:=N) -> finalized_history VC l1 l2 h1 (p_heap p) g1 (p_graph p) ->
  (forall a v, nth_error (p_heap p) a = Some v -> I v) ->
  st_method (p_set p) = LevenbergMarquardt -> optimize VC SV EV p = (p', Ok tt) -> p_caught p' = false ->
  exists r0 r1, stacked (p_heap p) (get_all_factors (p_graph p)) r0 /\ stacked (p_heap p') (get_all_factors (p_graph p)) r1 /\
    ss_chi2 (p_init p') = sqnorm r0 /\ ss_resnorm (p_init p') = vnorm r0 /\
    ss_chi2 (p_cur p') = sqnorm r1 /\ ss_resnorm (p_cur p') = vnorm r1.
Proof.
  intros HI HO HF Hh Hm E Hc. destruct (optimize_lm VC SV EV Hok HE I HI p p' HO (pfin_of _ _ _ _ _ HF) Hh Hm E Hc)
    as (r0 & r1 & A1 & A2 & A3 & A4 & A5 & A6 & _).
  exists r0, r1. unfold facs in *. rewrite (facs_of _ _ _ _ _ _ _ HF E) in A2. auto 10.
Qed.
Lemma lm_not_worse (I : V -> Prop) l1 l2 h1 g1 (p p' : pstate) :
  undoable VC I -> cost_order (N:=N) -> finalized_history VC l1 l2 h1 (p_heap p) g1 (p_graph p) ->
  (forall a v, nth_error (p_heap p) a = Some v -> I v) ->
  st_method (p_set p) = LevenbergMarquardt -> optimize VC SV EV p = (p', Ok tt) -> p_caught p' = false ->
  exists r0 r1, stacked (p_heap p) (get_all_factors (p_graph p)) r0 /\ stacked (p_heap p') (get_all_factors (p_graph p)) r1 /\
    ss_chi2 (p_init p') = sqnorm r0 /\ ss_chi2 (p_cur p') = sqnorm r1 /\
    (p_heap p' = p_heap p /\ r1 = r0 \/ nltb (sqnorm r1) (sqnorm r0) = true).
Proof.
  intros HI HO HF Hh Hm E Hc. destruct (optimize_lm VC SV EV Hok HE I HI p p' HO (pfin_of _ _ _ _ _ HF) Hh Hm E Hc)
    as (r0 & r1 & A1 & A2 & A3 & A4 & A5 & A6 & A7).
  unfold facs in *. rewrite (facs_of _ _ _ _ _ _ _ HF E) in A2. exists r0, r1. split; auto. split; auto. split; auto. split; auto.
  destruct A7 as [A7|A7]; auto. left. split; auto. rewrite A7 in A2. exact (stacked_fun _ _ _ _ A2 A1).
Qed.
Lemma lm_step_undone (I : V -> Prop) l1 l2 h1 g1 (p p' : pstate) :
  undoable VC I -> cost_order (N:=N) -> finalized_history VC l1 l2 h1 (p_heap p) g1 (p_graph p) ->
  (forall a v, nth_error (p_heap p) a = Some v -> I v) ->
  lm_step VC SV EV p = (p', Ok tt) ->
  exists r1 r2, stacked (p_heap p) (get_all_factors (p_graph p)) r1 /\ stacked (p_heap p') (get_all_factors (p_graph p)) r2 /\
    (p_heap p' = p_heap p /\ ss_status (p_cur p') <> RUNNING \/
     nltb (sqnorm r2) (sqnorm r1) = true /\ ss_status (p_cur p') = ss_status (p_cur p)).
Proof.
  intros HI HO HF Hh E. destruct (lm_step_spec VC SV EV Hok HE I HI p p' (pfin_of _ _ _ _ _ HF) Hh E)
    as (_ & _ & _ & _ & r1 & r2 & A1 & A2 & _ & _ & _ & A3).
  exists r1, r2. split; auto. split; auto. destruct A3 as [(A3 & _ & A4)|(A3 & _ & A4)].
  - left. split; auto. destruct A4 as [(_ & _ & ->)|(_ & A4)]; [discriminate|]. destruct A4 as [->|[->| ->]]; discriminate.
  - right. split; auto. apply (co_half HO). exact A3.
Qed.
Lemma stats_gn l1 l2 h1 g1 (p p' : pstate) :
  finalized_history VC l1 l2 h1 (p_heap p) g1 (p_graph p) -> st_method (p_set p) = GaussNewton ->
  optimize VC SV EV p = (p', Ok tt) -> p_caught p' = false ->
  exists r0 r1, stacked (p_heap p) (get_all_factors (p_graph p)) r0 /\ stacked (p_heap p') (get_all_factors (p_graph p)) r1 /\
    ss_chi2 (p_init p') = sqnorm r0 /\ ss_resnorm (p_init p') = vnorm r0 /\
    ss_chi2 (p_cur p') = sqnorm r1 /\ ss_resnorm (p_cur p') = vnorm r1.
Proof.
  intros HF Hm E Hc. destruct (optimize_described_gn VC SV EV Hok HE p p' (pfin_of _ _ _ _ _ HF) Hm E Hc)
    as ((r1 & A1 & A2 & A3) & (r0 & B1 & B2 & B3)).
  exists r0, r1. unfold facs in *. rewrite (facs_of _ _ _ _ _ _ _ HF E) in A1. auto 10.
Qed.
(** the same state with another iteration limit in its settings *)
Definition with_max_iter (k : nat) (p : pstate) : pstate := limit k p.
Lemma gn_failed_run l1 l2 h1 g1 (p p' : pstate) :
  finalized_history VC l1 l2 h1 (p_heap p) g1 (p_graph p) -> st_method (p_set p) = GaussNewton ->
  optimize VC SV EV p = (p', Ok tt) -> p_caught p' = false ->
  ss_status (p_cur p') = FAILED \/ ss_status (p_cur p') = SINGULAR_HESSIAN \/ ss_status (p_cur p') = ILL_CONDITIONED ->
  ss_iter (p_cur p') < st_max_iter (p_set p) /\
  exists p2, optimize VC SV EV (with_max_iter (ss_iter (p_cur p')) p) = (p2, Ok tt) /\
    p_heap p2 = p_heap p' /\ ss_status (p_cur p2) = SUCCESS /\ ss_iter (p_cur p2) = ss_iter (p_cur p') /\
    ss_chi2 (p_cur p2) = ss_chi2 (p_cur p') /\ ss_resnorm (p_cur p2) = ss_resnorm (p_cur p').
Proof. intros HF. exact (gn_run_failed VC SV EV HE p p' (pfin_of _ _ _ _ _ HF)). Qed.
Lemma lm_success_improves (I : V -> Prop) l1 l2 h1 g1 (p p' : pstate) :
  undoable VC I -> cost_order (N:=N) -> finalized_history VC l1 l2 h1 (p_heap p) g1 (p_graph p) ->
  (forall a v, nth_error (p_heap p) a = Some v -> I v) ->
  st_method (p_set p) = LevenbergMarquardt -> 1 <= st_max_iter (p_set p) -> optimize VC SV EV p = (p', Ok tt) ->
  ss_status (p_cur p') = SUCCESS ->
  exists r0 r1, stacked (p_heap p) (get_all_factors (p_graph p)) r0 /\ stacked (p_heap p') (get_all_factors (p_graph p)) r1 /\
    nltb (sqnorm r1) (sqnorm r0) = true /\ ss_chi2 (p_cur p') = sqnorm r1.
Proof.
  intros HI HO HF Hh Hm Hn E Hs. destruct (lm_success VC SV EV Hok HE I HI HO p p' (pfin_of _ _ _ _ _ HF) Hh Hm E Hn Hs)
    as (r0 & r1 & A1 & A2 & A3 & _ & A4 & _). exists r0, r1. auto.
Qed.
End Facts.

Section RealFacts.
Context {V : Type} (VC : vclass RN V) {S : Type} (SV : solver RN S) (EV : nat -> env (N:=RN) (V:=V)).
Notation pstate := (pstate (N:=RN) (V:=V) (S:=S)).
Local Open Scope R_scope.
Lemma eps_val : eps = 1 / 1000000000000.
Proof. unfold eps. simpl. unfold Q2R. simpl. lra. Qed.
Lemma lambda_growth (p p' : pstate) :
  (0 <= st_lambda0 (p_set p) /\ 0 <= st_max_lambda (p_set p) /\ 0 <= st_up (p_set p) /\ 0 <= st_down (p_set p) <= 1)%R ->
  st_method (p_set p) = LevenbergMarquardt -> (1 <= st_max_iter (p_set p))%nat ->
  optimize VC SV EV p = (p', Ok tt) -> p_caught p' = false ->
  0 <= ss_lambda (p_cur p') <=
    Rmax (Rmax (st_lambda0 (p_set p)) (st_max_lambda (p_set p))) (1 / 1000000000000) * Rmax 1 (st_up (p_set p)) ^ (p_nbad p' - p_nbad p).
Proof. intros H A B C D. rewrite <- eps_val. exact (run_lambda VC SV EV p p' H A B C D). Qed.
Lemma lambda_upper (p p' : pstate) :
  (0 <= st_lambda0 (p_set p) /\ 0 <= st_max_lambda (p_set p) /\ 0 <= st_up (p_set p) /\ 0 <= st_down (p_set p) <= 1)%R ->
  st_method (p_set p) = LevenbergMarquardt -> (1 <= st_max_iter (p_set p))%nat ->
  optimize VC SV EV p = (p', Ok tt) -> p_caught p' = false -> p_nbad p' = p_nbad p ->
  0 <= ss_lambda (p_cur p') <= Rmax (Rmax (st_lambda0 (p_set p)) (st_max_lambda (p_set p))) (1 / 1000000000000).
Proof.
  intros H A B C D E. destruct (lambda_growth p p' H A B C D) as [G1 G2]. split; auto.
  rewrite E, Nat.sub_diag in G2. simpl in G2. rewrite Rmult_1_r in G2. exact G2.
Qed.
Lemma lambda_floor (p p' : pstate) : lm_step VC SV EV p = (p', Ok tt) ->
  ss_status (p_cur p) = RUNNING -> ss_status (p_cur p') = RUNNING -> 1 / 1000000000000 <= ss_lambda (p_cur p').
Proof. rewrite <- eps_val. exact (lm_step_floor VC SV EV p p'). Qed.
End RealFacts.
