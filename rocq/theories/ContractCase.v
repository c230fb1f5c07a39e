(** A variable at 7 with priors 3 and 5 and a learning rate of 1/2. *)
From Coq Require Import List Arith ZArith QArith Bool Reals Lra Lia Qreals.
From Verif Require Import Base Sparse Graph SpecGraph SpecOpt Geom Vars VarsLemmas FactorsLin FactorLib SpecShape Optimizer Real RSum SpecSolver SpecSteps OptToy Ldlt LdltSolver OptReal LdltCase OptStepsLib OptVerdict OptWork OptMore OrderCase PartCase RestCase SpecRest MarginalRun Info ResumeCase SpecContract ContractLib.
Import ListNotations.
Local Open Scope nat_scope.
Set Bullet Behavior "Strict Subproofs".

Definition half_set : settings (N:=RN) := Settings GaussNewton 1 0%R 0%R 1%R 4%R 2%R (1/2)%R (1/2)%R.
Definition bstart : lstate := start (lib RN) LS env0 empty_ldlt half_set aops.
Lemma bstart_hist : ohist LS aops bstart.
Proof. destruct astart_hist as (A & B & C & D & F). unfold ohist. cbn zeta. split; [exact A|]. split; [exact B|]. split; [exact C|]. split; [exact D|exact F]. Qed.
Lemma b_vector : vector_problem (at_ 7) [0] [tf1; tf2].
Proof.
  split.
  - intros a v [<-|[]] Hv _. injection Hv as <-. left. exact I.
  - intros f [<-|[<-|[]]]; [exists (LGenericPrior (N:=RN) 10 0 [3%R] 1%R)|exists (LGenericPrior (N:=RN) 11 0 [5%R] 1%R)]; (split; [reflexivity|]); (split; [exact I|]); (eexists; split; [reflexivity|split; reflexivity]).
Qed.
Lemma b_revalued : revalued (lib RN) (at_ 7) (at_ 4).
Proof.
  apply (rv_moved (lib RN) (at_ 7) (at_ 7) (at_ 4) 0 (LVar (N:=RN) 1 false (KGeneric [7%R])) (LVar (N:=RN) 1 false (KGeneric [(7 + -3)%R])) [(-3)%R]); [constructor|reflexivity|reflexivity| |reflexivity|].
  - unfold at_. cbn. do 4 f_equal. change (@eq R 4%R (7 + -3)%R). ring.
  - intros [|b] Hb; [contradiction|]. destruct b; reflexivity.
Qed.
Lemma b_reassigned : reassigned (lib RN) (at_ 7) (at_ 4) [0].
Proof.
  split; [reflexivity|]. intros [|a] v Hv; [injection Hv as <-|destruct a; discriminate]. eexists. split; [reflexivity|]. do 3 (split; [reflexivity|]). split; [intros [X|X]; [discriminate|exfalso; apply X; left; reflexivity]|reflexivity].
Qed.
Lemma b_stationary : stationary (lib RN) (at_ 4) [0] [tf1; tf2].
Proof.
  exists [(ow * (4 - 3))%R; (ow * (4 - 5))%R], tjac. split; [apply a_residual|]. split; [apply a_jacobian|]. intros i Hi. cbn in Hi. assert (i = 0) by lia. subst i.
  unfold tjac. cbn -[ow Rplus Rmult Ropp Rminus]. rewrite !ow1. ring.
Qed.
Lemma b_once : exists p', optimize (lib RN) LS EV0 bstart = (p', Ok tt) /\ p_caught p' = false /\ ss_iter (p_cur p') = 1 /\ exists z, p_heap p' = at_ z.
Proof.
  destruct bstart_hist as (A & B & C & D & F).
  destruct (a_answers _ _ _ _ bstart 7 A B eq_refl eq_refl eq_refl eq_refl eq_refl) as (p' & E & Hc). exists p'. split; [exact E|]. split; [exact Hc|].
  pose proof (gn_firm (lib RN) LS EV0 lib_ok EV0_ok LS_factorising _ _ _ _ bstart p' A B D F a_buf a_contract eq_refl E Hc) as M.
  destruct (a_moved 7 (p_heap p')) as (z & Hz); [exact (moves_revalued _ _ _ _ _ _ _ M)|]. split; [|exists z; exact Hz].
  apply (one_iteration LS EV0 EV0_ok bstart p' E Hc); [|reflexivity]. intros Fa.
  destruct (gn_failure_codes (lib RN) LS EV0 lib_ok EV0_ok LS_factorising _ _ _ _ bstart p' A B D F a_buf a_contract eq_refl E Hc Fa) as (J & J1 & J2).
  change (get_all_variables (p_graph bstart)) with [0] in J1. change (get_all_factors (p_graph bstart)) with [tf1; tf2] in J1. rewrite Hz in J1.
  destruct (jacobian_unique (lib RN) _ _ _ _ _ J1 (a_jacobian z)) as (E1 & E2 & E3).
  exact (t_posed (ill_posed_same _ _ 0 E1 E2 E3 (verdict_ill _ _ Fa J2))).
Qed.
