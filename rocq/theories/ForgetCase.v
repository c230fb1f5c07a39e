(** A variable with priors 3 and 5, started at 7 and at 9. *)
From Coq Require Import List Arith ZArith QArith Bool Reals Lra Lia Qreals.
From Verif Require Import Base Sparse Graph SpecGraph SpecOpt Geom Vars VarsLemmas FactorsLin FactorLib SpecShape Optimizer Real RSum SpecSolver SpecSteps OptToy Ldlt LdltSolver OptReal LdltCase OptStepsLib OptVerdict OptWork OptMore OrderCase PartCase RestCase SpecRest MarginalRun Info ResumeCase SpecContract ContractCase.
Import ListNotations.
Local Open Scope nat_scope.
Set Bullet Behavior "Strict Subproofs".

Definition nops : list (op (N:=RN) (V:=lvar RN)) := [ ONew (LVar 1 false (KGeneric [9%R])); OAddVar (Some 0); OAddFactor (Some tf1); OAddFactor (Some tf2) ].
Definition nine (st : settings (N:=RN)) : lstate := start (lib RN) LS env0 empty_ldlt st nops.
Definition seven (st : settings (N:=RN)) : lstate := start (lib RN) LS env0 empty_ldlt st aops.
Lemma nine_hist st : ohist LS nops (nine st).
Proof.
  unfold ohist. cbn zeta. split; [unfold on_ops, nine; apply start_finalized; rc; reflexivity|]. change (get_all_variables (p_graph (nine st))) with [0]. change (get_all_factors (p_graph (nine st))) with [tf1; tf2]. change (p_heap (nine st)) with (at_ 9).
  split; [repeat (split; [discriminate|]); exact I|]. split; [|split; [apply a_wf|apply a_active]].
  pose proof (a_used 9) as U. inversion U as [|? ? (lf & U1 & U2 & _) U']; subst. inversion U' as [|? ? (lg & U3 & U4 & _) _]; subst.
  do 2 (split; [first [exact I|reflexivity]|]). split; [exists lf; split; [exact U1|exact U2]|]. split; [exists lg; split; [exact U3|exact U4]|exact I].
Qed.
Lemma seven_hist st : ohist LS aops (seven st).
Proof. destruct astart_hist as (A & B & C & D & F). unfold ohist. cbn zeta. split; [exact A|]. split; [exact B|]. split; [exact C|]. split; [exact D|exact F]. Qed.
Lemma n_revalued : revalued (lib RN) (at_ 7) (at_ 9).
Proof.
  apply (rv_moved (lib RN) (at_ 7) (at_ 7) (at_ 9) 0 (LVar (N:=RN) 1 false (KGeneric [7%R])) (LVar (N:=RN) 1 false (KGeneric [(7 + 2)%R])) [2%R]); [constructor|reflexivity|reflexivity| |reflexivity|].
  - unfold at_. cbn. do 4 f_equal. change (@eq R 9%R (7 + 2)%R). ring.
  - intros [|b] Hb; [contradiction|]. destruct b; reflexivity.
Qed.
Lemma n_reassigned : reassigned (lib RN) (at_ 7) (at_ 9) [0].
Proof.
  split; [reflexivity|]. intros [|a] v Hv; [injection Hv as <-|destruct a; discriminate]. eexists. split; [reflexivity|]. do 3 (split; [reflexivity|]). split; [intros [X|X]; [discriminate|exfalso; apply X; left; reflexivity]|reflexivity].
Qed.
(** one iteration *)
Lemma once ops y (p : lstate) : ohist LS ops p -> get_all_variables (p_graph p) = [0] -> get_all_factors (p_graph p) = [tf1; tf2] -> p_heap p = at_ y -> p_hasgraph p = true -> p_hvalid p = false ->
  st_method (p_set p) = GaussNewton -> st_max_iter (p_set p) = 1 ->
  exists p', optimize (lib RN) LS EV0 p = (p', Ok tt) /\ p_caught p' = false /\ ss_iter (p_cur p') = 1 /\ exists z, p_heap p' = at_ z.
Proof.
  intros (A & B & C & D & F) Ev Ef Eh Hg Hv Hm Hi.
  pose proof (proj2 (lib_history _ _ _ _ _ _ A C I)) as Sh.
  destruct (a_answers _ _ _ _ p y A B Ev Ef Eh Hg Hv) as (p' & E & Hc). exists p'. split; [exact E|]. split; [exact Hc|].
  assert (Bf : Forall (buf_indep (N:=RN) (V:=lvar RN)) (get_all_factors (p_graph p))) by (rewrite Ef; exact a_buf).
  pose proof (gn_firm (lib RN) LS EV0 lib_ok EV0_ok LS_factorising _ _ _ _ p p' A B D F Bf Sh Hm E Hc) as M.
  destruct (a_moved y (p_heap p')) as (z & Hz); [rewrite <- Eh; exact (moves_revalued _ _ _ _ _ _ _ M)|]. split; [|exists z; exact Hz].
  apply (one_iteration LS EV0 EV0_ok p p' E Hc); [|exact Hi]. intros Fa.
  destruct (gn_failure_codes (lib RN) LS EV0 lib_ok EV0_ok LS_factorising _ _ _ _ p p' A B D F Bf Sh Hm E Hc Fa) as (J & J1 & J2).
  rewrite Ev, Ef, Hz in J1.
  destruct (jacobian_unique (lib RN) _ _ _ _ _ J1 (a_jacobian z)) as (E1 & E2 & E3).
  exact (t_posed (ill_posed_same _ _ 0 E1 E2 E3 (verdict_ill _ _ Fa J2))).
Qed.
