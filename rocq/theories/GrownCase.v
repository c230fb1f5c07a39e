(** A variable at 7, measured as 3, and measured as 3 and as 5. *)
From Coq Require Import List Arith ZArith QArith Bool Reals Lra Lia Qreals Permutation.
From Verif Require Import Base Sparse Graph SpecGraph SpecOpt Geom Vars VarsLemmas FactorsLin FactorLib SpecShape FactorSafe Optimizer OptWork OptMore Real RSum SpecSolver SpecSteps SpecDefined OptDefined OptToy Ldlt LdltSolver OptReal LdltCase OptStepsLib OptVerdict OrderCase PartCase RestCase ResumeCase ContractCase ForgetCase SpecCov CovRun SpecFree SpecGrown.
Import ListNotations.
Local Open Scope nat_scope.
Set Bullet Behavior "Strict Subproofs".

Definition fops : list (op (N:=RN) (V:=lvar RN)) := [ ONew (LVar 1 false (KGeneric [7%R])); OAddVar (Some 0); OAddFactor (Some tf1) ].
Definition fewer : lstate := start (lib RN) LS env0 empty_ldlt (lset GaussNewton 1) fops.
Lemma f_used : exists lf, tf1 = build lf /\ well_used (at_ 7) lf /\ ~ may_refuse lf.
Proof. pose proof (a_used 7) as U. inversion U; subst. assumption. Qed.
Lemma fewer_hist : ohist LS fops fewer.
Proof.
  unfold ohist. cbn zeta. split; [unfold on_ops, fewer; apply start_finalized; rc; reflexivity|]. change (get_all_variables (p_graph fewer)) with [0]. change (get_all_factors (p_graph fewer)) with [tf1]. change (p_heap fewer) with (at_ 7).
  split; [repeat (split; [discriminate|]); exact I|]. destruct f_used as (lf & U1 & U2 & _).
  split; [|split; [pose proof (a_wf 7) as W; inversion W; subst; constructor; [assumption|constructor]|exists tf1, 0, (LVar (N:=RN) 1 false (KGeneric [7%R])); cbn; auto]].
  do 2 (split; [first [exact I|reflexivity]|]). split; [exists lf; split; [exact U1|exact U2]|exact I].
Qed.
Lemma fewer_run : exists p', optimize (lib RN) LS EV0 fewer = (p', Ok tt) /\ p_caught p' = false.
Proof.
  destruct fewer_hist as (A & B & C & D & F).
  apply (optimize_answers (lib RN) LS EV0 lib_ok EV0_ok (steady [tf1]) _ _ _ _ fewer natural_sized A B); auto using steady_workable, lib_answering.
  - constructor; [apply lib_buf_indep|constructor].
  - split; [intros a v Hv'; destruct a as [|a]; [injection Hv' as <-; reflexivity|destruct a; discriminate]|]. constructor; [exact f_used|constructor].
Qed.
Definition fjac : mat RN := Mat (N:=RN) 1 1 (fun _ _ => ow).
Lemma f_jacobian y : jacobian_at (lib RN) (at_ y) [0] [tf1] fjac.
Proof.
  exists [[diagm (N:=RN) 1 ow]]. split; [constructor; [reflexivity|constructor]|].
  split; [reflexivity|]. split; [reflexivity|]. intros k f js m a r c Hk Hj Hm Hr Hc.
  destruct k as [|k]; [|destruct k; discriminate]; injection Hk as <-; injection Hj as <-; cbn in Hr;
    (destruct m as [|m]; [|destruct m; discriminate]; injection Hm as <-; cbn in Hc; try lia; destruct r as [|r]; try lia; destruct c as [|c]; try lia; reflexivity).
Qed.
Lemma f_free : Forall (fun f : factor (N:=RN) (V:=lvar RN) => exists lf, f = build lf /\ value_free lf) [tf1].
Proof. constructor; [exists (LGenericPrior (N:=RN) 10 0 [3%R] 1%R); split; [reflexivity|exact I]|constructor]. Qed.
Lemma f_revalued p' : optimize (lib RN) LS EV0 fewer = (p', Ok tt) -> p_caught p' = false -> revalued (lib RN) (at_ 7) (p_heap p').
Proof.
  intros E Hc. destruct fewer_hist as (A & B & C & D & F). destruct (lib_history _ _ _ _ _ _ A C I) as (G1 & G2).
  destruct (last_covariances (lib RN) LS EV0 lib_ok EV0_ok LS_factorising (fun _ => True) _ _ _ _ fewer p' A B D F G1 G2 (or_introl eq_refl) (le_n 1) eq_refl E Hc) as (_ & _ & _ & _ & _ & _ & _ & _ & _ & _ & _ & _ & _ & _ & R). exact R.
Qed.
(** one measurement with standard deviation 1: variance 1 *)
Lemma fewer_covariance p' : optimize (lib RN) LS EV0 fewer = (p', Ok tt) -> p_caught p' = false ->
  exists p1 P, prepare LS p' = (p1, Ok tt) /\ snd (estimate_covariance (lib RN) LS (Some 0) p1) = Ok (Some P) /\ mrows P = 1 /\ mat_at P 0 0 = 1%R.
Proof.
  intros E Hc. destruct fewer_hist as (A & B & C & D & F).
  destruct (free_covariances LS EV0 EV0_ok LS_factorising _ _ _ _ fewer p' A B C I D F f_free (or_introl eq_refl) (le_n 1) eq_refl E Hc) as (J & p1 & HJ & Hp & Hr).
  destruct (a_moved 7 _ (f_revalued p' E Hc)) as (z & Hz). change (jacobian_at (lib RN) (p_heap p') [0] [tf1] J) in HJ. change (get_all_variables (p_graph fewer)) with [0] in Hr. rewrite Hz in HJ, Hr.
  destruct (jacobian_unique _ _ _ _ _ _ HJ (f_jacobian z)) as (U1 & U2 & U3). cbn [mrows mcols fjac] in U1, U2.
  assert (Z : mat_at J 0 0 = 1%R) by (rewrite U3; [|rewrite U1; lia|rewrite U2; lia]; cbn; exact ow1).
  exists p1. destruct Hr as [((x & L & (i & Hi & Hx) & W) & _)|(_ & H & W & HG & HW & Hr)].
  - exfalso. rewrite U2 in Hi. assert (i = 0) by lia. subst i. specialize (W 0). rewrite U1, U2 in W. specialize (W ltac:(lia)). cbn [rsum] in W. rewrite Z in W. lra.
  - assert (W0 : mat_at W 0 0 = 1%R).
    { destruct HG as (G1 & G2 & G3). rewrite U2 in G1, G2. destruct HW as (W1 & W2 & W3). rewrite G1 in W1. rewrite G2 in W2. specialize (W3 0 0). rewrite W1, W2, G2 in W3. specialize (W3 ltac:(lia) ltac:(lia)).
      specialize (G3 0 0). rewrite U1, U2 in G3. specialize (G3 ltac:(lia) ltac:(lia)). cbn in G3, W3. rewrite G3, Z, ?q0, ?q1 in W3. change (car RN) with R in *. lra. }
    destruct (Hr 0 0 _ eq_refl eq_refl eq_refl (Nat.lt_0_succ 0)) as [(P & P1 & (P0 & _ & P2) & _)|(_ & i & Hi & Hb)].
    + exists P. split; [exact Hp|]. split; [exact P1|]. split; [exact P0|]. rewrite (P2 0 0) by (cbn; lia). exact W0.
    + exfalso. cbn in Hi. assert (i = 0) by lia. subst i. change (1000000000000 < mat_at W 0 0)%R in Hb. rewrite W0 in Hb. lra.
Qed.
